(* Model of robpy/univariate/base.py (RobustScale) and of
   robpy/preprocessing/scaling.py (RobustScaler). *)
From mathcomp Require Import all_ssreflect all_algebra.
From Verif Require Import RFieldLra Prelude Xnum.

Set Implicit Arguments.
Unset Strict Implicit.
Unset Printing Implicit Defensive.

Import Order.TTheory GRing.Theory Num.Theory.
Local Open Scope ring_scope.

Section Model.
Variable T : realFieldType.
Notation num := (xnum T).

(* an array argument (base.py:24-25): X.shape has length [ndim]; the values in storage order *)
Record arr := Arr { ndim : nat; vals : seq num }.

(* base.py:15-22 and 39: a RobustScale object.  [attrs] are the attributes
   location_ and scale_, None before they are set. *)
Record rscale := RScale { can_handle_nan : bool; attrs : option (num * num) }.

(* base.py:36-39: the abstract _calculate.  A parameter: it returns the pair
   (location_, scale_) that it stores, or the exception it raises (the shipped
   estimators assign both attributes after their last operation that can raise). *)
Variable calc : seq num -> res (num * num).

(* base.py:24-34, fit: the outcome and the object afterwards *)
Definition rs_fit (e : rscale) (X : arr) (ignore_nan : bool) : res unit * rscale :=
  if ndim X != 1%N then (Err ValueError, e)
  else if ~~ can_handle_nan e && ~~ ignore_nan && has (@is_nan T) (vals X) then
    (Err ValueError, e)
  else
    let v := if ignore_nan && has (@is_nan T) (vals X)
             then [seq x <- vals X | ~~ is_nan x] else vals X in
    match calc v with
    | Ok r => (Ok tt, RScale (can_handle_nan e) (Some r))
    | Err x => (Err x, e)
    | NoFuel => (NoFuel, e)
    end.

(* base.py:41-51, the properties scale and location *)
Definition rs_scale (e : rscale) : res num :=
  if attrs e is Some r then Ok r.2 else Err NotFittedError.
(* base.py:47-51, the property location *)
Definition rs_location (e : rscale) : res num :=
  if attrs e is Some r then Ok r.1 else Err NotFittedError.

(* a sequence of fit calls (base.py:24-34) on one object (a caller catching the exceptions) *)
Definition rs_run (e : rscale) (calls : seq (arr * bool)) : rscale :=
  foldl (fun e c => (rs_fit e c.1 c.2).2) e calls.

(* scaling.py:14-32: a RobustScaler; [est] is the index of the estimator object
   it refers to in the heap, [params] the attributes locations_ and scales_ *)
Record scaler := Scaler {
  est : nat; with_centering : bool; with_scaling : bool;
  params : option (seq num * seq num) }.

(* scaling.py:42-47: the loop over the columns [cs]; returns the outcome, the
   estimator, and the final contents of locations_ and scales_ (which start as
   zeros and ones, lines 39-40) *)
Fixpoint scaler_loop (ctr scl ign : bool) (e : rscale) (cs : seq (seq num))
  : res unit * rscale * (seq num * seq num) :=
  match cs with
  | [::] => (Ok tt, e, ([::], [::]))
  | c :: cs' =>
      let '(r, e1) := rs_fit e (Arr 1 c) ign in
      match r, attrs e1 with
      | Ok _, Some (l, s) =>
          let '(r2, e2, (ls, ss)) := scaler_loop ctr scl ign e1 cs' in
          (r2, e2, ((if ctr then l else Fin 0) :: ls, (if scl then s else Fin 1) :: ss))
      | Ok _, None => (Err NotFittedError, e1, (nseq (size cs) (Fin 0), nseq (size cs) (Fin 1)))
      | Err x, _ => (Err x, e1, (nseq (size cs) (Fin 0), nseq (size cs) (Fin 1)))
      | NoFuel, _ => (NoFuel, e1, (nseq (size cs) (Fin 0), nseq (size cs) (Fin 1)))
      end
  end.

(* scaling.py:34-49 *)
Definition scaler_fit (sc : scaler) (e : rscale) (ign : bool) (cs : seq (seq num))
  : res unit * scaler * rscale :=
  let '(r, e', p) := scaler_loop (with_centering sc) (with_scaling sc) ign e cs in
  (r, Scaler (est sc) (with_centering sc) (with_scaling sc) (Some p), e').

(* scaling.py:57 and 65 for one row with as many cells as there are fitted
   columns (NumPy's broadcasting of other shapes is not modelled) *)
Definition transform_row (p : seq num * seq num) (row : seq num) : seq num :=
  [seq xdiv (xsub x.1 x.2.1) x.2.2 | x <- zip row (zip p.1 p.2)].
(* scaling.py:65 for one row *)
Definition inverse_row (p : seq num * seq num) (row : seq num) : seq num :=
  [seq xadd (xmul x.1 x.2.2) x.2.1 | x <- zip row (zip p.1 p.2)].

(* scaling.py:51-57 and 59-65; without fit there is no attribute locations_ *)
Definition transform (sc : scaler) (X : seq (seq num)) : res (seq (seq num)) :=
  if params sc is Some p then Ok [seq transform_row p r | r <- X] else Err AttributeError.
(* scaling.py:59-65 *)
Definition inverse_transform (sc : scaler) (X : seq (seq num)) : res (seq (seq num)) :=
  if params sc is Some p then Ok [seq inverse_row p r | r <- X] else Err AttributeError.

(* scaling.py:16: the estimators live in a heap; scalers built with default
   arguments share one estimator object *)
Record world := World { ests : nat -> rscale; scalers : nat -> scaler }.

(* assignment to one object of the heap, as by scaling.py:39-47 *)
Definition upd {A} (f : nat -> A) (i : nat) (a : A) : nat -> A := fun j => if j == i then a else f j.

(* scaling.py:34-49, fit of the scaler number i in a program with several scalers *)
Definition world_fit (w : world) (i : nat) (ign : bool) (cs : seq (seq num)) : world :=
  let sc := scalers w i in
  let '(_, sc', e') := scaler_fit sc (ests w (est sc)) ign cs in
  World (upd (ests w) (est sc) e') (upd (scalers w) i sc').

(* a sequence of fits (scaling.py:34-49): scaler, ignore_nan, columns *)
Definition world_run (w : world) (ops : seq (nat * bool * seq (seq num))) : world :=
  foldl (fun w o => world_fit w o.1.1 o.1.2 o.2) w ops.

End Model.
