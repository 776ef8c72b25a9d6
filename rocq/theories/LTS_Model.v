(* Model of robpy/regression/lts.py: FastLTSRegression.

   Simplifications: numbers are elements of an ordered field, so rounding is not modelled; alpha
   is a rational number (every float is one); X is a rectangular n x p array and y has n entries;
   n_initial_subsets, n_initial_c_steps, n_best_models and random_state are natural numbers;
   logging and the progress bar are left out. *)
From mathcomp Require Import all_ssreflect all_algebra.
From Verif Require Import RFieldLra Prelude Stats RatFloor Qn_Model Regr.

Set Implicit Arguments.
Unset Strict Implicit.
Unset Printing Implicit Defensive.

Import Order.TTheory GRing.Theory Num.Theory.
Local Open Scope ring_scope.

Section CSteps.
Variable T : realFieldType.
Implicit Types (X : seq (seq T)) (y : seq T) (m : lin T).

(* LinearRegression().fit on non-empty data *)
Variable ols : seq (seq T) -> seq T -> lin T.
(* np.argsort *)
Variable argsort : seq T -> seq nat.
(* np.random.seed(seed); np.random.choice(n, k, replace=False) *)
Variable choice : nat -> nat -> nat -> seq nat.

(* LinearRegression().fit (lts.py:219, 315, 141): sklearn refuses an array without rows *)
Definition lr_fit X y : res (lin T) := if X is [::] then Err ValueError else Ok (ols X y).

(* lts.py:286-302, _get_h_subset *)
Definition h_subset m X y (h : nat) : seq nat :=
  take h (argsort [seq `|r| | r : T <- residuals m X y]).

(* lts.py:222-243, _get_loss_value *)
Definition loss X y (idx : seq nat) m : T :=
  sse m (sel [::] X idx) (sel 0 y idx) / (size idx)%:R.

(* lts.py:304-316, _apply_C_step *)
Definition c_step m X y (h : nat) : res (seq nat * lin T) :=
  let idx := h_subset m X y h in
  do m' <- lr_fit (sel [::] X idx) (sel 0 y idx);
  Ok (idx, m').

(* lts.py:270-284, the loop of _apply_C_steps_untill_convergence; the result is
   (model, h subset, loss, iteration) *)
Fixpoint converge (fuel : nat) m (prev : T) X y (h : nat) (tol : T) (it : nat)
  : res (lin T * seq nat * T * nat) :=
  if fuel is k.+1 then
    do cs <- c_step m X y h;
    let l := loss X y cs.1 cs.2 in
    if prev - l <= tol then Ok (cs.2, cs.1, l, it)
    else converge k cs.2 l X y h tol it.+1
  else NoFuel.

(* lts.py:216-220, _get_initial_model; choice raises ValueError when more observations are
   requested than there are *)
Definition initial_model X y (p seed : nat) : res (lin T) :=
  if (size X < p.+1)%N then Err ValueError
  else let idx := choice seed (size X) p.+1 in lr_fit (sel [::] X idx) (sel 0 y idx).

(* lts.py:182-188, fixed initial weights; weights[[0]] of an empty array raises IndexError, and
   with the wrong number of coefficients the next predict raises ValueError *)
Definition override (iw : option (seq T)) (p : nat) m : res (lin T) :=
  match iw with
  | None => Ok m
  | Some [::] => Err IndexError
  | Some (w0 :: w) => if size w == p then Ok (Lin w0 w) else Err ValueError
  end.

(* lts.py:190-191, the initial C-steps of one subset *)
Fixpoint c_steps (k : nat) (im : seq nat * lin T) X y (h : nat) : res (seq nat * lin T) :=
  if k is k'.+1 then do im' <- c_step im.2 X y h; c_steps k' im' X y h else Ok im.

(* lts.py:181-195, one round of _apply_initial_C_steps; a candidate is (model, loss, subset) *)
Definition candidate := (lin T * T * seq nat)%type.
(* lts.py:181-195, the body of the loop of _apply_initial_C_steps *)
Definition initial_one X y (p h ncs : nat) (iw : option (seq T)) (seed : nat) : res candidate :=
  do m0 <- initial_model X y p seed;
  do m <- override iw p m0;
  do im <- c_steps ncs (h_subset m X y h, m) X y h;
  Ok (im.2, loss X y im.1 im.2, im.1).

(* lts.py:158-196, _apply_initial_C_steps *)
Definition initial_c_steps X y (p h ncs : nat) iw (seed0 nsub : nat) : res (seq candidate) :=
  mapM (initial_one X y p h ncs iw) (iota seed0 nsub).

(* lts.py:119-132, one turn of the loop over the best models *)
Definition refine (fuel : nat) X y (h : nat) (tol : T) (cands : seq candidate) (d : candidate)
  (best : candidate) (i : nat) : res candidate :=
  let c := nth d cands i in
  do r <- converge fuel c.1.1 c.1.2 X y h tol 0;
  if r.1.2 < best.1.2 then Ok (r.1.1.1, r.1.2, r.1.1.2) else Ok best.

(* lts.py:119-132, the whole loop *)
Fixpoint refine_all (fuel : nat) X y h tol cands d (best : candidate) (idxs : seq nat)
  : res candidate :=
  if idxs is i :: idxs' then
    do b <- refine fuel X y h tol cands d best i;
    refine_all fuel X y h tol cands d b idxs'
  else Ok best.

(* lts.py:109-132, from the list of candidates to (best_model, best_loss, best_h_subset);
   best_model_idxs[0] raises IndexError when there is no candidate *)
Definition select_best (fuel : nat) X y h tol (nbest : nat) (cands : seq candidate)
  : res candidate :=
  let idxs := take nbest (argsort [seq c.1.2 | c <- cands]) in
  match idxs, cands with
  | i0 :: _, d :: _ => refine_all fuel X y h tol cands d (nth d cands i0) idxs
  | _, _ => Err IndexError
  end.

(* lts.py:94-103, the check of alpha and the choice of h *)
Definition h_size (alpha : rat) (n p : nat) : res nat :=
  if (alpha < 1%:R / 2%:R) || (1 < alpha) then Err ValueError
  else Ok (maxn `|rat_floor (n%:R * alpha)|%N ((n + p + 1) %/ 2)).

(* lts.py:92-132, fit up to and including the loop over the best models *)
Definition raw_fit (alpha : rat) (nsub ncs nbest : nat) (tol : T) (seed0 fuel : nat) (p : nat)
  X y (iw : option (seq T)) : res candidate :=
  do h <- h_size alpha (size X) p;
  do cands <- initial_c_steps X y p h ncs iw seed0 nsub;
  select_best fuel X y h tol nbest cands.

End CSteps.

Section Fit.
Variable T : rcfType.
Implicit Types (X : seq (seq T)) (y : seq T).

(* the attributes set by fit: model, best_h_subset, _scale (lts.py:133-146) *)
Record fitted := Fitted { f_model : lin T; f_subset : seq nat; f_scale : T }.

(* lts.py:140; [q] is norm.ppf(0.9875).  When all residuals coincide np.std is zero and the
   quotients are NaN or infinite, so that every comparison is false *)
Definition reweight_mask (q : T) (r : seq T) : seq bool :=
  let sd := Num.sqrt (fvar r) in
  [seq (sd != 0) && (`|u / sd| <= q) | u : T <- r].

Variable ols : seq (seq T) -> seq T -> lin T.
Variable argsort : seq T -> seq nat.
Variable choice : nat -> nat -> nat -> seq nat.
(* get_correction_factor and get_correction_factor_reweighting (lts.py:319-426), modelled over
   the real numbers in LTSCorr_Model.v; here functions of p, n and alpha *)
Variable factor : nat -> nat -> rat -> T.
Variable factor_rw : nat -> nat -> rat -> T.
(* norm.ppf(0.9875) *)
Variable q : T.

(* lts.py:138-146, the reweighting step *)
Definition reweight (alpha : rat) (p : nat) X y (m : lin T) (sub : seq nat) : res fitted :=
  let msk := reweight_mask q (residuals m X y) in
  do m' <- lr_fit ols (mask msk X) (mask msk y);
  let new_subset := mask msk (iota 0 (size X)) in
  Ok (Fitted m' sub (factor_rw p (size X) alpha * Num.sqrt (loss X y new_subset m'))).

(* lts.py:62-148, fit *)
Definition fit (alpha : rat) (nsub ncs nbest : nat) (reweighting : bool) (tol : T)
  (seed0 fuel : nat) (p : nat) X y (iw : option (seq T)) : res fitted :=
  do best <- raw_fit ols argsort choice alpha nsub ncs nbest tol seed0 fuel p X y iw;
  let: (m, l, sub) := best in
  if reweighting then reweight alpha p X y m sub
  else Ok (Fitted m sub (factor p (size X) alpha * Num.sqrt l)).

End Fit.
