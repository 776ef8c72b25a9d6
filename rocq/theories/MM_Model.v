(* Model of robpy/regression/mm.py: MMRegression.

   Simplifications: the data are finite numbers of an ordered field with square roots, rounding
   is not modelled; weights and scales are extended numbers.  Objects live in a world: the
   initial estimators in one list, the MMRegression objects in another, both referred to by
   position; the conversion of pandas input (mm.py:47, 67) is left out. *)
From mathcomp Require Import all_ssreflect all_algebra.
From Verif Require Import RFieldLra Prelude Stats Xnum Rho_Model Regr SReg_Model.

Set Implicit Arguments.
Unset Strict Implicit.
Unset Printing Implicit Defensive.

Import Order.TTheory GRing.Theory Num.Theory.
Local Open Scope ring_scope.

Section MM.
Variable T : rcfType.
Notation num := (xnum T).
Implicit Types (X : seq (seq T)) (y r : seq T) (s : num).

(* the initial estimator, any RobustRegression object: its state, fit (the state afterwards and
   whether it raised; fit returns the object itself), predict and the property scale
   (mm.py:48, 49, 52; base.py:26-37) *)
Variable E : Type.
Variable est_fit : E -> seq (seq T) -> seq T -> E * res unit.
Variable est_predict : E -> seq (seq T) -> res (seq T).
Variable est_scale : E -> res num.
Variable e0 : E.
(* self.rho.psi, elementwise (mm.py:54) *)
Variable psi : num -> num.
(* LinearRegression().fit on finite arrays (mm.py:55) *)
Variable ols : seq (seq T) -> seq T -> lin T.

(* mm.py:53-54 *)
Definition mm_weights s r : seq num :=
  [seq let x := xdiv (Fin u) s in xdiv (psi x) x | u <- r].

(* finiteness, the check made by LinearRegression().fit on its input (mm.py:55) *)
Definition is_fin s : bool := if s is Fin _ then true else false.

(* the number behind a finite extended number (mm.py:55) *)
Definition val s : T := if s is Fin x then x else 0.

(* LinearRegression().fit(X, y) with sklearn's input validation: ValueError unless every entry
   is finite (mm.py:55) *)
Definition lin_fit (X : seq (seq num)) (y : seq num) : res (lin T) :=
  if all (all is_fin) X && all is_fin y then Ok (ols [seq [seq val u | u <- x] | x <- X] [seq val u | u <- y])
  else Err ValueError.

(* mm.py:55-57, the weighted regression: X and y are multiplied by np.sqrt(weights) *)
Definition wfit (w : seq num) X y : res (lin T) :=
  lin_fit [seq [seq xmul (xsqrt q.1) (Fin u) | u <- q.2] | q <- zip w X]
          [seq xmul (xsqrt q.1) (Fin q.2) | q <- zip w y].

(* self.model: a reference to the initial estimator (mm.py:48) or a fitted LinearRegression
   (mm.py:55) *)
Inductive model := EstRef of nat | Linear of lin T.

(* an MMRegression object: the constructor arguments used by fit (mm.py:40-43) and the attributes
   model, _scale and n_iter (mm.py:44, 49, 50, 59) *)
Record mm := MM { m_init : nat; m_max : nat; m_eps : T;
                  m_model : option model; m_scale : option num; m_niter : option nat }.

(* MMRegression(max_iterations=k, epsilon=eps) (mm.py:15-44): initial_estimator is the object
   created once, with the class, here number 0 of the estimators *)
Definition new_mm (k : nat) (eps : T) : mm := MM 0 k eps None None None.

(* self.model = m (mm.py:48, 55) *)
Definition set_model (o : mm) (m : model) : mm :=
  MM (m_init o) (m_max o) (m_eps o) (Some m) (m_scale o) (m_niter o).

(* self._scale = s; self.n_iter = 0 (mm.py:49-50) *)
Definition set_scale (o : mm) s : mm :=
  MM (m_init o) (m_max o) (m_eps o) (m_model o) (Some s) (Some 0%N).

(* self.n_iter = k (mm.py:59) *)
Definition set_niter (o : mm) (k : nat) : mm :=
  MM (m_init o) (m_max o) (m_eps o) (m_model o) (m_scale o) (Some k).

(* self.model.predict(X) (mm.py:52, 58, 68) *)
Definition model_predict (es : seq E) (m : model) X : res (seq T) :=
  match m with
  | EstRef k => est_predict (nth e0 es k) X
  | Linear l => Ok [seq predict1 l x | x <- X]
  end.

(* y - prediction (mm.py:52, 58) *)
Definition minus y (f : seq T) : seq T := [seq q.1 - q.2 | q <- zip y f].

(* np.max(np.abs(new_residuals - residuals)) (mm.py:60) *)
Definition max_change (r' r : seq T) : T := fmax [seq `|q.1 - q.2| | q <- zip r' r].

(* mm.py:51-61, the for loop with k iterations left at i; the object as left behind, and whether
   an exception was raised *)
Fixpoint mm_loop (k i : nat) (es : seq E) (m : model) s (o : mm) X y : mm * res unit :=
  if k is k'.+1 then
    match model_predict es m X with
    | Ok f =>
        let r := minus y f in
        match wfit (mm_weights s r) X y with
        | Ok l =>
            let r' := minus y [seq predict1 l x | x <- X] in
            let o' := set_niter (set_model o (Linear l)) i.+1 in
            if max_change r' r < m_eps o then (o', Ok tt)
            else mm_loop k' i.+1 es (Linear l) s o' X y
        | Err e => (o, Err e)
        | NoFuel => (o, NoFuel)
        end
    | Err e => (o, Err e)
    | NoFuel => (o, NoFuel)
    end
  else (o, Ok tt).

(* mm.py:46-62, fit: the estimators and the object afterwards, and whether fit raised *)
Definition mm_fit (es : seq E) (o : mm) X y : seq E * mm * res unit :=
  let k := m_init o in
  let er := est_fit (nth e0 es k) X y in
  let es' := set_nth e0 es k er.1 in
  match er.2 with
  | Ok _ =>
      let o1 := set_model o (EstRef k) in
      match est_scale er.1 with
      | Ok s => let q := mm_loop (m_max o) 0 es' (EstRef k) s (set_scale o1 s) X y in (es', q.1, q.2)
      | Err e => (es', o1, Err e)
      | NoFuel => (es', o1, NoFuel)
      end
  | Err e => (es', o, Err e)
  | NoFuel => (es', o, NoFuel)
  end.

(* mm.py:64-68, predict *)
Definition mm_predict (es : seq E) (o : mm) X : res (seq T) :=
  if m_model o is Some m then model_predict es m X else Err NotFittedError.

(* all estimators and all MMRegression objects of a program (mm.py:15-44) *)
Record world := World { w_es : seq E; w_mm : seq mm }.

(* access to an MMRegression object (mm.py:46) *)
Definition obj (w : world) (i : nat) : mm := nth (new_mm 0 0) (w_mm w) i.

(* calls a program can make: fit of an MMRegression object (mm.py:46), fit of an estimator
   directly (base.py:26), creation of an MMRegression with the default estimator (mm.py:15) *)
Inductive call := FitMM of nat & seq (seq T) & seq T | FitEst of nat & seq (seq T) & seq T
                | NewMM of nat & T.

(* the effect of one call (mm.py:15, 46; base.py:26); exceptions are caught by the program, state
   changes remain *)
Definition run1 (w : world) (c : call) : world :=
  match c with
  | FitMM i X y =>
      if (i < size (w_mm w))%N then
        let q := mm_fit (w_es w) (obj w i) X y in
        World q.1.1 (set_nth (new_mm 0 0) (w_mm w) i q.1.2)
      else w
  | FitEst k X y => World (set_nth e0 (w_es w) k (est_fit (nth e0 (w_es w) k) X y).1) (w_mm w)
  | NewMM k eps => World (w_es w) (rcons (w_mm w) (new_mm k eps))
  end.

(* a program: a sequence of calls (mm.py:15, 46; base.py:26) *)
Definition run (w : world) (cs : seq call) : world := foldl run1 w cs.

End MM.

Section Default.
Variable T : rcfType.
Variables rho psi : xnum T -> xnum T.
Variable wls : seq (xnum T) -> seq (seq T) -> seq T -> res (seq T).
Variable argsort : seq (xnum T) -> seq nat.
Variable choice : nat -> nat -> nat -> seq nat.
Variables (P : params T) (fuel : nat).

(* SRegression as initial estimator (mm.py:17): fit (s.py:83-126) *)
Definition s_fit (e : option (fitted T)) (X : seq (seq T)) (y : seq T) : option (fitted T) * res unit :=
  match SReg_Model.fit rho psi wls argsort choice P fuel X y (size (head [::] X)) with
  | Ok f => (Some f, Ok tt)
  | Err x => (e, Err x)
  | NoFuel => (e, NoFuel)
  end.

(* predict (s.py:128-134) *)
Definition s_predict (e : option (fitted T)) (X : seq (seq T)) : res (seq T) :=
  SReg_Model.predict P e X (size (head [::] X)).

(* the property scale (base.py:32-37) *)
Definition s_scale (e : option (fitted T)) : res (xnum T) :=
  if e is Some f then Ok (f_scale f) else Err NotFittedError.

End Default.
