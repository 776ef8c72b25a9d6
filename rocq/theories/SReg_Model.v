(* Model of robpy/regression/s.py: SRegression.

   Simplifications: the data are finite numbers of an ordered field with square roots, rounding
   is not modelled; scales and weights are extended numbers, because a zero scale makes residuals
   / scale infinite or NaN; X is a rectangular array given by its rows.  Logging is left out, and
   so is the attribute "weights" of the statsmodels result (s.py:163), which robpy never reads. *)
From mathcomp Require Import all_ssreflect all_algebra.
From Verif Require Import RFieldLra Prelude Stats Xnum Rho_Model Regr.

Set Implicit Arguments.
Unset Strict Implicit.
Unset Printing Implicit Defensive.

Import Order.TTheory GRing.Theory Num.Theory.
Local Open Scope ring_scope.

Section SReg.
Variable T : rcfType.
Notation num := (xnum T).
Implicit Types (X : seq (seq T)) (y r : seq T) (s : num).

(* np.sqrt (s.py:138) *)
Definition xsqrt s : num :=
  match s with Fin x => if 0 <= x then Fin (Num.sqrt x) else NaN | PInf => PInf | _ => NaN end.

(* np.mean of a non-empty array (s.py:138) *)
Definition xmean (s : seq num) : num := xdiv (xsum s) (Fin (size s)%:R).

(* TukeyBisquare.rho on extended numbers (rho.py:27-32): np.where takes the second branch for
   infinite and NaN arguments *)
Definition tukey_xrho (c : T) s : num :=
  if s is Fin x then Fin (tukey_rho c x) else Fin (c ^+ 2 / 6%:R).

(* TukeyBisquare.psi on extended numbers (rho.py:34-35) *)
Definition tukey_xpsi (c : T) s : num := if s is Fin x then Fin (tukey_psi c x) else Fin 0.

(* self.rho.rho and self.rho.psi, elementwise *)
Variables rho psi : num -> num.
(* WLS(endog=y, exog=X, weights=w).fit().params; may raise LinAlgError *)
Variable wls : seq num -> seq (seq T) -> seq T -> res (seq T).
(* np.argsort of the list of scales *)
Variable argsort : seq num -> seq nat.
(* np.random.seed(seed); np.random.choice(n, k, replace=False) *)
Variable choice : nat -> nat -> nat -> seq nat.

(* results.predict(X) = np.dot(X, params) (s.py:103, 134, 173) *)
Definition lin_predict X (beta : seq T) : seq T := [seq dot x beta | x <- X].

(* predict(X) - y (s.py:103, 173) *)
Definition fitted_minus X y (beta : seq T) : seq T :=
  [seq q.1 - q.2 | q <- zip (lin_predict X beta) y].

(* model.resid, y - predict(X) (s.py:178) *)
Definition resid X y (beta : seq T) : seq T :=
  [seq q.2 - q.1 | q <- zip (lin_predict X beta) y].

(* the arguments of __init__ (s.py:13-25) *)
Record params := Params {
  n_subsets : nat; n_isteps : nat; n_best : nat; max_scale : nat; b : T; intercept : bool;
  rtol : T; stol : T; seed0 : nat }.
Variable P : params.

(* s.py:138, one new scale *)
Definition new_scale s0 r : num :=
  xmul s0 (xsqrt (xdiv (xmean [seq rho (xdiv (Fin u) s0) | u <- r]) (Fin (b P)))).

(* s.py:137-142, the loop of _get_scale with k iterations left; [last] is the variable new_s *)
Fixpoint scale_loop (k : nat) s0 (last : option num) r : res num :=
  if k is k'.+1 then
    let s1 := new_scale s0 r in
    if xlt (xabs (xsub s0 s1)) (Fin (stol P)) then Ok s1 else scale_loop k' s1 (Some s1) r
  else if last is Some s then Ok s else Err UnboundLocalError.

(* s.py:136-142, _get_scale *)
Definition get_scale s0 r : res num := scale_loop (max_scale P) s0 None r.

(* np.finfo(np.float64).eps (s.py:160) *)
Definition feps : T := (2%:R ^+ 52)^-1.

(* np.median(np.abs(residuals)) / 0.6745 (s.py:158, 174); 0.6745 is written 1349/2000 *)
Definition start_scale r : num := Fin (fmed [seq `|u| | u : T <- r] / (1349%:R / 2000%:R)).

(* s.py:160-161, the weights *)
Definition weights r s : seq num :=
  [seq let x := xdiv (Fin (if u == 0 then feps else u)) s in xdiv (psi x) x | u : T <- r].

(* s.py:150-164, _i_step without initial_scale (no caller passes one); the result is the pair of
   the new coefficients and the new scale *)
Definition i_step X y r : res (seq T * num) :=
  do s <- get_scale (start_scale r) r;
  do beta <- wls (weights r s) X y;
  Ok (beta, s).

(* np.linalg.norm of a vector (s.py:145-146) *)
Definition norm2 (v : seq T) : T := Num.sqrt (fsum [seq u ^+ 2 | u : T <- v]).

(* s.py:144-148, _converged *)
Definition converged (old new : seq T) : bool :=
  norm2 [seq q.1 - q.2 | q <- zip new old] <= rtol P * Num.max (rtol P) (norm2 new).

(* s.py:176-178, the i-steps of one initial model *)
Fixpoint initial_steps (k : nat) X y (beta : seq T) s r : res (seq T * num) :=
  if k is k'.+1 then
    do bs <- i_step X y r;
    initial_steps k' X y bs.1 bs.2 (resid X y bs.1)
  else Ok (beta, s).

(* s.py:170-182, one seed; None when a LinAlgError inside the try block was swallowed *)
Definition initial_one X y (p seed : nat) : res (option (seq T * num)) :=
  if (size X < p.+1)%N then Err ValueError
  else
    let idx := choice seed (size X) p.+1 in
    do beta <- wls (nseq p.+1 (Fin 1)) (sel [::] X idx) (sel 0 y idx);
    let r := fitted_minus X y beta in
    match initial_steps (n_isteps P) X y beta (start_scale r) r with
    | Ok bs => Ok (Some bs)
    | Err LinAlgError => Ok None
    | Err e => Err e
    | NoFuel => NoFuel
    end.

(* s.py:166-184, _get_initial_models *)
Fixpoint initial_models X y (p : nat) (seeds : seq nat) : res (seq (seq T * num)) :=
  if seeds is sd :: seeds' then
    do c <- initial_one X y p sd;
    do cs <- initial_models X y p seeds';
    Ok (if c is Some bs then bs :: cs else cs)
  else Ok [::].

(* a statsmodels result object: params and the attribute n_iter assigned by fit (s.py:111, 116);
   objects live in a store and are referred to by their position *)
Record mobj := MObj { m_params : seq T; m_niter : option nat }.

(* access to an object of the store (s.py:103, 115) *)
Definition get (H : seq mobj) (i : nat) : mobj := nth (MObj [::] None) H i.

(* m.n_iter = k (s.py:111, 116) *)
Definition set_niter (H : seq mobj) (i k : nat) : seq mobj :=
  set_nth (MObj [::] None) H i (MObj (m_params (get H i)) (Some k)).

(* what the loop over one candidate (s.py:101-121) leaves behind: the store, the local variable m,
   and the model and scale appended to best_models and best_scales *)
Record outcome := Outcome { o_heap : seq mobj; o_m : option nat; o_ref : nat; o_scale : num }.

(* s.py:101-121, the while loop of one candidate; [mv] is the local variable m, unbound before
   the first successful i-step of the first candidate *)
Fixpoint refine (fuel : nat) X y (H : seq mobj) (mv : option nat) (prev : nat) (sprev : num)
  (n_iter : nat) : res outcome :=
  if fuel is k.+1 then
    match i_step X y (fitted_minus X y (m_params (get H prev))) with
    | Ok (beta, s) =>
        let m := size H in
        let H' := rcons H (MObj beta None) in
        if converged (m_params (get H prev)) beta then
          Ok (Outcome (set_niter H' m n_iter.+1) (Some m) m s)
        else refine k X y H' (Some m) m s n_iter.+1
    | Err LinAlgError =>
        if mv is Some m then Ok (Outcome (set_niter H m n_iter) mv prev sprev)
        else Err UnboundLocalError
    | Err e => Err e
    | NoFuel => NoFuel
    end
  else NoFuel.

(* s.py:94-121, the loop over the candidates; [best] is zip best_models best_scales *)
Fixpoint refine_all (fuel : nat) X y (scales : seq num) (H : seq mobj) (mv : option nat)
  (best : seq (nat * num)) (idxs : seq nat) : res (seq mobj * seq (nat * num)) :=
  if idxs is i :: idxs' then
    do o <- refine fuel X y H mv i (nth NaN scales i) 0;
    refine_all fuel X y scales (o_heap o) (o_m o) (rcons best (o_ref o, o_scale o)) idxs'
  else Ok (H, best).

(* np.argmin (s.py:123): the first NaN, or else the first smallest value *)
Definition xargmin (s : seq num) : nat :=
  if has (@is_nan T) s then find (@is_nan T) s else find (fun u => all (xle u) s) s.

(* statsmodels add_constant with has_constant='skip' (s.py:88, 133): a column of ones is put in
   front unless some column is constant and has no zero; [p] is the number of columns.  np.ptp
   raises ValueError on an array without rows *)
Definition const_col X (j : nat) : bool :=
  let v := nth 0 (head [::] X) j in (v != 0) && all (fun x => nth 0 x j == v) X.
(* sm.add_constant(X, has_constant="skip"), s.py:88, 133 *)
Definition add_constant X (p : nat) : res (seq (seq T) * nat) :=
  if X is [::] then Err ValueError
  else if has (const_col X) (iota 0 p) then Ok (X, p) else Ok ([seq 1 :: x | x <- X], p.+1).

(* the attributes set by fit: model (params and n_iter) and _scale (s.py:124-125) *)
Record fitted := Fitted { f_model : mobj; f_scale : num }.

(* s.py:89-126, fit after add_constant; np.argmin of an empty list raises ValueError *)
Definition fit_array (fuel : nat) X y (p : nat) : res fitted :=
  do cands <- initial_models X y p (iota (seed0 P) (n_subsets P));
  let scales := [seq c.2 | c <- cands] in
  let H := [seq MObj c.1 None | c <- cands] in
  do hb <- refine_all fuel X y scales H None [::] (take (n_best P) (argsort scales));
  if hb.2 is [::] then Err ValueError
  else let i := nth (0%N, NaN) hb.2 (xargmin [seq q.2 | q <- hb.2]) in
       Ok (Fitted (get hb.1 i.1) i.2).

(* s.py:83-126, fit *)
Definition fit (fuel : nat) X y (p : nat) : res fitted :=
  if intercept P then do Xp <- add_constant X p; fit_array fuel Xp.1 y Xp.2
  else fit_array fuel X y p.

(* s.py:128-134, predict; np.dot raises ValueError when the number of columns is not the number
   of coefficients *)
Definition predict (m : option fitted) X (p : nat) : res (seq T) :=
  if m is Some f then
    do Xp <- (if intercept P then add_constant X p else Ok (X, p));
    if Xp.2 == size (m_params (f_model f)) then Ok (lin_predict Xp.1 (m_params (f_model f)))
    else Err ValueError
  else Err NotFittedError.

End SReg.
