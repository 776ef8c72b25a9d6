(* Model of robpy/univariate/mcd.py (class UnivariateMCD). *)
From mathcomp Require Import all_ssreflect all_algebra.
From Verif Require Import RFieldLra Prelude Stats Xnum.

Set Implicit Arguments.
Unset Strict Implicit.
Unset Printing Implicit Defensive.

Import Order.TTheory GRing.Theory Num.Theory.
Local Open Scope ring_scope.

Section Model.
Variable T : realFieldType.

(* The constructor argument alpha: None, a Python int, or a Python float
   (mcd.py:9). *)
Inductive alpha_arg : Type :=
| AlphaNone
| AlphaInt of int
| AlphaFloat of T.

(* mcd.py:76-96, _set_h_size.  [int_of] is Python's int() on floats (truncation
   towards zero), a parameter.  n/2 <= alpha is compared as n <= 2*alpha.  The warnings
   logged for a too small h are not modelled. *)
Definition set_h_size (int_of : T -> int) (n : nat) (alpha : alpha_arg) : res int :=
  let hmin : int := (n %/ 2 + 1)%N in
  match alpha with
  | AlphaNone => Ok hmin
  | AlphaInt a =>
      if (n%:Z <= 2%:Z * a) && (a <= n%:Z) then Ok (Num.max a hmin)
      else if a == 1 then Ok (Num.max (a * n%:Z) hmin)
      else Err ValueError
  | AlphaFloat a =>
      if (2%:R^-1 <= a <= 1) || (a == 1) then Ok (Num.max (int_of (a * n%:R)) hmin)
      else Err ValueError
  end.

(* X[i : i+h], mcd.py:54, 59 *)
Definition window (y : seq T) (h i : nat) : seq T := take h (drop i y).

(* mcd.py:51-57: scan of the windows; var_best = np.inf is None; [ixs] is the
   remaining part of range(n - h + 1) *)
Fixpoint scan (y : seq T) (h : nat) (ixs : seq nat) (best : option T) (index : nat)
  : option T * nat :=
  match ixs with
  | [::] => (best, index)
  | i :: ixs1 =>
      let v := fvar (window y h i) in
      if (if best is Some b then v < b else true)
      then scan y h ixs1 (Some v) i
      else scan y h ixs1 best index
  end.

(* mcd.py:48-63, _get_raw_estimates, for h <= n; the result is (raw_var, raw_loc).
   [craw n h] stands for (h/n) / chi2.cdf(chi2.ppf(h/n, df=1), df=3) (line 62), a
   parameter.  var_best = inf after an empty scan (h > n, impossible by
   _set_h_size) is mapped to 0 here. *)
Definition raw_estimates (craw : nat -> nat -> T) (cc : bool) (h : nat) (X : seq T)
  : T * T :=
  let n := size X in
  let y := fsort X in
  let '(vb, ib) := scan y h (iota 0 (n - h + 1)) None 1 in
  let v := if vb is Some v then v else 0 in
  (if cc then v * craw n h else v, fmean (window y h ib)).

(* mcd.py:65-74, _reweighting.  [q] is chi2.ppf(0.975, df=1) and [crew k n] the
   correction delta / gamma.cdf(chi2.ppf(delta, df=1)/2, a=3/2) with delta = k/n
   (lines 72-73), parameters.  The mean and variance of an empty selection are
   NaN. *)
Definition rew_mask (q : T) (raw_var raw_loc : T) (X : seq T) : seq T :=
  [seq x <- X | xlt (xdiv (Fin ((x - raw_loc) ^+ 2)) (Fin raw_var)) (Fin q)].

(* mcd.py:65-74, _reweighting *)
Definition reweighting (q : T) (crew : nat -> nat -> T) (cc : bool)
    (raw_var raw_loc : T) (X : seq T) : xnum T * xnum T :=
  let sel := rew_mask q raw_var raw_loc X in
  if size sel == 0%N then (NaN, NaN)
  else
    let v := fvar sel in
    (Fin (if cc then v * crew (size sel) (size X) else v), Fin (fmean sel)).

(* the attributes set by _calculate, mcd.py:38-40, 43-46 *)
Record umcd_fit := UMcdFit {
  raw_variance : T; raw_location : T; variance : xnum T; location : xnum T }.

(* mcd.py:35-46, _calculate.  The scales are the square roots of the variances
   (lines 45-46; in the branch of lines 37-41 the variances are the squares of X.std(),
   i.e. np.var(X)); only the variances are kept here. *)
Definition umcd (craw crew : nat -> nat -> T) (q : T) (cc : bool) (h : nat) (X : seq T)
  : umcd_fit :=
  if h == size X then
    UMcdFit (fvar X) (fmean X) (Fin (fvar X)) (Fin (fmean X))
  else
    let '(rv, rl) := raw_estimates craw cc h X in
    let '(v, l) := reweighting q crew cc rv rl X in
    UMcdFit rv rl v l.

End Model.

Arguments AlphaNone {T}.
Arguments AlphaInt {T} _.
