(* Model of robpy/univariate/onestep_m.py, OneStepM, HuberOneStepM and
   CellwiseOneStepM. *)
From mathcomp Require Import all_ssreflect all_algebra.
From Verif Require Import RFieldLra Prelude Stats WMean Qn_Model Rho_Model.

Set Implicit Arguments.
Unset Strict Implicit.
Unset Printing Implicit Defensive.

Import Order.TTheory GRing.Theory Num.Theory.
Local Open Scope ring_scope.

Section Model.
Variable T : rcfType.
(* scipy's scale="normal" divides the MAD by norm.ppf(3/4) = 0.6744897501960817
   (onestep_m.py:49); the value is a parameter *)
Variable q : T.
Implicit Types (s : seq T) (psi : T -> T).

(* onestep_m.py:49, mad *)
Definition mad_normal s : T := fmad s / q.

(* onestep_m.py:50, safe_mad *)
Definition safe_mad (min_abs : T) s : T :=
  if mad_normal s < min_abs then 1 else mad_normal s.

(* onestep_m.py:54-56, the weight of one residual *)
Definition onestep_weight psi (r : T) : T := if dec T 1 5 < `|r| then psi r / r else 1.

(* onestep_m.py:53-57, location.  The data are finite numbers (the NaN check of
   lines 45-46 is part of the model of RobustScale.fit) and non-empty. *)
Definition onestep_location psi (min_abs : T) s : T :=
  let med := fmed s in
  let sm := safe_mad min_abs s in
  wmean (fun x => onestep_weight psi ((x - med) / sm)) s.

(* onestep_m.py:60-65, scale *)
Definition onestep_scale psi (delta min_abs : T) s : T :=
  let med := fmed s in
  let mad := mad_normal s in
  if mad < min_abs then 0
  else mad * Num.sqrt (1 / delta * fmean [seq psi ((x - med) / mad) ^+ 2 | x : T <- s]).

(* onestep_m.py:16, the default min_abs_scale = 1e-12 *)
Definition min_abs_scale : T := dec T 1 12.

(* onestep_m.py:80, HuberOneStepM: (location_, scale_); delta = 0.7784655 is
   written as 0.778 + 0.0004655 *)
Definition huber_onestep s : T * T :=
  (onestep_location (huber_psi (dec T 15 1)) min_abs_scale s,
   onestep_scale (huber_psi (dec T 15 1)) (dec T 778 3 + dec T 4655 7) min_abs_scale s).

(* onestep_m.py:94, CellwiseOneStepM: (location_, scale_) *)
Definition cellwise_onestep s : T * T :=
  (onestep_location (tukey_psi 3%:R) min_abs_scale s,
   onestep_scale (huber_psi (dec T 25 1)) (dec T 845 3) min_abs_scale s).

End Model.
