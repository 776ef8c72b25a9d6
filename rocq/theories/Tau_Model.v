(* Model of robpy/univariate/tau.py and of OneStepWrapping in
   robpy/univariate/onestep_m.py. *)
From mathcomp Require Import all_ssreflect all_algebra.
From Verif Require Import RFieldLra Prelude Stats Xnum WMean Qn_Model UMcd_Model.

Set Implicit Arguments.
Unset Strict Implicit.
Unset Printing Implicit Defensive.

Import Order.TTheory GRing.Theory Num.Theory.
Local Open Scope ring_scope.

Section Model.
Variable T : rcfType.
Implicit Types (s : seq T).

(* tau.py:55-60; np.where with a comparison that is false for NaN and inf *)
Definition tau_weight (c1 : T) (z : xnum T) : T :=
  if z is Fin v then (if `|v| <= c1 then (1 - (v / c1) ^+ 2) ^+ 2 else 0) else 0.

(* tau.py:62-63 *)
Definition tau_rho (c2 : T) (z : xnum T) : T :=
  if z is Fin v then (if v ^+ 2 <= c2 ^+ 2 then v ^+ 2 else c2 ^+ 2) else c2 ^+ 2.

(* tau.py:43-44, the standardised observation *)
Definition tau_z s (x : T) : xnum T := xdiv (Fin (x - fmed s)) (Fin (fmad s)).

(* tau.py:45 *)
Definition tau_location (c1 : T) s : xnum T :=
  let w x := tau_weight c1 (tau_z s x) in
  xdiv (Fin (fsum [seq x * w x | x : T <- s])) (Fin (fsum [seq w x | x : T <- s])).

(* tau.py:46-48 *)
Definition tau_raw_scale (c1 c2 : T) s : T :=
  let loc := tau_location c1 s in
  let rho x := tau_rho c2 (xdiv (xsub (Fin x) loc) (Fin (fmad s))) in
  fmad s * Num.sqrt (1 / (size s)%:R * fsum [seq rho x | x : T <- s]).

(* tau.py:36-53: (location_, scale_).  [corr] is the value of line 52 when
   consistency_correction is set, None otherwise. *)
Definition tau (c1 c2 : T) (corr : option T) s : xnum T * T :=
  (tau_location c1 s,
   if corr is Some c then tau_raw_scale c1 c2 s / Num.sqrt c else tau_raw_scale c1 c2 s).

(* onestep_m.py:123-132, the constants; 0.7532528, 0.8430849 and 4.1517212 are
   written as sums of shorter decimals *)
Definition wrap_b : T := dec T 15 1.
(* onestep_m.py:124 *)
Definition wrap_c : T := 4%:R.
(* onestep_m.py:130 *)
Definition wrap_A : T := dec T 753 3 + dec T 2528 7.
(* onestep_m.py:131 *)
Definition wrap_B : T := dec T 843 3 + dec T 849 7.
(* onestep_m.py:132 *)
Definition wrap_k : T := 4%:R + dec T 151 3 + dec T 7212 7.

(* the hyperbolic tangent, a parameter *)
Variable tanh : T -> T.

(* onestep_m.py:122-137; both comparisons are false for NaN *)
Definition tanh_weight (z : xnum T) : xnum T :=
  match z with
  | Fin v =>
      if `|v| < wrap_b then Fin 1
      else if wrap_c < `|v| then Fin 0
      else Fin (Num.sqrt (wrap_A * (wrap_k - 1))
                * tanh (2%:R^-1 * Num.sqrt ((wrap_k - 1) * wrap_B ^+ 2 / wrap_A) * (wrap_c - `|v|))
                / `|v|)
  | PInf | NInf => Fin 0
  | NaN => NaN
  end.

(* onestep_m.py:116-118, for given initial estimates *)
Definition wrap_location (loc0 sc0 : xnum T) s : xnum T :=
  let w x := tanh_weight (xdiv (xsub (Fin x) loc0) sc0) in
  xdiv (xsum [seq xmul (w x) (Fin x) | x : T <- s]) (xsum [seq w x | x : T <- s]).

(* onestep_m.py:105-120: (location_, scale_).  UnivariateMCD() has alpha=None and the
   consistency correction on, so h = n // 2 + 1; np.sqrt of the variance gives the scale. *)
Definition onestep_wrapping (craw crew : nat -> nat -> T) (q : T) s : xnum T * xnum T :=
  let init := umcd craw crew q true ((size s) %/ 2 + 1) s in
  let sc0 := xmap Num.sqrt (variance init) in
  (wrap_location (location init) sc0 s, sc0).

End Model.
