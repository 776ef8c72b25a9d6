(* Property theorems: the small-sample correction factors of FastLTSRegression (C53). *)
From Coq Require Import Reals Lra.
From mathcomp Require Import all_ssreflect.
From Verif Require Import RFieldLra Prelude XR LTSCorr_Model LTSCorr_Proofs.

Set Implicit Arguments.
Unset Strict Implicit.
Unset Printing Implicit Defensive.

Local Open Scope R_scope.

(* C53: alpha outside [0.5, 1]; alpha = 1 *)
Theorem lts_factor_alpha_range K p n a : a < 1/2 \/ 1 < a -> correction K p n a = Err ValueError.
Proof. exact: correction_range. Qed.

Example lts_factor_alpha_range_case : correction raw_consts 3 50 (2/5) = Err ValueError.
Proof. by apply: lts_factor_alpha_range; lra. Qed.

Theorem lts_factor_full_sample K p n : correction K p n 1 = Ok (XF 1).
Proof. exact: correction_one. Qed.

(* C53: for p >= 1 the reciprocal of the factor is a Lipschitz continuous function of alpha, in
   particular continuous at 0.875, and below one for alpha < 1 *)
Theorem lts_factor_continuous K p n : (0 < p)%N -> exists g : R -> R,
  [/\ exists L, forall a b, Rabs (g a - g b) <= L * Rabs (a - b),
      forall a, 1/2 <= a < 1 -> g a < 1,
      g 1 = 1 &
      forall a, 1/2 <= a <= 1 -> g a <> 0 -> correction K p n a = Ok (XF (1 / g a))].
Proof.
move=> p0; have [f5 [f8 [h5 h8 e]]] := fp_lines K p n; exists (interpolate f5 f8); split.
- exact: interpolate_lip.
- by move=> a ha; apply: interpolate_lt1.
- exact: interpolate_one.
move=> a ha nz; rewrite correctionE //; case: p p0 e => // p _ ->.
by rewrite /=; case: ReqbP.
Qed.

Example lts_factor_continuous_case : (0 < 2)%N. Proof. by []. Qed.

(* C53: a finite factor is at least one - or negative *)
Theorem lts_factor_ge1_or_negative K p n a v : 1/2 <= a <= 1 -> correction K p n a = Ok (XF v) ->
  1 <= v \/ (v < 0 /\ (0 < p)%N).
Proof. exact: correction_finite. Qed.

Example lts_factor_ge1_case : correction rew_consts 4 30 1 = Ok (XF 1).
Proof. exact: lts_factor_full_sample. Qed.

(* C53: with one regressor, two observations and alpha = 0.5 both factors are negative *)
Theorem lts_factor_positive_refuted :
  (exists v, v < 0 /\ correction raw_consts 1 2 (1/2) = Ok (XF v)) /\
  (exists v, v < 0 /\ correction rew_consts 1 2 (1/2) = Ok (XF v)).
Proof. by split; [exact: raw_negative|exact: rew_negative]. Qed.

(* with three or more observations the raw factor for one regressor is at least one *)
Theorem lts_factor_one_regressor n a : (3 <= n)%N -> 1/2 <= a <= 1 ->
  exists v, 1 <= v /\ correction raw_consts 1 n a = Ok (XF v).
Proof. exact: raw_positive. Qed.

Example lts_factor_one_regressor_case : (3 <= 20)%N /\ 1/2 <= 3/4 <= 1.
Proof. by split => //; lra. Qed.

(* the calibration of Pison, Van Aelst and Willems: for p >= 2 regressors the reciprocal factor
   takes the tabulated values at n = 3 p^2 and n = 5 p^2 *)
Definition recip (r : res xr) (v : R) : Prop := exists w, r = Ok (XF w) /\ w * v = 1.

Lemma small_pow c d p : -1 < c < 0 -> 0 < d -> (1 < p)%N -> 1 + c / Rpower (INR p) d <> 0.
Proof.
move=> hc hd p1; have P1 : 1 <= INR p.
  by have := le_INR 1 p; apply; apply/ssrnat.leP; apply: ltnW.
have L0 : 0 <= ln (INR p) by rewrite -ln_1; case: P1 => [h|<-]; [apply: Rlt_le; apply: ln_increasing; lra|lra].
have R1 : 1 <= Rpower (INR p) d.
  rewrite /Rpower; have := exp_ineq1_le (d * ln (INR p)).
  have : 0 <= d * ln (INR p) by apply: Rmult_le_pos; lra.
  lra.
move=> e; have : 1 * Rpower (INR p) d = - c.
  have : (1 + c / Rpower (INR p) d) * Rpower (INR p) d = 0 by rewrite e; ring.
  have -> : (1 + c / Rpower (INR p) d) * Rpower (INR p) d = Rpower (INR p) d + c by field; lra.
  lra.
lra.
Qed.

Lemma recip_fp K p n a v : (1 < p)%N -> 1/2 <= a <= 1 -> fp K p n a = v -> v <> 0 ->
  recip (correction K p n a) v.
Proof.
move=> p1 ha e nz; exists (1 / v); split; last by field.
by rewrite correctionE //; case: p p1 e => // p _ ->; rewrite /=; case: ReqbP.
Qed.

Theorem lts_factor_calibration p : (1 < p)%N ->
  let P := Rpower (INR p) in
  [/\ recip (correction raw_consts p (3 * p ^ 2) (1/2)) (1 + -0.746945886714663 / P 0.56264937192689),
      recip (correction raw_consts p (5 * p ^ 2) (1/2)) (1 + -0.535478048924724 / P 0.543323462033445),
      recip (correction raw_consts p (3 * p ^ 2) (7/8)) (1 + -0.458580153984614 / P 1.12236071104403) &
      recip (correction raw_consts p (5 * p ^ 2) (7/8)) (1 + -0.267178168108996 / P 1.1022478781154)]
  /\
  [/\ recip (correction rew_consts p (3 * p ^ 2) (1/2)) (1 + -0.773365715932083 / P 2.02013996406346),
      recip (correction rew_consts p (5 * p ^ 2) (1/2)) (1 + -0.337571678986723 / P 2.02037467454833),
      recip (correction rew_consts p (3 * p ^ 2) (7/8)) (1 + -0.474174840843602 / P 1.39681715704956) &
      recip (correction rew_consts p (5 * p ^ 2) (7/8)) (1 + -0.276640353112907 / P 1.42543242287677)].
Proof.
move=> p1 P; have [||||a1 a2 a3 a4] := @fp_calibrated raw_consts p p1; try by rewrite /=; lra.
have [||||b1 b2 b3 b4] := @fp_calibrated rew_consts p p1; try by rewrite /=; lra.
by split; split; apply: recip_fp => //; try lra; apply: small_pow => //; lra.
Qed.

Example lts_factor_calibration_case : (1 < 2)%N /\ (3 * 2 ^ 2 = 12)%N. Proof. by []. Qed.

Print Assumptions lts_factor_calibration.
Print Assumptions lts_factor_positive_refuted.
