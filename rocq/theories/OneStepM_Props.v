(* Property theorems: one-step M-estimators (C21, C22, C23). *)
From mathcomp Require Import all_ssreflect all_algebra.
From mathcomp.zify Require Import zify.
From mathcomp.algebra_tactics Require Import ring.
From Verif Require Import RFieldLra Prelude Stats WMean Qn_Model Rho_Model Rho_Proofs.
From Verif Require Import OneStepM_Model OneStepM_Proofs.

Set Implicit Arguments.
Unset Strict Implicit.
Unset Printing Implicit Defensive.

Import Order.TTheory GRing.Theory Num.Theory.
Local Open Scope ring_scope.

Section Facts.
Variable T : rcfType.

Lemma min_abs_scale_range : 0 < min_abs_scale T <= 1.
Proof.
rewrite dec_gt0 //= /min_abs_scale /dec ler_pdivr_mulr ?ltr0n ?expn_gt0 // mul1r.
by rewrite ler_nat expn_gt0.
Qed.

Lemma dec_ge1 a e : (10 ^ e <= a)%N -> 1 <= dec T a e.
Proof. by move=> h; rewrite /dec ler_pdivl_mulr ?ltr0n ?expn_gt0 // mul1r ler_nat. Qed.

Lemma three_gt0 : 0 < 3%:R :> T. Proof. by rewrite ltr0n. Qed.
Lemma three_ge1 : 1 <= 3%:R :> T. Proof. by rewrite (ler_nat T 1). Qed.

Lemma tukey_wpos (c r : T) : 1 < c -> r != 0 -> `|r| <= 1 -> 0 < tukey_psi c r / r.
Proof.
move=> c1 r0 r1; have c0 : 0 < c by flra.
rewrite tukey_weight // lt_neqAle sqr_ge0 andbT eq_sym sqrf_eq0 /tk_p.
have hr : (r / c) ^+ 2 < 1.
  rewrite -sqr_normr normrM normfV (gtr0_norm c0) expr_lt1 //; last by rewrite divr_ge0 ?normr_ge0 ?(ltW c0).
  by rewrite ltr_pdivr_mulr // mul1r; flra.
by case: ifP => [_|]; [rewrite gt_eqF // subr_gt0|move/negbT; rewrite -ltNge => h; flra].
Qed.

Lemma huber_wpos (b r : T) : 0 < b -> r != 0 -> `|r| <= 1 -> 0 < huber_psi b r / r.
Proof. by move=> b0 r0 _; have /andP[] := huber_weight_range b0 r0. Qed.

Lemma huber_w01 (b r : T) : 0 < b -> r != 0 -> 0 <= huber_psi b r / r <= 1.
Proof. by move=> b0 r0; have /andP[h1 h2] := huber_weight_range b0 r0; rewrite ltW. Qed.

Lemma huber_psi_eq0 (b r : T) : 0 < b -> huber_psi b r = 0 -> r = 0.
Proof.
move=> b0; rewrite /huber_psi; case: (lerP `|r| b) => [//|h] /eqP.
by rewrite mulf_eq0 (gt_eqF b0) /= sgr_eq0 => /eqP.
Qed.

End Facts.

Section Props.
Variable T : rcfType.
(* the normal quantile of the MAD, 0.674... *)
Variable q : T.
Hypotheses (q0 : 0 < q) (q1 : q <= 1).
Implicit Types (s : seq T) (psi : T -> T) (x r lo hi : T).

(* C21: the weights *)
Theorem onestep_weights_proper psi min_abs s :
  (exists b, 0 < b /\ psi = huber_psi b) \/ (exists c, 1 < c /\ psi = tukey_psi c) ->
  0 < min_abs <= 1 -> (0 < size s)%N ->
  let w x := onestep_weight psi ((x - fmed s) / safe_mad q min_abs s) in
  (forall x, 0 <= w x <= 1) /\ 0 < fsum [seq w x | x <- s].
Proof.
move=> hpsi /andP[m0 m1] h0 /=; have [w01 wpos] : (forall r, r != 0 -> 0 <= psi r / r <= 1) /\
    (forall r, r != 0 -> `|r| <= 1 -> 0 < psi r / r).
  case: hpsi => -[b [b0 ->]]; split=> r r0.
  - exact: huber_w01.
  - exact: huber_wpos.
  - by apply: tukey_weight_range => //; flra.
  - exact: tukey_wpos.
by split=> [x|]; [exact: weight_range|exact: wfun_sum_gt0].
Qed.

Theorem huber_onestep_bounds s : (0 < size s)%N ->
  let '(loc, sc) := huber_onestep q s in
  [/\ fmin s <= loc <= fmax s,
      0 <= sc <= mad_normal q s * dec T 15 1 / Num.sqrt (dec T 778 3 + dec T 4655 7)
    & (sc == 0) = (mad_normal q s < min_abs_scale T)].
Proof.
move=> h0; have /andP[m0 m1] := min_abs_scale_range T.
have b0 : 0 < dec T 15 1 by exact: dec_gt0.
have d0 : 0 < dec T 778 3 + dec T 4655 7 by rewrite addr_gt0 ?dec_gt0.
split.
- by apply: location_between => // r; [exact: huber_w01|exact: huber_wpos].
- by apply: scale_bounds => // r; exact: huber_psi_bound.
- by apply: scale_eq0 => // r; exact: huber_psi_eq0.
Qed.

Theorem cellwise_onestep_bounds s : (0 < size s)%N ->
  let '(loc, sc) := cellwise_onestep q s in
  [/\ fmin s <= loc <= fmax s,
      0 <= sc <= mad_normal q s * dec T 25 1 / Num.sqrt (dec T 845 3)
    & (sc == 0) = (mad_normal q s < min_abs_scale T)].
Proof.
move=> h0; have /andP[m0 m1] := min_abs_scale_range T.
have b0 : 0 < dec T 25 1 by exact: dec_gt0.
have d0 : 0 < dec T 845 3 by exact: dec_gt0.
have c0 := three_gt0 T; have c1 : 1 < 3%:R :> T by rewrite (ltr_nat T 1).
split.
- by apply: location_between => // r; [exact: tukey_weight_range|exact: tukey_wpos].
- by apply: scale_bounds => // r; exact: huber_psi_bound.
- by apply: scale_eq0 => // r; exact: huber_psi_eq0.
Qed.

(* C22 *)
Theorem onestep_shift s b : (0 < size s)%N ->
  huber_onestep q [seq x + b | x : T <- s] = ((huber_onestep q s).1 + b, (huber_onestep q s).2)
  /\ cellwise_onestep q [seq x + b | x : T <- s]
     = ((cellwise_onestep q s).1 + b, (cellwise_onestep q s).2).
Proof.
move=> h0; have /andP[m0 m1] := min_abs_scale_range T.
have c0 := three_gt0 T; have c1 : 1 < 3%:R :> T by rewrite (ltr_nat T 1).
have e : [seq x + b | x : T <- s] = [seq 1 * x + b | x : T <- s].
  by apply: eq_map => x; rewrite mul1r.
rewrite /huber_onestep /cellwise_onestep; split; congr (_, _).
- by apply: location_shift => // r; [apply: huber_w01|apply: huber_wpos|apply: huber_psi_odd];
    rewrite dec_gt0.
- rewrite e scale_map ?oner_eq0 ?normr1 ?mul1r // => r; apply: huber_psi_odd; exact: dec_gt0.
- by apply: location_shift => // r; [exact: tukey_weight_range|exact: tukey_wpos|exact: tukey_psi_odd].
- rewrite e scale_map ?oner_eq0 ?normr1 ?mul1r // => r; apply: huber_psi_odd; exact: dec_gt0.
Qed.

Theorem onestep_affine s a b : (0 < size s)%N -> a != 0 ->
  min_abs_scale T <= mad_normal q s -> min_abs_scale T <= `|a| * mad_normal q s ->
  huber_onestep q [seq a * x + b | x : T <- s]
    = (a * (huber_onestep q s).1 + b, `|a| * (huber_onestep q s).2)
  /\ cellwise_onestep q [seq a * x + b | x : T <- s]
    = (a * (cellwise_onestep q s).1 + b, `|a| * (cellwise_onestep q s).2).
Proof.
move=> h0 a0 h1 h2; have /andP[m0 m1] := min_abs_scale_range T.
have c0 := three_gt0 T; have c1 : 1 < 3%:R :> T by rewrite (ltr_nat T 1).
have hm : (mad_normal q s < min_abs_scale T) = (`|a| * mad_normal q s < min_abs_scale T).
  by rewrite !ltNge h1 h2.
rewrite /huber_onestep /cellwise_onestep; split; congr (_, _).
- by apply: location_scale => // r; [apply: huber_w01|apply: huber_wpos|apply: huber_psi_odd];
    rewrite dec_gt0.
- by apply: scale_map => // r; apply: huber_psi_odd; exact: dec_gt0.
- by apply: location_scale => // r; [exact: tukey_weight_range|exact: tukey_wpos|exact: tukey_psi_odd].
- by apply: scale_map => // r; apply: huber_psi_odd; exact: dec_gt0.
Qed.

(* When the MAD is below min_abs_scale (more than half of the observations are
   equal) the residuals are not standardised, and the location is not
   equivariant under a change of unit. *)
Lemma cellwise_degenerate (a : T) : dec T 1 5 < `|a| -> 0 < a ->
  (cellwise_onestep q [:: 0; 0; 0; a]).1 = tukey_psi 3%:R a / (3%:R + tukey_psi 3%:R a / a).
Proof.
move=> h1 h2; have /andP[m0 m1] := min_abs_scale_range T.
have hs : fsort [:: 0; 0; 0; a] = [:: 0; 0; 0; a].
  by apply: (sorted_sort le_trans); rewrite /= !lexx ltW.
have hm : fmed [:: 0; 0; 0; a] = 0 by rewrite /fmed hs /= addr0 mul0r.
have hd : fmad [:: 0; 0; 0; a] = 0.
  by rewrite /fmad hm /= !subr0 normr0 (gtr0_norm h2).
rewrite /= /onestep_location hm /safe_mad /mad_normal hd mul0r m0 /wmean /wsum /=.
rewrite !subr0 !divr1 /onestep_weight normr0 h1 ltNge ltW ?dec_gt0 //=.
rewrite !mulr0 !add0r !addr0 divfK ?gt_eqF //.
by congr (_ / _); rewrite -[3%:R]/(1 + (1 + 1)) !addrA.
Qed.

Theorem onestep_scaling_zero_mad_refuted :
  exists s (a : T), [/\ (0 < size s)%N, 0 < a
    & (cellwise_onestep q [seq a * x | x : T <- s]).1 != a * (cellwise_onestep q s).1].
Proof.
exists [:: 0; 0; 0; 1], 2%:R; split=> //; first by rewrite ltr0n.
have /andP[t0 t1] := dec_thr T.
rewrite [map _ _](_ : _ = [:: 0; 0; 0; 2%:R]); last by rewrite /= !mulr0 mulr1.
have d1 : dec T 1 5 < `|1 : T| by rewrite normr1.
have d2 : dec T 1 5 < `|2%:R : T| by rewrite normr_nat (lt_trans t1) // (ltr_nat T 1).
rewrite (cellwise_degenerate d1 ltr01) (cellwise_degenerate d2 (ltr0Sn _ 1)).
have -> : tukey_psi 3%:R 1 = 64%:R / 81%:R :> T.
  by rewrite /tukey_psi normr1 (ler_nat T 1) //; field; rewrite // pnatr_eq0.
have -> : tukey_psi 3%:R 2%:R = 50%:R / 81%:R :> T.
  by rewrite /tukey_psi normr_nat (ler_nat T 2) //; field; rewrite // pnatr_eq0.
have -> : 50%:R / 81%:R / (3%:R + 50%:R / 81%:R / 2%:R) = 25%:R / 134%:R :> T.
  by field.
have -> : 2%:R * (64%:R / 81%:R / (3%:R + 64%:R / 81%:R / 1)) = 128%:R / 307%:R :> T.
  by field.
by rewrite eqr_div ?pnatr_eq0 // -!natrM eqr_nat.
Qed.

(* C23 *)
Theorem cellwise_resists_contamination s lo hi : (0 < size s)%N ->
  (size s < 2 * count (fun x => (lo <= x <= hi)%R) s)%N ->
  let L := hi - lo in
  let '(loc, sc) := cellwise_onestep q s in
  let D := 3%:R * Num.max 1 (L / q) in
  lo - D <= loc <= hi + D /\ 0 <= sc <= L / q * dec T 25 1 / Num.sqrt (dec T 845 3).
Proof.
move=> h0 hmaj /=; have /andP[m0 m1] := min_abs_scale_range T.
have c0 := three_gt0 T; have c1 : 1 < 3%:R :> T by rewrite (ltr_nat T 1).
have /andP[e1 e2] := fmed_majority h0 hmaj; have hmad := fmad_majority h0 hmaj.
have hmq : mad_normal q s <= (hi - lo) / q by rewrite ler_pdivr_mulr // divfK ?gt_eqF.
split; last first.
  have [_ /andP[s0 s1] _] := cellwise_onestep_bounds h0; rewrite s0 /=.
  apply: (le_trans s1); apply: ler_wpmul2r; first by rewrite invr_ge0 sqrtr_ge0.
  by apply: ler_wpmul2r hmq; rewrite ltW ?dec_gt0.
have hs : safe_mad q (min_abs_scale T) s <= Num.max 1 ((hi - lo) / q).
  by rewrite /safe_mad le_maxr; case: ifP => _; rewrite ?lexx ?hmq ?orbT.
have := @location_redescending _ q (min_abs_scale T) q0 q1 m0 m1 (tukey_psi 3%:R)
  (fun r => @tukey_weight_range _ _ c0 r) (fun r => @tukey_wpos _ _ r c1) 3%:R s (ltW c1)
  (fun r => @tukey_psi_zero _ _ c0 r) h0.
rewrite ler_distl => /andP[l1 l2].
have hs3 : 3%:R * safe_mad q (min_abs_scale T) s <= 3%:R * Num.max 1 ((hi - lo) / q).
  by rewrite ler_pmul2l.
by apply/andP; split; flra.
Qed.

Theorem huber_resists_contamination s lo hi : (0 < size s)%N ->
  (size s < 2 * count (fun x => (lo <= x <= hi)%R) s)%N ->
  let L := hi - lo in
  let '(loc, sc) := huber_onestep q s in
  let D := 3%:R * Num.max 1 (L / q) in
  lo - D <= loc <= hi + D
  /\ 0 <= sc <= L / q * dec T 15 1 / Num.sqrt (dec T 778 3 + dec T 4655 7).
Proof.
move=> h0 hmaj /=; have /andP[m0 m1] := min_abs_scale_range T.
have b1 : 1 <= dec T 15 1 by exact: dec_ge1.
have b0 : 0 < dec T 15 1 by exact: dec_gt0.
have b3 : 2%:R * dec T 15 1 = 3%:R by rewrite /dec; field.
have c0 := three_gt0 T.
have /andP[e1 e2] := fmed_majority h0 hmaj; have hmad := fmad_majority h0 hmaj.
have hmq : mad_normal q s <= (hi - lo) / q by rewrite ler_pdivr_mulr // divfK ?gt_eqF.
split; last first.
  have [_ /andP[s0 s1] _] := huber_onestep_bounds h0; rewrite s0 /=.
  apply: (le_trans s1); apply: ler_wpmul2r; first by rewrite invr_ge0 sqrtr_ge0.
  by apply: ler_wpmul2r hmq; rewrite ltW ?dec_gt0.
have hs : safe_mad q (min_abs_scale T) s <= Num.max 1 ((hi - lo) / q).
  by rewrite /safe_mad le_maxr; case: ifP => _; rewrite ?lexx ?hmq ?orbT.
have hid r : `|r| <= 1 -> huber_psi (dec T 15 1) r = r.
  by move=> hr; rewrite /huber_psi ifT //; exact: le_trans b1.
have := @location_bounded_psi _ q (min_abs_scale T) q0 q1 m0 m1 (huber_psi (dec T 15 1))
  (fun r => @huber_w01 _ _ r b0) (fun r => @huber_wpos _ _ r b0) (dec T 15 1) s b1
  (fun r => @huber_psi_bound _ _ b0 r) hid h0.
rewrite b3 ler_distl => /andP[l1 l2].
have hs3 : 3%:R * safe_mad q (min_abs_scale T) s <= 3%:R * Num.max 1 ((hi - lo) / q).
  by rewrite ler_pmul2l.
by apply/andP; split; flra.
Qed.

(* non-trivial data: a clean majority and one far outlier *)
Example onestep_ex (M : T) : 10%:R < M ->
  let s := [:: 0; 1; 2%:R; M] in
  (0 < size s)%N /\ (size s < 2 * count (fun x => (0 <= x <= 2%:R)%R) s)%N.
Proof.
move=> h /=; have h10 : 2%:R < 10%:R :> T by rewrite ltr_nat.
by rewrite lexx ler01 ler0n (ler_nat T 1) lexx (lt_geF (lt_trans h10 h)) andbF.
Qed.
End Props.
Print Assumptions onestep_weights_proper.
Print Assumptions huber_onestep_bounds.
Print Assumptions cellwise_onestep_bounds.
Print Assumptions onestep_shift.
Print Assumptions onestep_affine.
Print Assumptions onestep_scaling_zero_mad_refuted.
Print Assumptions cellwise_resists_contamination.
Print Assumptions huber_resists_contamination.
