(* Proofs about the one-step M-estimators. *)
From mathcomp Require Import all_ssreflect all_algebra.
From mathcomp.zify Require Import zify.
From mathcomp.algebra_tactics Require Import ring.
From Verif Require Import RFieldLra Prelude Stats WMean Qn_Model Rho_Model Rho_Proofs OneStepM_Model.

Set Implicit Arguments.
Unset Strict Implicit.
Unset Printing Implicit Defensive.

Import Order.TTheory GRing.Theory Num.Theory.
Local Open Scope ring_scope.

Section MadWitness.
Variable T : realFieldType.
Implicit Types (s : seq T).

Lemma half_within_mad s : (size s <= 2 * count (fun x => (`|x - fmed s| <= fmad s)%R) s)%N.
Proof. by have := fmed_half_le [seq `|x - fmed s| | x : T <- s]; rewrite size_map count_map. Qed.

Lemma half_beyond_mad s : (size s <= 2 * count (fun x => (fmad s <= `|x - fmed s|)%R) s)%N.
Proof. by have := fmed_half_ge [seq `|x - fmed s| | x : T <- s]; rewrite size_map count_map. Qed.

Lemma within_mad s : (0 < size s)%N -> exists2 x, x \in s & `|x - fmed s| <= fmad s.
Proof.
move=> h0; apply/hasP; rewrite has_count.
by have := half_within_mad s; move: (count _ _) (size s) h0 => a b; lia.
Qed.

Lemma beyond_mad s : (0 < size s)%N -> exists2 x, x \in s & fmad s <= `|x - fmed s|.
Proof.
move=> h0; apply/hasP; rewrite has_count.
by have := half_beyond_mad s; move: (count _ _) (size s) h0 => a b; lia.
Qed.
End MadWitness.

Section OneStep.
Variable T : rcfType.
Variables (q min_abs : T).
Hypotheses (q0 : 0 < q) (q1 : q <= 1) (m0 : 0 < min_abs) (m1 : min_abs <= 1).
Implicit Types (s : seq T) (psi : T -> T) (x r : T).

Lemma dec_gt0 a e : (0 < a)%N -> 0 < dec T a e.
Proof. by move=> h; rewrite /dec divr_gt0 ?ltr0n // expn_gt0. Qed.

Lemma dec_thr : 0 < dec T 1 5 < 1.
Proof.
by rewrite dec_gt0 //= /dec ltr_pdivr_mulr ?ltr0n ?expn_gt0 // mul1r ltr_nat -[1%N]/(10 ^ 0)%N ltn_exp2l.
Qed.

Lemma mad_normal_ge0 s : 0 <= mad_normal q s.
Proof. by rewrite divr_ge0 ?fmad_ge0 ?ltW. Qed.

Lemma safe_mad_gt0 s : 0 < safe_mad q min_abs s.
Proof. by rewrite /safe_mad; case: (ltrP (mad_normal q s) min_abs) => h; [exact: ltr01|exact: (lt_le_trans m0 h)]. Qed.

Lemma fmad_le_safe s : fmad s <= safe_mad q min_abs s.
Proof.
have e : fmad s = mad_normal q s * q by rewrite /mad_normal divfK // gt_eqF.
have h := mad_normal_ge0 s.
have h2 : mad_normal q s * q <= mad_normal q s by rewrite ler_pimulr.
by rewrite /safe_mad e; case: (ltrP (mad_normal q s) min_abs) => h3; apply: (le_trans h2) => //; flra.
Qed.

Lemma resid_le1 s x : `|x - fmed s| <= fmad s -> `|(x - fmed s) / safe_mad q min_abs s| <= 1.
Proof.
move=> h; have p := safe_mad_gt0 s.
rewrite normrM normfV (gtr0_norm p) ler_pdivr_mulr // mul1r.
by apply: (le_trans h); exact: fmad_le_safe.
Qed.

Section Loc.
Variable psi : T -> T.
Hypothesis w01 : forall r, r != 0 -> 0 <= psi r / r <= 1.
Hypothesis wpos : forall r, r != 0 -> `|r| <= 1 -> 0 < psi r / r.

Lemma weight_range r : 0 <= onestep_weight psi r <= 1.
Proof.
rewrite /onestep_weight; case: (ltrP _ `|r|) => h; last by rewrite ler01 lexx.
by apply: w01; rewrite -normr_gt0; have /andP[h2 _] := dec_thr; flra.
Qed.

Lemma weight_pos r : `|r| <= 1 -> 0 < onestep_weight psi r.
Proof.
move=> hr; rewrite /onestep_weight; case: (ltrP _ `|r|) => h; last exact: ltr01.
by apply: wpos hr; rewrite -normr_gt0; have /andP[h2 _] := dec_thr; flra.
Qed.

Definition wfun s x : T := onestep_weight psi ((x - fmed s) / safe_mad q min_abs s).

Lemma onestep_locE s : onestep_location q psi min_abs s = wmean (wfun s) s.
Proof. by []. Qed.

Lemma wfun_sum_gt0 s : (0 < size s)%N -> 0 < wsum (wfun s) s.
Proof.
move=> h0; have [x xs hx] := within_mad h0.
apply: (wsum_gt0 _ xs); first by move=> y _; have /andP[] := weight_range ((y - fmed s) / safe_mad q min_abs s).
by apply: weight_pos; exact: resid_le1.
Qed.

Lemma location_between s : (0 < size s)%N ->
  fmin s <= onestep_location q psi min_abs s <= fmax s.
Proof.
move=> h0; rewrite onestep_locE; apply: wmean_between; last by move=> x xs _; rewrite fmin_le ?fmax_ge.
  by move=> y _; have /andP[] := weight_range ((y - fmed s) / safe_mad q min_abs s).
exact: wfun_sum_gt0.
Qed.

(* a redescending psi: observations further than c safe MADs get no weight *)
Lemma location_redescending c s : 1 <= c -> (forall r, c <= `|r| -> psi r = 0) -> (0 < size s)%N ->
  `|onestep_location q psi min_abs s - fmed s| <= c * safe_mad q min_abs s.
Proof.
move=> c1 hc h0; have p := safe_mad_gt0 s; rewrite onestep_locE.
have h : fmed s - c * safe_mad q min_abs s <= wmean (wfun s) s <= fmed s + c * safe_mad q min_abs s.
  apply: wmean_between (wfun_sum_gt0 h0) _.
    by move=> y _; have /andP[] := weight_range ((y - fmed s) / safe_mad q min_abs s).
  move=> x xs hx; rewrite -ler_distl distrC -normrN opprB.
  rewrite leNgt; apply/negP => hlt; move: hx; rewrite /wfun /onestep_weight.
  have hr : c < `|(x - fmed s) / safe_mad q min_abs s|.
    by rewrite normrM normfV (gtr0_norm p) ltr_pdivl_mulr.
  have /andP[t0 t1] := dec_thr.
  rewrite ifT; last by apply: (lt_trans t1); flra.
  by rewrite hc ?mul0r ?ltxx // ltW.
by rewrite ler_distl.
Qed.

(* a bounded psi with weight 1 in the middle *)
Lemma location_bounded_psi b s : 1 <= b -> (forall r, `|psi r| <= b) ->
  (forall r, `|r| <= 1 -> psi r = r) -> (0 < size s)%N ->
  `|onestep_location q psi min_abs s - fmed s| <= 2%:R * b * safe_mad q min_abs s.
Proof.
move=> b1 hb hid h0; have p := safe_mad_gt0 s; rewrite onestep_locE.
have W := wfun_sum_gt0 h0; set sm := safe_mad q min_abs s in p *; set m := fmed s.
have wr x : 0 <= wfun s x <= 1 by exact: weight_range.
have -> : wmean (wfun s) s - m = fsum [seq wfun s x * (x - m) | x : T <- s] / wsum (wfun s) s.
  apply: (mulIf (lt0r_neq0 W)); rewrite divfK ?lt0r_neq0 // mulrBl divfK ?lt0r_neq0 //.
  rewrite /wsum -mulNr -fsum_map_mul -fsum_map_add; congr fsum; apply: eq_map => x; ring.
rewrite normrM normfV (gtr0_norm W) ler_pdivr_mulr //.
have hW : (size s)%:R <= 2%:R * wsum (wfun s) s.
  have h1 : (count (fun x => (`|x - fmed s| <= fmad s)%R) s)%:R <= wsum (wfun s) s.
    apply: wsum_count => x xs; first by have /andP[] := wr x.
    move=> hx; have := resid_le1 hx; rewrite /wfun /onestep_weight; case: ltrP => // h2 h3.
    rewrite hid // divff //; rewrite -normr_gt0; have /andP[h4 _] := dec_thr; flra.
  have h2 := half_within_mad s; rewrite -(ler_nat T) natrM in h2.
  by apply: (le_trans h2); rewrite ler_pmul2l ?ltr0n.
have hS : `|fsum [seq wfun s x * (x - m) | x : T <- s]| <= (size s)%:R * (b * sm).
  apply: fsum_map_norm_le => x xs.
  have -> : wfun s x * (x - m) = wfun s x * ((x - m) / sm) * sm.
    by rewrite -mulrA divfK // gt_eqF.
  rewrite normrM (gtr0_norm p) ler_pmul2r //; set r := (x - m) / sm.
  rewrite /wfun -/m -/sm -/r /onestep_weight; case: ltrP => h.
    have hr : r != 0 by rewrite -normr_gt0; have /andP[h4 _] := dec_thr; flra.
    by rewrite divfK.
  rewrite mul1r; have /andP[_ h4] := dec_thr; flra.
apply: (le_trans hS).
have -> : 2%:R * b * sm * wsum (wfun s) s = (2%:R * wsum (wfun s) s) * (b * sm) by ring.
apply: ler_wpmul2r hW; apply: mulr_ge0; flra.
Qed.
End Loc.

Section Scale.
Variables (psi : T -> T) (delta b : T).
Hypotheses (d0 : 0 < delta) (b0 : 0 < b).
Hypothesis pb : forall r, `|psi r| <= b.
Hypothesis pz : forall r, psi r = 0 -> r = 0.

Notation sc := (onestep_scale q psi delta min_abs).

Lemma sq_mean_bound s (f : T -> T) : (0 < size s)%N ->
  0 <= fmean [seq psi (f x) ^+ 2 | x : T <- s] <= b ^+ 2.
Proof.
move=> h0; apply: fmean_between; first by rewrite size_map.
move=> y /mapP[x xs ->]; rewrite sqr_ge0 /= -sqr_normr.
by apply: ler_expn2r; rewrite ?nnegrE ?normr_ge0 ?(ltW b0).
Qed.

Lemma scale_bounds s : (0 < size s)%N ->
  0 <= sc s <= mad_normal q s * b / Num.sqrt delta.
Proof.
move=> h0; rewrite /onestep_scale; have hm := mad_normal_ge0 s.
case: ltrP => h; first by rewrite lexx /= divr_ge0 ?sqrtr_ge0 // mulr_ge0 // ltW.
rewrite mulr_ge0 ?sqrtr_ge0 //= -(mulrA (mad_normal q s)).
apply: ler_wpmul2l => //.
have /andP[h1 h2] := sq_mean_bound (fun x => (x - fmed s) / mad_normal q s) h0.
have -> : b / Num.sqrt delta = Num.sqrt (1 / delta * b ^+ 2).
  by rewrite div1r sqrtrM ?invr_ge0 ?(ltW d0) // sqrtr_sqr (gtr0_norm b0) sqrtrV ?ltW // mulrC.
apply: ler_wsqrtr; apply: ler_wpmul2l => //; by rewrite divr_ge0 ?ler01 ?ltW.
Qed.

Lemma scale_eq0 s : (0 < size s)%N -> (sc s == 0) = (mad_normal q s < min_abs).
Proof.
move=> h0; rewrite /onestep_scale; case: ltrP => h; first by rewrite eqxx.
have mp : 0 < mad_normal q s by exact: (lt_le_trans m0 h).
rewrite mulf_eq0 gt_eqF //= sqrtr_eq0; apply/negbTE; rewrite -ltNge.
apply: mulr_gt0; first by rewrite divr_gt0 ?ltr01.
have [x xs hx] := beyond_mad h0.
have fp : 0 < fmad s.
  by move: mp; rewrite /mad_normal pmulr_lgt0 ?invr_gt0.
rewrite /fmean divr_gt0 ?ltr0n ?size_map //.
apply: (@wsum_gt0 _ (fun x => psi ((x - fmed s) / mad_normal q s) ^+ 2) s x) => //.
  by move=> y _; exact: sqr_ge0.
rewrite lt_neqAle sqr_ge0 andbT eq_sym sqrf_eq0; apply/eqP => /pz /eqP.
rewrite mulf_eq0 invr_eq0 (gt_eqF mp) orbF => /eqP e.
by move: hx; rewrite e normr0; flra.
Qed.
End Scale.

(* equivariance *)
Lemma mad_normal_affine a b s : (0 < size s)%N ->
  mad_normal q [seq a * x + b | x : T <- s] = `|a| * mad_normal q s.
Proof. by move=> h0; rewrite /mad_normal fmad_affine //; exact: (esym (mulrA _ _ _)). Qed.

Lemma safe_mad_shift b s : (0 < size s)%N ->
  safe_mad q min_abs [seq 1 * x + b | x : T <- s] = safe_mad q min_abs s.
Proof. by move=> h0; rewrite /safe_mad mad_normal_affine // normr1 mul1r. Qed.

Section Equiv.
Variable psi : T -> T.
Hypothesis w01 : forall r, r != 0 -> 0 <= psi r / r <= 1.
Hypothesis wpos : forall r, r != 0 -> `|r| <= 1 -> 0 < psi r / r.
Hypothesis podd : forall r, psi (- r) = - psi r.

Lemma weight_even r : onestep_weight psi (- r) = onestep_weight psi r.
Proof. by rewrite /onestep_weight normrN podd invrN mulrNN. Qed.

Lemma location_map a b s : (0 < size s)%N -> a != 0 ->
  safe_mad q min_abs [seq a * x + b | x : T <- s] = `|a| * safe_mad q min_abs s ->
  onestep_location q psi min_abs [seq a * x + b | x : T <- s] =
  a * onestep_location q psi min_abs s + b.
Proof.
move=> h0 a0 hs; rewrite !onestep_locE; set t := [seq _ | x <- s] in hs *.
have e : wfun psi t \o (fun x => a * x + b) =1 wfun psi s.
  move=> x /=; rewrite /wfun hs /t fmed_affine //.
  have -> : (a * x + b - (a * fmed s + b)) = a * (x - fmed s) by ring.
  have [ap|an] := ltrP 0 a.
    by rewrite (gtr0_norm ap) -mulf_div divff // mul1r.
  rewrite (ler0_norm an) mulNr invrN mulrN -mulf_div divff // mul1r.
  by rewrite weight_even.
rewrite {2}/t wmean_affine; last first.
  rewrite (@eq_wsum _ _ (wfun psi s)); last by move=> x _; exact: e.
  by rewrite gt_eqF //; exact: wfun_sum_gt0.
by congr (_ * _ + _); apply: eq_wmean => x _; exact: e.
Qed.

Lemma location_shift b s : (0 < size s)%N ->
  onestep_location q psi min_abs [seq x + b | x : T <- s] =
  onestep_location q psi min_abs s + b.
Proof.
move=> h0; have := @location_map 1 b s h0 (oner_neq0 _).
rewrite safe_mad_shift // normr1 !mul1r => <- //.
by congr onestep_location; apply: eq_map => x; rewrite mul1r.
Qed.

Lemma location_scale a b s : (0 < size s)%N -> a != 0 ->
  min_abs <= mad_normal q s -> min_abs <= `|a| * mad_normal q s ->
  onestep_location q psi min_abs [seq a * x + b | x : T <- s] =
  a * onestep_location q psi min_abs s + b.
Proof.
move=> h0 a0 h1 h2; apply: location_map => //.
by rewrite /safe_mad mad_normal_affine // !ltNge h1 h2.
Qed.
End Equiv.

Section EquivScale.
Variables (psi : T -> T) (delta : T).
Hypothesis podd : forall r, psi (- r) = - psi r.

Lemma scale_map a b s : (0 < size s)%N -> a != 0 ->
  (mad_normal q s < min_abs) = (`|a| * mad_normal q s < min_abs) ->
  onestep_scale q psi delta min_abs [seq a * x + b | x : T <- s] =
  `|a| * onestep_scale q psi delta min_abs s.
Proof.
move=> h0 a0 hm; rewrite /onestep_scale mad_normal_affine // -hm.
case: ifP => _; first by rewrite mulr0.
rewrite fmed_affine // [RHS](mulrA `|a|); congr (_ * Num.sqrt (_ * _)).
rewrite /fmean !size_map -map_comp; congr (fsum _ / _); apply: eq_map => x /=.
have -> : (a * x + b - (a * fmed s + b)) = a * (x - fmed s) by ring.
have [ap|an] := ltrP 0 a.
  by rewrite (gtr0_norm ap) -mulf_div divff // mul1r.
rewrite (ler0_norm an) mulNr invrN mulrN -mulf_div divff // mul1r.
by rewrite podd sqrrN.
Qed.
End EquivScale.
End OneStep.
