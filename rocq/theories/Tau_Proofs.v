(* Proofs about the tau estimator and OneStepWrapping. *)
From mathcomp Require Import all_ssreflect all_algebra.
From mathcomp.zify Require Import zify.
From mathcomp.algebra_tactics Require Import ring.
From Verif Require Import RFieldLra Prelude Stats Xnum WMean Qn_Model UMcd_Model UMcd_Proofs.
From Verif Require Import OneStepM_Proofs Tau_Model UMcd_Props.

Set Implicit Arguments.
Unset Strict Implicit.
Unset Printing Implicit Defensive.

Import Order.TTheory GRing.Theory Num.Theory.
Local Open Scope ring_scope.

Section Tau.
Variable T : rcfType.
Variables (c1 : T).
Hypotheses (c1_gt1 : 1 < c1).
Implicit Types (s : seq T) (x : T).

Let c1_gt0 : 0 < c1. Proof. by have := c1_gt1; flra. Qed.

Lemma tau_weight_range z : 0 <= tau_weight c1 z <= 1.
Proof.
rewrite /tau_weight; case: z => [v||| ]; rewrite ?lexx ?ler01 //.
case: ifP => h; last by rewrite lexx ler01.
rewrite sqr_ge0 /=.
have hv : (v / c1) ^+ 2 <= 1.
  rewrite -sqr_normr normrM normfV (gtr0_norm c1_gt0) expr_le1 //; last by rewrite divr_ge0 ?normr_ge0 ?ltW.
  by rewrite ler_pdivr_mulr // mul1r.
have h0 : 0 <= (v / c1) ^+ 2 by exact: sqr_ge0.
by rewrite expr_le1 //; flra.
Qed.

Lemma tau_weight_pos v : `|v| <= 1 -> 0 < tau_weight c1 (Fin v).
Proof.
move=> h; rewrite /tau_weight ifT; last by flra.
rewrite lt_neqAle sqr_ge0 andbT eq_sym sqrf_eq0 gt_eqF // subr_gt0.
rewrite -sqr_normr normrM normfV (gtr0_norm c1_gt0) expr_lt1 //; last by rewrite divr_ge0 ?normr_ge0 ?ltW.
by rewrite ltr_pdivr_mulr // mul1r; flra.
Qed.

Variables (c2 : T).
Hypotheses (c2_gt0 : 0 < c2).

Lemma tau_rho_range z : 0 <= tau_rho c2 z <= c2 ^+ 2.
Proof.
rewrite /tau_rho; case: z => [v||| ]; rewrite ?lexx ?sqr_ge0 //.
by case: ifP => h; rewrite ?lexx ?sqr_ge0 ?h.
Qed.

Let w s x := tau_weight c1 (tau_z s x).

Lemma tau_wsum_gt0 s : (0 < size s)%N -> 0 < fmad s -> 0 < wsum (w s) s.
Proof.
move=> h0 hm; have [x xs hx] := within_mad h0.
apply: (wsum_gt0 _ xs); first by move=> y _; have /andP[] := tau_weight_range (tau_z s y).
rewrite /w /tau_z /= (gt_eqF hm); apply: tau_weight_pos.
by rewrite normrM normfV (gtr0_norm hm) ler_pdivr_mulr // mul1r.
Qed.

Lemma tau_locationE s : (0 < size s)%N -> 0 < fmad s ->
  tau_location c1 s = Fin (wmean (w s) s).
Proof.
move=> h0 hm; rewrite /tau_location /= (gt_eqF (tau_wsum_gt0 h0 hm)) /wmean; congr Fin.
by congr (_ / _); congr fsum; apply: eq_map => x; rewrite mulrC.
Qed.

Lemma tau_location_between s : (0 < size s)%N -> 0 < fmad s ->
  fmin s <= wmean (w s) s <= fmax s.
Proof.
move=> h0 hm; apply: wmean_between (tau_wsum_gt0 h0 hm) _.
  by move=> y _; have /andP[] := tau_weight_range (tau_z s y).
by move=> x xs _; rewrite fmin_le ?fmax_ge.
Qed.

Lemma tau_raw_scale_bounds s : (0 < size s)%N ->
  0 <= tau_raw_scale c1 c2 s <= c2 * fmad s.
Proof.
move=> h0; rewrite /tau_raw_scale; set f := fun x => _.
have n0 : 0 < (size s)%:R :> T by rewrite ltr0n.
rewrite mulr_ge0 ?fmad_ge0 ?sqrtr_ge0 //= mulrC; apply: ler_wpmul2r; first exact: fmad_ge0.
rewrite -[X in _ <= X](gtr0_norm c2_gt0) -sqrtr_sqr; apply: ler_wsqrtr.
rewrite mul1r ler_pdivr_mull // [X in _ <= X]mulrC -fsum_map_const.
  by apply: fsum_map_le => x _; have /andP[] := tau_rho_range (xdiv (xsub (Fin x) (tau_location c1 s)) (Fin (fmad s))).
Qed.

(* MAD = 0 *)
Lemma tau_z_mad0 s x : fmad s = 0 -> forall v, tau_z s x <> Fin v.
Proof. by move=> h v; rewrite /tau_z h /= eqxx /inf_sign; case: ifP => //; case: ifP. Qed.

Lemma tau_mad0 s : fmad s = 0 -> tau_location c1 s = NaN /\ tau_raw_scale c1 c2 s = 0.
Proof.
move=> h; split; last by rewrite /tau_raw_scale h mul0r.
have hw x : tau_weight c1 (tau_z s x) = 0.
  by have := tau_z_mad0 (x := x) h; case: (tau_z s x) => // v /(_ v).
rewrite /tau_location.
have -> : fsum [seq x * tau_weight c1 (tau_z s x) | x <- s] = 0.
  by elim: (s in map _ s) => //= x l ->; rewrite hw mulr0 addr0.
have -> : fsum [seq tau_weight c1 (tau_z s x) | x <- s] = 0.
  by elim: (s in map _ s) => //= x l ->; rewrite hw addr0.
by rewrite /= eqxx /inf_sign !ltxx.
Qed.

(* equivariance *)
Lemma tau_location_affine s a b : (0 < size s)%N -> 0 < fmad s -> a != 0 ->
  wmean (w [seq a * x + b | x : T <- s]) [seq a * x + b | x : T <- s] = a * wmean (w s) s + b.
Proof.
move=> h0 hm a0; set t := [seq _ | x <- s].
have e : (fun x => w t (a * x + b)) =1 w s.
  move=> x; rewrite /w /tau_z /t fmed_affine // fmad_affine //=.
  rewrite mulf_eq0 normr_eq0 (negbTE a0) (gt_eqF hm) /=.
  have -> : (a * x + b - (a * fmed s + b)) = a * (x - fmed s) by ring.
  have [ap|an] := ltrP 0 a.
    by rewrite (gtr0_norm ap) -mulf_div divff // mul1r.
  rewrite (ler0_norm an) mulNr invrN mulrN -mulf_div divff // mul1r.
  by rewrite /tau_weight normrN mulNr sqrrN.
rewrite {2}/t wmean_affine; last first.
  rewrite (@eq_wsum _ _ (w s)); last by move=> x _; exact: e.
  by rewrite gt_eqF //; exact: tau_wsum_gt0.
by congr (_ * _ + _); apply: eq_wmean => x _; exact: e.
Qed.

Lemma tau_scale_affine s a b : (0 < size s)%N -> 0 < fmad s -> a != 0 ->
  tau_raw_scale c1 c2 [seq a * x + b | x : T <- s] = `|a| * tau_raw_scale c1 c2 s.
Proof.
move=> h0 hm a0; have an0 : 0 < `|a| by rewrite normr_gt0.
have hm' : 0 < fmad [seq a * x + b | x : T <- s] by rewrite fmad_affine // mulr_gt0.
rewrite /tau_raw_scale !tau_locationE ?size_map // tau_location_affine //.
rewrite fmad_affine // [RHS]mulrA; congr (_ * Num.sqrt (_ * fsum _)).
rewrite -map_comp; apply: eq_map => x /=.
rewrite mulf_eq0 normr_eq0 (negbTE a0) (gt_eqF hm) /=.
have -> : (a * x + b - (a * wmean (w s) s + b)) / (`|a| * fmad s)
        = a / `|a| * ((x - wmean (w s) s) / fmad s).
  by rewrite mulf_div; congr (_ / _); ring.
have e (v : T) : (a / `|a| * v) ^+ 2 = v ^+ 2.
  by rewrite exprMn expr_div_n sqr_normr divff ?mul1r // expf_neq0.
by rewrite /tau_rho e.
Qed.
End Tau.

Section Wrap.
Variable T : rcfType.
Variable tanh : T -> T.
Hypothesis tanh_ge0 : forall u, 0 <= u -> 0 <= tanh u.
Implicit Types (s : seq T) (x : T).

Lemma wrap_b_gt0 : 0 < wrap_b T. Proof. exact: dec_gt0. Qed.
Lemma wrap_A_gt0 : 0 < wrap_A T. Proof. by rewrite addr_gt0 ?dec_gt0. Qed.

Definition fweight (v : T) : T := if tanh_weight tanh (Fin v) is Fin u then u else 0.

Lemma tanh_weightE v : tanh_weight tanh (Fin v) = Fin (fweight v).
Proof. by rewrite /fweight /=; case: ifP => // _; case: ifP. Qed.

Lemma fweight_ge0 v : 0 <= fweight v.
Proof.
rewrite /fweight /=; case: (ltrP `|v| _) => [_|h1]; first exact: ler01.
case: (ltrP _ `|v|) => h2; first exact: lexx.
have hv : 0 < `|v| by apply: lt_le_trans wrap_b_gt0 h1.
rewrite divr_ge0 ?normr_ge0 // mulr_ge0 ?sqrtr_ge0 //; apply: tanh_ge0.
by rewrite mulr_ge0 ?subr_ge0 // mulr_ge0 ?sqrtr_ge0 // invr_ge0 ler0n.
Qed.

Lemma fweight_1 v : `|v| < wrap_b T -> fweight v = 1.
Proof. by rewrite /fweight /= => ->. Qed.

Lemma fweight_0 v : 4%:R < `|v| -> fweight v = 0.
Proof.
move=> h; rewrite /fweight /= /wrap_c h; case: (ltrP `|v| _) => // h1.
have hb : wrap_b T <= 4%:R by rewrite /wrap_b /dec ler_pdivr_mulr ?ltr0n // -natrM ler_nat.
by exfalso; flra.
Qed.

Lemma wrap_location_fin (l sg : T) s : 0 < sg ->
  let w x := fweight ((x - l) / sg) in
  wsum w s != 0 -> wrap_location tanh (Fin l) (Fin sg) s = Fin (wmean w s).
Proof.
move=> sg0 w W; rewrite /wrap_location.
have e x : tanh_weight tanh (xdiv (xsub (Fin x) (Fin l)) (Fin sg)) = Fin (w x).
  by rewrite /= (gt_eqF sg0) -tanh_weightE.
have hx (f : T -> T) : xsum [seq Fin (f x) | x <- s] = Fin (fsum [seq f x | x <- s]).
  by rewrite -xsum_fin -map_comp.
have -> : [seq xmul (tanh_weight tanh (xdiv (xsub (Fin x) (Fin l)) (Fin sg))) (Fin x) | x : T <- s]
        = [seq Fin (w x * x) | x : T <- s] by apply: eq_map => x; rewrite e.
have -> : [seq tanh_weight tanh (xdiv (xsub (Fin x) (Fin l)) (Fin sg)) | x : T <- s]
        = [seq Fin (w x) | x : T <- s] by apply: eq_map => x; rewrite e.
by rewrite !hx /= -/(wsum w s) (negbTE W).
Qed.

Lemma wrap_location_range (l sg : T) s : 0 < sg -> (exists2 x, x \in s & `|(x - l) / sg| < wrap_b T) ->
  exists2 m, wrap_location tanh (Fin l) (Fin sg) s = Fin m & fmin s <= m <= fmax s.
Proof.
move=> sg0 [x xs hx]; set w := fun x => fweight ((x - l) / sg).
have w0 y : y \in s -> 0 <= w y by move=> _; exact: fweight_ge0.
have W : 0 < wsum w s by apply: (wsum_gt0 w0 xs); rewrite /w fweight_1 ?ltr01.
exists (wmean w s); first by apply: wrap_location_fin => //; rewrite gt_eqF.
by apply: wmean_between w0 W _ => y ys _; rewrite fmin_le ?fmax_ge.
Qed.

Lemma has_nan_map (f : T -> xnum T) s x : x \in s -> f x = NaN -> xsum [seq f x | x <- s] = NaN.
Proof.
by move=> xs e; apply: xsum_nan; rewrite has_map; apply/hasP; exists x => //=; rewrite e.
Qed.

(* an initial scale of zero, with an observation at the initial location, or an
   initial estimate that is NaN *)
Lemma wrap_location_nan loc0 sc0 s x : x \in s ->
  xdiv (xsub (Fin x) loc0) sc0 = NaN -> wrap_location tanh loc0 sc0 s = NaN.
Proof.
move=> xs e; rewrite /wrap_location.
by rewrite (@has_nan_map (fun y => xmul (tanh_weight tanh (xdiv (xsub (Fin y) loc0) sc0)) (Fin y)) s x) //= e.
Qed.

(* some element of a non-empty list is within one standard deviation of the mean *)
Lemma near_mean s : (0 < size s)%N -> exists2 x, x \in s & (x - fmean s) ^+ 2 <= fvar s.
Proof.
move=> h0; case: (boolP (has (fun x => (x - fmean s) ^+ 2 <= fvar s) s)) => [/hasP[x xs hx]|].
  by exists x.
rewrite -all_predC => /allP h; exfalso.
set v := fvar s in h; have n0 : 0 < (size s)%:R :> T by rewrite ltr0n.
have h2 : v * (size s)%:R < fsum [seq (x - fmean s) ^+ 2 | x : T <- s].
  rewrite -fsum_map_const; move: (fmean s) v h => m v h; case: s h0 n0 h => //= x s _ _ h.
  have hx : v < (x - m) ^+ 2 by have := h x (mem_head _ _); rewrite /= -ltNge.
  rewrite ltr_le_add //; apply: fsum_map_le => y ys; apply: ltW.
  by have := h y; rewrite inE ys orbT => /(_ isT); rewrite /= -ltNge.
by move: h2; rewrite -fvarM // -/v ltxx.
Qed.
End Wrap.
