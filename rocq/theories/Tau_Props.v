(* Property theorems: OneStepWrapping (C24) and Tau (C25). *)
From mathcomp Require Import all_ssreflect all_algebra.
From mathcomp.zify Require Import zify.
From mathcomp.algebra_tactics Require Import ring.
From Verif Require Import RFieldLra Prelude Stats Xnum WMean Qn_Model UMcd_Model UMcd_Proofs.
From Verif Require Import UMcd_Props OneStepM_Proofs Tau_Model Tau_Proofs.

Set Implicit Arguments.
Unset Strict Implicit.
Unset Printing Implicit Defensive.

Import Order.TTheory GRing.Theory Num.Theory.
Local Open Scope ring_scope.

(* C24.  [tanh] is any function that is non-negative on the non-negative numbers. *)
Section Wrapping.
Variable T : rcfType.
Variable tanh : T -> T.
Hypothesis tanh_ge0 : forall u, 0 <= u -> 0 <= tanh u.
Implicit Types (s : seq T).

Theorem wrapping_weights (v : T) :
  exists2 w, tanh_weight tanh (Fin v) = Fin w &
  [/\ 0 <= w, `|v| < 15%:R / 10%:R -> w = 1 & 4%:R < `|v| -> w = 0].
Proof.
exists (fweight tanh v); first exact: tanh_weightE.
by split; [exact: fweight_ge0|exact: fweight_1|exact: fweight_0].
Qed.

Theorem wrapping_location_range (l sg : T) s : 0 < sg ->
  (exists2 x, x \in s & `|(x - l) / sg| < 15%:R / 10%:R) ->
  exists2 m, wrap_location tanh (Fin l) (Fin sg) s = Fin m & fmin s <= m <= fmax s.
Proof. exact: wrap_location_range. Qed.

(* the whole estimator: with a positive MCD variance (and the usual correction
   factors, at least 1) the location is within the data and the scale is that of
   the initial MCD *)
Theorem wrapping_regular craw crew (q : T) s :
  let h := ((size s) %/ 2 + 1)%N in
  let init := umcd craw crew q true h s in
  (h < size s)%N -> 1 <= craw (size s) h -> (forall k n, 1 <= crew k n) -> 1 < q ->
  0 < raw_variance init -> variance init <> Fin 0 ->
  exists m v, [/\ onestep_wrapping tanh craw crew q s = (Fin m, Fin (Num.sqrt v)),
    variance init = Fin v, 0 < v & fmin s <= m <= fmax s].
Proof.
move=> h init hs hcraw hcrew hq hrv hv.
have hh : (0 < h < size s)%N by rewrite hs andbT /h addn1.
have [l [v [el ev _ [S [hS S0 eS evS]]]]] := @umcd_reweighted_finite _ craw crew q true h s hh hcraw hq hrv.
have c1 := hcrew (size S) (size s).
have fv0 := fvar_ge0 S.
have fvp : 0 < fvar S.
  rewrite lt_neqAle fv0 andbT eq_sym; apply/eqP => e; apply: hv; rewrite ev evS e mul0r //.
have vp : fvar S <= v by rewrite evS ler_pemulr.
have v0 : 0 < v by exact: lt_le_trans vp.
have sp : 0 < Num.sqrt v by rewrite sqrtr_gt0.
have [x xS hx] := near_mean S0.
have xs : x \in s by exact: (mem_subseq hS).
have hz : `|(x - l) / Num.sqrt v| < 15%:R / 10%:R.
  apply: (@le_lt_trans _ _ 1); last by rewrite ltr_pdivl_mulr ?ltr0n // mul1r ltr_nat.
  rewrite normrM normfV (gtr0_norm sp) ler_pdivr_mulr // mul1r -sqrtr_sqr eS.
  by apply: ler_wsqrtr; exact: le_trans vp.
have [m em hm] := wrapping_location_range sp (ex_intro2 _ _ x xs hz).
exists m, v; split=> //.
by rewrite /onestep_wrapping -/h -/init el ev /= em.
Qed.

(* exact fits: the location of the wrapping estimator is NaN *)
Theorem wrapping_exact_fit_nan craw crew (q : T) s v :
  (2 < size s)%N -> (size s %/ 2 < count_mem v s)%N ->
  onestep_wrapping tanh craw crew q s = (NaN, NaN).
Proof.
move=> h2 hc; have hh : (size s %/ 2 < size s %/ 2 + 1 < size s)%N.
  by move: (size s) h2 => n; lia.
have hc2 : (size s %/ 2 + 1 <= count_mem v s)%N by rewrite addn1.
rewrite /onestep_wrapping (umcd_exact_fit_nan craw crew q true hh hc2) /=.
congr (_, _); case: s h2 {hc hc2 hh} => [//|x s] _.
exact: (@wrap_location_nan _ tanh NaN NaN _ x (mem_head _ _)).
Qed.

Theorem wrapping_singleton_nan craw crew (q x : T) :
  onestep_wrapping tanh craw crew q [:: x] = (NaN, Fin 0).
Proof.
have e0 : fvar [:: x] = 0.
  by rewrite /fvar /fmean /= !addr0 !divr1 subrr expr0n.
have e1 : fmean [:: x] = x by rewrite /fmean /= addr0 divr1.
rewrite /onestep_wrapping /umcd /= e0 e1 sqrtr0; congr (_, _).
apply: (@wrap_location_nan _ tanh _ _ _ x (mem_head _ _)).
by rewrite /= subrr eqxx /inf_sign ltxx.
Qed.

Example wrapping_range_ex :
  0 < (2%:R : T) /\ (exists2 x, x \in [:: 0; 1; 3%:R; 9%:R] & `|(x - 1) / 2%:R| < 15%:R / 10%:R :> T).
Proof.
split; first by rewrite ltr0n.
exists 1; first by rewrite !inE eqxx orbT.
by rewrite subrr mul0r normr0 divr_gt0 ?ltr0n.
Qed.

Example wrapping_exact_ex (v M : T) : v != M ->
  let s := [:: v; M; v; v; M] in (2 < size s)%N /\ (size s %/ 2 < count_mem v s)%N.
Proof. by move=> h /=; rewrite eqxx (negbTE (_ : M != v)) // eq_sym. Qed.
End Wrapping.
Print Assumptions wrapping_weights.
Print Assumptions wrapping_location_range.
Print Assumptions wrapping_regular.
Print Assumptions wrapping_exact_fit_nan.
Print Assumptions wrapping_singleton_nan.

(* C25 *)
Section TauProps.
Variable T : rcfType.
Variables (c1 c2 : T).
Hypotheses (c1_gt1 : 1 < c1) (c2_gt0 : 0 < c2).
Implicit Types (s : seq T).

Theorem tau_weights_proper s : (0 < size s)%N -> 0 < fmad s ->
  (forall x, 0 <= tau_weight c1 (tau_z s x) <= 1) /\
  0 < fsum [seq tau_weight c1 (tau_z s x) | x <- s].
Proof. by move=> h0 hm; split=> [x|]; [exact: tau_weight_range|exact: tau_wsum_gt0]. Qed.

Theorem tau_bounds s : (0 < size s)%N -> 0 < fmad s ->
  exists l sc, [/\ tau c1 c2 None s = (Fin l, sc), fmin s <= l <= fmax s,
    0 <= sc <= c2 * fmad s
  & forall corr, 0 < corr -> tau c1 c2 (Some corr) s = (Fin l, sc / Num.sqrt corr)].
Proof.
move=> h0 hm.
exists (wmean (fun x => tau_weight c1 (tau_z s x)) s), (tau_raw_scale c1 c2 s); split.
- by rewrite /tau tau_locationE.
- exact: tau_location_between.
- exact: tau_raw_scale_bounds.
- by move=> corr _; rewrite /tau tau_locationE.
Qed.

(* a zero MAD: location NaN, scale zero *)
Theorem tau_zero_mad s corr : fmad s = 0 -> tau c1 c2 corr s = (NaN, 0).
Proof.
by move=> h; have [e1 e2] := tau_mad0 c1 c2 h; rewrite /tau e1 e2; case: corr => // c; rewrite mul0r.
Qed.

Theorem tau_equivariant s a b l sc : (0 < size s)%N -> 0 < fmad s -> a != 0 ->
  tau c1 c2 None s = (Fin l, sc) ->
  tau c1 c2 None [seq a * x + b | x : T <- s] = (Fin (a * l + b), `|a| * sc).
Proof.
move=> h0 hm a0; have hm' : 0 < fmad [seq a * x + b | x : T <- s].
  by rewrite fmad_affine // mulr_gt0 ?normr_gt0.
rewrite /tau !tau_locationE ?size_map // => -[<- <-].
by rewrite tau_location_affine // tau_scale_affine.
Qed.

Example tau_ex : let s : seq T := [:: 0; 1; 2%:R] in (0 < size s)%N /\ 0 < fmad s.
Proof.
split=> //.
have hs : fsort [:: 0; 1; 2%:R : T] = [:: 0; 1; 2%:R].
  by apply: (sorted_sort le_trans); rewrite /= ler01 (ler_nat T 1).
have hm : fmed [:: 0; 1; 2%:R : T] = 1.
  by rewrite /fmed hs /= -[1 + 1]/(2%:R) divff ?pnatr_eq0.
have h2 : 2%:R - 1 = 1 :> T by ring.
rewrite /fmad hm /= sub0r subrr h2 normrN1 normr1 normr0.
rewrite (fmed_perm (_ : perm_eq _ [:: 0; 1; 1])); last by rewrite (perm_catC [:: 1] [:: 0; 1]).
have hs2 : fsort [:: 0; 1; 1 : T] = [:: 0; 1; 1].
  by apply: (sorted_sort le_trans); rewrite /= ler01 lexx.
by rewrite /fmed hs2 /= -[1 + 1]/(2%:R) divff ?pnatr_eq0 ?ltr01.
Qed.
End TauProps.
Print Assumptions tau_weights_proper.
Print Assumptions tau_bounds.
Print Assumptions tau_zero_mad.
Print Assumptions tau_equivariant.
