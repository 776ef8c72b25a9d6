(* Properties of the OGK estimator: positive semidefiniteness, equivariance, reweighting, and
   agreement with the classical estimators. *)
From mathcomp Require Import all_ssreflect all_algebra.
From mathcomp.zify Require Import zify.
From mathcomp.algebra_tactics Require Import ring.
From Verif Require Import RFieldLra Prelude Stats Xnum Qn_Model Regr Vec PSD.
From Verif Require Import LinAlg_Model LinAlg_Proofs MCD_Model MCD_Spec MCD_Proofs MCDRun_Proofs.
From Verif Require Import MCDCase_Proofs OGK_Model OGK_Spec OGK_Proofs Eig2_Proofs.

Set Implicit Arguments.
Unset Strict Implicit.
Unset Printing Implicit Defensive.

Import Order.TTheory GRing.Theory Num.Theory.
Local Open Scope ring_scope.

Section Props.
Variables (T : rcfType) (p : nat) (scale_est loc_est : seq T -> T) (eigvecs : 'M[T]_p -> 'M[T]_p).
Variable chi2_ppf : T -> nat -> T.
Implicit Types (X Z : seq 'rV[T]_p) (mc : 'rV[T]_p * 'M[T]_p).

(* C67: whatever the estimators and the eigenvector matrices, the covariance is symmetric and
   positive semidefinite, with and without reweighting *)
Theorem ogk_covariance_psd k rw beta X mc :
  ogk scale_est loc_est eigvecs chi2_ppf k rw beta X = Ok mc ->
  mc.2^T = mc.2 /\ forall x : 'rV[T]_p, 0 <= (x *m mc.2 *m x^T) 0 0.
Proof.
rewrite /ogk ogk_rawE; case e: ogk_rec => [mc'| |] //=; case: rw => [|[<-]]; last exact: ogk_rec_psd e.
case: ogk_mask => [m| |] //=; case: ifP => // _ [<-]; exact: psd_cov.
Qed.

(* C67: it is positive definite when the scales of the last transformed data do not vanish and
   the eigenvector matrices are invertible *)
Theorem ogk_covariance_posdef k X DE Z mc :
  (forall U : 'M[T]_p, U^T = U -> eigvecs U \in unitmx) ->
  ogk_loop scale_est eigvecs k [::] X = Ok (DE, Z) -> (forall j, scale_est (coln Z j) != 0) ->
  ogk_raw scale_est loc_est eigvecs k X = Ok mc ->
  forall x : 'rV[T]_p, x != 0 -> 0 < (x *m mc.2 *m x^T) 0 0.
Proof.
move=> hE eL hs; rewrite ogk_rawE => e; apply: psd_unit_posdef; first exact: ogk_rec_psd e.
by apply: (ogk_rec_unit hE _ e hs); rewrite -(ogk_ZE _ _ _ [::]) eL.
Qed.

(* C67: a variable of scale zero is rejected *)
Theorem ogk_zero_scale_rejected k rw beta X j : scale_est [seq x 0 j | x : 'rV[T]_p <- X] = 0 ->
  ogk scale_est loc_est eigvecs chi2_ppf k.+1 rw beta X = Err LinAlgError.
Proof.
move=> h; rewrite /ogk /ogk_raw /= /ogk_step /ogk_degenerate.
by have -> : [exists j0, ogk_scales scale_est X 0 j0 == 0] by apply/existsP; exists j; rewrite mxE; apply/eqP.
Qed.

(* C100: a shift and a positive rescaling of every variable carry over to location and
   covariance, and do not change whether the method fails *)
Theorem ogk_rescaling_equivariant k rw beta (c b : 'rV[T]_p) X :
  scale_equivariant scale_est -> location_equivariant loc_est -> orthonormal_eigvecs eigvecs ->
  (0 < size X)%N -> (forall j, 0 < c 0 j) ->
  ogk scale_est loc_est eigvecs chi2_ppf k rw beta (rescaled c b X)
  = rmap (rescaled_est c b) (ogk scale_est loc_est eigvecs chi2_ppf k rw beta X).
Proof. by move=> *; exact: ogk_aff. Qed.

(* C101: with a cutoff factor above one and a positive median distance, reweighting keeps at
   least half of the rows; with a factor of at most one it keeps at most half of them; with
   median distance zero it keeps none and the fit fails *)
Theorem ogk_reweighting_count beta X mc m : psd mc.2 -> mc.2 \in unitmx ->
  ogk_mask chi2_ppf beta X mc = Ok m ->
  let f := Num.sqrt (chi2_ppf beta p / chi2_ppf (1 / 2%:R) p) in
  let med := fmed [seq Num.sqrt (maha2 mc.2 mc.1 x) | x <- X] in
  [/\ 1 < f -> 0 < med -> (size X <= 2 * count id m)%N,
      f <= 1 -> (2 * count id m <= size X)%N
    & med = 0 -> count id m = 0%N].
Proof.
move=> ps us em f med; have hm : med = fmed (dists X mc).
  by congr fmed; apply: eq_map => x; rewrite maha2E.
by rewrite hm; split=> [h1 h2|h1|h1]; [exact: mask_half em|exact: mask_few em|exact: mask_none em].
Qed.

Theorem ogk_zero_median_fails k beta X mc : ogk_raw scale_est loc_est eigvecs k X = Ok mc ->
  mc.2 \in unitmx -> fmed [seq Num.sqrt (maha2 mc.2 mc.1 x) | x <- X] = 0 ->
  ogk scale_est loc_est eigvecs chi2_ppf k true beta X = Err ValueError.
Proof.
move=> e us hm; have ps : psd mc.2 by move: e; rewrite ogk_rawE; exact: ogk_rec_psd.
rewrite /ogk e /=; case em: ogk_mask => [m| |] /=.
- by have [_ _ /(_ hm) ->] := ogk_reweighting_count ps us em.
- by move: em; rewrite maskE.
- by move: em; rewrite maskE.
Qed.

(* C101: the reweighted estimates are the mean and the covariance of the rows closer than the
   cutoff *)
Theorem ogk_reweighted_estimates k beta X mc mc' : ogk_raw scale_est loc_est eigvecs k X = Ok mc ->
  mc.2 \in unitmx -> ogk scale_est loc_est eigvecs chi2_ppf k true beta X = Ok mc' ->
  let D x := Num.sqrt (maha2 mc.2 mc.1 x) in
  let keep := [seq x <- X | D x < Num.sqrt (chi2_ppf beta p / chi2_ppf (1 / 2%:R) p) * fmed (map D X)] in
  is_mean keep mc'.1 /\ is_cov keep mc'.2.
Proof.
move=> e us; have ps : psd mc.2 by move: e; rewrite ogk_rawE; exact: ogk_rec_psd.
move=> er D keep; move: er.
rewrite /ogk e /= maskE //=; case: ifP => // /negbT; rewrite -leqNgt => h2 [<-] /=.
have eD : dists X mc = map D X by apply: eq_map => x; rewrite /D maha2E.
rewrite eD -map_comp in h2 *; set f := _ \o _ in h2 *.
have -> : mask (map f X) X = keep by rewrite -filter_mask.
have s2 : (1 < size keep)%N by rewrite /keep size_filter; move: h2; rewrite count_map.
by split; [apply: is_mean_vmean; exact: ltnW|apply: is_cov_cov].
Qed.

(* C102: with the standard deviation as scale, the mean as location and a correct
   eigen-decomposition, OGK is the classical mean and covariance *)
Theorem ogk_of_classical_estimators k X :
  is_std scale_est -> is_average loc_est -> correct_eigvecs eigvecs ->
  (1 < size X)%N -> cov X \in unitmx ->
  exists mc, [/\ ogk_raw scale_est loc_est eigvecs k.+1 X = Ok mc, is_mean X mc.1 & is_cov X mc.2].
Proof.
move=> hs hl hd X1 uX; exists (vmean X, cov X); rewrite ogk_rawE rec_classical //; last by left.
by split=> //; [apply: is_mean_vmean; exact: ltnW|apply: is_cov_cov].
Qed.

End Props.

Section Cases.
Variable T : rcfType.

(* the standard deviation and the mean *)
Definition std (xs : seq T) : T :=
  Num.sqrt ((\sum_(x <- xs) (x - (\sum_(y <- xs) y) / (size xs)%:R) ^+ 2) / ((size xs).-1)%:R).
Definition avg (xs : seq T) : T := (\sum_(y <- xs) y) / (size xs)%:R.

Lemma std_is_std : is_std std.
Proof.
move=> xs m h1 hm; have n0 : (size xs)%:R != 0 :> T by rewrite pnatr_eq0; case: (xs) h1.
have n1 : ((size xs).-1)%:R != 0 :> T by rewrite pnatr_eq0; case: (xs) h1 => [|? []].
have -> : m = (\sum_(y <- xs) y) / (size xs)%:R by rewrite -hm mulrC mulKf.
rewrite sqr_sqrtr; first by rewrite mulrC divfK.
by rewrite divr_ge0 ?ler0n // sumr_ge0 // => x _; exact: sqr_ge0.
Qed.

Lemma avg_is_average : is_average avg.
Proof. by move=> xs h; rewrite /avg mulrC divfK // pnatr_eq0 -lt0n. Qed.

Definition triangle : seq 'rV[T]_2 := [:: r2 ((0 : T), 0); r2 ((1 : T), 0); r2 ((0 : T), 1)].

Lemma triangle_unit : cov triangle \in unitmx.
Proof.
rewrite unitmxE unitfE det_cov3 /=; apply/eqP => h.
have : (0 : T) < 0; last by rewrite ltxx.
by rewrite -{2}h; flra.
Qed.

Lemma eig2_correct : correct_eigvecs (@eig2 T).
Proof. exact: eig2P. Qed.

Lemma triangle_raw k : ogk_raw std avg (@eig2 T) k.+1 triangle = Ok (vmean triangle, cov triangle).
Proof.
have [mc [-> /is_meanE h1 /is_covE h2]] := @ogk_of_classical_estimators T 2 std avg (@eig2 T) k triangle
  std_is_std avg_is_average eig2_correct isT triangle_unit.
by case: mc h1 h2 => a b /= -> ->.
Qed.

(* the hypotheses of the classical case are met and two iterations recover the covariance *)
Example ogk_classical_case (chi2_ppf : T -> nat -> T) beta :
  ogk std avg (@eig2 T) chi2_ppf 2 false beta triangle = Ok (vmean triangle, cov triangle)
  /\ (forall x : 'rV[T]_2, x != 0 -> 0 < (x *m cov triangle *m x^T) 0 0)
  /\ cov triangle 0 1 = - (1 / 6%:R).
Proof.
split; first by rewrite /ogk triangle_raw.
split; first exact: (psd_unit_posdef (psd_cov _) triangle_unit).
have n0 : 2%:R != 0 :> T by rewrite pnatr_eq0.
apply: (mulfI n0); have -> : 2%:R = ((size triangle).-1)%:R :> T by [].
rewrite cov_entry // /vmean !big_cons !big_nil !mxE /=.
by field; rewrite ?pnatr_eq0.
Qed.

Lemma std_equivariant : scale_equivariant std.
Proof.
move=> a b xs h a0; rewrite /std size_map !big_map.
have n0 : (size xs)%:R != 0 :> T by rewrite pnatr_eq0 -lt0n.
have -> : \sum_(x <- xs) (a * x + b) = a * (\sum_(x <- xs) x) + (size xs)%:R * b.
  rewrite big_split /= -mulr_sumr big_const_seq count_predT iter_addr_0; congr (_ + _).
  by rewrite mulr_natl.
set m := \sum_(x <- xs) x.
have -> : \sum_(j <- xs) (a * j + b - (a * m + (size xs)%:R * b) / (size xs)%:R) ^+ 2
   = a ^+ 2 * \sum_(j <- xs) (j - m / (size xs)%:R) ^+ 2.
  rewrite mulr_sumr; apply: eq_bigr => x _; rewrite -exprMn; congr (_ ^+ 2).
  by move: (size xs)%:R n0 => n n0; field.
rewrite -mulrA sqrtrM ?sqr_ge0 // sqrtr_sqr gtr0_norm //.
Qed.

Lemma avg_equivariant : location_equivariant avg.
Proof.
move=> a b xs h a0; rewrite /avg size_map !big_map.
have n0 : (size xs)%:R != 0 :> T by rewrite pnatr_eq0 -lt0n.
rewrite big_split /= -mulr_sumr big_const_seq count_predT iter_addr_0.
by rewrite mulrDl -mulrA; congr (_ + _); rewrite -[b *+ _]mulr_natr mulfK.
Qed.

Lemma eig2_orthonormal : orthonormal_eigvecs (@eig2 T).
Proof. by move=> U /eig2P []. Qed.

(* a rescaled triangle, with the classical and with the default estimators *)
Example ogk_rescaled_case (chi2_ppf : T -> nat -> T) beta :
  let c := r2 ((2%:R : T), 3%:R) in let b := r2 ((5%:R : T), 7%:R) in
  ogk std avg (@eig2 T) chi2_ppf 2 false beta (rescaled c b triangle)
    = Ok (rescaled_est c b (vmean triangle, cov triangle)) /\
  forall k rw, ogk (@fmad T) (@fmed T) (@eig2 T) chi2_ppf k rw beta (rescaled c b triangle)
    = rmap (rescaled_est c b) (ogk (@fmad T) (@fmed T) (@eig2 T) chi2_ppf k rw beta triangle).
Proof.
move=> c b; have c0 j : 0 < c 0 j by rewrite mxE; case: ifP => _; rewrite ltr0n.
split=> [|k rw].
  rewrite (ogk_rescaling_equivariant _ _ _ _ _ std_equivariant avg_equivariant eig2_orthonormal) //.
  by rewrite /ogk triangle_raw.
exact: (ogk_rescaling_equivariant _ _ _ _ _ (@mad_equivariant T) (@med_equivariant T) eig2_orthonormal).
Qed.

(* a constant variable *)
Example ogk_constant_variable_case (chi2_ppf : T -> nat -> T) rw beta :
  ogk (@fmad T) (@fmed T) (@eig2 T) chi2_ppf 2 rw beta
    [:: r2 ((1 : T), 5%:R); r2 ((2%:R : T), 5%:R); r2 ((4%:R : T), 5%:R)] = Err LinAlgError.
Proof.
apply: (ogk_zero_scale_rejected _ _ _ _ _ _ (j := 1)).
have -> : [seq x 0 1 | x : 'rV[T]_2 <- [:: r2 ((1 : T), 5%:R); r2 ((2%:R : T), 5%:R); r2 ((4%:R : T), 5%:R)]]
   = [seq 0 * x + 5%:R | x : T <- [:: 0; 0; 0]] by rewrite /= !mxE /= !mul0r !add0r.
by rewrite fmad_affine // normr0 mul0r.
Qed.

(* the three corners of the triangle are equally far from its mean *)
Lemma triangle_dist x : x \in triangle -> maha2 (cov triangle) (vmean triangle) x = 4%:R / 3%:R.
Proof.
have c01 := cov2 (L := [:: ((0 : T), 0); (1, 0); (0, 1)]).
have [m0 m1] := vm2 (L := [:: ((0 : T), 0); (1, 0); (0, 1)]) isT.
have n3 : 3%:R != 0 :> T by rewrite pnatr_eq0.
have n2 : 2%:R != 0 :> T by rewrite pnatr_eq0.
have cE : cov triangle = mx2 (1 / 3%:R) (- (1 / 6%:R)) (- (1 / 6%:R)) (1 / 3%:R).
  by apply: mx2P; rewrite c01 // ?m0 ?m1 !big_cons !big_nil !mxE /=; field; rewrite ?n2 ?n3.
have iE : invmx (cov triangle) = mx2 4%:R 2%:R 2%:R 4%:R.
  symmetry; apply: (proj2 (invmx_unique _)); rewrite cE mx2M -mx2_1.
  by congr mx2; field; rewrite ?n2 ?n3.
have hx (y : 'rV[T]_2) : maha2 (cov triangle) (vmean triangle) y
  = 4%:R * ((y 0 0 - 1 / 3%:R) ^+ 2 + (y 0 0 - 1 / 3%:R) * (y 0 1 - 1 / 3%:R) + (y 0 1 - 1 / 3%:R) ^+ 2).
  rewrite /maha2 iE.
  have -> : vmean triangle = r2 (1 / 3%:R, 1 / 3%:R).
    apply/rowP => j; rewrite [RHS]mxE; case: (ord2 j) => ->; rewrite ?m0 ?m1 /=;
      rewrite !big_cons !big_nil /=; by field; rewrite ?n3.
  rewrite mxE !big_ord_recl big_ord0 !mxE !big_ord_recl !big_ord0 !mxE /=.
  have -> : lift ord0 ord0 = 1 :> 'I_2 by apply: val_inj.
  rewrite /= -[y 0 ord0]/(y 0 0); move: (y 0 0) (y 0 1) (1 / 3%:R) => u v w; by ring.
rewrite !inE => /or3P[]/eqP->; rewrite hx !mxE /=; by field; rewrite ?n3.
Qed.

(* cutoff factor two: the whole triangle is kept; factor one: nothing is kept *)
Example ogk_reweighting_case (beta : T) : beta != 1 / 2%:R ->
  (exists2 m, ogk_mask (fun q _ => if q == 1 / 2%:R then 1 else 4%:R) beta triangle
    (vmean triangle, cov triangle) = Ok m & (1 < count id m)%N) /\
  (exists2 m, ogk_mask (fun _ _ => 1) beta triangle (vmean triangle, cov triangle) = Ok m
    & (count id m <= 1)%N).
Proof.
move=> b0; have ps : psd (vmean triangle, cov triangle).2 := psd_cov triangle.
have us : (vmean triangle, cov triangle).2 \in unitmx := triangle_unit.
have f0 : 0 < fmed [seq Num.sqrt (maha2 (cov triangle) (vmean triangle) x) | x <- triangle].
  have q0 : 0 < Num.sqrt (4%:R / 3%:R : T) by rewrite sqrtr_gt0 divr_gt0 ?ltr0n.
  have hb x : x \in [seq Num.sqrt (maha2 (cov triangle) (vmean triangle) x) | x <- triangle] ->
    Num.sqrt (4%:R / 3%:R) <= x <= Num.sqrt (4%:R / 3%:R).
    by move=> /mapP[y hy ->]; rewrite triangle_dist // lexx.
  by have /andP[h _] := fmed_between (erefl _ : 0 < size [seq Num.sqrt (maha2 (cov triangle) (vmean triangle) x) | x <- triangle])%N hb; exact: lt_le_trans h.
split; (case em: ogk_mask => [m| |]; [exists m => //|by move: em; rewrite maskE|by move: em; rewrite maskE]).
- have [h _ _] := ogk_reweighting_count ps us em.
  have : (3 <= 2 * count id m)%N; last by lia.
  apply: h f0; rewrite (negbTE b0) eqxx divr1.
  rewrite (_ : 4%:R = 2%:R ^+ 2); last by rewrite -natrX.
  by rewrite sqrtr_sqr ger0_norm ?ler0n // ltr1n.
- have [_ h _] := ogk_reweighting_count ps us em.
  have : (2 * count id m <= 3)%N; last by lia.
  by apply: h; rewrite divr1 sqrtr1.
Qed.

(* five of nine rows at the mean: the median distance vanishes and reweighting fails *)
Definition cross : seq (T * T) :=
  [:: (0, 0); (0, 0); (0, 0); (0, 0); (0, 0); (1, 0); (- 1, 0); (0, 1); (0, - 1)].

Example ogk_zero_median_case (chi2_ppf : T -> nat -> T) beta :
  ogk std avg (@eig2 T) chi2_ppf 1 true beta (map (@r2 T) cross) = Err ValueError.
Proof.
have [m0 m1] := vm2 (L := cross) isT.
have c01 := cov2 (L := cross).
have n4 : 4%:R != 0 :> T by rewrite pnatr_eq0.
have n8 : 8%:R != 0 :> T by rewrite pnatr_eq0.
have z0 : (\sum_(q <- cross) q.1) / (size cross)%:R = 0 by rewrite !big_cons big_nil /= !(add0r, addr0) subrr mul0r.
have z1 : (\sum_(q <- cross) q.2) / (size cross)%:R = 0 by rewrite !big_cons big_nil /= !(add0r, addr0) subrr mul0r.
have cE : cov (map (@r2 T) cross) = mx2 (1 / 4%:R) 0 0 (1 / 4%:R).
  by apply: mx2P; rewrite c01 // ?m0 ?m1 ?z0 ?z1 !big_cons big_nil !mxE /=; field; rewrite ?n4 ?n8.
have uE : cov (map (@r2 T) cross) \in unitmx.
  have e1 : mx2 (1 / 4%:R) 0 0 (1 / 4%:R) *m mx2 4%:R 0 0 4%:R = 1%:M :> 'M[T]_2.
    by rewrite mx2M -mx2_1; congr mx2; field.
  by rewrite cE; have [] := mulmx1_unit e1.
have [mc [e /is_meanE h1 /is_covE h2]] := @ogk_of_classical_estimators T 2 std avg (@eig2 T) 0 (map (@r2 T) cross)
  std_is_std avg_is_average eig2_correct isT uE.
apply: (ogk_zero_median_fails _ _ e); first by rewrite h2.
have mz : mc.1 = r2 ((0 : T), 0).
  rewrite h1; apply/rowP => j; rewrite [RHS]mxE; case: (ord2 j) => ->; by rewrite ?m0 ?m1 ?z0 ?z1.
have d0 : Num.sqrt (maha2 mc.2 mc.1 (r2 ((0 : T), 0))) = 0.
  by rewrite mz /maha2 subrr trmx0 mulmx0 mxE sqrtr0.
have /andP[hl hr] : 0 <= fmed [seq Num.sqrt (maha2 mc.2 mc.1 x) | x <- map (@r2 T) cross] <= 0.
  apply: fmed_majority; first by [].
  by rewrite /= d0 lexx /=; lia.
by apply/eqP; rewrite eq_le hr hl.
Qed.

End Cases.

Print Assumptions ogk_covariance_psd.
Print Assumptions ogk_covariance_posdef.
Print Assumptions ogk_zero_scale_rejected.
Print Assumptions ogk_rescaling_equivariant.
Print Assumptions ogk_reweighting_count.
Print Assumptions ogk_zero_median_fails.
Print Assumptions ogk_reweighted_estimates.
Print Assumptions ogk_of_classical_estimators.
