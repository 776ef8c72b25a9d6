(* Positive semidefinite matrices over a real closed field: Schur complements, Cholesky factors,
   and the inequality between determinant and trace. *)
From mathcomp Require Import all_ssreflect all_algebra.
From mathcomp.algebra_tactics Require Import ring.
From Verif Require Import RFieldLra Prelude Vec.

Set Implicit Arguments.
Unset Strict Implicit.
Unset Printing Implicit Defensive.

Import Order.TTheory GRing.Theory Num.Theory.
Local Open Scope ring_scope.

Section PSD.
Variable T : rcfType.

(* symmetric, and no quadratic form x A x^T is negative *)
Definition psd n (A : 'M[T]_n) : Prop :=
  A^T = A /\ forall x : 'rV[T]_n, 0 <= (x *m A *m x^T) 0 0.

Definition quad n (A : 'M[T]_n) (x : 'rV[T]_n) : T := (x *m A *m x^T) 0 0.

Lemma psd_gram m n (W : 'M[T]_(m, n)) : psd (W^T *m W).
Proof.
split; first by rewrite trmx_mul trmxK.
move=> x; have -> : x *m (W^T *m W) *m x^T = (x *m W^T) *m (x *m W^T)^T.
  by rewrite trmx_mul trmxK !mulmxA.
by rewrite -dotvE dotv_ge0.
Qed.

Lemma psd_add n (A B : 'M[T]_n) : psd A -> psd B -> psd (A + B).
Proof.
move=> [sA pA] [sB pB]; split; first by rewrite linearD /= sA sB.
by move=> x; rewrite mulmxDr mulmxDl mxE addr_ge0.
Qed.

Lemma psd_scale n (c : T) (A : 'M[T]_n) : 0 <= c -> psd A -> psd (c *: A).
Proof.
move=> c0 [sA pA]; split; first by rewrite linearZ /= sA.
by move=> x; rewrite -scalemxAr -scalemxAl mxE mulr_ge0.
Qed.

Lemma psd_congr m n (A : 'M[T]_n) (L : 'M[T]_(m, n)) : psd A -> psd (L *m A *m L^T).
Proof.
move=> [sA pA]; split; first by rewrite !trmx_mul trmxK sA mulmxA.
move=> x; have -> : x *m (L *m A *m L^T) *m x^T = (x *m L) *m A *m (x *m L)^T.
  by rewrite trmx_mul !mulmxA.
exact: pA.
Qed.

Lemma psd_diag n (A : 'M[T]_n) i : psd A -> 0 <= A i i.
Proof.
move=> [_ pA]; have := pA (delta_mx 0 i).
by rewrite -rowE trmx_delta -colE !mxE.
Qed.

Section Block.
Variable n : nat.
Implicit Types (a t : T) (b y : 'rV[T]_n) (D : 'M[T]_n).

Definition bordered a b D : 'M[T]_(1 + n) := block_mx a%:M b b^T D.

Lemma quad_bordered a b D t y :
  quad (bordered a b D) (row_mx t%:M y) = a * t ^+ 2 + 2%:R * t * dotv b y + quad D y.
Proof.
rewrite /quad /bordered mul_row_block tr_row_mx mul_row_col tr_scalar_mx.
rewrite mxE !mulmxDl [X in X + _]mxE [X in _ + X]mxE.
have -> : (t%:M *m a%:M *m t%:M : 'M[T]_1) 0 0 = a * t ^+ 2.
  by rewrite -!scalar_mxM mxE eqxx mulr1n; ring.
have -> : (y *m b^T *m t%:M) 0 0 = t * dotv b y by rewrite mul_mx_scalar mxE -dotvE dotvC.
have -> : (t%:M *m b *m y^T) 0 0 = t * dotv b y by rewrite mul_scalar_mx -scalemxAl mxE -dotvE.
by rewrite -/(quad D y); ring.
Qed.

Lemma rv1_scalar (u : 'rV[T]_1) : u = (u 0 0)%:M.
Proof. by apply/rowP => i; rewrite ord1 !mxE eqxx mulr1n. Qed.

Lemma borderedE (A : 'M[T]_(1 + n)) : A^T = A ->
  A = bordered (A 0 0) (ursubmx A) (drsubmx A) /\ (drsubmx A)^T = drsubmx A.
Proof.
move=> sA; split; last by rewrite -{2}sA trmx_drsub.
rewrite /bordered -{1}[A]submxK; congr block_mx.
  by rewrite [ulsubmx A]rv1_scalar !mxE; congr (A _ _)%:M; apply: val_inj.
by rewrite -{1}sA trmx_ursub.
Qed.

Definition schur a b D : 'M[T]_n := D - a^-1 *: (b^T *m b).

Lemma quad_schur a b D y : quad (schur a b D) y = quad D y - a^-1 * dotv b y ^+ 2.
Proof.
rewrite /quad /schur mulmxBr mulmxBl -scalemxAr -scalemxAl.
rewrite mxE [X in _ + X]mxE [X in _ - X]mxE; congr (_ - _ * _).
have -> : y *m (b^T *m b) *m y^T = (y *m b^T) *m (b *m y^T) by rewrite !mulmxA.
by rewrite mxE big_ord1 -!dotvE dotvC expr2.
Qed.

Lemma psd_bordered_schur a b D : a != 0 -> psd (bordered a b D) -> psd (schur a b D).
Proof.
move=> a0 [sA pA].
have sD : D^T = D.
  by have := congr1 drsubmx sA; rewrite /bordered tr_block_mx !block_mxKdr.
split; first by rewrite /schur linearB linearZ /= trmx_mul trmxK sD.
move=> y; rewrite -/(quad _ y) quad_schur.
have := pA (row_mx (- (dotv b y / a))%:M y); rewrite -/(quad _ _) quad_bordered.
by rewrite (_ : _ + _ = quad D y - a^-1 * dotv b y ^+ 2) //; field.
Qed.

Lemma psd_bordered_a a b D : psd (bordered a b D) -> 0 <= a.
Proof.
move=> pA; have := psd_diag (lshift n 0) pA; rewrite /bordered.
by rewrite block_mxEul mxE eqxx mulr1n.
Qed.

Lemma psd_bordered_0 b D : psd (bordered 0 b D) -> b = 0.
Proof.
move=> pA; apply/eqP; rewrite -dotv_eq0; apply/eqP.
have b0 := dotv_ge0 b; apply/eqP; rewrite eq_le b0 andbT.
rewrite leNgt; apply/negP => bp.
have := (proj2 pA) (row_mx (- ((quad D b + 1) / (2%:R * dotv b b)))%:M b).
rewrite -/(quad _ _) quad_bordered (_ : _ + _ = -1); last by field; rewrite gt_eqF.
by rewrite oppr_ge0 ler10.
Qed.

Lemma psd_bordered_D a b D : psd (bordered a b D) -> psd D.
Proof.
move=> [sA pA]; split; first by have := congr1 drsubmx sA; rewrite /bordered tr_block_mx !block_mxKdr.
move=> y; have := pA (row_mx 0%:M y); rewrite -/(quad _ _) quad_bordered.
by rewrite expr0n /= !mulr0 mul0r !add0r.
Qed.

Lemma det_bordered a b D : a != 0 -> \det (bordered a b D) = a * \det (schur a b D).
Proof.
move=> a0.
have -> : bordered a b D = block_mx 1%:M 0 (a^-1 *: b^T) 1%:M *m block_mx a%:M b 0 (schur a b D).
  rewrite mulmx_block !mul1mx !mul0mx !addr0 /bordered; congr block_mx.
    by rewrite mul_mx_scalar scalerA divff // scale1r.
  by rewrite /schur -scalemxAl addrC subrK.
by rewrite det_mulmx det_lblock det_ublock !det1 !mul1r det_scalar1.
Qed.

End Block.

(* Hadamard's inequality, with the sign of the determinant *)
Lemma psd_det n (A : 'M[T]_n) : psd A -> 0 <= \det A <= \prod_i A i i.
Proof.
elim: n A => [|n IH] A pA; first by rewrite det_mx00 big_ord0 ler01 lexx.
have [eA sD] := borderedE (proj1 pA : (A : 'M_(1 + n))^T = A).
set a := A 0 0 in eA; set b := ursubmx _ in eA; set D := drsubmx _ in eA sD.
have hA : psd (bordered a b D) by rewrite -eA.
have a0 := psd_bordered_a hA; have pD := psd_bordered_D hA.
have eP : \prod_i A i i = a * \prod_i D i i.
  rewrite big_ord_recl; congr (_ * _); apply: eq_bigr => i _; rewrite !mxE.
  by congr (A _ _); apply: val_inj.
rewrite eP; have /andP[d0 d1] := IH _ pD.
have P0 : 0 <= \prod_i D i i by exact: le_trans d1.
case: (eqVneq a 0) => [ea|an].
  have eb : b = 0 by apply: (@psd_bordered_0 n b D); rewrite -ea.
  rewrite ea mul0r eA ea eb /bordered trmx0.
  by rewrite (@det_ublock _ 1 n) det_scalar1 mul0r lexx.
have pS := psd_bordered_schur an hA; have /andP[s0 s1] := IH _ pS.
rewrite eA det_bordered // mulr_ge0 //=; apply: ler_wpmul2l => //; apply: le_trans s1 _.
apply: ler_prod => i _; rewrite psd_diag //= /schur !mxE ler_subl_addr ler_addl.
by rewrite big_ord1 !mxE mulr_ge0 ?invr_ge0 // -expr2 sqr_ge0.
Qed.

(* arithmetic-geometric mean inequality *)
Lemma agm1 n (E : 'I_n -> T) : (forall i, 0 <= E i) -> \sum_i E i <= n%:R -> \prod_i E i <= 1.
Proof.
move=> E0 ht; case: n E E0 ht => [|n] E E0 ht; first by rewrite big_ord0.
have /= [h _] := @leif_AGM T _ predT E (fun i _ => E0 i).
rewrite cardT size_enum_ord in h; apply: le_trans h _.
have t0 : 0 <= \sum_i E i by apply: sumr_ge0 => i _; exact: E0.
apply: exprn_ile1; first by rewrite divr_ge0 ?ler0n.
by rewrite ler_pdivr_mulr ?ltr0n // mul1r.
Qed.

(* the square-root free Cholesky factorisation *)
Lemma psd_ldl n (A : 'M[T]_n) : psd A -> A \in unitmx ->
  exists L : 'M[T]_n, exists d : 'rV[T]_n,
    [/\ A = L *m diag_mx d *m L^T, \det L = 1 & forall i, 0 < d 0 i].
Proof.
elim: n A => [|n IH] A pA uA.
  exists 1%:M, 0; split; [by rewrite [LHS]flatmx0 [RHS]flatmx0 | exact: det1 | by case].
have [eA sD] := borderedE (proj1 pA : (A : 'M_(1 + n))^T = A).
set a := A 0 0 in eA; set b := ursubmx _ in eA; set D := drsubmx _ in eA sD.
have hA : psd (bordered a b D) by rewrite -eA.
have a0 := psd_bordered_a hA.
have an : a != 0.
  apply/eqP => ea; have eb : b = 0 by apply: (@psd_bordered_0 n b D); rewrite -ea.
  move: uA; rewrite unitmxE eA ea eb /bordered trmx0.
  by rewrite (@det_ublock _ 1 n) det_scalar1 mul0r unitr0.
have pS := psd_bordered_schur an hA.
have uS : schur a b D \in unitmx.
  by move: uA; rewrite !unitmxE eA det_bordered // !unitfE mulf_eq0 negb_or an.
have [L [d [eS dL d0]]] := IH _ pS uS.
pose L1 : 'M[T]_(1 + n) := block_mx 1%:M 0 (a^-1 *: b^T) L.
pose d1 : 'rV[T]_(1 + n) := row_mx a%:M d.
have e1 : bordered a b D = L1 *m diag_mx d1 *m L1^T.
  rewrite /L1 /d1 diag_mx_row tr_block_mx !mulmx_block.
  have -> : diag_mx a%:M = a%:M :> 'M_1 by apply/matrixP => i j; rewrite !ord1 !mxE !mulr1n.
  rewrite !mulmx0 !mul0mx !mul1mx !addr0 !add0r trmx1 trmx0 mulmx1 !mulmx0 ?addr0 !mul0mx ?addr0 ?mulmx1.
  rewrite /bordered; congr block_mx.
  + by rewrite mul_scalar_mx linearZ /= trmxK scalerA divff // scale1r.
  + by rewrite mul_mx_scalar scalerA divff // scale1r.
  + rewrite -eS /schur mul_mx_scalar scalerA divff // scale1r linearZ /= trmxK.
    by rewrite -scalemxAr addrC subrK.
exists L1, d1; split; first by rewrite -e1.
- by rewrite (@det_lblock _ 1 n) det1 mul1r.
- move=> i; rewrite mxE; case: splitP => j _; last exact: d0.
  by rewrite ord1 mxE eqxx mulr1n lt_neqAle eq_sym an.
Qed.

(* a scatter matrix with small trace relative to another has a smaller determinant *)
Lemma det_trace n (A B : 'M[T]_n) : psd A -> A \in unitmx -> psd B ->
  \tr (invmx A *m B) <= n%:R -> \det B <= \det A.
Proof.
move=> pA uA pB; have [L [d [eA dL d0]]] := psd_ldl pA uA.
have uL : L \in unitmx by rewrite unitmxE dL unitr1.
have uLT : L^T \in unitmx by rewrite unitmx_tr.
pose K := invmx L; pose C := K *m B *m K^T.
have pC : psd C by apply: psd_congr.
have dd : \det A = \prod_i d 0 i by rewrite eA !det_mulmx det_tr dL mul1r mulr1 det_diag.
have ud : diag_mx d \in unitmx.
  rewrite unitmxE det_diag unitfE; apply/prodf_neq0 => i _; by rewrite gt_eqF.
have iA : invmx A = K^T *m invmx (diag_mx d) *m K.
  have h : K^T *m invmx (diag_mx d) *m K *m A = 1%:M.
    rewrite eA !mulmxA -[_ *m K *m L]mulmxA mulVmx // mulmx1 -[_ *m _ *m diag_mx d]mulmxA mulVmx //.
    by rewrite mulmx1 /K trmx_inv mulVmx.
  by rewrite -[LHS]mul1mx -h -mulmxA mulmxV // mulmx1.
have iD : invmx (diag_mx d) = diag_mx (\row_i (d 0 i)^-1).
  have h : diag_mx (\row_i (d 0 i)^-1) *m diag_mx d = 1%:M.
    rewrite mulmx_diag; apply/matrixP => i j; rewrite !mxE.
    by case: eqP => [_|//]; rewrite mulVf // gt_eqF.
  by rewrite -[LHS]mul1mx -h -mulmxA mulmxV // mulmx1.
have -> : \tr (invmx A *m B) = \sum_i C i i / d 0 i.
  rewrite iA -!mulmxA mxtrace_mulC -!mulmxA [K *m _]mulmxA -/C iD mul_diag_mx.
  by apply: eq_bigr => i _; rewrite mxE [X in X * _]mxE mulrC.
move=> ht; have dB : \det B = \det C by rewrite /C !det_mulmx det_tr det_inv dL invr1 mul1r mulr1.
have /andP[_ h] := psd_det pC; rewrite dB dd; apply: le_trans h _.
have -> : \prod_i C i i = (\prod_i d 0 i) * (\prod_i (C i i / d 0 i)).
  by rewrite -big_split /=; apply: eq_bigr => i _; rewrite mulrCA divff ?mulr1 // gt_eqF.
rewrite -[leRHS]mulr1; apply: ler_wpmul2l; first by apply: prodr_ge0 => i _; rewrite ltW.
by apply: agm1 => // i; rewrite divr_ge0 ?psd_diag // ltW.
Qed.

End PSD.
