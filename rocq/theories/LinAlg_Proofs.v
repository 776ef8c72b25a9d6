(* Proofs about Mahalanobis distances and inverses of submatrices. *)
From mathcomp Require Import all_ssreflect all_algebra.
From mathcomp.zify Require Import zify.
From mathcomp.algebra_tactics Require Import ring.
From Verif Require Import RFieldLra Prelude Xnum Vec LinAlg_Model.

Set Implicit Arguments.
Unset Strict Implicit.
Unset Printing Implicit Defensive.

Import Order.TTheory GRing.Theory Num.Theory.
Local Open Scope ring_scope.

Section Sub.
Variable T : fieldType.

Lemma np_inv_ok n (A : 'M[T]_n) : A \in unitmx -> np_inv A = Ok (invmx A).
Proof. by rewrite /np_inv => ->. Qed.

Lemma invmx_unique n (A B : 'M[T]_n) : A *m B = 1%:M -> A \in unitmx /\ B = invmx A.
Proof.
move=> h; have uA : A \in unitmx by have [] := mulmx1_unit h.
by split=> //; rewrite -[B]mul1mx -(mulVmx uA) -mulmxA h mulmx1.
Qed.

Variables (m q p : nat) (f : 'I_m -> 'I_p) (g : 'I_q -> 'I_p).
Hypothesis fg : perm_eq (codom f ++ codom g) (enum 'I_p).

Lemma mxsub_mul a b (r : 'I_a -> 'I_p) (c : 'I_b -> 'I_p) (A B : 'M[T]_p) :
  mxsub r c (A *m B) = mxsub r f A *m mxsub f c B + mxsub r g A *m mxsub g c B.
Proof.
apply/matrixP => i j; rewrite !mxE.
rewrite -(big_enum _ _ (fun k => A (r i) k * B k (c j))) -(perm_big _ fg) big_cat /=.
by rewrite !big_image /=; congr (_ + _); apply: eq_bigr => k _; rewrite !mxE.
Qed.

Lemma inj_f : injective f.
Proof.
have : uniq (codom f ++ codom g) by rewrite (perm_uniq fg) enum_uniq.
by rewrite cat_uniq => /andP[/injectiveP].
Qed.

Lemma inj_g : injective g.
Proof.
have : uniq (codom f ++ codom g) by rewrite (perm_uniq fg) enum_uniq.
by rewrite cat_uniq => /and3P[_ _ /injectiveP].
Qed.

Lemma disj i j : f i != g j.
Proof.
have : uniq (codom f ++ codom g) by rewrite (perm_uniq fg) enum_uniq.
rewrite cat_uniq => /and3P[_ /hasPn h _]; apply/eqP => e.
by have := h (g j) (codom_f g j); rewrite /= -e codom_f.
Qed.

Lemma mxsub1f : mxsub f f (1%:M : 'M[T]_p) = 1%:M.
Proof. by apply/matrixP => i j; rewrite !mxE (inj_eq inj_f). Qed.
Lemma mxsub1g : mxsub g g (1%:M : 'M[T]_p) = 1%:M.
Proof. by apply/matrixP => i j; rewrite !mxE (inj_eq inj_g). Qed.
Lemma mxsub1fg : mxsub f g (1%:M : 'M[T]_p) = 0.
Proof. by apply/matrixP => i j; rewrite !mxE (negbTE (disj i j)). Qed.
Lemma mxsub1gf : mxsub g f (1%:M : 'M[T]_p) = 0.
Proof. by apply/matrixP => i j; rewrite !mxE eq_sym (negbTE (disj j i)). Qed.

Variables A B : 'M[T]_p.
Hypothesis AB : A *m B = 1%:M.

Lemma BA : B *m A = 1%:M. Proof. exact: mulmx1C. Qed.

Lemma schur_unit : mxsub f f A \in unitmx -> mxsub g g B \in unitmx.
Proof.
move=> uA.
have h1 := mxsub_mul g g B A; rewrite BA mxsub1g in h1.
have h2 := mxsub_mul g f B A; rewrite BA mxsub1gf in h2.
have e : mxsub g f B = - (mxsub g g B *m mxsub g f A *m invmx (mxsub f f A)).
  have h3 : mxsub g f B *m mxsub f f A = - (mxsub g g B *m mxsub g f A).
    by apply/eqP; rewrite -addr_eq0 -h2.
  by rewrite -mulNmx -h3 mulmxK.
suff h : mxsub g g B *m (mxsub g g A - mxsub g f A *m invmx (mxsub f f A) *m mxsub f g A) = 1%:M.
  by have [] := mulmx1_unit h.
by rewrite mulmxBr h1 e mulNmx !mulmxA addrC.
Qed.

Lemma schur_inv : mxsub f f A \in unitmx ->
  mxsub f f B - mxsub f g B *m invmx (mxsub g g B) *m mxsub g f B = invmx (mxsub f f A).
Proof.
move=> uA; have uB := schur_unit uA.
have h1 := mxsub_mul f f A B; rewrite AB mxsub1f in h1.
have h2 := mxsub_mul f g A B; rewrite AB mxsub1fg in h2.
have e : mxsub f g A = - (mxsub f f A *m mxsub f g B *m invmx (mxsub g g B)).
  have h3 : mxsub f g A *m mxsub g g B = - (mxsub f f A *m mxsub f g B).
    by apply/eqP; rewrite -addr_eq0 addrC -h2.
  by rewrite -mulNmx -h3 mulmxK.
have h : mxsub f f A *m (mxsub f f B - mxsub f g B *m invmx (mxsub g g B) *m mxsub g f B) = 1%:M.
  by rewrite mulmxBr h1 e mulNmx !mulmxA.
by have [_] := invmx_unique h.
Qed.

End Sub.

Section Branches.
Variables (T : fieldType) (m p : nat) (A B : 'M[T]_p) (f : 'I_m -> 'I_p).
Hypothesis inj_f : injective f.

Lemma codom_pos (s : seq 'I_p) : codom (pos s) = s.
Proof.
by rewrite /codom /image_mem /= -[RHS](@map_tnth_enum _ _ (in_tuple s)).
Qed.

Lemma cover : perm_eq (codom f ++ codom (pos (indices_neg f))) (enum 'I_p).
Proof.
rewrite codom_pos; apply: uniq_perm.
- rewrite cat_uniq filter_uniq ?enum_uniq // andbT; apply/andP; split; first exact/injectiveP.
  by apply/hasPn => k; rewrite mem_filter => /andP[].
- exact: enum_uniq.
- move=> k; rewrite mem_cat mem_filter mem_enum andbT.
  by case: (k \in codom f).
Qed.

Lemma inverse_submatrix_lt : A *m B = 1%:M -> mxsub f f A \in unitmx -> (m < p)%N ->
  inverse_submatrix A B f = Ok (SqMat (invmx (mxsub f f A))).
Proof.
move=> AB uA lt; rewrite /inverse_submatrix lt; case: ifP => _; last by rewrite np_inv_ok.
rewrite np_inv_ok /=; last exact: (schur_unit cover AB uA).
by rewrite (schur_inv cover AB uA).
Qed.

End Branches.

Section Maha.
Variables (T : rcfType) (p : nat).
Implicit Types (x y loc b : 'rV[T]_p) (S A : 'M[T]_p).

Definition posdef S : Prop := forall x, x != 0 -> 0 < (x *m S *m x^T) 0 0.

Lemma posdef_unit S : posdef S -> S \in unitmx.
Proof.
move=> h; rewrite -row_free_unit; apply/row_freeP.
have : row_free S.
  rewrite -kermx_eq0; apply/eqP/row_matrixP => i; rewrite row0.
  apply/eqP; apply: contraT => hk.
  have := h _ hk; have : row i (kermx S) *m S = 0 by rewrite -row_mul mulmx_ker row0.
  by move=> ->; rewrite mul0mx mxE ltxx.
by move=> /row_freeP.
Qed.

Lemma posdef_inv S x : posdef S -> x != 0 -> 0 < (x *m invmx S *m x^T) 0 0.
Proof.
move=> h hx; have uS := posdef_unit h.
have [y ey] : exists y, x = y *m S by exists (x *m invmx S); rewrite mulmxKV.
have y0 : y != 0 by apply: contra hx => /eqP y0; rewrite ey y0 mul0mx.
have := h y y0; rewrite ey mulmxK // trmx_mul.
have -> : (y *m (S^T *m y^T)) = (y *m S *m y^T)^T by rewrite !trmx_mul trmxK mulmxA.
by rewrite [X in _ -> 0 < X]mxE.
Qed.

Lemma maha_sqE S loc x : maha_sq S loc x = ((x - loc) *m S *m (x - loc)^T) 0 0.
Proof. by rewrite /maha_sq dotvE. Qed.

Lemma maha_sq_gt0 S loc x : posdef S -> x != loc -> 0 < maha_sq (invmx S) loc x.
Proof. by move=> h hx; rewrite maha_sqE posdef_inv // subr_eq0. Qed.

Lemma maha_sq0 S loc : maha_sq S loc loc = 0.
Proof. by rewrite /maha_sq subrr dotv0. Qed.

Lemma maha_sq_affine S A b loc x : S \in unitmx -> A \in unitmx ->
  maha_sq (invmx (A *m S *m A^T)) (loc *m A^T + b) (x *m A^T + b) = maha_sq (invmx S) loc x.
Proof.
move=> uS uA; rewrite !maha_sqE opprD addrACA subrr addr0 -mulmxBl.
set d := x - loc; have uAt : A^T \in unitmx by rewrite unitmx_tr.
have -> : invmx (A *m S *m A^T) = invmx A^T *m invmx S *m invmx A.
  have : (A *m S *m A^T) *m (invmx A^T *m invmx S *m invmx A) = 1%:M.
    by rewrite !mulmxA mulmxK // -(mulmxA A S) mulmxV // mulmx1 mulmxV.
  by move=> /invmx_unique [_ <-].
by rewrite trmx_mul trmxK !mulmxA mulmxK // mulmxKV.
Qed.

End Maha.
