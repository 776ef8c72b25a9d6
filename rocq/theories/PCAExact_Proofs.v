(* Lemmas on ROBPCA in the exact fit situation: the h-subset lies in an affine subspace. *)
From mathcomp Require Import all_ssreflect all_algebra.
From mathcomp.zify Require Import zify.
From mathcomp.algebra_tactics Require Import ring.
From Verif Require Import RFieldLra Prelude Stats Xnum RatFloor Regr Vec PSD.
From Verif Require Import LinAlg_Model MCD_Model MCD_Proofs Cov_Spec PCA_Model PCA_Spec PCA_Proofs.

Set Implicit Arguments.
Unset Strict Implicit.
Unset Printing Implicit Defensive.

Import Order.TTheory GRing.Theory Num.Theory.
Local Open Scope ring_scope.

Section Exact.
Variables (T : rcfType) (r b : nat).
Implicit Types (Z : seq 'rV[T]_r) (B : 'M[T]_(b, r)).

Lemma mean_sub Z z0 B : (0 < size Z)%N -> (forall z, z \in Z -> (z - z0 <= B)%MS) -> (vmean Z - z0 <= B)%MS.
Proof.
move=> n0 h; have -> : vmean Z - z0 = (size Z)%:R^-1 *: \sum_(z <- Z) (z - z0).
  rewrite /vmean big_split /= big_const_seq count_predT iter_addr_0 scalerDr; congr (_ + _).
  by rewrite -scaler_nat scalerA mulVf ?scale1r // pnatr_eq0 -lt0n.
by apply: scalemx_sub; rewrite big_seq; apply: summx_sub.
Qed.

Lemma cov_sub Z z0 B : (forall z, z \in Z -> (z - z0 <= B)%MS) -> (cov Z <= B)%MS.
Proof.
move=> h; apply: scalemx_sub; rewrite big_seq; apply: summx_sub => z zZ.
apply: submx_trans (submxMl _ _) _.
have -> : z - vmean Z = (z - z0) - (vmean Z - z0) by apply/rowP => j; rewrite !mxE; ring.
apply: addmx_sub; first exact: h.
rewrite eqmx_opp; apply: mean_sub => //; by case: (Z) zZ.
Qed.

Lemma quad_gram (u v : 'rV[T]_r) : (v *m (u^T *m u) *m v^T) 0 0 = dotv u v ^+ 2.
Proof. by rewrite mulmxA -[v *m u^T *m u *m v^T]mulmxA [v *m u^T]mx11_scalar mul_scalar_mx mxE -!dotvE dotvC expr2. Qed.

Lemma cov_quad0 Z (v : 'rV[T]_r) : (1 < size Z)%N -> v *m cov Z *m v^T = 0 ->
  forall z, z \in Z -> dotv (z - vmean Z) v = 0.
Proof.
move=> n1 e z zZ; move: e; rewrite /cov -scalemxAr -scalemxAl => /eqP; rewrite scaler_eq0 => /orP[|].
  by rewrite invr_eq0 subr_eq0 pnatr_eq1 => /eqP e; move: n1; rewrite e.
rewrite mulmx_sumr mulmx_suml => /eqP /matrixP /(_ 0 0); rewrite summxE mxE => /eqP.
rewrite psumr_eq0 => [|y _].
  by move/allP => /(_ z zZ); rewrite quad_gram sqrf_eq0 => /eqP.
by rewrite quad_gram sqr_ge0.
Qed.

End Exact.

Section Directions.
Variables (T : rcfType) (r b k : nat).
Variables (Z : seq 'rV[T]_r) (z0 : 'rV[T]_r) (B : 'M[T]_(b, r)).
Variables (w : 'rV[T]_r) (V : 'M[T]_r) (idx : 'I_r -> 'I_r).
Hypotheses (oV : V^T *m V = 1%:M) (eV : cov Z = V *m diag_mx w *m V^T).
Hypotheses (inj : injective idx) (srt : forall i j : 'I_r, (i <= j)%N -> w 0 (idx j) <= w 0 (idx i)).
Hypotheses (n1 : (1 < size Z)%N) (hB : forall z, z \in Z -> (z - z0 <= B)%MS) (rB : (\rank B <= k)%N).

Let v (j : 'I_r) : 'rV[T]_r := (col j V)^T.

Lemma v_dot i j : dotv (v i) (v j) = (i == j)%:R.
Proof. by move/matrixP: oV => /(_ i j); rewrite mxE [RHS]mxE /dotv => <-; apply: eq_bigr => l _; rewrite !mxE. Qed.

Lemma v_eig j : v j *m cov Z = w 0 j *: v j.
Proof.
have e : v j *m V = delta_mx 0 j.
  by rewrite /v tr_col -row_mul oV row1.
by rewrite eV !mulmxA e -rowE row_diag_mx -scalemxAl -rowE /v tr_col.
Qed.

Lemma w_ge0 j : 0 <= w 0 j.
Proof.
have [_ /(_ (v j))] := psd_cov Z; rewrite v_eig -scalemxAl mxE -dotvE v_dot eqxx mulr1; exact.
Qed.

Lemma tail_zero (j : 'I_r) : (k <= j)%N -> w 0 (idx j) = 0.
Proof.
move=> kj; apply/eqP; case: eqP => // /eqP wj; exfalso.
have lt (i : 'I_j.+1) : (i < r)%N by apply: leq_trans (ltn_ord i) (ltn_ord j).
pose f (i : 'I_j.+1) : 'I_r := idx (Ordinal (lt i)).
have fi : injective f by move=> i i' /inj /(congr1 val) /= e; apply: val_inj.
have wf i : w 0 (f i) != 0.
  rewrite gt_eqF //; apply: lt_le_trans (srt (_ : (Ordinal (lt i) <= j)%N)); last by rewrite /= -ltnS.
  by rewrite lt_def wj w_ge0.
pose U : 'M[T]_(j.+1, r) := \matrix_i v (f i).
have UU : U *m U^T = 1%:M.
  apply/matrixP => i i'; rewrite mxE [RHS]mxE -(inj_eq fi) -v_dot /dotv; apply: eq_bigr => l _.
  by rewrite !mxE.
have rU : \rank U = j.+1 by apply/eqP; apply/row_freeP; exists U^T.
have US : (U <= B)%MS.
  apply/row_subP => i; rewrite rowK; apply: submx_trans (cov_sub hB).
  have -> : v (f i) = (w 0 (f i))^-1 *: (v (f i) *m cov Z) by rewrite v_eig scalerA mulVf ?scale1r.
  by apply: scalemx_sub; exact: submxMl.
have := mxrankS US; rewrite rU => h; have := leq_trans h rB; rewrite ltnNge kj //.
Qed.

Lemma tail_orth (j : 'I_r) z z' : (k <= j)%N -> z \in Z -> z' \in Z -> dotv (z - z') (v (idx j)) = 0.
Proof.
move=> kj hz hz'; have e : v (idx j) *m cov Z *m (v (idx j))^T = 0.
  by rewrite v_eig tail_zero // scale0r mul0mx.
have -> : z - z' = (z - vmean Z) - (z' - vmean Z) by apply/rowP => l; rewrite !mxE; ring.
by rewrite dotvBl !(cov_quad0 n1 e) // subr0.
Qed.

Lemma resid_tied loc z z' : z \in Z -> z' \in Z ->
  orth_dist loc (first_cols k V idx) z = orth_dist loc (first_cols k V idx) z'.
Proof.
move=> hz hz'; set H := first_cols k V idx; pose d := z - z'.
have oH : orthonormal H by apply: first_cols_ortho.
suff dE : d - d *m H *m H^T = 0.
  rewrite /orth_dist /project /transform; congr vnorm; apply/eqP; rewrite -subr_eq0; apply/eqP.
  rewrite -[RHS]dE /d; have -> : z - z' = (z - loc) - (z' - loc) by apply/rowP => l; rewrite !mxE; ring.
  move: (z - loc) (z' - loc) => a a'; rewrite !mulmxBl.
  by apply/rowP => l; rewrite !mxE; ring.
apply/eqP; rewrite -dotv_eq0.
have e0 : dotv (d - d *m H *m H^T) (d *m H *m H^T) = 0.
  by rewrite dotv_mulmxT mulmxBl -[d *m H *m H^T *m H]mulmxA oH mulmx1 subrr dot0v.
have e1 : dotv (d *m H *m H^T) (d *m H *m H^T) = dotv (d *m H) (d *m H).
  by rewrite dotv_mulmxT -[d *m H *m H^T *m H]mulmxA oH mulmx1.
have e2 : dotv (d - d *m H *m H^T) (d - d *m H *m H^T) = dotv d d - dotv (d *m H) (d *m H).
  rewrite dotvBr e0 subr0 dotvBl [dotv (d *m H *m H^T) d]dotvC dotv_mulmxT; ring.
rewrite e2; apply/eqP/eqP; rewrite subr_eq0; apply/eqP.
have -> : dotv d d = dotv (d *m V) (d *m V).
  have VV : V *m V^T = 1%:M by exact: mulmx1C.
  by rewrite -dotv_mulmxT -mulmxA VV mulmx1.
rewrite /dotv (reindex_inj inj) /= (bigID (fun j : 'I_r => (j < minn k r)%N)) /= addrC big1 ?add0r => [|j].
  rewrite (big_ord_narrow (geq_minr k r)); apply: eq_bigr => j _.
  suff -> : (d *m H) 0 j = (d *m V) 0 (idx (widen_ord (geq_minr k r) j)) by [].
  by rewrite !mxE; apply: eq_bigr => l _; rewrite !mxE.
rewrite leq_min ltn_ord andbT -leqNgt => kj.
suff -> : (d *m V) 0 (idx j) = 0 by rewrite mul0r.
by rewrite -[RHS](tail_orth kj hz hz') mxE /dotv; apply: eq_bigr => l _; rewrite !mxE.
Qed.

End Directions.

Section Count.
Variable A : Type.

Lemma count_idx (x0 : A) (P : pred A) (s : seq A) (idx : seq nat) : uniq idx ->
  (forall i, i \in idx -> (i < size s)%N && P (nth x0 s i)) -> (size idx <= count P s)%N.
Proof.
move=> u h; have -> : count P s = size [seq i <- iota 0 (size s) | P (nth x0 s i)].
  by rewrite size_filter -{1}[s](mkseq_nth x0) count_map.
apply: uniq_leq_size => // i /h /andP[h1 h2]; by rewrite mem_filter h2 mem_iota.
Qed.

End Count.
