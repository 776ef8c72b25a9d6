(* Lemmas: covariance matrices (truncation, correlation, Kendall), the base class. *)
From mathcomp Require Import all_ssreflect all_algebra.
From mathcomp.zify Require Import zify.
From mathcomp.algebra_tactics Require Import ring.
From Verif Require Import RFieldLra Prelude Stats Xnum Qn_Model Regr Vec PSD.
From Verif Require Import LinAlg_Model LinAlg_Proofs MCD_Model MCD_Spec MCD_Proofs MCDRun_Proofs MCDEquiv_Proofs.
From Verif Require Import OGK_Model OGK_Proofs Cov_Model Cov_Spec.

Set Implicit Arguments.
Unset Strict Implicit.
Unset Printing Implicit Defensive.

Import Order.TTheory GRing.Theory Num.Theory.
Local Open Scope ring_scope.

Section Trunc.
Variables (T : rcfType) (p : nat) (eigh : 'M[T]_p -> 'rV[T]_p * 'M[T]_p) (as_ : 'rV[T]_p -> 'I_p -> 'I_p).
Hypotheses (He : correct_eigh eigh) (Ha : forall w, injective (as_ w)).
Implicit Types (A : 'M[T]_p) (x : 'rV[T]_p).

Definition symp A : 'M[T]_p := 2%:R^-1 *: (A + A^T).
Definition clip m (w : 'rV[T]_p) : 'rV[T]_p := \row_j (if w 0 j < m then m else w 0 j).

Lemma symp_sym A : (symp A)^T = symp A.
Proof. by rewrite /symp linearZ /= linearD /= trmxK addrC. Qed.

Lemma sympE A : A^T = A -> symp A = A.
Proof.
move=> sA; rewrite /symp sA -mulr2n -scaler_nat scalerA mulVf ?scale1r //.
by rewrite pnatr_eq0.
Qed.

Lemma quad_tr A x : (x *m A^T *m x^T) 0 0 = (x *m A *m x^T) 0 0.
Proof.
have -> : (x *m A^T *m x^T) 0 0 = ((x *m A^T *m x^T)^T) 0 0 by rewrite [RHS]mxE.
by rewrite !trmx_mul !trmxK mulmxA.
Qed.

Lemma quad_symp A x : (x *m symp A *m x^T) 0 0 = (x *m A *m x^T) 0 0.
Proof.
rewrite /symp -scalemxAr -scalemxAl mulmxDr mulmxDl mxE [X in _ * X]mxE quad_tr.
by move: (fun_of_matrix _ _ _) => q; rewrite -mulr2n -[q *+ 2]mulr_natl mulKf // pnatr_eq0.
Qed.

Lemma vdvE (V : 'M[T]_p) (w : 'rV[T]_p) i k :
  (V *m diag_mx w *m V^T) i k = \sum_j V i j * w 0 j * V k j.
Proof. by rewrite mxE; apply: eq_bigr => j _; rewrite mul_mx_diag !mxE. Qed.

Lemma truncE A m : truncated_covariance eigh as_ A m
  = (eigh (symp A)).2 *m diag_mx (clip m (eigh (symp A)).1) *m (eigh (symp A)).2^T.
Proof.
rewrite /truncated_covariance -/(symp A); set V := (eigh _).2; set w := (eigh _).1.
apply/matrixP => i k; rewrite !vdvE.
rewrite [RHS](reindex_inj (h := fun j => as_ w (rev_ord j))) /=; last first.
  by move=> a b /Ha /rev_ord_inj.
by apply: eq_bigr => j _; rewrite !mxE.
Qed.

Lemma quad_vdv (V : 'M[T]_p) (w x : 'rV[T]_p) :
  (x *m (V *m diag_mx w *m V^T) *m x^T) 0 0 = \sum_j w 0 j * (x *m V) 0 j ^+ 2.
Proof.
rewrite !mulmxA -mulmxA -trmx_mul mul_mx_diag mxE; apply: eq_bigr => j _.
by rewrite [(\matrix_(_, _) _) _ _]mxE [_^T _ _]mxE expr2 mulrAC mulrC mulrA.
Qed.

Lemma norm_orth (V : 'M[T]_p) x : V^T *m V = 1%:M -> \sum_j (x *m V) 0 j ^+ 2 = (x *m x^T) 0 0.
Proof.
move=> /mulmx1C hV; have -> : x *m x^T = (x *m V) *m (x *m V)^T.
  by rewrite trmx_mul mulmxA -[x *m V *m V^T]mulmxA hV mulmx1.
by rewrite [RHS]mxE; apply: eq_bigr => j _; rewrite [(_^T) _ _]mxE expr2.
Qed.

Lemma trunc_sym A m : (truncated_covariance eigh as_ A m)^T = truncated_covariance eigh as_ A m.
Proof. by rewrite truncE !trmx_mul trmxK tr_diag_mx mulmxA. Qed.

Lemma trunc_lower A m x :
  m * (x *m x^T) 0 0 <= (x *m truncated_covariance eigh as_ A m *m x^T) 0 0.
Proof.
have [o _] := He (symp_sym A); rewrite truncE quad_vdv -(norm_orth x o) mulr_sumr.
by apply: ler_sum => j _; apply: ler_wpmul2r; [exact: sqr_ge0|rewrite mxE; case: ltP].
Qed.

Lemma trunc_dominates A m x :
  (x *m A *m x^T) 0 0 <= (x *m truncated_covariance eigh as_ A m *m x^T) 0 0.
Proof.
have [o e] := He (symp_sym A); rewrite truncE -quad_symp {1}e !quad_vdv.
apply: ler_sum => j _; apply: ler_wpmul2r; first exact: sqr_ge0.
by rewrite mxE; case: ltP => // /ltW.
Qed.

Lemma trunc_id A m : A^T = A -> (forall x, m * (x *m x^T) 0 0 <= (x *m A *m x^T) 0 0) ->
  truncated_covariance eigh as_ A m = A.
Proof.
move=> sA hq; have [o e] := He sA; rewrite truncE sympE // {4}e.
congr (_ *m diag_mx _ *m _); apply/rowP => j; rewrite mxE; case: ltP => // hj.
pose x : 'rV[T]_p := delta_mx 0 j *m (eigh A).2^T.
have xV : x *m (eigh A).2 = delta_mx 0 j by rewrite /x -mulmxA o mulmx1.
have := hq x; rewrite {1}e quad_vdv -(norm_orth x o) xV.
have s1 (w : 'I_p -> T) : \sum_k w k * (delta_mx 0 j : 'rV[T]_p) 0 k ^+ 2 = w j.
  rewrite (bigD1 j) //= big1 ?addr0; first by rewrite mxE !eqxx expr1n mulr1.
  by move=> k kj; rewrite mxE eqxx (negbTE kj) expr0n mulr0.
have s0 : \sum_k (delta_mx 0 j : 'rV[T]_p) 0 k ^+ 2 = 1.
  by rewrite -[RHS](s1 (fun _ => 1)); apply: eq_bigr => k _; rewrite mul1r.
by rewrite s1 s0 mulr1 leNgt hj.
Qed.

Lemma trunc_idem A m :
  truncated_covariance eigh as_ (truncated_covariance eigh as_ A m) m = truncated_covariance eigh as_ A m.
Proof. by apply: trunc_id; [exact: trunc_sym|exact: trunc_lower]. Qed.

End Trunc.

Section Corr.
Variables (T : rcfType) (p : nat).
Implicit Types (A : 'M[T]_p).

(* the correlation in the field *)
Definition corr A : 'M[T]_p := \matrix_(i, j) (A i j / (Num.sqrt (A i i) * Num.sqrt (A j j))).

Lemma sqrt_neq0 (a : T) : 0 < a -> Num.sqrt a != 0.
Proof. by move=> h; rewrite gt_eqF // sqrtr_gt0. Qed.

Lemma corr_fin A : (forall i, 0 < A i i) -> covariance_to_correlation A = \matrix_(i, j) Fin (corr A i j).
Proof.
move=> h; apply/matrixP => i j; rewrite !mxE /np_sqrt !ltW ?h //= mulf_eq0.
by rewrite !(negbTE (sqrt_neq0 (h _))).
Qed.

Lemma corr_diag A i : 0 < A i i -> corr A i i = 1.
Proof.
by move=> h; rewrite mxE -expr2 sqr_sqrtr ?(ltW h) // divff // gt_eqF.
Qed.

Lemma corr_sym A : A^T = A -> (corr A)^T = corr A.
Proof.
move=> sA; apply/matrixP => i j; rewrite !mxE mulrC [_ * Num.sqrt (A i i)]mulrC [RHS]mulrC; congr (_ * _).
by rewrite -{1}sA mxE.
Qed.

Lemma corr_scale A (c : 'rV[T]_p) : (forall i, 0 < A i i) -> (forall i, 0 < c 0 i) ->
  corr (diag_mx c *m A *m diag_mx c) = corr A.
Proof.
move=> hA hc; apply/matrixP => i j; rewrite [LHS]mxE [RHS]mxE !dsd.
have sq k : Num.sqrt (c 0 k * A k k * c 0 k) = c 0 k * Num.sqrt (A k k).
  by rewrite mulrAC -expr2 sqrtrM ?sqr_ge0 // sqrtr_sqr gtr0_norm.
rewrite !sq; have := sqrt_neq0 (hA i); have := sqrt_neq0 (hA j).
have := hc i; have := hc j; move: (c 0 i) (c 0 j) (Num.sqrt _) (Num.sqrt _) (A i j) => ci cj si sj a hj hi sj0 si0.
by field; rewrite si0 sj0 !gt_eqF.
Qed.

Lemma corr_psd A : psd A -> psd (corr A).
Proof.
move=> pA; have -> : corr A = diag_mx (\row_j (Num.sqrt (A j j))^-1) *m A *m (diag_mx (\row_j (Num.sqrt (A j j))^-1))^T.
  apply/matrixP => i j; rewrite tr_diag_mx dsd !mxE invfM mulrA [_^-1 * A i j]mulrC //.
exact: psd_congr.
Qed.

(* a vanishing diagonal entry of a psd matrix *)
Lemma psd_zero_row A i j : psd A -> A i i = 0 -> A i j = 0.
Proof.
move=> [sA pA] a0; case: (eqVneq (A i j) 0) => // b0; exfalso.
have h t : 0 <= 2%:R * t * A i j + A j j.
  have := pA (t *: delta_mx 0 i + delta_mx 0 j); rewrite -dotvE mulmxDl -scalemxAl.
  rewrite !dotvDl !dotvDr !dotvZl !dotvZr !dotvE !quad_delta a0.
  have -> : A j i = A i j by rewrite -{1}sA mxE.
  by move=> hh; have -> : 2%:R * t * A i j + A j j = t * (t * 0) + t * A i j + (t * A i j + A j j) by ring.
have c0 : 0 <= A j j by rewrite -quad_delta; exact: pA.
have := h (- (A j j + 1) / (2%:R * A i j)).
have -> : 2%:R * (- (A j j + 1) / (2%:R * A i j)) * A i j = - (A j j + 1) by field.
by rewrite leNgt; flra.
Qed.

Lemma corr_nan A i j : psd A -> A i i = 0 -> covariance_to_correlation A i j = NaN.
Proof.
move=> pA a0; rewrite mxE (psd_zero_row j pA a0) a0 /np_sqrt lexx sqrtr0.
by case: ifP => //= _; rewrite mul0r eqxx /inf_sign ltxx.
Qed.

Lemma corr_nan_neg A i j : A i i < 0 -> covariance_to_correlation A i j = NaN.
Proof. by move=> a0; rewrite mxE /np_sqrt leNgt a0. Qed.

End Corr.

Section KendallP.
Variable T : rcfType.
Implicit Types (x y : seq T).

Lemma size_pair_signs x : size (pair_signs x) = size (obs_pairs (size x)).
Proof. by rewrite size_map. Qed.

Lemma sum_pairs n (F : nat * nat -> T) :
  \sum_(q <- obs_pairs n) F q = \sum_(q : 'I_n * 'I_n | (q.1 < q.2)%N) F (val q.1, val q.2).
Proof.
rewrite /obs_pairs big_allpairs_dep /=.
rewrite -(pair_big_dep predT (fun i j : 'I_n => (i < j)%N) (fun i j : 'I_n => F (val i, val j))) /=.
rewrite (exchange_big_dep predT) //=.
rewrite -[X in iota 0 X]subn0 -/(index_iota 0 n) big_mkord; apply: eq_bigr => j _.
rewrite -[X in iota 0 X]subn0 -/(index_iota 0 j) big_mkord.
by rewrite (big_ord_widen n (fun i => F (i, val j))) // ltnW.
Qed.

Lemma sum_count n (P : pred ('I_n * 'I_n)) :
  \sum_(q : 'I_n * 'I_n | (q.1 < q.2)%N) (if P q then 1 else 0 : T) = #|[set q : 'I_n * 'I_n | (q.1 < q.2)%N && P q]|%:R.
Proof.
rewrite -big_mkcondr /= -sum1_card natr_sum; apply: eq_bigl => q.
by rewrite inE.
Qed.

Lemma untiedE x : untied x = (distinct_pairs x)%:R.
Proof.
rewrite /untied /pair_signs big_map sum_pairs /distinct_pairs -sum_count; apply: eq_bigr => q _ /=.
by rewrite sgr_eq0 subr_eq0; case: eqP.
Qed.

Lemma untied_sq x : untied x = \sum_(s <- pair_signs x) s ^+ 2.
Proof.
rewrite /untied /pair_signs !big_map; apply: eq_bigr => q _.
by rewrite sgr_eq0 sqr_sg; case: eqP.
Qed.

Lemma cmdE x y : size y = size x ->
  con_minus_dis x y = (concordant x y)%:R - (discordant x y)%:R.
Proof.
move=> sy; rewrite /con_minus_dis /pair_signs sy zip_map2 big_map sum_pairs /concordant /discordant.
rewrite -!sum_count -sumrB; apply: eq_bigr => q _ /=; rewrite -sgrM.
by case: (sgrP (_ * _)); rewrite ?subrr ?subr0 ?sub0r.
Qed.

Lemma cmd_idx x y : size y = size x -> con_minus_dis x y
  = \sum_(k < size (obs_pairs (size x))) nth 0 (pair_signs x) k * nth 0 (pair_signs y) k.
Proof.
move=> sy; rewrite /con_minus_dis (big_nth (0, 0)) size_zip !size_pair_signs sy minnn big_mkord.
by apply: eq_bigr => k _; rewrite nth_zip ?size_pair_signs ?sy.
Qed.

Lemma untied_idx x : untied x = \sum_(k < size (obs_pairs (size x))) nth 0 (pair_signs x) k ^+ 2.
Proof. by rewrite untied_sq (big_nth 0) size_pair_signs big_mkord. Qed.

Lemma untied_ge0 x : 0 <= untied x.
Proof. by rewrite untiedE ler0n. Qed.

(* the unclipped coefficient *)
Definition tau0 x y : T := con_minus_dis x y / Num.sqrt (untied x) / Num.sqrt (untied y).

Lemma tau0_range x y : size y = size x -> untied x != 0 -> untied y != 0 -> - 1 <= tau0 x y <= 1.
Proof.
move=> sy x0 y0; rewrite -ler_norml -(@ler_pexpn2r _ 2) ?nnegrE ?normr_ge0 ?ler01 //.
rewrite real_normK ?num_real // expr1n /tau0 !expr_div_n !sqr_sqrtr ?untied_ge0 //.
have ux : 0 < untied x by rewrite lt_neqAle eq_sym x0 untied_ge0.
have uy : 0 < untied y by rewrite lt_neqAle eq_sym y0 untied_ge0.
rewrite ler_pdivr_mulr // mul1r ler_pdivr_mulr // mulrC.
pose v z : 'rV[T]_(size (obs_pairs (size x))) := \row_k nth 0 (pair_signs z) k.
have := dotv_CS (v x) (v y).
have -> : dotv (v x) (v y) = con_minus_dis x y.
  by rewrite cmd_idx //; apply: eq_bigr => k _; rewrite !mxE.
have -> : dotv (v x) (v x) = untied x.
  by rewrite untied_idx; apply: eq_bigr => k _; rewrite !mxE expr2.
have -> // : dotv (v y) (v y) = untied y.
by rewrite untied_idx sy; apply: eq_bigr => k _; rewrite !mxE expr2.
Qed.

Lemma tauE x y : size y = size x -> untied x != 0 -> untied y != 0 -> kendalltau x y = Fin (tau0 x y).
Proof.
move=> sy x0 y0; rewrite /kendalltau (negbTE x0) (negbTE y0) /= -/(tau0 x y).
by have /andP[h1 h2] := tau0_range sy x0 y0; rewrite (max_idPr h1) (min_idPr h2).
Qed.

Lemma tau0C x y : size y = size x -> tau0 x y = tau0 y x.
Proof.
move=> sy; rewrite /tau0 mulrAC cmd_idx // cmd_idx ?sy //; congr (_ / _ / _).
by apply: eq_bigr => k _; rewrite mulrC.
Qed.

Lemma pair_signs_mono (f : T -> T) x : {mono f : a b / a < b} -> pair_signs (map f x) = pair_signs x.
Proof.
move=> hf; rewrite /pair_signs size_map; apply/eq_in_map => q.
move=> /allpairsPdep [j [i]]; rewrite !mem_iota !add0n /= => -[hj hi ->] /=.
have hi' : (i < size x)%N := ltn_trans hi hj.
rewrite !(nth_map 0) //; move: (nth 0 x i) (nth 0 x j) => a b.
case: (ltrgtP a b) => h.
- by rewrite !ltr0_sg // subr_lt0 ?hf.
- by rewrite !gtr0_sg // subr_gt0 ?hf.
- by rewrite h !subrr.
Qed.

Lemma tau_mono (f g : T -> T) x y : {mono f : a b / a < b} -> {mono g : a b / a < b} ->
  kendalltau (map f x) (map g y) = kendalltau x y.
Proof.
by move=> hf hg; rewrite /kendalltau /untied /con_minus_dis !pair_signs_mono.
Qed.

(* constant samples *)
Lemma untied0P x : reflect (forall a b, a \in x -> b \in x -> a = b) (untied x == 0).
Proof.
rewrite untiedE pnatr_eq0 cards_eq0; apply: (iffP eqP) => [h a b|h].
  move=> /(nthP 0) [i hi <-] /(nthP 0) [j hj <-].
  have aux (i' j' : 'I_(size x)) : (i' < j')%N -> nth 0 x i' = nth 0 x j'.
    move=> hij; have : (i', j') \notin [set q : 'I_(size x) * 'I_(size x) | (q.1 < q.2)%N && (nth 0 x q.1 != nth 0 x q.2)].
      by rewrite h inE.
    by rewrite inE /= hij /= negbK => /eqP.
  case: (ltngtP i j) => [l|l|-> //]; first exact: (aux (Ordinal hi) (Ordinal hj) l).
  by symmetry; exact: (aux (Ordinal hj) (Ordinal hi) l).
apply/setP => q; rewrite !inE; apply/negP => /andP[_ /eqP]; apply.
by apply: h; rewrite mem_nth.
Qed.

Variable p : nat.
Implicit Types (X : seq 'rV[T]_p).
Variable qn : seq T -> T.

Lemma size_coln X j : size (coln X j) = size X.
Proof. by rewrite size_map. Qed.

Definition nocst X := forall j, untied (coln X j) != 0.

Definition corT X : 'M[T]_p := \matrix_(i, j) tau0 (coln X i) (coln X j).

Lemma tau0_diag X i : nocst X -> tau0 (coln X i) (coln X i) = 1.
Proof.
move=> h; rewrite /tau0 -mulrA -invfM -expr2 sqr_sqrtr ?untied_ge0 //.
rewrite cmd_idx //.
have -> : \sum_(k < size (obs_pairs (size (coln X i)))) nth 0 (pair_signs (coln X i)) k * nth 0 (pair_signs (coln X i)) k
    = untied (coln X i) by rewrite untied_idx; apply: eq_bigr => k _; rewrite expr2.
by rewrite divff.
Qed.

Lemma kcorE X : nocst X -> kendall_cor X = \matrix_(i, j) Fin (corT X i j).
Proof.
move=> h; apply/matrixP => i j; rewrite !mxE; case: eqP => [<-|_]; first by rewrite tau0_diag.
by case: ifP => _; rewrite tauE ?size_coln // tau0C ?size_coln.
Qed.

Lemma kcovE X : nocst X -> kendall_cov qn X
  = \matrix_(i, j) Fin ((diag_mx (\row_k qn (coln X k)) *m corT X *m diag_mx (\row_k qn (coln X k))) i j).
Proof.
move=> h; apply/matrixP => i j; rewrite /kendall_cov [LHS]mxE [RHS]mxE dsd.
rewrite ![(\row__ _) _ _]mxE; case: eqP => [<-|_].
  by rewrite [corT X i i]mxE tau0_diag // mulr1 expr2.
have sc : corT X j i = corT X i j by rewrite !mxE tau0C ?size_coln.
by case: ifP => _; rewrite kcorE // mxE /= ?sc; congr Fin; ring.
Qed.

Lemma corT_psd X : nocst X -> psd (corT X).
Proof.
move=> h; pose W : 'M[T]_(size (obs_pairs (size X)), p) :=
  \matrix_(k, j) (nth 0 (pair_signs (coln X j)) k / Num.sqrt (untied (coln X j))).
have -> : corT X = W^T *m W; last exact: psd_gram.
apply/matrixP => i j; rewrite !mxE /tau0 cmd_idx ?size_coln // -mulrA mulr_suml.
by apply: eq_bigr => k _; rewrite !mxE; ring.
Qed.

Lemma kcov_nan X i j : i != j -> untied (coln X i) = 0 -> kendall_cov qn X i j = NaN.
Proof.
move=> ij u0; rewrite mxE (negbTE ij); have hn x : kendalltau (coln X i) x = NaN /\ kendalltau x (coln X i) = NaN.
  by rewrite /kendalltau u0 eqxx orbT.
case: (ltngtP j i) => h.
- by rewrite mxE (negbTE ij) h (hn _).1.
- by rewrite mxE eq_sym (negbTE ij) h (hn _).2.
- by move: ij; rewrite (_ : i = j) ?eqxx //; apply: val_inj.
Qed.

End KendallP.

Section BaseP.
Variables (T : rcfType) (p : nat) (pinvh : 'M[T]_p -> 'M[T]_p).
Variable calc : seq 'rV[T]_p -> option 'rV[T]_p * res 'M[xnum T]_p.
Implicit Types (X : seq 'rV[T]_p) (o : cov_obj T p).
Local Notation fit := (cov_fit pinvh calc).

Lemma finite_mxP (S : 'M[T]_p) : finite_mx (\matrix_(i, j) Fin (S i j)).
Proof. by apply/forallP => i; apply/forallP => j; rewrite mxE. Qed.

Lemma fin_mxE (S : 'M[T]_p) : fin_mx (\matrix_(i, j) Fin (S i j)) = S.
Proof. by apply/matrixP => i j; rewrite !mxE. Qed.

Lemma fin_mxK (S : 'M[xnum T]_p) : finite_mx S -> S = \matrix_(i, j) Fin (fin_mx S i j).
Proof.
move=> /forallP h; apply/matrixP => i j; rewrite !mxE; have /forallP/(_ j) := h i.
by case: (S i j).
Qed.

(* the second moment about a point (Huygens) *)
Lemma huygens X (A : 'M[T]_p) (m c : 'rV[T]_p) : A^T = A -> is_mean X m ->
  \sum_(x <- X) ((x - c) *m A *m (x - c)^T) 0 0
  = \sum_(x <- X) ((x - m) *m A *m (x - m)^T) 0 0 + (size X)%:R * ((m - c) *m A *m (m - c)^T) 0 0.
Proof.
move=> sA hm; have e (x : 'rV[T]_p) : ((x - c) *m A *m (x - c)^T) 0 0 = ((x - m) *m A *m (x - m)^T) 0 0
    + (2%:R * dotv (x - m) ((m - c) *m A) + ((m - c) *m A *m (m - c)^T) 0 0).
  have -> : x - c = (x - m) + (m - c) by rewrite addrA subrK.
  move: (x - m) (m - c) => u v; rewrite -!dotvE mulmxDl !dotvDl !dotvDr.
  have -> : dotv (u *m A) v = dotv u (v *m A).
    by rewrite !dotvE trmx_mul sA mulmxA.
  rewrite (dotvC (v *m A) u); ring.
rewrite (eq_bigr _ (fun x _ => e x)) big_split big_split /= -mulr_sumr; congr (_ + _).
have -> : \sum_(i <- X) dotv (i - m) ((m - c) *m A) = 0.
  have -> : \sum_(i <- X) dotv (i - m) ((m - c) *m A) = dotv (\sum_(i <- X) (i - m)) ((m - c) *m A).
    by elim: (X) => [|x l IH]; [rewrite !big_nil dot0v|rewrite !big_cons [RHS]dotvDl IH].
  have -> : \sum_(i <- X) (i - m) = 0; last by rewrite dot0v.
  apply/rowP => j; rewrite summxE [RHS]mxE.
  rewrite (eq_bigr (fun i : 'rV[T]_p => i 0 j - m 0 j)); last by move=> i _; rewrite !mxE.
  rewrite sumrB; have [_ /(_ j) <-] := hm.
  by rewrite big_const_seq count_predT iter_addr_0 -[m 0 j *+ _]mulr_natl subrr.
by rewrite mulr0 add0r big_const_seq count_predT iter_addr_0 mulr_natl.
Qed.

End BaseP.
