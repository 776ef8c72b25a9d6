(* Properties of the covariance utilities, KendallTau, WrappingCovariance and the base class. *)
From mathcomp Require Import all_ssreflect all_algebra.
From mathcomp.zify Require Import zify.
From mathcomp.algebra_tactics Require Import ring.
From Verif Require Import RFieldLra Prelude Stats Xnum Qn_Model Regr Vec PSD.
From Verif Require Import LinAlg_Model LinAlg_Proofs MCD_Model MCD_Spec MCD_Proofs MCDRun_Proofs.
From Verif Require Import MCDCase_Proofs OGK_Model OGK_Proofs Eig2_Proofs Wrapping_Model Wrapping_Props.
From Verif Require Import Cov_Model Cov_Spec Cov_Proofs.

Set Implicit Arguments.
Unset Strict Implicit.
Unset Printing Implicit Defensive.

Import Order.TTheory GRing.Theory Num.Theory.
Local Open Scope ring_scope.

Section Alter.
Variables (T : rcfType) (p : nat).
Implicit Types (A : 'M[T]_p) (x : 'rV[T]_p).

(* C69: truncated_covariance returns a symmetric matrix with all quadratic forms at least
   min_eigenvalue |x|^2 and at least those of the input, leaves a matrix that already satisfies
   the bound unchanged, and is idempotent *)
Theorem truncated_covariance_spec (eigh : 'M[T]_p -> 'rV[T]_p * 'M[T]_p)
    (argsort : 'rV[T]_p -> 'I_p -> 'I_p) A m :
  correct_eigh eigh -> (forall w, injective (argsort w)) ->
  let B := truncated_covariance eigh argsort A m in
  [/\ B^T = B, forall x, m * (x *m x^T) 0 0 <= (x *m B *m x^T) 0 0,
      forall x, (x *m A *m x^T) 0 0 <= (x *m B *m x^T) 0 0,
      A^T = A -> (forall x, m * (x *m x^T) 0 0 <= (x *m A *m x^T) 0 0) -> B = A
    & truncated_covariance eigh argsort B m = B].
Proof.
move=> he ha B; split.
- exact: trunc_sym.
- exact: trunc_lower.
- exact: trunc_dominates.
- exact: trunc_id.
- exact: trunc_idem.
Qed.

(* C70: with a positive diagonal the correlation is finite, has unit diagonal, keeps symmetry
   and positive semidefiniteness and ignores positive factors of the variables *)
Theorem correlation_normalised A : (forall i, 0 < A i i) ->
  exists R : 'M[T]_p,
  [/\ covariance_to_correlation A = \matrix_(i, j) Fin (R i j), forall i, R i i = 1,
      forall i j, R i j * Num.sqrt (A i i) * Num.sqrt (A j j) = A i j,
      A^T = A -> R^T = R
    & psd A -> psd R /\ forall i j, - 1 <= R i j <= 1]
  /\ forall c : 'rV[T]_p, (forall i, 0 < c 0 i) ->
     covariance_to_correlation (\matrix_(i, j) (c 0 i * A i j * c 0 j)) = covariance_to_correlation A.
Proof.
move=> h; exists (corr A); split; last first.
  move=> c hc; have -> : \matrix_(i, j) (c 0 i * A i j * c 0 j) = diag_mx c *m A *m diag_mx c.
    by apply/matrixP => i j; rewrite dsd mxE.
  rewrite !corr_fin ?corr_scale // => i; rewrite dsd; by rewrite !mulr_gt0.
split; [exact: corr_fin|by move=> i; exact: corr_diag| | exact: corr_sym|].
  move=> i j; rewrite mxE invfM mulrA -mulrA mulrC; have := sqrt_neq0 (h i); have := sqrt_neq0 (h j).
  move: (Num.sqrt _) (Num.sqrt _) => a b b0 a0; by field; rewrite a0 b0.
move=> pA; have pR := corr_psd pA; split=> // i j.
case: (pR) => sR qR; have h1 := qR (delta_mx 0 i + delta_mx 0 j); have h2 := qR (delta_mx 0 i - delta_mx 0 j).
rewrite -dotvE mulmxDl !dotvDl !dotvDr !dotvE !quad_delta !corr_diag // in h1.
rewrite -dotvE mulmxBl !dotvBl !dotvBr !dotvE !quad_delta !corr_diag // in h2.
have e : corr A j i = corr A i j by rewrite -{1}sR mxE.
move: h1 h2; rewrite e; move: (corr A i j) => r h1 h2; apply/andP; split; flra.
Qed.

(* C70: a vanishing variance of a positive semidefinite matrix, or a negative one, gives NaN in
   the whole row *)
Theorem correlation_nan A i j : (psd A /\ A i i = 0) \/ A i i < 0 ->
  covariance_to_correlation A i j = NaN.
Proof. by case=> [[pA a0]|a0]; [exact: corr_nan|exact: corr_nan_neg]. Qed.

End Alter.

Section Kendall.
Variables (T : rcfType) (p : nat) (qn_scale : seq T -> T).
Implicit Types (X : seq 'rV[T]_p).
Local Notation col X j := [seq x 0 j | x : 'rV[T]_p <- X].

(* C68: without constant columns *)
Theorem kendall_covariance_psd X :
  (forall j, exists a b, [/\ a \in col X j, b \in col X j & a != b]) ->
  exists R S : 'M[T]_p,
  [/\ kendall_cor X = \matrix_(i, j) Fin (R i j),
      kendall_cov qn_scale X = \matrix_(i, j) Fin (S i j),
      psd R /\ psd S,
      forall i, R i i = 1 /\ S i i = qn_scale (col X i) ^+ 2
    & forall i j, [/\ - 1 <= R i j <= 1, S i j = qn_scale (col X i) * R i j * qn_scale (col X j)
      & R i j * Num.sqrt (distinct_pairs (col X i))%:R * Num.sqrt (distinct_pairs (col X j))%:R
        = (concordant (col X i) (col X j))%:R - (discordant (col X i) (col X j))%:R]].
Proof.
move=> hc; have h : nocst X.
  by move=> j; apply/untied0P => e; have [a [b [ha hb /eqP]]] := hc j; apply; exact: e.
exists (corT X), (diag_mx (\row_k qn_scale (coln X k)) *m corT X *m diag_mx (\row_k qn_scale (coln X k))).
have d1 i : corT X i i = 1 by rewrite mxE tau0_diag.
split; [exact: kcorE|exact: kcovE| | |].
- split; first exact: corT_psd.
  by rewrite -{2}[diag_mx _]tr_diag_mx; apply: psd_congr; exact: corT_psd.
- by move=> i; split; rewrite ?dsd ?d1 // ![(\row__ _) _ _]mxE mulr1 expr2.
move=> i j; have h0 k : untied (coln X k) != 0 := h k.
split; [by rewrite mxE tau0_range // !size_coln|by rewrite dsd ![(\row__ _) _ _]mxE|].
rewrite mxE -!untiedE -cmdE ?size_map // /tau0 -/(coln X i) -/(coln X j).
have sq k : Num.sqrt (untied (coln X k)) != 0.
  by rewrite sqrtr_eq0 -ltNge lt_neqAle eq_sym h0 untied_ge0.
by move: (Num.sqrt _) (sq i) (Num.sqrt _) (sq j) => a a0 b b0; field; rewrite a0 b0.
Qed.

(* C68: strictly increasing transformations of the variables leave the correlation unchanged *)
Theorem kendall_monotone_invariant X (f : 'I_p -> T -> T) : (forall j, {mono f j : a b / a < b}) ->
  kendall_cor [seq (\row_j f j (x 0 j)) | x : 'rV[T]_p <- X] = kendall_cor X.
Proof.
move=> hf; have e j : coln [seq (\row_j f j (x 0 j)) | x : 'rV[T]_p <- X] j = map (f j) (coln X j).
  by rewrite /coln -!map_comp; apply: eq_map => x /=; rewrite mxE.
by apply/matrixP => i j; rewrite !mxE !e !tau_mono.
Qed.

(* C68: a constant column gives NaN, and the fit of KendallTau fails *)
Theorem kendall_constant_column_fails (pinvh : 'M[T]_p -> 'M[T]_p) sp ac o X i j : i != j ->
  (forall a b, a \in col X i -> b \in col X i -> a = b) ->
  kendall_cov qn_scale X i j = NaN /\
  (cov_fit pinvh (calc_kendall qn_scale) sp ac o X).2 = Err ValueError.
Proof.
move=> ij h; have hn := kcov_nan qn_scale ij (eqP (introT (untied0P _) h)); split=> //.
rewrite /cov_fit /=; case: ifP => // /negbFE /forallP /(_ i) /forallP /(_ j).
by rewrite hn.
Qed.

End Kendall.

Section Base.
Variables (T : rcfType) (p : nat) (pinvh : 'M[T]_p -> 'M[T]_p).
Variable calc : seq 'rV[T]_p -> option 'rV[T]_p * res 'M[xnum T]_p.
Implicit Types (X : seq 'rV[T]_p) (o : cov_obj T p).
Local Notation fit := (cov_fit pinvh calc).

(* C71: a successful fit; both lists of distances use the location of the estimator *)
Theorem cov_fit_distances sp ac o X o' : fit sp ac o X = (o', Ok tt) -> (1 < size X)%N ->
  exists (l : option 'rV[T]_p) (S : 'M[T]_p), let loc := odflt (if ac then 0 else vmean X) l in
  [/\ calc X = (l, Ok (\matrix_(i, j) Fin (S i j))),
      [/\ S \in unitmx, cov X \in unitmx & p != 1%N],
      [/\ o_loc o' = Some loc, o_cov o' = Some S & o_prec o' = if sp then Some (pinvh S) else None],
      o_default o' = Some (\matrix_(i, j) Fin (cov X i j)) /\
      o_rd o' = Some [seq np_sqrt (maha2 S loc x) | x <- X]
    & o_md o' = Some [seq Fin (Num.sqrt (maha2 (cov X) loc x)) | x <- X]].
Proof.
move=> H X1; move: H; rewrite /cov_fit; case ec: (calc X) => [l [S0| |]] //; case: ifP => // /negbFE hf.
case er: mahalanobis_distance => [rd| |] //; case em: classical_distances => [md| |] // [<-] /=.
exists l, (fin_mx S0).
move: em; rewrite /classical_distances leqNgt X1 /=; case: eqP => // p1.
case: (boolP (cov X \in unitmx)) => [uX|/maha_sing -> //]; rewrite (maha_fin _ _ (psd_cov X) uX) => -[<-].
move: er; case: (boolP (fin_mx S0 \in unitmx)) => [uS|/maha_sing -> //].
rewrite /mahalanobis_distance np_inv_ok //= => -[<-].
rewrite -(fin_mxK hf); split=> //.
  split; last by congr Some; apply: eq_map => x; rewrite maha2E.
  by congr Some; apply/matrixP => i j; rewrite !mxE leqNgt X1.
by congr Some; rewrite -map_comp; apply: eq_map => x /=; rewrite maha2E.
Qed.

(* C71: the stored non-robust distances are the classical Mahalanobis distances exactly when the
   location of the estimator is the sample mean *)
Theorem nonrobust_distances_classical sp ac o X o' : fit sp ac o X = (o', Ok tt) -> (1 < size X)%N ->
  o_md o' = Some [seq Fin (Num.sqrt (maha2 (cov X) (vmean X) x)) | x <- X]
  <-> o_loc o' = Some (vmean X).
Proof.
move=> e X1; have [l [S /= [_ [_ uX _] [-> _ _] _ ->]]] := cov_fit_distances e X1.
set loc := odflt _ l; split=> [[h]|[->] //]; congr Some.
have pI : psd (invmx (cov X)) := psd_inv (psd_cov X) uX; have sI := proj1 pI.
have q0 m y : 0 <= maha2 (cov X) m y by rewrite /maha2; exact: (proj2 pI).
have hx x : x \in X -> maha2 (cov X) loc x = maha2 (cov X) (vmean X) x.
  move=> xX; rewrite -[LHS]sqr_sqrtr // -[RHS]sqr_sqrtr //; congr (_ ^+ 2).
  move: h xX; move: (cov X) (vmean X) loc => C m l0; elim: (X) => //= a s IH [e1 e2]; rewrite inE => /orP[/eqP -> //|]; exact: IH.
have n0 : (size X)%:R != 0 :> T by rewrite pnatr_eq0 -lt0n ltnW.
have := huygens loc sI (is_mean_vmean (ltnW X1)).
have -> : \sum_(x <- X) ((x - loc) *m invmx (cov X) *m (x - loc)^T) 0 0
  = \sum_(x <- X) ((x - vmean X) *m invmx (cov X) *m (x - vmean X)^T) 0 0.
  by apply: eq_big_seq => x /hx.
rewrite -[LHS]addr0 => /addrI /esym/eqP; rewrite mulf_eq0 (negbTE n0) /= => q.
case: (eqVneq (vmean X) loc) => [-> //|ne].
have pd : posdef (cov X) := psd_unit_posdef (psd_cov X) uX.
by have := posdef_inv pd (x := vmean X - loc); rewrite subr_eq0 (eqP q) ltxx => /(_ ne).
Qed.

(* C71: assume_centered has no effect when calculate_covariance assigns a location; otherwise
   the location is zero or the sample mean *)
Theorem assume_centered_overridden sp ac o X l r : calc X = (l, r) ->
  (forall m, l = Some m -> fit sp true o X = fit sp false o X /\ o_loc (fit sp ac o X).1 = Some m) /\
  (l = None -> o_loc (fit sp ac o X).1 = Some (if ac then 0 else vmean X)).
Proof.
move=> e; have hl b : o_loc (fit sp b o X).1 = Some (odflt (if b then 0 else vmean X) l).
  rewrite /cov_fit e; case: r {e} => [S| |] //; case: ifP => // _.
  case: mahalanobis_distance => // rd; by case: classical_distances.
split=> [m lm|ln]; rewrite hl; last by rewrite ln.
by rewrite lm; split=> //; rewrite /cov_fit e lm.
Qed.

(* C105: an unsuccessful fit because of a singular classical covariance: the robust attributes
   are set, the plot is not available on a new object *)
Theorem singular_classical_covariance_fails sp ac X l (S : 'M[T]_p) :
  calc X = (l, Ok (\matrix_(i, j) Fin (S i j))) -> S \in unitmx ->
  (1 < p)%N -> (1 < size X)%N -> cov X \notin unitmx ->
  exists o', [/\ fit sp ac (new_cov T p) X = (o', Err LinAlgError), get_covariance o' = Ok S,
    o_rd o' = Some [seq np_sqrt (maha2 S (odflt (if ac then 0 else vmean X) l) x) | x <- X]
    & dd_plot_points o' = Err AttributeError].
Proof.
move=> e uS p1 X1 nX; rewrite /cov_fit e (finite_mxP S) fin_mxE /mahalanobis_distance np_inv_ok //=.
rewrite /classical_distances gtn_eqF // leqNgt X1 /= maha_sing //; eexists; split; try by [].
by congr Some; apply: eq_map => x; rewrite maha2E.
Qed.

(* C105: after an earlier fit the plot shows the non-robust distances of the earlier data *)
Theorem stale_distances_plotted sp ac o X l (S : 'M[T]_p) md0 : o_md o = Some md0 ->
  calc X = (l, Ok (\matrix_(i, j) Fin (S i j))) -> S \in unitmx ->
  (1 < p)%N -> (1 < size X)%N -> cov X \notin unitmx ->
  exists o' rd, [/\ fit sp ac o X = (o', Err LinAlgError), o_rd o' = Some rd, size rd = size X
    & dd_plot_points o' = if size md0 == size X then Ok (md0, rd) else Err ValueError].
Proof.
move=> hm e uS p1 X1 nX; rewrite /cov_fit e (finite_mxP S) fin_mxE /mahalanobis_distance np_inv_ok //=.
rewrite /classical_distances gtn_eqF // leqNgt X1 /= maha_sing // hm; eexists; eexists; split; try by [].
  by rewrite size_map.
by rewrite /dd_plot_points /= size_map.
Qed.

End Base.

(* C105: no estimator can be fitted to a single variable *)
Theorem univariate_fit_fails (T : rcfType) (pinvh : 'M[T]_1 -> 'M[T]_1) calc sp ac o X :
  (cov_fit pinvh calc sp ac o X).2 <> Ok tt.
Proof.
rewrite /cov_fit; case: (calc X) => l [S| |] //; case: ifP => // _.
by case: mahalanobis_distance.
Qed.

Section Location.
Variables (T : rcfType) (p : nat) (pinvh : 'M[T]_p -> 'M[T]_p).
Implicit Types (X : seq 'rV[T]_p) (o : cov_obj T p).

(* C103: KendallTau and WrappingCovariance do not estimate a location; location_ is the plain
   sample mean, and moves without bound with a single row *)
Theorem kendall_wrapping_location_is_mean sp o X qn tanh b c q1 q2 loc_est scale_est :
  o_loc (cov_fit pinvh (calc_kendall qn) sp false o X).1 = Some (vmean X) /\
  o_loc (cov_fit pinvh (calc_wrapping tanh b c q1 q2 loc_est scale_est) sp false o X).1 = Some (vmean X).
Proof.
split.
  have e : calc_kendall qn X = (None, Ok (kendall_cov qn X)) by [].
  by have [_ ->] := assume_centered_overridden pinvh sp false o e.
have e : calc_wrapping tanh b c q1 q2 loc_est scale_est X
  = (None, Ok (np_cov (wrap_rows tanh b c q1 q2 loc_est scale_est X))) by [].
by have [_ ->] := assume_centered_overridden pinvh sp false o e.
Qed.

Theorem unassigned_location_breaks_down sp o qn (x : 'rV[T]_p) X j (K : T) :
  exists y : 'rV[T]_p, (forall k, k != j -> y 0 k = x 0 k) /\
  exists m, o_loc (cov_fit pinvh (calc_kendall qn) sp false o (y :: X)).1 = Some m /\ K < m 0 j.
Proof.
pose n : T := (size X).+1%:R; pose s := \sum_(z <- X) z 0 j.
exists (\row_k (if k == j then n * (K + 1) - s else x 0 k)).
split; first by move=> k kj; rewrite mxE (negbTE kj).
have hk Y := proj1 (kendall_wrapping_location_is_mean sp o Y qn id 0 0 0 0 (fun _ => 0) (fun _ => 0)).
eexists; split; first exact: hk.
rewrite /vmean mxE summxE big_cons mxE eqxx -/s subrK /= -/n mulKf ?pnatr_eq0 //; flra.
Qed.

(* C104: the variances of WrappingCovariance are the squared scales, up to n / (n - 1) *)
Theorem wrapping_covariance_diagonal tanh b c q1 q2 loc_est scale_est X j :
  (1 < size X)%N -> 0 <= scale_est (coln X j) ->
  let z := z_wrapped tanh b c q1 q2 (loc_est (coln X j)) (scale_est (coln X j)) (coln X j) in
  let S := cov (wrap_rows tanh b c q1 q2 loc_est scale_est X) in
  [/\ calc_wrapping tanh b c q1 q2 loc_est scale_est X = (None, Ok (\matrix_(i, k) Fin (S i k))),
      ~~ constant z -> ((size X).-1)%:R * S j j = (size X)%:R * scale_est (coln X j) ^+ 2,
      constant z -> S j j = 0 & psd S].
Proof.
move=> X1 s0 z S; pose W := wrap_rows tanh b c q1 q2 loc_est scale_est X.
have sW : size W = size X by rewrite size_map size_iota.
pose w := wrapping_transformation tanh b c q1 q2 true (loc_est (coln X j)) (scale_est (coln X j)) (coln X j).
have X0 : (0 < size (coln X j))%N by rewrite size_map ltnW.
have [sw mw vw cw] := wrapping_rescaled tanh b c q1 q2 (loc_est (coln X j)) s0 X0.
have szw : size w = size X by rewrite sw size_map.
have cW : coln W j = w.
  by rewrite /coln /W /wrap_rows -map_comp -[RHS](mkseq_nth 0) szw; apply: eq_map => i /=; rewrite mxE.
have mW : vmean W 0 j = fmean w.
  rewrite -cW /fmean size_coln sW /vmean mxE summxE sW mulrC; congr (_ / _).
  by rewrite fsumE /coln [RHS]big_map.
have vW : ((size X).-1)%:R * S j j = \sum_(v <- w) (v - fmean w) ^+ 2.
  rewrite -sW cov_entry ?sW // mW -cW /coln [RHS]big_map; apply: eq_bigr => y _; by rewrite expr2.
have n0 : (size X)%:R != 0 :> T by rewrite pnatr_eq0 -lt0n ltnW.
have n1 : ((size X).-1)%:R != 0 :> T by rewrite pnatr_eq0 -lt0n -ltnS prednK // ltnW.
split; last exact: psd_cov.
- by congr (_, Ok _); apply/matrixP => i k; rewrite !mxE sW leqNgt X1.
- move=> nz; rewrite vW -(vw nz) -/w.
  have vE : fvar w = (\sum_(v <- w) (v - fmean w) ^+ 2) / (size X)%:R.
    by rewrite /fvar {1}/fmean size_map szw fsumE big_map.
  rewrite sqr_sqrtr vE; first by rewrite mulrC divfK.
  by rewrite divr_ge0 ?ler0n // sumr_ge0 // => v _; exact: sqr_ge0.
move=> cz; have /allP hall := cw cz; apply: (mulfI n1); rewrite vW mulr0 big_seq big1 // => v hv.
by rewrite mw (eqP (hall v hv)) subrr expr0n.
Qed.

End Location.

Section Cases.
Variable T : rcfType.

(* an exact eigen-decomposition in the plane *)
Definition eigh2 (A : 'M[T]_2) : 'rV[T]_2 * 'M[T]_2 :=
  (\row_j ((eig2 A)^T *m A *m eig2 A) j j, eig2 A).

Lemma eigh2_correct : correct_eigh eigh2.
Proof.
move=> A sA; have [o [d hd]] := eig2P sA; split=> //=.
have -> : \row_j ((eig2 A)^T *m A *m eig2 A) j j = d.
  by apply/rowP => j; rewrite mxE hd mxE eqxx.
have o' := mulmx1C o.
by rewrite -hd !mulmxA o' mul1mx -mulmxA o' mulmx1.
Qed.

(* eigenvalues 3 and -1, bound 1/2: the matrix is changed *)
Example truncated_covariance_case :
  let A := mx2 1 2%:R 2%:R 1 : 'M[T]_2 in
  let B := truncated_covariance eigh2 (fun _ j => j) A (1 / 2%:R) in
  [/\ B^T = B, B != A & truncated_covariance eigh2 (fun _ j => j) B (1 / 2%:R) = B].
Proof.
move=> A B; have [sB lB _ _ iB] := @truncated_covariance_spec T 2 eigh2 (fun _ j => j) A (1 / 2%:R)
  eigh2_correct (fun _ => @inj_id _).
split=> //; apply/eqP => e.
have := lB (r2 ((1 : T), - 1)); rewrite -/B e.
rewrite !mxE !big_ord_recl !big_ord0 !mxE /= !big_ord_recl !big_ord0 !mxE /= => h.
suff : (0 : T) < 0 by rewrite ltxx.
move: h; flra.
Qed.

(* the correlation of [[4, 2], [2, 9]] *)
Example correlation_case :
  let A := mx2 4%:R 2%:R 2%:R 9%:R : 'M[T]_2 in
  exists R : 'M[T]_2, [/\ covariance_to_correlation A = \matrix_(i, j) Fin (R i j), R 0 0 = 1 & 3%:R * R 0 1 = 1].
Proof.
move=> A; have h i : 0 < A i i by rewrite mxE; case: (ord2 i) => -> /=; rewrite ltr0n.
have [R [[e d m _ _] _]] := correlation_normalised h; exists R; split=> //.
have := m 0 1; rewrite !mxE /=.
have -> : Num.sqrt (4%:R : T) = 2%:R by rewrite (_ : 4%:R = 2%:R ^+ 2) -?natrX // natrX sqrtr_sqr ger0_norm ?ler0n.
have -> : Num.sqrt (9%:R : T) = 3%:R by rewrite (_ : 9%:R = 3%:R ^+ 2) -?natrX // natrX sqrtr_sqr ger0_norm ?ler0n.
move=> hh; have n2 : 2%:R != 0 :> T by rewrite pnatr_eq0.
apply: (mulfI n2); rewrite mulr1 -[RHS]hh; ring.
Qed.

Example correlation_nan_case :
  covariance_to_correlation (mx2 0 0 0 (1 : T)) 0 1 = NaN /\
  covariance_to_correlation (mx2 (- 1) 0 0 (1 : T)) 0 1 = NaN.
Proof.
split; apply: correlation_nan; [left|right]; rewrite ?mxE /= ?ltrN10 //.
split=> //; split; first by rewrite mx2T.
move=> x; rewrite !mxE !big_ord_recl big_ord0 !mxE !big_ord_recl !big_ord0 !mxE /=.
by rewrite !mulr0 !mulr1 !addr0 !add0r mul0r add0r -expr2 sqr_ge0.
Qed.

(* three observations with two discordant pairs out of three *)
Definition three : seq 'rV[T]_2 :=
  [:: r2 ((1 : T), 2%:R); r2 ((2%:R : T), 3%:R); r2 ((3%:R : T), 1)].

Example kendall_case (qn : seq T -> T) :
  exists R S : 'M[T]_2, [/\ kendall_cor three = \matrix_(i, j) Fin (R i j),
    kendall_cov qn three = \matrix_(i, j) Fin (S i j), psd S & 3%:R * R 0 1 = - 1].
Proof.
have hne (j : 'I_2) : exists a b, [/\ a \in [seq x 0 j | x : 'rV[T]_2 <- three], b \in [seq x 0 j | x : 'rV[T]_2 <- three] & a != b].
  exists (three`_0 0 j), (three`_1 0 j); split; rewrite ?inE ?eqxx ?orbT //=.
  by case: (ord2 j) => ->; rewrite !mxE /=; [rewrite (eqr_nat T 1 2)|rewrite eqr_nat].
have [R [S [eR eS [_ pS] _ hR]]] := kendall_covariance_psd qn hne.
exists R, S; split=> //; have [_ _] := hR 0 1; rewrite -!untiedE -cmdE // -mulrA.
have c0 : [seq x 0 0 | x : 'rV[T]_2 <- three] = [:: 1; 2%:R; 3%:R] by rewrite /= !mxE.
have c1 : [seq x 0 1 | x : 'rV[T]_2 <- three] = [:: 2%:R; 3%:R; 1] by rewrite /= !mxE.
have sgl (a b : T) : a < b -> Num.sg (a - b) = - 1 by move=> h; rewrite ltr0_sg // subr_lt0.
have sgg (a b : T) : b < a -> Num.sg (a - b) = 1 by move=> h; rewrite gtr0_sg // subr_gt0.
have l12 : (1 : T) < 2%:R by rewrite ltr1n.
have l13 : (1 : T) < 3%:R by rewrite ltr1n.
have l23 : (2%:R : T) < 3%:R by rewrite ltr_nat.
have p0 : pair_signs [:: (1 : T); 2%:R; 3%:R] = [:: - 1; - 1; - 1] by rewrite /pair_signs /= !sgl.
have p1 : pair_signs [:: (2%:R : T); 3%:R; 1] = [:: - 1; 1; 1] by rewrite /pair_signs /= (sgl _ _ l23) (sgg _ _ l12) (sgg _ _ l13).
rewrite /con_minus_dis /untied c0 c1 p0 p1 !big_cons !big_nil /= oppr_eq0 oner_eq0.
have -> : (1 + (1 + (1 + 0)) : T) = 3%:R by ring.
rewrite -expr2 sqr_sqrtr ?ler0n // mulrC => ->; ring.
Qed.

(* doubling the first variable and shifting the second *)
Example kendall_monotone_case :
  kendall_cor [:: r2 ((2%:R : T), 7%:R); r2 ((4%:R : T), 8%:R); r2 ((6%:R : T), 6%:R)] = kendall_cor three.
Proof.
pose f (j : 'I_2) (x : T) := if j == 0 then 2%:R * x else x + 5%:R.
have hf j : {mono f j : a b / a < b}.
  by move=> a b; rewrite /f; case: eqP => _; rewrite ?ltr_pmul2l ?ltr0n ?ltr_add2r.
rewrite -(kendall_monotone_invariant three hf) /=; congr (kendall_cor [:: _; _; _]);
  by apply/rowP => j; case: (ord2 j) => ->; rewrite !mxE /f /=; ring.
Qed.

(* the second variable is constant *)
Example kendall_constant_case (qn : seq T -> T) pinvh :
  (cov_fit pinvh (calc_kendall qn) true false (new_cov T 2)
    [:: r2 ((1 : T), 5%:R); r2 ((2%:R : T), 5%:R)]).2 = Err ValueError.
Proof.
apply: (proj2 (kendall_constant_column_fails qn pinvh true false (new_cov T 2) (i := 1) (j := 0) isT _)).
by move=> a b; rewrite /= !inE !mxE /= orbb => /eqP -> ; rewrite orbb => /eqP ->.
Qed.

Definition tri : seq 'rV[T]_2 := [:: r2 ((0 : T), 0); r2 ((1 : T), 0); r2 ((0 : T), 1)].

Lemma tri_unit : cov tri \in unitmx.
Proof.
rewrite unitmxE unitfE det_cov3 /=; apply/eqP => h.
have : (0 : T) < 0; last by rewrite ltxx.
by rewrite -{2}h; flra.
Qed.

(* an estimator with location zero: the fit succeeds, the distances are not the classical ones,
   and assume_centered makes no difference *)
Example cov_fit_case (pinvh : 'M[T]_2 -> 'M[T]_2) ac :
  let calc := fun _ : seq 'rV[T]_2 => (Some 0, Ok (\matrix_(i, j) Fin ((1%:M : 'M[T]_2) i j))) in
  exists o', [/\ cov_fit pinvh calc true ac (new_cov T 2) tri = (o', Ok tt), o_loc o' = Some 0
    & o_md o' <> Some [seq Fin (Num.sqrt (maha2 (cov tri) (vmean tri) x)) | x <- tri]].
Proof.
move=> calc; have e : exists o', cov_fit pinvh calc true ac (new_cov T 2) tri = (o', Ok tt).
  rewrite /cov_fit /= finite_mxP fin_mxE /mahalanobis_distance np_inv_ok ?unitmx1 //=.
  rewrite /classical_distances /= maha_fin; [|exact: psd_cov|exact: tri_unit].
  by eexists.
have [o' e'] := e; exists o'; split=> //.
  by have [l [S /= [[<- _] _ [-> _ _] _ _]]] := cov_fit_distances e' isT.
move=> /(nonrobust_distances_classical e' isT).
have [l [S /= [[<- _] _ [-> _ _] _ _]]] := cov_fit_distances e' isT.
move=> [] /= /rowP /(_ 0); rewrite /vmean !mxE summxE !big_cons big_nil !mxE /= !(add0r, addr0) mulr1.
by move=> /esym/eqP; rewrite invr_eq0 pnatr_eq0.
Qed.

(* collinear data *)
Definition line3 : seq 'rV[T]_2 := [:: r2 ((0 : T), 0); r2 ((1 : T), 1); r2 ((2%:R : T), 2%:R)].

Example singular_case (pinvh : 'M[T]_2 -> 'M[T]_2) md0 :
  let calc := fun _ : seq 'rV[T]_2 => (None, Ok (\matrix_(i, j) Fin ((1%:M : 'M[T]_2) i j))) in
  let o := CovObj None None None None None (Some [:: md0; md0; md0]) in
  (exists o', [/\ cov_fit pinvh calc true false (new_cov T 2) line3 = (o', Err LinAlgError),
    get_covariance o' = Ok 1%:M & dd_plot_points o' = Err AttributeError]) /\
  exists o' rd, cov_fit pinvh calc true false o line3 = (o', Err LinAlgError) /\
    dd_plot_points o' = Ok ([:: md0; md0; md0], rd).
Proof.
move=> calc o; have nu : cov line3 \notin unitmx.
  by rewrite unitmxE unitfE negbK det_cov3 /=; apply/eqP; ring.
split.
  by have [o' [? ? _ ?]] := singular_classical_covariance_fails pinvh true false
    (erefl : calc line3 = _) (unitmx1 _ _) isT isT nu; exists o'.
have [o' [rd [h1 _ _ h2]]] := stale_distances_plotted pinvh true false (o := o) (erefl _)
    (erefl : calc line3 = _) (unitmx1 _ _) isT isT nu.
by exists o', rd.
Qed.

(* no wrapping takes place: b is larger than all standardised values *)
Example wrapping_covariance_case (tanh : T -> T) :
  let S := cov (wrap_rows tanh 3%:R 4%:R 1 1 (fun _ => 0) (fun _ => 5%:R) tri) in
  2%:R * S 0 0 = 3%:R * 5%:R ^+ 2.
Proof.
move=> S; have s0 : (0 : T) <= 5%:R by rewrite ler0n.
have [_ h _ _] := wrapping_covariance_diagonal tanh 3%:R 4%:R 1 1 (fun _ => 0) (j := 0) (X := tri)
  (scale_est := fun _ => 5%:R) isT s0.
apply: h; rewrite /tri /coln /= !mxE /= /wrap_psi !subr0 mul0r normr0 ltr0n /=.
have n5 : (5%:R : T) != 0 by rewrite pnatr_eq0.
rewrite /no_zero (negbTE n5) div1r ger0_norm ?invr_ge0 ?ler0n //.
rewrite (_ : 5%:R^-1 < 3%:R) ?invr_eq0 ?(negbTE n5) //.
by apply: lt_trans (_ : 1 < _); rewrite ?ltr1n // invf_lt1 ?ltr0n // ltr1n.
Qed.

End Cases.

Print Assumptions truncated_covariance_spec.
Print Assumptions correlation_normalised.
Print Assumptions correlation_nan.
Print Assumptions kendall_covariance_psd.
Print Assumptions kendall_monotone_invariant.
Print Assumptions kendall_constant_column_fails.
Print Assumptions cov_fit_distances.
Print Assumptions nonrobust_distances_classical.
Print Assumptions assume_centered_overridden.
Print Assumptions singular_classical_covariance_fails.
Print Assumptions stale_distances_plotted.
Print Assumptions univariate_fit_fails.
Print Assumptions kendall_wrapping_location_is_mean.
Print Assumptions unassigned_location_breaks_down.
Print Assumptions wrapping_covariance_diagonal.
