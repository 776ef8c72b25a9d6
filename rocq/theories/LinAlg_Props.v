(* Property theorems: mahalanobis_distance (C06) and inverse_submatrix (C07). *)
From mathcomp Require Import all_ssreflect all_algebra.
From mathcomp.zify Require Import zify.
From mathcomp.algebra_tactics Require Import ring.
From Verif Require Import RFieldLra Prelude Xnum Vec LinAlg_Model LinAlg_Proofs.

Set Implicit Arguments.
Unset Strict Implicit.
Unset Printing Implicit Defensive.

Import Order.TTheory GRing.Theory Num.Theory.
Local Open Scope ring_scope.

Section Maha.
Variables (T : rcfType) (p : nat).
Implicit Types (x loc b : 'rV[T]_p) (S A : 'M[T]_p) (X : seq 'rV[T]_p).

(* C06: x -> A x + b (in row form x A^T + b), covariance A S A^T; also when S is singular *)
Theorem maha_affine_invariant X loc S A b : A \in unitmx ->
  mahalanobis_distance [seq x *m A^T + b | x <- X] (loc *m A^T + b) (A *m S *m A^T)
  = mahalanobis_distance X loc S.
Proof.
move=> uA; rewrite /mahalanobis_distance /np_inv !unitmx_mul uA unitmx_tr uA andbT /=.
case: ifP => // uS /=; congr Ok; rewrite -map_comp; apply: eq_map => x /=.
by rewrite maha_sq_affine.
Qed.

(* C06: for a positive definite covariance all distances are real numbers >= 0, and
   zero exactly for observations at the location *)
Theorem maha_posdef X loc S : posdef S ->
  exists2 d : 'rV[T]_p -> T, mahalanobis_distance X loc S = Ok [seq Fin (d x) | x <- X]
  & forall x, 0 <= d x /\ (d x = 0 <-> x = loc)
    /\ d x ^+ 2 = ((x - loc) *m invmx S *m (x - loc)^T) 0 0.
Proof.
move=> h; exists (fun x => Num.sqrt (maha_sq (invmx S) loc x)).
  rewrite /mahalanobis_distance np_inv_ok /=; last exact: posdef_unit.
  congr Ok; apply: eq_map => x; rewrite /np_sqrt; case: ifP => // /negP[].
  have [->|hx] := eqVneq x loc; first by rewrite maha_sq0.
  exact: (ltW (maha_sq_gt0 h hx)).
move=> x; have [->|hx] := eqVneq x loc.
  by rewrite maha_sq0 sqrtr0 lexx subrr mul0mx mul0mx mxE expr0n.
have hp := maha_sq_gt0 h hx.
split; first exact: sqrtr_ge0.
split; last by rewrite sqr_sqrtr ?maha_sqE // -maha_sqE ltW.
split=> [e|e]; last by rewrite e eqxx in hx.
by have := hp; rewrite -sqrtr_gt0 e ltxx.
Qed.

Theorem maha_singular X loc S : S \notin unitmx -> mahalanobis_distance X loc S = Err LinAlgError.
Proof. by rewrite /mahalanobis_distance /np_inv => /negbTE ->. Qed.

(* the identity matrix is positive definite *)
Example posdef_one : posdef (1%:M : 'M[T]_p).
Proof. by move=> x hx; rewrite mulmx1 -dotvE dotv_gt0. Qed.
End Maha.

Section Sub.
Variable T : fieldType.

(* C07: distinct indices, fewer than all *)
Theorem inverse_submatrix_proper m p (A A_inv : 'M[T]_p) (f : 'I_m -> 'I_p) :
  injective f -> (m < p)%N -> A *m A_inv = 1%:M -> mxsub f f A \in unitmx ->
  exists R : 'M[T]_m, [/\ inverse_submatrix A A_inv f = Ok (SqMat R),
    mxsub f f A *m R = 1%:M & R *m mxsub f f A = 1%:M].
Proof.
move=> fi lt AB uA; exists (invmx (mxsub f f A)).
by rewrite mulmxV // mulVmx //; split=> //; exact: inverse_submatrix_lt.
Qed.

(* C07: all indices, in increasing order *)
Theorem inverse_submatrix_full p (A A_inv : 'M[T]_p) : A *m A_inv = 1%:M ->
  exists R : 'M[T]_p, [/\ inverse_submatrix A A_inv id = Ok (SqMat R),
    mxsub id id A *m R = 1%:M & R *m mxsub id id A = 1%:M].
Proof.
move=> AB; exists A_inv; rewrite /inverse_submatrix ltnn.
have -> : mxsub id id A = A by apply/matrixP => i j; rewrite mxE.
by split=> //; exact: mulmx1C.
Qed.

(* the hypotheses are met by any selection from the identity *)
Example inverse_submatrix_case : let f : 'I_2 -> 'I_3 := widen_ord (leqnSn 2) in
  [/\ injective f, (2 < 3)%N, (3 < 2 * 2)%N, (1%:M : 'M[T]_3) *m 1%:M = 1%:M
    & mxsub f f (1%:M : 'M[T]_3) \in unitmx].
Proof.
move=> f; have fi : injective f by move=> i j /(congr1 val) /= /val_inj.
split=> //; first by rewrite mulmx1.
have -> : mxsub f f (1%:M : 'M[T]_3) = 1%:M by apply/matrixP => i j; rewrite !mxE (inj_eq fi).
exact: unitmx1.
Qed.
End Sub.

(* C07: the statement without the order restriction is false *)
Theorem inverse_submatrix_permuted_refuted :
  exists (A A_inv : 'M[rat]_2) (f : 'I_2 -> 'I_2),
  [/\ injective f, A *m A_inv = 1%:M, mxsub f f A \in unitmx
    & exists R : 'M[rat]_2, inverse_submatrix A A_inv f = Ok (SqMat R) /\ mxsub f f A *m R != 1%:M].
Proof.
pose d (a b : rat) : 'M[rat]_2 := \matrix_(i, j) (if i == j then if i == 0 then a else b else 0).
have dm a b a' b' : d a b *m d a' b' = d (a * a') (b * b').
  apply/matrixP => i j; rewrite !mxE !big_ord_recl big_ord0 !mxE.
  by case: i => [[|[|i]] hi] //; case: j => [[|[|j]] hj] //=;
     rewrite ?mulr0 ?mul0r ?addr0 ?add0r.
have d1 : d 1 1 = 1%:M.
  by apply/matrixP => i j; rewrite !mxE; case: eqP => // _; case: ifP.
exists (d 1 2%:R), (d 1 2%:R^-1), (@rev_ord 2).
have sw : mxsub (@rev_ord 2) (@rev_ord 2) (d 1 2%:R) = d 2%:R 1.
  apply/matrixP => i j; rewrite !mxE.
  by case: i => [[|[|i]] hi] //; case: j => [[|[|j]] hj].
split.
- exact: rev_ord_inj.
- by rewrite dm mulr1 mulfV // d1.
- rewrite sw; have : d 2%:R 1 *m d 2%:R^-1 1 = 1%:M by rewrite dm mulr1 mulfV // d1.
  by case/mulmx1_unit.
- exists (d 1 2%:R^-1); rewrite /inverse_submatrix ltnn sw dm; split=> //.
  by apply/eqP => /matrixP /(_ 0 0); rewrite !mxE /= mulr1.
Qed.
Print Assumptions maha_affine_invariant.
Print Assumptions maha_posdef.
Print Assumptions inverse_submatrix_proper.
Print Assumptions inverse_submatrix_permuted_refuted.
