(* Model of robpy/covariance/ogk.py: the orthogonalized Gnanadesikan-Kettenring estimator.

   Simplifications: numbers are elements of a real closed field, rounding is not modelled; the
   estimators with axis=0 act column by column; a zero scale, or a zero denominator in the
   pairwise correlation, gives inf or NaN in NumPy and then (for two or more columns) a
   LinAlgError in np.linalg.eigh, so the model raises LinAlgError right there. *)
From mathcomp Require Import all_ssreflect all_algebra.
From Verif Require Import RFieldLra Prelude Stats Xnum Qn_Model Regr Vec LinAlg_Model MCD_Model.

Set Implicit Arguments.
Unset Strict Implicit.
Unset Printing Implicit Defensive.

Import Order.TTheory GRing.Theory Num.Theory.
Local Open Scope ring_scope.

Section OGK.
Variables (T : rcfType) (p : nat).
Implicit Types (X Z : seq 'rV[T]_p).

(* scale_estimator and location_estimator on one variable (ogk.py:63, 71, 72, 79, 80) *)
Variables scale_est loc_est : seq T -> T.
(* the eigenvectors returned by np.linalg.eigh (ogk.py:75) *)
Variable eigvecs : 'M[T]_p -> 'M[T]_p.

(* Z[:, j] (ogk.py:71-72) *)
Definition coln Z (j : 'I_p) : seq T := [seq z 0 j | z : 'rV[T]_p <- Z].

(* scale_estimator(Z, axis=0) (ogk.py:63) *)
Definition ogk_scales Z : 'rV[T]_p := \row_j scale_est (coln Z j).

(* Y = Z @ Dinv (ogk.py:65-66) *)
Definition ogk_Y Z : seq 'rV[T]_p :=
  [seq z *m diag_mx (\row_j (1 / ogk_scales Z 0 j)) | z <- Z].

(* scale_sum and scale_diff (ogk.py:71-72) *)
Definition scale_sum Y (i j : 'I_p) : T :=
  scale_est [seq q.1 + q.2 | q <- zip (coln Y i) (coln Y j)].
(* scale_diff (ogk.py:72) *)
Definition scale_diff Y (i j : 'I_p) : T :=
  scale_est [seq q.1 - q.2 | q <- zip (coln Y i) (coln Y j)].

(* cor (ogk.py:73) *)
Definition ogk_cor Y (i j : 'I_p) : T :=
  (scale_sum Y i j ^+ 2 - scale_diff Y i j ^+ 2) / (scale_sum Y i j ^+ 2 + scale_diff Y i j ^+ 2).

(* the matrix U (ogk.py:67-74) *)
Definition ogk_U Y : 'M[T]_p :=
  \matrix_(i, j) if i == j then 1 else if (j < i)%N then ogk_cor Y i j else ogk_cor Y j i.

(* E[:, ::-1] (ogk.py:76) *)
Definition rev_cols (E : 'M[T]_p) : 'M[T]_p := \matrix_(i, j) E i (rev_ord j).

(* a NaN or inf arises (ogk.py:65, 73) *)
Definition ogk_degenerate Z : bool :=
  [exists j : 'I_p, ogk_scales Z 0 j == 0] ||
  [exists i : 'I_p, exists j : 'I_p, (j < i)%N &&
    (scale_sum (ogk_Y Z) i j ^+ 2 + scale_diff (ogk_Y Z) i j ^+ 2 == 0)].

(* ogk.py:63-78, one iteration: D @ E and the new Z *)
Definition ogk_step Z : res ('M[T]_p * seq 'rV[T]_p) :=
  if ogk_degenerate Z then Err LinAlgError
  else
    let E := rev_cols (eigvecs (ogk_U (ogk_Y Z))) in
    Ok (diag_mx (ogk_scales Z) *m E, [seq y *m E | y <- ogk_Y Z]).

(* ogk.py:62-78, the loop; [DE] has the latest matrix first *)
Fixpoint ogk_loop (k : nat) (DE : seq 'M[T]_p) Z : res (seq 'M[T]_p * seq 'rV[T]_p) :=
  if k is k'.+1 then do q <- ogk_step Z; ogk_loop k' (q.1 :: DE) q.2 else Ok (DE, Z).

(* ogk.py:82-84, one matrix of reversed(DE) applied to location and covariance *)
Definition ogk_back (mc : 'rV[T]_p * 'M[T]_p) (mat : 'M[T]_p) : 'rV[T]_p * 'M[T]_p :=
  (mc.1 *m mat^T, mat *m mc.2 *m mat^T).

(* ogk.py:59-86, location and covariance before reweighting *)
Definition ogk_raw (n_iterations : nat) X : res ('rV[T]_p * 'M[T]_p) :=
  do q <- ogk_loop n_iterations [::] X;
  let cov0 := diag_mx (\row_j (scale_est (coln q.2 j) ^+ 2)) in
  let mu0 := \row_j loc_est (coln q.2 j) in
  Ok (foldl ogk_back (mu0, cov0) q.1).

(* scipy.stats.chi2.ppf (ogk.py:89) *)
Variable chi2_ppf : T -> nat -> T.

(* ogk.py:88-92, the mask; the distances are finite because the covariance is positive
   semidefinite *)
Definition ogk_mask (beta : T) X (mc : 'rV[T]_p * 'M[T]_p) : res (seq bool) :=
  do d <- mahalanobis_distance X mc.1 mc.2;
  let cutoff := Num.sqrt (chi2_ppf beta p / chi2_ppf (1 / 2%:R) p) * fmed [seq fin u | u <- d] in
  Ok [seq fin u < cutoff | u <- d].

(* ogk.py:58-97, calculate_covariance: location_ and the returned covariance.  With fewer than
   two rows selected np.cov is NaN; the method itself returns, but the validation in
   _set_covariance (base.py:79) then raises ValueError, and the model raises it here. *)
Definition ogk (n_iterations : nat) (reweighting : bool) (beta : T) X : res ('rV[T]_p * 'M[T]_p) :=
  do mc <- ogk_raw n_iterations X;
  if reweighting then
    do m <- ogk_mask beta X mc;
    if (count id m < 2)%N then Err ValueError else Ok (vmean (mask m X), cov (mask m X))
  else Ok mc.

End OGK.
