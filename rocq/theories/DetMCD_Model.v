(* Model of the preliminary estimates of DetMCD (robpy/covariance/mcd.py:325-331, 374-424); the
   remaining steps (mcd.py:319-323, 333-372, 426-434) are MCD_Model.det_mcd.

   Simplifications: numbers are elements of a real closed field, rounding is not modelled.  Once
   an infinity or a NaN appears (zero scale, constant column, an observation at the median) the
   code ends with an exception whose class depends on LAPACK: np.linalg.eigh raises LinAlgError
   on NaN, or returns NaN eigenvectors and then Qn raises ValueError (univariate/base.py:29-30).
   The model raises an unspecified exception [enan] where the value is first used. *)
From mathcomp Require Import all_ssreflect all_algebra.
From Verif Require Import RFieldLra Prelude Stats Xnum Qn_Model Tau_Model Regr Vec LinAlg_Model
  MCD_Model OGK_Model.

Set Implicit Arguments.
Unset Strict Implicit.
Unset Printing Implicit Defensive.

Import Order.TTheory GRing.Theory Num.Theory.
Local Open Scope ring_scope.

Section DetMCD.
Variables (T : rcfType) (p : nat).
Implicit Types (X Y Z : seq 'rV[T]_p).

(* Qn().fit(col).scale (mcd.py:374-382); with at least two observations Qn never fails (C14) *)
Definition qn_of (s : seq T) : T := if qn_scale true true s is Ok q then q else 0.

(* the constant of tau.py:52 *)
Variable tau_corr : T.
(* Tau().fit(col).scale (mcd.py:384-392), c1 = 4.5 and c2 = 3 (tau.py:10-11) *)
Definition tau_of (s : seq T) : T := (tau (9%:R / 2%:R) 3%:R (Some tau_corr) s).2.

(* the scales of step 0 (mcd.py:328-331) *)
Definition det_scales X : 'rV[T]_p :=
  \row_j (if (size X < 1000)%N then qn_of else tau_of) (coln X j).

(* the exception raised on NaN or inf, see above (mcd.py:415, 418) *)
Variable enan : err.

(* mcd.py:327-331, step 0; Qn rejects fewer than two observations *)
Definition standardize X : res (seq 'rV[T]_p) :=
  if (size X < 2)%N then Err ValueError
  else if [exists j, det_scales X 0 j == 0] then Err enan
  else Ok [seq \row_j ((x 0 j - fmed (coln X j)) / det_scales X 0 j) | x : 'rV[T]_p <- X].

(* np.corrcoef(Y, rowvar=False) (mcd.py:397, 399, 400); None when a variance is zero (NaN).  The
   clipping to [-1, 1] done by NumPy only concerns rounding. *)
Definition corrcoef Y : option 'M[T]_p :=
  if [exists j, cov Y j j == 0] then None
  else Some (\matrix_(i, j) (cov Y i j / (Num.sqrt (cov Y i i) * Num.sqrt (cov Y j j)))).

(* scipy.stats.rankdata with the default average method, one value (mcd.py:398) *)
Definition avg_rank (s : seq T) (x : T) : T := (cnt_lt s x + cnt_le s x + 1)%N%:R / 2%:R.

(* rankdata(Z, axis=0) (mcd.py:398) *)
Definition ranks Z : seq 'rV[T]_p := [seq \row_j avg_rank (coln Z j) (z 0 j) | z : 'rV[T]_p <- Z].

(* (R - 1/3) / (n + 1/3) (mcd.py:400) *)
Definition score_arg (n : nat) (r : T) : T := (r - 1 / 3%:R) / (n%:R + 1 / 3%:R).

(* np.tanh and scipy.stats.norm.ppf (mcd.py:396, 400) *)
Variables tanh ppf : T -> T.

(* S1 (mcd.py:396-397) *)
Definition S1 Z := corrcoef [seq map_mx tanh z | z <- Z].
(* S2 (mcd.py:398-399) *)
Definition S2 Z := corrcoef (ranks Z).
(* S3 (mcd.py:400) *)
Definition S3 Z := corrcoef [seq map_mx (fun r => ppf (score_arg (size Z) r)) z | z <- ranks Z].

(* S4 (mcd.py:401-403); a row of norm zero has weight inf, and inf * 0 is NaN *)
Definition S4 Z : option 'M[T]_p :=
  if has (fun z => vnorm z == 0) Z then None
  else let W := [seq (1 / vnorm z) *: z | z <- Z] in
       Some ((size Z)%:R^-1 *: \sum_(w <- W) w^T *m w).

(* np.argsort (mcd.py:404, 429) *)
Variable argsort : seq (xnum T) -> seq nat.

(* idx (mcd.py:404) *)
Definition half_idx Z : seq nat := take (uphalf (size Z)) (argsort [seq Fin (vnorm z) | z <- Z]).

(* S5 (mcd.py:405); np.cov of a single row is NaN *)
Definition S5 Z : option 'M[T]_p :=
  if (uphalf (size Z) < 2)%N then None else Some (cov (sel 0 Z (half_idx Z))).

(* the eigenvectors of np.linalg.eigh (mcd.py:415, ogk.py:75) *)
Variable eigvecs : 'M[T]_p -> 'M[T]_p.

(* S6 (mcd.py:406-408); n_iterations = 2 is the default of OGK (ogk.py:17).  With Qn as scale
   estimator a degenerate projection gives NaN data to Qn, see [enan]. *)
Definition S6 Z : res 'M[T]_p :=
  if ogk_raw qn_of (@fmed T) eigvecs 2 Z is Ok mc then Ok mc.2 else Err enan.

(* estimates_S (mcd.py:409) *)
Definition estimates_S Z : res (seq (option 'M[T]_p)) :=
  do s6 <- S6 Z; Ok [:: S1 Z; S2 Z; S3 Z; S4 Z; S5 Z; Some s6].

(* scipy.linalg.sqrtm (mcd.py:421) *)
Variable sqrtm : 'M[T]_p -> 'M[T]_p.

(* E (mcd.py:415-416) *)
Definition axes (S : 'M[T]_p) : 'M[T]_p := rev_cols (eigvecs S).

(* cov = E L E^T (mcd.py:417-419) *)
Definition det_sigma Z (S : 'M[T]_p) : 'M[T]_p :=
  let B := [seq z *m axes S | z <- Z] in
  axes S *m diag_mx (\row_j (qn_of (coln B j) ^+ 2)) *m (axes S)^T.

(* mu (mcd.py:421-423), as a row *)
Definition det_mu Z (C : 'M[T]_p) : res 'rV[T]_p :=
  let R := sqrtm C in
  do Ri <- np_inv R;
  Ok ((\row_j fmed (coln [seq z *m Ri | z <- Z] j)) *m R^T).

(* mcd.py:414-424, one turn of the loop; with one variable S1 is 0-dimensional and
   np.linalg.eigh raises LinAlgError *)
Definition det_estimate Z (S : option 'M[T]_p) : res ('rV[T]_p * 'M[T]_p) :=
  if p == 1%N then Err LinAlgError
  else if S is Some S0 then
    let C := det_sigma Z S0 in do mu <- det_mu Z C; Ok (mu, C)
  else Err enan.

(* mcd.py:327-331 and 395-424: the standardised data and the six initial estimates *)
Definition det_estimates X : res (seq 'rV[T]_p * seq ('rV[T]_p * 'M[T]_p)) :=
  do Z <- standardize X;
  do Ss <- estimates_S Z;
  do es <- mapM (det_estimate Z) Ss;
  Ok (Z, es).

Variables (chi2_ppf : T -> nat -> T) (gamma_cdf : T -> T -> T).

(* mcd.py:319-372 with the estimates above *)
Definition det_mcd_run (fuel : nat) (a : alpha_arg) (tol : T) (correct reweighting : bool) X
  : res (mcd_out T p) :=
  det_mcd argsort chi2_ppf gamma_cdf det_estimates fuel a tol correct reweighting X.

End DetMCD.
