(* Model of parts of robpy/covariance/initial_ddcw.py: the cap on the number of flagged cells of a
   column, the imputation, the deletion of outlying cases and the last step of the covariance.

   Simplifications: numbers are elements of a real closed field, rounding is not modelled; a cell
   is a number or NaN (None); alpha is a rational number.  DDC is a parameter through its
   predictions and standardised residuals. *)
From mathcomp Require Import all_ssreflect all_algebra.
From Verif Require Import RFieldLra Prelude Stats Xnum Vec LinAlg_Model Cov_Model.

Set Implicit Arguments.
Unset Strict Implicit.
Unset Printing Implicit Defensive.

Import Order.TTheory GRing.Theory Num.Theory.
Local Open Scope ring_scope.

Section Column.
Variables (T : rcfType) (n : nat).
Implicit Types (resid x predv : 'I_n -> option T).

(* ddc.py:170, one column of cellwise_outliers_; comparisons with NaN are False *)
Definition ddc_flags (cutoff : T) resid : 'I_n -> bool :=
  fun i => if resid i is Some r then cutoff < `|r| else false.

(* initial_ddcw.py:65-69, one column of W; [ordering] is np.argsort(np.abs(resid)), see
   [is_argsort]; int(n * 0.25) is n %/ 4 *)
Definition cap_flags (alpha : rat) (cutoff : T) resid (ordering : seq 'I_n) : 'I_n -> bool :=
  let flags := ddc_flags cutoff resid in
  if 1 - alpha < #|[set i | flags i]|%:R / n%:R then fun i => i \in take (n %/ 4) (rev ordering)
  else flags.

(* ddc.py:215-221, one column of ddc.impute(X): predict on the data of the fit gives the flags of
   the fit *)
Definition ddc_impute (cutoff : T) resid predv x : 'I_n -> option T :=
  fun i => if ddc_flags cutoff resid i || ~~ isSome (x i) then predv i else x i.

(* initial_ddcw.py:70-73, one column of Zimp in the original units *)
Definition zimp (alpha : rat) (cutoff : T) resid ordering predv x : 'I_n -> option T :=
  fun i => if cap_flags alpha cutoff resid ordering i || ~~ isSome (x i)
           then ddc_impute cutoff resid predv x i else x i.

End Column.

Section Cases.
Variables (T : rcfType) (n p : nat).
Implicit Types (Z : 'M[option T]_(n, p)) (S : 'M[T]_p).

(* initial_ddcw.py:105, np.minimum(np.maximum(z, -2), 2); NaN stays NaN *)
Definition clip2 (z : T) : T := Num.min (Num.max z (- 2%:R)) 2%:R.

(* initial_ddcw.py:105-106, the squared distance of row i from 0; NaN when the row has a NaN *)
Definition case_rd (S_inv : 'M[T]_p) Z (i : 'I_n) : xnum T :=
  if [forall k, isSome (Z i k)] then
    let d := np_sqrt (maha_sq S_inv 0 (\row_k clip2 (odflt 0 (Z i k)))) in xmul d d
  else NaN.

(* np.median (initial_ddcw.py:107): NaN when a value is NaN *)
Definition x_median (s : seq (xnum T)) : xnum T :=
  if has (@is_nan T) s then NaN else Fin (fmed [seq if u is Fin v then v else 0 | u <- s]).

(* initial_ddcw.py:105-107, the outlying cases; [c50] and [c99] are chi2.ppf(0.5, p) and
   chi2.ppf(0.99, p) *)
Definition outlying_cases (c50 c99 : T) S Z : res ('I_n -> bool) :=
  do S_inv <- np_inv S;
  let rd := case_rd S_inv Z in
  let med := x_median [seq rd i | i <- enum 'I_n] in
  Ok (fun i => xlt (Fin c99) (xmul (xdiv (rd i) med) (Fin c50))).

(* np.linalg.eigh and np.argsort in truncated_covariance (initial_ddcw.py:102, 134) *)
Variable eigh : 'M[T]_p -> 'rV[T]_p * 'M[T]_p.
Variable argsort_eig : 'rV[T]_p -> 'I_p -> 'I_p.

(* initial_ddcw.py:102, 134: [R] is the correlation matrix of lines 101, 133 (all entries finite),
   [scale] is ddc.scale_ *)
Definition init_cov (min_eig : T) (scale : 'rV[T]_p) (R : 'M[T]_p) : 'M[T]_p :=
  let A := truncated_covariance eigh argsort_eig R min_eig in
  let B := (\matrix_(i, j) (A i j * scale 0 j))^T in
  \matrix_(i, j) (B i j * scale 0 j).

End Cases.
