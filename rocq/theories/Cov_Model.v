(* Model of robpy/covariance/base.py, kendall.py, wrapping.py and utils/alter_covariance.py.

   Simplifications: numbers are elements of a real closed field, rounding is not modelled; NaN
   and infinities are kept where the results depend on them ([xnum]); the data are finite rows
   (base.py:66-72 validates this). *)
From mathcomp Require Import all_ssreflect all_algebra.
From Verif Require Import RFieldLra Prelude Stats Xnum Qn_Model Regr Vec LinAlg_Model MCD_Model OGK_Model Wrapping_Model.

Set Implicit Arguments.
Unset Strict Implicit.
Unset Printing Implicit Defensive.

Import Order.TTheory GRing.Theory Num.Theory.
Local Open Scope ring_scope.

Section Alter.
Variables (T : rcfType) (p : nat).

(* np.linalg.eigh: eigenvalues and eigenvectors (alter_covariance.py:15) *)
Variable eigh : 'M[T]_p -> 'rV[T]_p * 'M[T]_p.
(* np.argsort of the eigenvalues (alter_covariance.py:16) *)
Variable argsort_eig : 'rV[T]_p -> 'I_p -> 'I_p.

(* alter_covariance.py:15-18, truncated_covariance *)
Definition truncated_covariance (A : 'M[T]_p) (min_eigenvalue : T) : 'M[T]_p :=
  let wV := eigh (2%:R^-1 *: (A + A^T)) in
  let idx := fun j => argsort_eig wV.1 (rev_ord j) in
  let w := \row_j (if wV.1 0 j < min_eigenvalue then min_eigenvalue else wV.1 0 j) in
  let V := \matrix_(i, j) wV.2 i (idx j) in
  V *m diag_mx (\row_j w 0 (idx j)) *m V^T.

(* alter_covariance.py:30-31, covariance_to_correlation *)
Definition covariance_to_correlation (A : 'M[T]_p) : 'M[xnum T]_p :=
  let stds := fun i => np_sqrt (A i i) in
  \matrix_(i, j) xdiv (Fin (A i j)) (xmul (stds i) (stds j)).

End Alter.

Section Kendall.
Variables (T : rcfType) (p : nat).

(* the pairs of observations that scipy.stats.kendalltau compares (kendall.py:21) *)
Definition obs_pairs (n : nat) : seq (nat * nat) :=
  [seq (i, j) | j <- iota 0 n, i <- iota 0 j].

(* sign of the difference for every pair (kendall.py:21) *)
Definition pair_signs (x : seq T) : seq T :=
  [seq Num.sg (nth 0 x q.1 - nth 0 x q.2) | q <- obs_pairs (size x)].

(* the number of pairs that are not tied, tot - xtie in SciPy (kendall.py:21) *)
Definition untied (x : seq T) : T :=
  \sum_(s <- pair_signs x) (if s == 0 then 0 else 1).

(* concordant minus discordant pairs (kendall.py:21) *)
Definition con_minus_dis (x y : seq T) : T :=
  \sum_(q <- zip (pair_signs x) (pair_signs y)) q.1 * q.2.

(* scipy.stats.kendalltau(x, y).statistic, variant b: NaN when a sample is constant
   (kendall.py:21); SciPy clips the result to [-1, 1] *)
Definition kendalltau (x y : seq T) : xnum T :=
  if (untied x == 0) || (untied y == 0) then NaN
  else Fin (Num.min 1 (Num.max (- 1) (con_minus_dis x y / Num.sqrt (untied x) / Num.sqrt (untied y)))).

(* Qn().fit(col).scale (kendall.py:16) *)
Variable qn_scale : seq T -> T.

(* kendall.py:17-24, correlation_ *)
Definition kendall_cor (X : seq 'rV[T]_p) : 'M[xnum T]_p :=
  \matrix_(i, j) if i == j then Fin 1
                 else if (j < i)%N then kendalltau (coln X i) (coln X j)
                 else kendalltau (coln X j) (coln X i).

(* kendall.py:18-25, the returned matrix *)
Definition kendall_cov (X : seq 'rV[T]_p) : 'M[xnum T]_p :=
  let s i := Fin (qn_scale (coln X i)) in
  \matrix_(i, j) if i == j then Fin (qn_scale (coln X i) ^+ 2)
                 else if (j < i)%N then xmul (xmul (kendall_cor X i j) (s i)) (s j)
                 else xmul (xmul (kendall_cor X j i) (s j)) (s i).

End Kendall.

Section Base.
Variables (T : rcfType) (p : nat).
Implicit Types (X : seq 'rV[T]_p).

(* the attributes of a RobustCovariance object that fit sets (base.py:64-90); None: not set *)
Record cov_obj := CovObj {
  o_loc : option 'rV[T]_p;           (* location_ *)
  o_cov : option 'M[T]_p;            (* covariance_ *)
  o_prec : option 'M[T]_p;           (* precision_ *)
  o_default : option 'M[xnum T]_p;   (* default_covariance_ *)
  o_rd : option (seq (xnum T));      (* _robust_distances *)
  o_md : option (seq (xnum T)) }.    (* _mahalanobis_distances *)

(* a new object (base.py:28-51): no fitted attribute *)
Definition new_cov : cov_obj := CovObj None None None None None None.

(* scipy.linalg.pinvh (base.py:81 and _set_covariance of scikit-learn) *)
Variable pinvh : 'M[T]_p -> 'M[T]_p.
(* calculate_covariance of the subclass (base.py:92): the location_ it assigns, if any, also
   when it raises, and its result *)
Variable calculate_covariance : seq 'rV[T]_p -> option 'rV[T]_p * res 'M[xnum T]_p.

(* the array is finite (check_array in scikit-learn's _set_covariance, base.py:79) *)
Definition finite_mx (S : 'M[xnum T]_p) : bool :=
  [forall i, forall j, if S i j is Fin _ then true else false].

(* the entries of a finite array (base.py:79) *)
Definition fin_mx (S : 'M[xnum T]_p) : 'M[T]_p := \matrix_(i, j) fin (S i j).

(* np.cov(X, rowvar=False) (base.py:82): NaN for a single row; for a single column the result is
   zero-dimensional, see [cov_fit] *)
Definition np_cov X : 'M[xnum T]_p :=
  \matrix_(i, j) if (size X <= 1)%N then NaN else Fin (cov X i j).

(* base.py:86-88: np.linalg.inv raises LinAlgError on the zero-dimensional covariance of a single
   column; a NaN matrix is inverted to NaN *)
Definition classical_distances X (loc : 'rV[T]_p) : res (seq (xnum T)) :=
  if p == 1%N then Err LinAlgError
  else if (size X <= 1)%N then Ok [seq NaN | _ <- X]
  else mahalanobis_distance X loc (cov X).

(* base.py:53-90, fit; the object after the call and the outcome.  An exception leaves the
   attributes assigned so far. *)
Definition cov_fit (store_precision assume_centered : bool) (o : cov_obj) X : cov_obj * res unit :=
  let loc0 := if assume_centered then 0 else vmean X in
  let (l, r) := calculate_covariance X in
  let loc := odflt loc0 l in
  let o1 := CovObj (Some loc) (o_cov o) (o_prec o) (o_default o) (o_rd o) (o_md o) in
  match r with
  | Err e => (o1, Err e)
  | NoFuel => (o1, NoFuel)
  | Ok S0 =>
    if ~~ finite_mx S0 then (o1, Err ValueError)
    else
      let S := fin_mx S0 in
      let prec := if store_precision then Some (pinvh S) else None in
      let o2 := CovObj (Some loc) (Some S) prec (Some (np_cov X)) (o_rd o) (o_md o) in
      match mahalanobis_distance X loc S with
      | Err e => (o2, Err e)
      | NoFuel => (o2, NoFuel)
      | Ok rd =>
        let o3 := CovObj (Some loc) (Some S) prec (Some (np_cov X)) (Some rd) (o_md o) in
        match classical_distances X loc with
        | Err e => (o3, Err e)
        | NoFuel => (o3, NoFuel)
        | Ok md => (CovObj (Some loc) (Some S) prec (Some (np_cov X)) (Some rd) (Some md), Ok tt)
        end
      end
  end.

(* base.py:95-99, the property covariance *)
Definition get_covariance (o : cov_obj) : res 'M[T]_p :=
  if o_cov o is Some S0 then Ok S0 else Err NotFittedError.

(* base.py:107-126, the coordinates scattered by distance_distance_plot *)
Definition dd_plot_points (o : cov_obj) : res (seq (xnum T) * seq (xnum T)) :=
  match o_cov o, o_md o, o_rd o with
  | None, _, _ => Err NotFittedError
  | Some _, None, _ => Err AttributeError
  | Some _, Some _, None => Err AttributeError
  | Some _, Some md, Some rd => if size md == size rd then Ok (md, rd) else Err ValueError
  end.

End Base.

Section Estimators.
Variables (T : rcfType) (p : nat).
Implicit Types (X : seq 'rV[T]_p).

(* KendallTau.calculate_covariance as seen by fit (kendall.py:14-25): no location is assigned *)
Definition calc_kendall (qn_scale : seq T -> T) X : option 'rV[T]_p * res 'M[xnum T]_p :=
  (None, Ok (kendall_cov qn_scale X)).

(* wrapping_transformation applied to every column (wrapping.py:77-79, preprocessing/utils.py:57-80);
   [loc_est] and [scale_est] are the median and the MAD of a column *)
Definition wrap_rows (tanh : T -> T) (b c q1 q2 : T) (loc_est scale_est : seq T -> T) X : seq 'rV[T]_p :=
  let col j := wrapping_transformation tanh b c q1 q2 true
                 (loc_est (coln X j)) (scale_est (coln X j)) (coln X j) in
  [seq (\row_j nth 0 (col j) i) | i <- iota 0 (size X)].

(* WrappingCovariance.calculate_covariance (wrapping.py:67-81) for two or more columns; no
   location is assigned *)
Definition calc_wrapping (tanh : T -> T) (b c q1 q2 : T) (loc_est scale_est : seq T -> T) X
  : option 'rV[T]_p * res 'M[xnum T]_p :=
  (None, Ok (np_cov (wrap_rows tanh b c q1 q2 loc_est scale_est X))).

(* OGK.calculate_covariance as seen by fit (ogk.py:58-97): the location is assigned at the end *)
Definition calc_ogk (scale_est loc_est : seq T -> T) (eigvecs : 'M[T]_p -> 'M[T]_p)
    (chi2_ppf : T -> nat -> T) (n_iterations : nat) (reweighting : bool) (beta : T) X
  : option 'rV[T]_p * res 'M[xnum T]_p :=
  match ogk scale_est loc_est eigvecs chi2_ppf n_iterations reweighting beta X with
  | Ok mc => (Some mc.1, Ok (\matrix_(i, j) Fin (mc.2 i j)))
  | Err e => (None, Err e)
  | NoFuel => (None, NoFuel)
  end.

End Estimators.
