(* Model of robpy/covariance/mcd.py: FastMCD and DetMCD.

   Simplifications: numbers are elements of a real closed field, so rounding is not modelled
   (in particular int(alpha * n) is the exact floor and math.isclose(det, 0), whose absolute
   tolerance is 0, is det = 0); alpha is None, an integer or a finite float, i.e. a rational
   number; n_initial_subsets, n_initial_c_steps and n_best_subsets are natural numbers; the
   mean and the covariance of fewer than one respectively two rows, NaN in NumPy, are the values
   of the formulas in the field; logging and warnings are left out. *)
From mathcomp Require Import all_ssreflect all_algebra.
From Verif Require Import RFieldLra Prelude Stats Xnum RatFloor Qn_Model Regr Vec LinAlg_Model.

Set Implicit Arguments.
Unset Strict Implicit.
Unset Printing Implicit Defensive.

Import Order.TTheory GRing.Theory Num.Theory.
Local Open Scope ring_scope.

(* the values of the argument alpha (mcd.py:31, 277): None, an int, or a float *)
Inductive alpha_arg := ANone | AInt of int | AFloat of rat.

(* the Python comparison alpha == k with an integer k (mcd.py:100, 208, 320, 450) *)
Definition alpha_eq (a : alpha_arg) (k : nat) : bool :=
  match a with ANone => false | AInt i => i == k%:Z | AFloat q => q == k%:R end.

(* int((n + p + 1) / 2) (mcd.py:199, 201, 207, 209, 216) *)
Definition h_default (n p : nat) : nat := (n + p + 1) %/ 2.

(* mcd.py:208-221, the last two branches of _get_h; [v] is alpha * n *)
Definition get_h_prop (v : rat) (ok : bool) (n p : nat) : res nat :=
  if ok then Ok (maxn `|rat_floor v|%N (h_default n p)) else Err ValueError.

(* mcd.py:196-221 (FastMCD._get_h), with the same text as mcd.py:438-463 (DetMCD._get_h) *)
Definition get_h (a : alpha_arg) (n p : nat) : res nat :=
  match a with
  | ANone => Ok (h_default n p)
  | AInt i =>
    if (n%:Z <= 2%:Z * i) && (i <= n%:Z) then Ok (maxn `|i|%N (h_default n p))
    else get_h_prop (i%:~R * n%:R) (i == 1) n p
  | AFloat q => get_h_prop (q * n%:R) ((1%:R / 2%:R <= q) && (q <= 1)) n p
  end.

(* np.array_split along axis 0 (mcd.py:229): n mod k blocks of n/k + 1 rows come first *)
Definition array_split (A : Type) (k : nat) (X : seq A) : res (seq (seq A)) :=
  if k == 0%N then Err ValueError
  else
    let q := (size X %/ k)%N in let r := (size X %% k)%N in
    Ok (reshape (nseq r q.+1 ++ nseq (k - r) q) X).

(* mcd.py:223-229, _partition_data *)
Definition partition_data (A : Type) (n_partitions : option nat) (X : seq A)
  : res (seq (seq A)) :=
  array_split (if n_partitions is Some k then k else if (600 < size X)%N then 5%N else 1%N) X.

Section MCD.
Variables (T : rcfType) (p : nat).
Implicit Types (X : seq 'rV[T]_p).

(* X.mean(axis=0) (mcd.py:102, 150, 250, 257) *)
Definition vmean X : 'rV[T]_p := (size X)%:R^-1 *: \sum_(x <- X) x.

(* np.cov(X, rowvar=False) for p >= 2 columns (mcd.py:103, 151, 251, 258): divisor n - 1 *)
Definition cov X : 'M[T]_p :=
  ((size X)%:R - 1)^-1 *: \sum_(x <- X) (x - vmean X)^T *m (x - vmean X).

(* mcd.py:18-24, the dataclass HSubset *)
Record hsubset := HSubset {
  indices : seq nat; location : 'rV[T]_p; scale : 'M[T]_p; determinant : T; n_c_steps : nat }.

(* mcd.py:250-260 without the loop: location, scale and determinant of the rows [idx] *)
Definition mk_subset X (idx : seq nat) (k : nat) : hsubset :=
  let S := cov (sel 0 X idx) in HSubset idx (vmean (sel 0 X idx)) S (\det S) k.

(* mcd.py:231-260 (FastMCD._get_subset) and mcd.py:465-495 (DetMCD._get_subset) with
   ensure_non_singular=False.  For a single column np.cov returns a 0-dimensional array, for
   which np.linalg.det raises LinAlgError *)
Definition get_subset X (idx : seq nat) (k : nat) : res hsubset :=
  if p == 1%N then Err LinAlgError else Ok (mk_subset X idx k).

(* np.argsort of an array of floats *)
Variable argsort : seq (xnum T) -> seq nat.

(* mcd.py:177-194 (FastMCD._perform_c_step) and mcd.py:497-513 (DetMCD._perform_c_step) *)
Definition c_step (a : alpha_arg) X (s : hsubset) : res hsubset :=
  do d <- mahalanobis_distance X (location s) (scale s);
  do h <- get_h a (size X) p;
  get_subset X (take h (argsort d)) (n_c_steps s).+1.

(* mcd.py:170-175, _perform_multiple_c_steps *)
Fixpoint c_steps (a : alpha_arg) X (k : nat) (s : hsubset) : res hsubset :=
  if k is k'.+1 then do s' <- c_step a X s; c_steps a X k' s' else Ok s.

(* mcd.py:128-135 and 339-346, the inner loop on one candidate.  Comparing index arrays of
   different lengths raises ValueError in NumPy *)
Fixpoint converge (fuel : nat) (a : alpha_arg) (tol : T) X (s : hsubset) : res hsubset :=
  if fuel is f.+1 then
    do new <- c_step a X s;
    if size (indices new) != size (indices s) then Err ValueError
    else if (indices new == indices s) || (determinant new - determinant s < tol) then Ok s
    else converge f a tol X new
  else NoFuel.

(* mcd.py:127-137 and 338-348, the loop over the candidates *)
Fixpoint final_loop (fuel : nat) (a : alpha_arg) (tol : T) X (best : hsubset)
  (cands : seq hsubset) : res hsubset :=
  if cands is c :: cands' then
    do s <- converge fuel a tol X c;
    final_loop fuel a tol X (if determinant s < determinant best then s else best) cands'
  else Ok best.

(* mcd.py:125-138 and 337-349; best_subsets[0] of an empty list raises IndexError *)
Definition select (fuel : nat) (a : alpha_arg) (tol : T) X (cands : seq hsubset) : res hsubset :=
  if cands is c :: _ then final_loop fuel a tol X c cands else Err IndexError.

(* sorted(subsets, key=lambda x: x.determinant), stable (mcd.py:117, 124) *)
Definition by_det (l : seq hsubset) : seq hsubset :=
  sort (fun s1 s2 => determinant s1 <= determinant s2) l.

(* scipy.stats.chi2.ppf and scipy.stats.gamma.cdf *)
Variables (chi2_ppf : T -> nat -> T) (gamma_cdf : T -> T -> T).

(* the constants 0.5 and 0.975 (mcd.py:149, 157, 166) *)
Definition c05 : T := 1 / 2%:R.
(* the constant 0.975 (mcd.py:149, 157) *)
Definition c0975 : T := 975%:R / 1000%:R.

(* the value of a finite float, for the distances of mcd.py:148 and 165; they are finite because the
   covariances are positive semidefinite *)
Definition fin (x : xnum T) : T := if x is Fin v then v else 0.

(* mcd.py:163-166 and 515-518, _rescale_factor *)
Definition rescale_factor X (s : hsubset) : res T :=
  do d <- mahalanobis_distance X (location s) (scale s);
  Ok (fmed [seq fin u ^+ 2 | u <- d] / chi2_ppf c05 p).

(* mcd.py:163-168 and 515-520, _correct_covariance *)
Definition correct_covariance X (s : hsubset) : res 'M[T]_p :=
  do f <- rescale_factor X s; Ok (f *: scale s).

(* mcd.py:156-158, factor *)
Definition reweight_factor : T :=
  1 / (gamma_cdf (chi2_ppf c0975 p / 2%:R) (p%:R / 2%:R + 1) / c0975).

(* what calculate_covariance leaves behind: best_subset (mcd.py:138, 349), _mask (149, 360),
   location_ (102, 141, 150, 322, 352, 361) and the returned scale *)
Record mcd_out := McdOut {
  o_best : option hsubset; o_mask : option (seq bool);
  o_location : 'rV[T]_p; o_scale : 'M[T]_p }.

(* mcd.py:148-149, _mask *)
Definition mcd_mask X (loc : 'rV[T]_p) (S : 'M[T]_p) : res (seq bool) :=
  do d <- mahalanobis_distance X loc S;
  Ok [seq fin u < Num.sqrt (chi2_ppf c0975 p) | u <- d].

(* mcd.py:140-161 and 351-372, post processing *)
Definition post (correct reweighting : bool) X (s : hsubset) : res mcd_out :=
  do S <- (if correct then correct_covariance X s else Ok (scale s));
  if reweighting then
    do m <- mcd_mask X (location s) S;
    let Y := mask m X in
    Ok (McdOut (Some s) (Some m) (vmean Y) (if correct then reweight_factor *: cov Y else cov Y))
  else Ok (McdOut (Some s) None (location s) S).

(* mcd.py:100-103 and 320-323, the classical estimates *)
Definition classical X : mcd_out := McdOut None None (vmean X) (cov X).

Section Random.
(* a numpy Generator, rng.choice(n, k, replace=False) and rng.choice(list) *)
Variables (G : Type) (choice : G -> nat -> nat -> seq nat * G) (choice1 : G -> seq nat -> nat * G).

(* mcd.py:253-259, the loop of _get_subset with ensure_non_singular=True; rng.choice of an empty
   array raises ValueError *)
Fixpoint ensure (fuel : nat) (g : G) X (idx : seq nat) : res (seq nat * G) :=
  if \det (cov (sel 0 X idx)) == 0 then
    let rest := [seq i <- iota 0 (size X) | i \notin idx] in
    if rest is [::] then Err ValueError
    else if fuel is f.+1 then
      let c := choice1 g rest in ensure f c.2 X (rcons idx c.1)
    else NoFuel
  else Ok (idx, g).

(* mcd.py:262-270, one initial subset; choice raises ValueError when more indices are requested
   than there are *)
Definition initial_subset (fuel : nat) (g : G) X : res (hsubset * G) :=
  if (size X < p.+1)%N then Err ValueError
  else if p == 1%N then Err LinAlgError
  else
    let c := choice g (size X) p.+1 in
    do r <- ensure fuel c.2 X c.1;
    Ok (mk_subset X r.1 0, r.2).

(* mcd.py:262-270, _get_initial_subsets *)
Fixpoint initial_subsets (fuel : nat) (g : G) X (k : nat) : res (seq hsubset * G) :=
  if k is k'.+1 then
    do s <- initial_subset fuel g X;
    do r <- initial_subsets fuel s.2 X k';
    Ok (s.1 :: r.1, r.2)
  else Ok ([::], g).

(* mcd.py:111-117, the loop over the partitions *)
Fixpoint per_partition (fuel : nat) (a : alpha_arg) (nsub ncs nbest : nat) (g : G)
  (parts : seq (seq 'rV[T]_p)) : res (seq hsubset) :=
  if parts is data :: parts' then
    do r <- initial_subsets fuel g data nsub;
    do subsets <- mapM (c_steps a data ncs) r.1;
    do rest <- per_partition fuel a nsub ncs nbest r.2 parts';
    Ok (take nbest (by_det subsets) ++ rest)
  else Ok [::].

(* mcd.py:105-124, the candidates for the final loop *)
Definition fast_candidates (fuel : nat) (a : alpha_arg) (nsub ncs nbest : nat)
  (n_partitions : option nat) (g : G) X : res (seq hsubset) :=
  do parts <- partition_data n_partitions X;
  do subsets <- per_partition fuel a (nsub %/ size parts) ncs nbest g parts;
  do subsets' <- mapM (c_steps a X ncs) subsets;
  Ok (take nbest (by_det subsets')).

(* mcd.py:99-161, FastMCD.calculate_covariance; [g] is np.random.default_rng(random_seed) *)
Definition fast_mcd (fuel : nat) (a : alpha_arg) (nsub ncs nbest : nat)
  (n_partitions : option nat) (tol : T) (correct reweighting : bool) (g : G) X : res mcd_out :=
  if alpha_eq a 1 || alpha_eq a (size X) then Ok (classical X)
  else
    do cands <- fast_candidates fuel a nsub ncs nbest n_partitions g X;
    do s <- select fuel a tol X cands;
    post correct reweighting X s.

End Random.

(* mcd.py:325-424, the standardised data Z and the preliminary estimates (mu, cov); modelled in
   DetMCD_Model.det_estimates, arbitrary here *)
Variable estimates : seq 'rV[T]_p -> res (seq 'rV[T]_p * seq ('rV[T]_p * 'M[T]_p)).

(* mcd.py:428-432, one candidate of DetMCD; math.ceil(n / 2) indices are kept *)
Definition det_candidate (a : alpha_arg) X (Z : seq 'rV[T]_p) (e : 'rV[T]_p * 'M[T]_p)
  : res hsubset :=
  do d <- mahalanobis_distance Z e.1 e.2;
  do H <- get_subset X (take (uphalf (size X)) (argsort d)) 0;
  c_step a X H.

(* mcd.py:319-372, DetMCD.calculate_covariance *)
Definition det_mcd (fuel : nat) (a : alpha_arg) (tol : T) (correct reweighting : bool) X
  : res mcd_out :=
  if alpha_eq a 1 || alpha_eq a (size X) then Ok (classical X)
  else
    do ze <- estimates X;
    do cands <- mapM (det_candidate a X ze.1) ze.2;
    do s <- select fuel a tol X cands;
    post correct reweighting X s.

End MCD.
