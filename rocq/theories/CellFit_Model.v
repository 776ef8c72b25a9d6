(* Model of a whole fit of robpy/covariance/cellmcd.py, CellMCD.calculate_covariance.

   Simplifications: as in CellMCD_Model.v; every column has an observed cell (the code takes the
   median of an empty column otherwise); the scale estimates of the columns are not zero, and
   the theorems that need it say so; the initial estimator InitialDDCW is a parameter. *)
From mathcomp Require Import all_ssreflect all_algebra.
From Verif Require Import RFieldLra Prelude Stats Xnum RatFloor Vec LinAlg_Model MCD_Model OGK_Model Cov_Model.
From Verif Require Import CellMCD_Model.

Set Implicit Arguments.
Unset Strict Implicit.
Unset Printing Implicit Defensive.

Import Order.TTheory GRing.Theory Num.Theory.
Local Open Scope ring_scope.

(* cellmcd.py:63-64, the check of the constructor *)
Definition cellmcd_init (T : rcfType) (min_eigenvalue : T) : res unit :=
  if min_eigenvalue < (10%:R ^+ 6)^-1 then Err ValueError else Ok tt.

Section CellFit.
Variables (T : rcfType) (n p : nat).
(* np.log, np.log(2 * np.pi) (cellmcd.py:208, 366) and np.linalg.eigh with its argsort
   (cellmcd_utils.py), as in CellMCD_Model.v *)
Variables (ln : T -> T) (log2pi : T).
Variables (eigh : 'M[T]_p -> 'rV[T]_p * 'M[T]_p) (argsort_eig : 'rV[T]_p -> 'I_p -> 'I_p).
(* OneStepWrapping().fit on a column of numbers (cellmcd.py:91, 124): location and scale *)
Variable estimator : seq T -> T * T.
(* the scale that OneStepWrapping().fit gives for a column with infinite values
   (cellmcd.py:124-125) *)
Variable estimator_inf : seq (xnum T) -> xnum T.
(* InitialDDCW(alpha, min_eigenvalue).fit(X_scaled) (cellmcd.py:100-104) *)
Variable initial : 'M[option T]_(n, p) -> rat -> res (est T p).
Implicit Types (X : 'M[option T]_(n, p)).

(* the observed values of a column: nan_policy="omit" (cellmcd.py:88), ignore_nan=True
   (cellmcd.py:92) *)
Definition observed_col X k : seq T := pmap (fun i => X i k) (enum 'I_n).

(* cellmcd.py:88-89 *)
Definition small_mad X : bool := [exists k, fmad (observed_col X k) < (10%:R ^+ 8)^-1].

(* scaler.locations_ (cellmcd.py:91-92; scaling.py:35-40) *)
Definition locations X : 'rV[T]_p := \row_k (estimator (observed_col X k)).1.
(* scaler.scales_ (cellmcd.py:91-92; scaling.py:35-40) *)
Definition scales X : 'rV[T]_p := \row_k (estimator (observed_col X k)).2.

(* cellmcd.py:93, scaling.py:57 *)
Definition scale_data X : 'M[option T]_(n, p) :=
  \matrix_(i, k) omap (fun x => (x - locations X 0 k) / scales X 0 k) (X i k).

(* cellmcd.py:112-114: all predictions and conditional variances; an exception for one pattern
   ends the fit (np.linalg.inv in cellmcd_utils.py is the only source) *)
Definition predict_all X W (e : est T p) : res ('M[option T]_(n, p) * 'M[T]_(n, p)) :=
  let F i k := make_prediction X W (e_mu e) (e_sigma e) (e_inv e) i k in
  if [forall i, forall k, if F i k is Ok _ then true else false] then
    Ok (\matrix_(i, k) (if F i k is Ok v then v.1 else None),
        \matrix_(i, k) (if F i k is Ok v then v.2 else 0))
  else Err LinAlgError.

(* the attributes that a fit sets (cellmcd.py:128-134) *)
Record fitted := Fitted {
  f_W : 'M[bool]_(n, p);
  f_location : 'rV[T]_p;
  f_predictions : 'M[option T]_(n, p);
  f_stds : 'M[xnum T]_(n, p);
  f_imputed : 'M[option T]_(n, p);
  f_residuals : 'M[xnum T]_(n, p);
  f_covariance : 'M[T]_p }.

(* cellmcd.py:119, the predictions in the original units *)
Definition back_predictions (loc scale : 'rV[T]_p) (P : 'M[option T]_(n, p)) : 'M[option T]_(n, p) :=
  \matrix_(i, k) omap (fun x => loc 0 k + x * scale 0 k) (P i k).

(* cellmcd.py:120 *)
Definition back_stds (scale : 'rV[T]_p) (V : 'M[T]_(n, p)) : 'M[xnum T]_(n, p) :=
  \matrix_(i, k) xmul (np_sqrt (V i k)) (Fin (scale 0 k)).

(* cellmcd.py:123 *)
Definition raw_residuals X (P : 'M[option T]_(n, p)) (D : 'M[xnum T]_(n, p)) : 'M[xnum T]_(n, p) :=
  \matrix_(i, k) match X i k, P i k with
    | Some x, Some q => xdiv (Fin (x - q)) (D i k)
    | _, _ => NaN
    end.

(* the values of a column that are not NaN (ignore_nan=True, cellmcd.py:125) *)
Definition column (R : 'M[xnum T]_(n, p)) k : seq (xnum T) :=
  [seq u <- [seq R i k | i <- enum 'I_n] | ~~ is_nan u].

(* the finite values of a column, on which the estimator works (cellmcd.py:125) *)
Definition numbers (s : seq (xnum T)) : seq T := pmap (fun u => if u is Fin x then Some x else None) s.

(* scaler_residuals.scales_ (cellmcd.py:124-125) *)
Definition residual_scale (R : 'M[xnum T]_(n, p)) k : xnum T :=
  let s := column R k in
  if all (fun u => if u is Fin _ then true else false) s then Fin (estimator (numbers s)).2
  else estimator_inf s.

(* cellmcd.py:126 *)
Definition final_residuals (R : 'M[xnum T]_(n, p)) : 'M[xnum T]_(n, p) :=
  \matrix_(i, k) xdiv (R i k) (residual_scale R k).

(* cellmcd.py:117-134, from the results on the scaled data to the attributes *)
Definition back_transform X (e : est T p) W (PV : 'M[option T]_(n, p) * 'M[T]_(n, p)) : fitted :=
  let loc := locations X in
  let scale := scales X in
  let P := back_predictions loc scale PV.1 in
  let D := back_stds scale PV.2 in
  Fitted W (back_location loc scale (e_mu e)) P D (impute_cells X W P)
    (final_residuals (raw_residuals X P D)) (back_cov scale (e_sigma e)).

(* cellmcd.py:74-136, calculate_covariance: the value of self.alpha afterwards and the attributes
   set, or the exception *)
Definition cell_fit (alpha : rat) (cutoff chi99 crit min_eig : T) (max_c_steps : nat) X : rat * res fitted :=
  match new_alpha alpha n with
  | Err e => (alpha, Err e)
  | NoFuel => (alpha, NoFuel)
  | Ok a =>
    if small_mad X then (a, Err ValueError) else
    let scaled := scale_data X in
    let core := fit_core ln log2pi eigh argsort_eig alpha cutoff chi99 crit min_eig max_c_steps
                  scaled (initial scaled) in
    (core.1,
     do r <- core.2;
     do PV <- predict_all (blank_outliers scaled) r.1.2 r.1.1;
     Ok (back_transform X r.1.1 r.1.2 PV))
  end.

End CellFit.
