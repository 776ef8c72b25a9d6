(* Model of the outlier map of a robust regression (robpy/regression/base.py:33-37, 39-119).

   Simplifications: numbers are elements of a real closed field (with NaN and infinities where the
   code can produce them); the data contain no missing values.  Matplotlib is represented by the
   list of drawn items; labels and styles are not modelled. *)
From mathcomp Require Import all_ssreflect all_algebra.
From Verif Require Import RFieldLra Prelude Stats Xnum Regr LinAlg_Model MCD_Model Cov_Model.

Set Implicit Arguments.
Unset Strict Implicit.
Unset Printing Implicit Defensive.

Import Order.TTheory GRing.Theory Num.Theory.
Local Open Scope ring_scope.

(* the attribute _scale behind the property scale (regression/base.py:32-37) *)
Definition get_scale (A : Type) (s : option A) : res A :=
  if s is Some v then Ok v else Err NotFittedError.

(* the type of y: pandas series have no method reshape (regression/base.py:81) *)
Inductive target := Array | Series.

(* one drawn item: ax.scatter, ax.axhline, ax.axvline (regression/base.py:102, 106-107, 111) *)
Inductive item (T : Type) :=
| Points of seq (xnum T * xnum T)
| HLine of T
| VLine of xnum T.

(* the returned tuple (regression/base.py:113-119) *)
Record map_data (T : Type) := MapData {
  d_residuals : seq T; d_standardized : seq (xnum T); d_distances : seq (xnum T);
  d_vertical : T; d_leverage : xnum T }.

Section RegMap.
Variables (T : rcfType) (p : nat).
Implicit Types (X : seq 'rV[T]_p) (y r : seq T).

(* subtraction of columns of length m and n with NumPy's broadcasting (regression/base.py:81) *)
Definition sub_columns y f : res (seq T) :=
  if size y == size f then Ok [seq q.1 - q.2 | q <- zip y f]
  else if y is [:: a] then Ok [seq a - b | b <- f]
  else if f is [:: b] then Ok [seq a - b | a <- y]
  else Err ValueError.

(* norm.ppf(0.75), by which scipy divides the MAD for scale="normal" (regression/base.py:85) *)
Variable q75 : T.

(* the divisor (regression/base.py:84-88); np.std has ddof = 0 *)
Definition residual_scale (robust_scaling : bool) r : T :=
  if robust_scaling then fmad r / q75 else Num.sqrt (fvar r).

(* standardized_residuals (regression/base.py:82-89) *)
Definition standardized (robust_scaling : bool) r : seq (xnum T) :=
  [seq xdiv (Fin e) (Fin (residual_scale robust_scaling r)) | e <- r].

Variable argsort : seq (xnum T) -> seq nat.
Variables (chi2_ppf : T -> nat -> T) (gamma_cdf : T -> T -> T).
Variables (G : Type) (choice : G -> nat -> nat -> seq nat * G) (choice1 : G -> seq nat -> nat * G).
Variable pinvh : 'M[T]_p -> 'M[T]_p.

(* fewer than two observations receive weight one in the reweighting step (mcd.py:147-160): the
   covariance is NaN *)
Definition few_weights (o : mcd_out T p) : bool :=
  if o_mask o is Some m then (count id m < 2)%N else false.

(* the tolerance 1e-8 (mcd.py:36) *)
Definition tol8 : T := (10%:R ^+ 8)^-1.

(* FastMCD().calculate_covariance as seen by fit, with the default arguments (mcd.py:30-42,
   99-161); [g] is the generator, seeded by the operating system (mcd.py:42, 98).  The location
   assigned together with a NaN covariance is not needed and not modelled. *)
Definition calc_fast_mcd (fuel : nat) (g : G) X : option 'rV[T]_p * res 'M[xnum T]_p :=
  match fast_mcd argsort chi2_ppf gamma_cdf choice choice1 fuel ANone 500 2 10 None tol8 true true g X with
  | Ok o => if few_weights o then (None, Ok (\matrix_(i, j) NaN))
            else (Some (o_location o), Ok (\matrix_(i, j) Fin (o_scale o i j)))
  | Err e => (None, Err e)
  | NoFuel => (None, NoFuel)
  end.

(* FastMCD().fit(X), its location and covariance (regression/base.py:92-94) *)
Definition fit_mcd (fuel : nat) (g : G) X : res ('rV[T]_p * 'M[T]_p) :=
  let (o, r) := cov_fit pinvh (calc_fast_mcd fuel g) true false (new_cov T p) X in
  do _ <- r;
  if (o_loc o, o_cov o) is (Some l, Some S0) then Ok (l, S0) else Err AttributeError.

(* distances (regression/base.py:91-98); np.cov and np.linalg.inv as in [classical_distances] *)
Definition map_distances (robust_distance : bool) (fuel : nat) (g : G) X : res (seq (xnum T)) :=
  if robust_distance then do m <- fit_mcd fuel g X; mahalanobis_distance X m.1 m.2
  else classical_distances X (vmean X).

(* predict of the subclass (regression/base.py:29-30) *)
Variable predict : seq 'rV[T]_p -> res (seq T).

(* outlier_map (regression/base.py:39-119): the figure and the returned value; scatter rejects
   coordinates of different lengths *)
Definition outlier_map (t : target) (robust_scaling robust_distance : bool) (vertical pct : T)
    (return_data : bool) (fuel : nat) (g : G) X y : res (seq (item T) * option (map_data T)) :=
  if t is Series then Err AttributeError
  else
    do f <- predict X;
    do r <- sub_columns y f;
    let st := standardized robust_scaling r in
    do d <- map_distances robust_distance fuel g X;
    if size d != size st then Err ValueError
    else
      let lev := np_sqrt (chi2_ppf pct p) in
      Ok ([:: Points (zip d st); HLine vertical; HLine (- vertical); VLine lev],
          if return_data then Some (MapData r st d vertical lev) else None).

End RegMap.
