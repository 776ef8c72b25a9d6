(* Model of robpy/utils/distance.py and robpy/utils/general.py. *)
From mathcomp Require Import all_ssreflect all_algebra.
From Verif Require Import RFieldLra Prelude Xnum Vec.

Set Implicit Arguments.
Unset Strict Implicit.
Unset Printing Implicit Defensive.

Import Order.TTheory GRing.Theory Num.Theory.
Local Open Scope ring_scope.

(* the index array of an np.ix_ (general.py:20-24) as a function from positions *)
Definition pos (p : nat) (s : seq 'I_p) : 'I_(size s) -> 'I_p := tnth (in_tuple s).

Arguments pos : clear implicits.
Arguments pos {p} s _.

Section Inv.
Variable T : fieldType.

(* np.linalg.inv in exact arithmetic (general.py:23, 27; distance.py:21): LinAlgError exactly for
   singular matrices *)
Definition np_inv n (A : 'M[T]_n) : res 'M[T]_n :=
  if A \in unitmx then Ok (invmx A) else Err LinAlgError.

(* a square matrix of any size, the result of general.py:17-31 *)
Inductive sqmat : Type := SqMat (n : nat) of 'M[T]_n.

(* general.py:16, np.setdiff1d(np.arange(p), indices), sorted *)
Definition indices_neg m p (f : 'I_m -> 'I_p) : seq 'I_p :=
  [seq k <- enum 'I_p | k \notin codom f].

(* general.py:14-31; an index array of length m is a function 'I_m -> 'I_p, and
   M[np.ix_(f, g)] is mxsub f g M *)
Definition inverse_submatrix m p (A A_inv : 'M[T]_p) (f : 'I_m -> 'I_p) : res sqmat :=
  let g := pos (indices_neg f) in
  if (m < p)%N then
    if (p < 2 * m)%N then
      do N <- np_inv (mxsub g g A_inv);
      Ok (SqMat (mxsub f f A_inv - mxsub f g A_inv *m N *m mxsub g f A_inv))
    else do R <- np_inv (mxsub f f A); Ok (SqMat R)
  else Ok (SqMat A_inv).

End Inv.

Section Mahalanobis.
Variables (T : rcfType) (p : nat).

(* distance.py:23-24, the value under the square root for one row *)
Definition maha_sq (cov_inv : 'M[T]_p) (loc x : 'rV[T]_p) : T :=
  dotv ((x - loc) *m cov_inv) (x - loc).

(* np.sqrt (distance.py:24): NaN for a negative argument *)
Definition np_sqrt (v : T) : xnum T := if 0 <= v then Fin (Num.sqrt v) else NaN.

(* distance.py:5-24; the data frame conversion (lines 19-20) is not modelled *)
Definition mahalanobis_distance (X : seq 'rV[T]_p) (loc : 'rV[T]_p) (cov : 'M[T]_p)
  : res (seq (xnum T)) :=
  do cov_inv <- np_inv cov;
  Ok [seq np_sqrt (maha_sq cov_inv loc x) | x <- X].

End Mahalanobis.
