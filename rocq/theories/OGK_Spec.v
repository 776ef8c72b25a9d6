(* Spec: what the estimators and the eigen-solver plugged into OGK have to satisfy. *)
From mathcomp Require Import all_ssreflect all_algebra.

Set Implicit Arguments.
Unset Strict Implicit.
Unset Printing Implicit Defensive.

Import GRing.Theory Num.Theory.
Local Open Scope ring_scope.

(* a scale follows a positive factor and ignores a shift *)
Definition scale_equivariant (T : rcfType) (s : seq T -> T) : Prop :=
  forall (a b : T) xs, (0 < size xs)%N -> 0 < a -> s [seq a * x + b | x <- xs] = a * s xs.

(* a location follows a positive factor and a shift *)
Definition location_equivariant (T : rcfType) (l : seq T -> T) : Prop :=
  forall (a b : T) xs, (0 < size xs)%N -> 0 < a -> l [seq a * x + b | x <- xs] = a * l xs + b.

(* eigenvectors of a symmetric matrix are orthonormal *)
Definition orthonormal_eigvecs (T : rcfType) p (eig : 'M[T]_p -> 'M[T]_p) : Prop :=
  forall U, U^T = U -> (eig U)^T *m eig U = 1%:M.

(* rows with coordinate j multiplied by c j and shifted by b j *)
Definition rescaled (T : rcfType) p (c b : 'rV[T]_p) (X : seq 'rV[T]_p) : seq 'rV[T]_p :=
  [seq (\row_j (c 0 j * x 0 j + b 0 j)) | x : 'rV[T]_p <- X].

(* location and covariance of rescaled data *)
Definition rescaled_est (T : rcfType) p (c b : 'rV[T]_p) (mc : 'rV[T]_p * 'M[T]_p) : 'rV[T]_p * 'M[T]_p :=
  (\row_j (c 0 j * mc.1 0 j + b 0 j), \matrix_(i, j) (c 0 i * mc.2 i j * c 0 j)).

(* the classical standard deviation (divisor n - 1) and mean *)
Definition is_std (T : rcfType) (s : seq T -> T) : Prop :=
  forall xs m, (1 < size xs)%N -> (size xs)%:R * m = \sum_(x <- xs) x ->
  ((size xs).-1)%:R * s xs ^+ 2 = \sum_(x <- xs) (x - m) ^+ 2.
Definition is_average (T : rcfType) (l : seq T -> T) : Prop :=
  forall xs, (0 < size xs)%N -> (size xs)%:R * l xs = \sum_(x <- xs) x.

(* a correct symmetric eigen-decomposition: orthonormal vectors that diagonalise *)
Definition correct_eigvecs (T : rcfType) p (eig : 'M[T]_p -> 'M[T]_p) : Prop :=
  forall U, U^T = U ->
  (eig U)^T *m eig U = 1%:M /\ exists d, (eig U)^T *m U *m eig U = diag_mx d.
