(* Spec: normal log-likelihoods of some cells of a row, conditional means and covariances, the
   penalised objective of the cellwise MCD. *)
From mathcomp Require Import all_ssreflect all_algebra.

Set Implicit Arguments.
Unset Strict Implicit.
Unset Printing Implicit Defensive.

Import Order.TTheory GRing.Theory Num.Theory.
Local Open Scope ring_scope.

(* what is used of the natural logarithm *)
Definition is_log (T : rcfType) (ln : T -> T) : Prop :=
  (forall a b, 0 < a -> 0 < b -> ln (a * b) = ln a + ln b) /\ (forall a, 0 < a -> ln a <= a - 1).

Section Spec.
Variables (T : rcfType) (n p : nat) (ln : T -> T) (log2pi : T).
Implicit Types (A : {set 'I_p}) (S : 'M[T]_p) (mu x : 'rV[T]_p).

Definition sub_vec A (v : 'rV[T]_p) : 'rV[T]_#|A| := \row_a v 0 (enum_val a).
Definition sub_mat A S : 'M[T]_#|A| := \matrix_(a, b) S (enum_val a) (enum_val b).

(* symmetric with positive quadratic forms *)
Definition pos_def S : Prop :=
  S^T = S /\ forall x, x != 0 -> 0 < (x *m S *m x^T) 0 0.

(* minus twice the logarithm of the normal density of the cells in A *)
Definition neg2loglik A S mu x : T :=
  let d := sub_vec A (x - mu) in
  (d *m invmx (sub_mat A S) *m d^T) 0 0 + ln (\det (sub_mat A S)) + log2pi * #|A|%:R.

(* the coefficients of the best linear predictor of cell k from the cells in A *)
Definition regression_on A S k (b : 'I_p -> T) : Prop :=
  forall l, l \in A -> \sum_(m in A) S l m * b m = S l k.

(* v is the conditional expectation of cell k given the cells of x in A *)
Definition cond_mean A S mu x k (v : T) : Prop :=
  exists2 b, regression_on A S k b & v = mu 0 k + \sum_(m in A) (x 0 m - mu 0 m) * b m.

(* v is the conditional covariance of cells k and l given the cells in A *)
Definition cond_cov A S k l (v : T) : Prop :=
  exists2 b, regression_on A S k b & v = S l k - \sum_(m in A) S l m * b m.

(* the values of a row; NaN cells are not looked at *)
Definition vals (X : 'M[option T]_(n, p)) (i : 'I_n) : 'rV[T]_p := \row_k odflt 0 (X i k).

(* the clean cells are not missing *)
Definition observed (X : 'M[option T]_(n, p)) (W : 'M[bool]_(n, p)) : Prop :=
  forall i k, W i k -> X i k.

(* the clean cells of a row *)
Definition clean (W : 'M[bool]_(n, p)) (i : 'I_n) : {set 'I_p} := [set k | W i k].

(* equation (8) of the paper, with the penalty *)
Definition penalised (q : 'rV[T]_p) (X : 'M[option T]_(n, p)) (W : 'M[bool]_(n, p)) mu S : T :=
  \sum_i neg2loglik (clean W i) S mu (vals X i) + \sum_i \sum_(k | ~~ W i k) q 0 k.

End Spec.
