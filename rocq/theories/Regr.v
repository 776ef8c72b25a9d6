(* Linear models fitted by least squares: the vocabulary shared by the regression estimators,
   and the contracts of the two library calls they rest on, sklearn's LinearRegression().fit
   and np.argsort. *)
From mathcomp Require Import all_ssreflect all_algebra.
From Verif Require Import RFieldLra Prelude.

Set Implicit Arguments.
Unset Strict Implicit.
Unset Printing Implicit Defensive.

Import Order.TTheory GRing.Theory Num.Theory.
Local Open Scope ring_scope.

Section Regr.
Variable T : realFieldType.
Implicit Types (X : seq (seq T)) (y : seq T).

(* a fitted sklearn LinearRegression: intercept_ and coef_ (lts.py:187-188 assigns both) *)
Record lin := Lin { icpt : T; coef : seq T }.

(* inner product of two rows, X @ coef_.T inside LinearRegression.predict (lts.py:156) *)
Definition dot (a b : seq T) : T := fsum [seq q.1 * q.2 | q <- zip a b].

(* LinearRegression.predict for one row (lts.py:156, 240, 301; mm.py:52, 58) *)
Definition predict1 (m : lin) (x : seq T) : T := icpt m + dot (coef m) x.

(* y - predict(X) (lts.py:139, 242, 301; mm.py:52, 58) *)
Definition residuals (m : lin) X y : seq T := [seq q.2 - predict1 m q.1 | q <- zip X y].

(* sum of the squared residuals (lts.py:243 before the division) *)
Definition sse (m : lin) X y : T := fsum [seq r ^+ 2 | r : T <- residuals m X y].

(* every row of X has p entries: X is an n x p array (lts.py:103, X.shape[1]) *)
Definition rect (p : nat) X : bool := all (fun x => size x == p) X.

(* numpy indexing a[idx] with an index array (lts.py:218-219, 240-241, 315) *)
Definition sel (A : Type) (d : A) (s : seq A) (idx : seq nat) : seq A := [seq nth d s i | i <- idx].

(* contract of LinearRegression().fit (lts.py:219, 315) on a non-empty n x p array: the model returned has p
   coefficients and no model has a smaller sum of squared residuals *)
Definition is_ols (p : nat) (ols : seq (seq T) -> seq T -> lin) : Prop :=
  forall X y, size X = size y -> (0 < size X)%N -> rect p X ->
  size (coef (ols X y)) = p /\
  forall m, size (coef m) = p -> sse (ols X y) X y <= sse m X y.

(* contract of np.argsort (lts.py:302): a permutation of the positions along which the values
   increase; nothing is said about ties *)
Definition is_argsort (argsort : seq T -> seq nat) : Prop :=
  forall s, perm_eq (argsort s) (iota 0 (size s)) /\
  forall i j, (i <= j)%N -> (j < size s)%N ->
  nth 0 s (nth 0%N (argsort s) i) <= nth 0 s (nth 0%N (argsort s) j).

(* simple regression in closed form, for LinearRegression().fit (lts.py:219, 315) with one regressor; used to
   show that the contract can be met *)
Definition ols1 X y : lin :=
  let x := [seq nth 0 r 0 | r <- X] in
  let mx := fmean x in let my := fmean y in
  let sxx := fsum [seq (u - mx) ^+ 2 | u : T <- x] in
  let b := fsum [seq (q.1 - mx) * (q.2 - my) | q <- zip x y] / sxx in
  Lin (my - b * mx) [:: b].

(* a stable argsort (lts.py:302); shows that the contract can be met *)
Definition stable_argsort (s : seq T) : seq nat :=
  sort (fun i j => nth 0 s i <= nth 0 s j) (iota 0 (size s)).

End Regr.
