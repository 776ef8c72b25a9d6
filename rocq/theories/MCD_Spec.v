(* Vocabulary for the statements about the MCD estimators, independent of the model: sample mean
   and covariance by their defining equations, h-subsets, contracts of the NumPy calls. *)
From mathcomp Require Import all_ssreflect all_algebra.
From Verif Require Import RFieldLra Prelude Xnum Regr.

Set Implicit Arguments.
Unset Strict Implicit.
Unset Printing Implicit Defensive.

Import Order.TTheory GRing.Theory Num.Theory.
Local Open Scope ring_scope.

Section Spec.
Variables (T : rcfType) (p : nat).
Implicit Types (Y X : seq 'rV[T]_p) (m : 'rV[T]_p) (S : 'M[T]_p).

(* m is the sample mean of the rows Y *)
Definition is_mean Y m : Prop :=
  (0 < size Y)%N /\ forall j, (size Y)%:R * m 0 j = \sum_(y <- Y) y 0 j.

(* S is the sample covariance of the rows Y with divisor n - 1 *)
Definition is_cov Y S : Prop :=
  (1 < size Y)%N /\ exists2 m, is_mean Y m &
  forall j k, ((size Y).-1)%:R * S j k = \sum_(y <- Y) (y 0 j - m 0 j) * (y 0 k - m 0 k).

(* squared Mahalanobis distance *)
Definition maha2 S m x : T := ((x - m) *m invmx S *m (x - m)^T) 0 0.

(* a list of h different row numbers of X *)
Definition row_set X (h : nat) (idx : seq nat) : Prop :=
  [/\ uniq idx, (forall i, i \in idx -> (i < size X)%N) & size idx = h].

(* the rows idx of X are closest to m in the metric of S *)
Definition closest X S m (idx : seq nat) : Prop :=
  forall i j, i \in idx -> (j < size X)%N -> j \notin idx ->
  maha2 S m (nth 0 X i) <= maha2 S m (nth 0 X j).

(* np.argsort: a permutation of the positions, increasing for finite values; nothing is assumed
   about ties or about the order of non-finite values *)
Definition is_xargsort (argsort : seq (xnum T) -> seq nat) : Prop :=
  (forall s, perm_eq (argsort s) (iota 0 (size s))) /\
  forall (s : seq T) i j, (i <= j)%N -> (j < size s)%N ->
  nth 0 s (nth 0%N (argsort (map (@Fin T) s)) i) <= nth 0 s (nth 0%N (argsort (map (@Fin T) s)) j).

(* rng.choice(n, k, replace=False) and rng.choice(list) *)
Definition is_choice (G : Type) (choice : G -> nat -> nat -> seq nat * G) : Prop :=
  forall g n k, (k <= n)%N ->
  let idx := (choice g n k).1 in [/\ uniq idx, size idx = k & forall i, i \in idx -> (i < n)%N].
Definition is_choice1 (G : Type) (choice1 : G -> seq nat -> nat * G) : Prop :=
  forall g l, l != [::] -> (choice1 g l).1 \in l.

End Spec.
