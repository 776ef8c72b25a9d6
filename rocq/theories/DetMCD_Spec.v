(* Vocabulary for the preliminary estimates of DetMCD, independent of the model. *)
From mathcomp Require Import all_ssreflect all_algebra.
From Verif Require Import RFieldLra Prelude PSD.

Set Implicit Arguments.
Unset Strict Implicit.
Unset Printing Implicit Defensive.

Import Order.TTheory GRing.Theory Num.Theory.
Local Open Scope ring_scope.

(* a correlation matrix: positive semidefinite, ones on the diagonal, entries in [-1, 1] *)
Definition correlation_matrix (T : rcfType) p (S : 'M[T]_p) : Prop :=
  [/\ psd S, (forall j, S j j = 1) & forall i j, -1 <= S i j <= 1].

(* r is the average of the (1-based) places that x takes in the sorted list *)
Definition average_place (T : rcfType) (s : seq T) (x r : T) : Prop :=
  r * (count_mem x s)%:R
  = \sum_(i < size s | nth 0 (sort <=%R s) i == x) (i.+1)%:R.

(* the rows of X and Y are ordered alike in every coordinate *)
Definition same_order (T : rcfType) p (X Y : seq 'rV[T]_p) : Prop :=
  size X = size Y /\ forall i k j, (i < size X)%N -> (k < size X)%N ->
  (nth 0 X i 0 j <= nth 0 X k 0 j) = (nth 0 Y i 0 j <= nth 0 Y k 0 j).

(* scipy.linalg.sqrtm on positive semidefinite matrices *)
Definition is_sqrtm (T : rcfType) p (sqrtm : 'M[T]_p -> 'M[T]_p) : Prop :=
  forall C, psd C -> psd (sqrtm C) /\ sqrtm C *m sqrtm C = C.

(* strictly increasing on the open unit interval, like a quantile function *)
Definition increasing01 (T : rcfType) (f : T -> T) : Prop :=
  forall a b, 0 < a -> b < 1 -> a < b -> f a < f b.

(* m is a median of s: as the middle value, or the middle of the two middle values *)
Definition middle_value (T : rcfType) (s : seq T) (m : T) : Prop :=
  2%:R * m = nth 0 (sort <=%R s) (size s).-1./2 + nth 0 (sort <=%R s) (size s)./2.

(* no hyperplane contains more than a quarter of the observations *)
Definition hyperplanes_hold_a_quarter (T : rcfType) p (X : seq 'rV[T]_p) : Prop :=
  forall (u : 'rV[T]_p) (c : T), u != 0 ->
  (4 * count (fun x : 'rV[T]_p => (\sum_j x 0 j * u 0 j)%R == c) X <= size X)%N.
