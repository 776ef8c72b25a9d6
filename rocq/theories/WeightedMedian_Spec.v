(* What a weighted median is, independently of the algorithm. *)
From mathcomp Require Import all_ssreflect all_algebra.

Set Implicit Arguments.
Unset Strict Implicit.
Unset Printing Implicit Defensive.

Import Order.TTheory GRing.Theory Num.Theory.
Local Open Scope ring_scope.

Section Spec.
Variable T : realFieldType.

(* total weight of the observations satisfying p *)
Definition weight_of (X ws : seq T) (p : pred T) : T :=
  \sum_(i < size X | p (nth 0 X i)) nth 0 ws i.

(* m is an observation; the weight strictly below it is at most half of the total
   weight, the weight at or below it is more than half *)
Definition is_weighted_median (X ws : seq T) (m : T) : Prop :=
  [/\ m \in X,
      2%:R * weight_of X ws (fun x => x < m) <= \sum_(i < size X) nth 0 ws i
    & \sum_(i < size X) nth 0 ws i < 2%:R * weight_of X ws (fun x => x <= m)].

(* m is the largest observation *)
Definition is_max (X : seq T) (m : T) : Prop :=
  m \in X /\ forall x, x \in X -> x <= m.
End Spec.
