(* What the univariate MCD is, independently of the window scan: the subset of
   h observations with the smallest variance. *)
From mathcomp Require Import all_ssreflect all_algebra.
From Verif Require Import RFieldLra Prelude Stats.

Set Implicit Arguments.
Unset Strict Implicit.
Unset Printing Implicit Defensive.

Import Order.TTheory GRing.Theory Num.Theory.
Local Open Scope ring_scope.

Section Spec.
Variable T : realFieldType.

(* S consists of h of the observations in X (a choice of positions) *)
Definition h_subset (X : seq T) (h : nat) (S : seq T) : Prop := subseq S X /\ size S = h.

(* S is an h-subset of minimal variance *)
Definition is_mcd_subset (X : seq T) (h : nat) (S : seq T) : Prop :=
  h_subset X h S /\ forall S', h_subset X h S' -> fvar S <= fvar S'.

End Spec.
