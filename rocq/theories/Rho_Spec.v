(* Derivatives, over any ordered field. *)
From mathcomp Require Import all_ssreflect all_algebra.

Set Implicit Arguments.
Unset Strict Implicit.
Unset Printing Implicit Defensive.

Import Order.TTheory GRing.Theory Num.Theory.
Local Open Scope ring_scope.

(* the usual epsilon-delta definition: l is the derivative of f at x *)
Definition has_derivative (T : realFieldType) (f : T -> T) (x l : T) : Prop :=
  forall eps, 0 < eps -> exists2 delta, 0 < delta &
    forall y, `|y - x| < delta -> `|f y - f x - l * (y - x)| <= eps * `|y - x|.
