(* Spec: an ascending order with NaN last. *)
From mathcomp Require Import all_ssreflect all_algebra.

Set Implicit Arguments.
Unset Strict Implicit.
Unset Printing Implicit Defensive.

Import Order.TTheory GRing.Theory Num.Theory.
Local Open Scope ring_scope.

Section Spec.
Variables (T : rcfType) (n : nat).

(* absolute values, NaN last *)
Definition abs_le (a b : option T) : bool :=
  match a, b with _, None => true | None, Some _ => false | Some x, Some y => `|x| <= `|y| end.

(* any result of np.argsort(np.abs(resid)) *)
Definition is_argsort (resid : 'I_n -> option T) (ordering : seq 'I_n) : Prop :=
  perm_eq ordering (enum 'I_n) /\ sorted (fun i j => abs_le (resid i) (resid j)) ordering.

End Spec.
