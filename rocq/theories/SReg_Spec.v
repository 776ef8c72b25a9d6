(* Vocabulary for the statements about SRegression. *)
From mathcomp Require Import all_ssreflect all_algebra.
From Verif Require Import RFieldLra Prelude Xnum Regr SReg_Model.

Set Implicit Arguments.
Unset Strict Implicit.
Unset Printing Implicit Defensive.

Import Order.TTheory GRing.Theory Num.Theory.
Local Open Scope ring_scope.

Section Spec.
Variable A : Type.
(* one step of an iteration from a state, and the test between the old and the new state *)
Variables (stepf : A -> res A) (stop : A -> A -> bool).

(* [n] successful steps lead from a to a', none of them meeting the stopping test *)
Fixpoint runs (n : nat) (a a' : A) : Prop :=
  if n is n'.+1 then exists a1, [/\ stepf a = Ok a1, stop a a1 = false & runs n' a1 a']
  else a' = a.

(* the iteration from a ends after n steps in a', because the n-th step meets the test *)
Definition stops (n : nat) (a a' : A) : Prop :=
  exists k a1, [/\ n = k.+1, runs k a a1, stepf a1 = Ok a' & stop a1 a'].

(* the iteration from a arrives after n steps in a', where a further step raises LinAlgError *)
Definition breaks (n : nat) (a a' : A) : Prop := runs n a a' /\ stepf a' = Err LinAlgError.
End Spec.
