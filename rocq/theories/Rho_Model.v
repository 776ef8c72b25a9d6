(* Model of robpy/utils/rho.py. *)
From mathcomp Require Import all_ssreflect all_algebra.
From Verif Require Import RFieldLra Prelude.

Set Implicit Arguments.
Unset Strict Implicit.
Unset Printing Implicit Defensive.

Import Order.TTheory GRing.Theory Num.Theory.
Local Open Scope ring_scope.

Section Model.
Variable T : realFieldType.

(* rho.py:27-32, TukeyBisquare.rho, elementwise *)
Definition tukey_rho (c x : T) : T :=
  if `|x| <= c then
    x ^+ 2 / 2%:R - x ^+ 4 / (2%:R * c ^+ 2) + x ^+ 6 / (6%:R * c ^+ 4)
  else c ^+ 2 / 6%:R.

(* rho.py:34-35, TukeyBisquare.psi *)
Definition tukey_psi (c x : T) : T :=
  if `|x| <= c then x * (1 - (x / c) ^+ 2) ^+ 2 else 0.

(* rho.py:49-50, Huber.rho *)
Definition huber_rho (b x : T) : T :=
  if `|x| <= b then x ^+ 2 / 2%:R else b * `|x| - b ^+ 2 / 2%:R.

(* rho.py:52-53, Huber.psi *)
Definition huber_psi (b x : T) : T :=
  if `|x| <= b then x else b * Num.sg x.

End Model.
