(* Spec: intervals, tolerance ellipses in the plane and the texts of a figure. *)
From mathcomp Require Import all_ssreflect all_algebra.
From Verif Require Import Xnum.

Set Implicit Arguments.
Unset Strict Implicit.
Unset Printing Implicit Defensive.

Import Order.TTheory GRing.Theory Num.Theory.
Local Open Scope ring_scope.

Section Spec.
Variable T : rcfType.

(* a number, possibly infinite, that is not in the interval [lo, hi] *)
Inductive beyond (lo hi : T) : xnum T -> Prop :=
| BelowLo x : x < lo -> beyond lo hi (Fin x)
| AboveHi x : hi < x -> beyond lo hi (Fin x)
| BeyondPInf : beyond lo hi PInf
| BeyondNInf : beyond lo hi NInf.

(* [[a, b], [b, d]] is symmetric and positive definite *)
Definition posdef2 (S : 'M[T]_2) : Prop :=
  [/\ S 1 0 = S 0 1, 0 < S 0 0 & 0 < S 0 0 * S 1 1 - S 0 1 ^+ 2].

(* det(S) times the squared Mahalanobis distance of (x, y) from the centre *)
Definition ell (S : 'M[T]_2) (c : 'rV[T]_2) (x y : T) : T :=
  S 1 1 * (x - c 0 0) ^+ 2 - 2%:R * S 0 1 * (x - c 0 0) * (y - c 0 1) + S 0 0 * (y - c 0 1) ^+ 2.

(* the tolerance ellipse with squared radius r2, and its exterior *)
Definition on_ellipse (S : 'M[T]_2) (c : 'rV[T]_2) (r2 x y : T) : Prop :=
  ell S c x y = r2 * (S 0 0 * S 1 1 - S 0 1 ^+ 2).
Definition out_ellipse (S : 'M[T]_2) (c : 'rV[T]_2) (r2 x y : T) : Prop :=
  r2 * (S 0 0 * S 1 1 - S 0 1 ^+ 2) < ell S c x y.

(* the positions k < m with a property, in increasing order *)
Definition exactly (m : nat) (P : nat -> Prop) (I : seq nat) : Prop :=
  sorted ltn I /\ forall k, k \in I <-> (k < m)%N /\ P k.

End Spec.
