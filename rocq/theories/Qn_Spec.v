(* The Qn estimator by definition (Rousseeuw & Croux): an order statistic of
   the pairwise distances. *)
From mathcomp Require Import all_ssreflect all_algebra.

Set Implicit Arguments.
Unset Strict Implicit.
Unset Printing Implicit Defensive.

Import Order.TTheory GRing.Theory Num.Theory.
Local Open Scope ring_scope.

Section Spec.
Variable T : realFieldType.

(* the n(n-1)/2 distances |x_i - x_j|, i < j *)
Fixpoint pair_dists (X : seq T) : seq T :=
  match X with
  | [::] => [::]
  | x :: s => [seq `|x - z| | z <- s] ++ pair_dists s
  end.

(* v is the k-th smallest element (k counted from 1) of s *)
Definition is_kth_smallest (s : seq T) (k : nat) (v : T) : Prop :=
  [/\ v \in s, (count (fun x => (x < v)%R) s < k)%N & (k <= count (fun x => (x <= v)%R) s)%N].

(* the finite-sample factors of Croux & Rousseeuw (1992), n >= 2: a table up to
   n = 9, then n / (n + 1.4) for odd and n / (n + 3.8) for even n *)
Definition croux_dn (n : nat) : T :=
  match n with
  | 2 => 399%:R / 1000%:R | 3 => 994%:R / 1000%:R | 4 => 512%:R / 1000%:R
  | 5 => 844%:R / 1000%:R | 6 => 611%:R / 1000%:R | 7 => 857%:R / 1000%:R
  | 8 => 669%:R / 1000%:R | 9 => 872%:R / 1000%:R
  | _ => (10 * n)%:R / (10 * n + (if odd n then 14%N else 38%N))%:R
  end.
(* 2.219144, the factor that makes Qn consistent at the normal distribution *)
Definition gauss_c : T := (2219%:R * 1000%:R + 144%:R) / (1000%:R * 1000%:R).

End Spec.
