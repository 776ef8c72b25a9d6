(* Truncation of rationals, used to instantiate Python's int() in examples. *)
From mathcomp Require Import all_ssreflect all_algebra.

Set Implicit Arguments.
Unset Strict Implicit.
Unset Printing Implicit Defensive.

Import Order.TTheory GRing.Theory Num.Theory.
Local Open Scope ring_scope.

(* int() on non-negative rationals, e.g. robpy/univariate/mcd.py:91; instantiates the parameter
   int_of in examples *)
Definition rat_floor (x : rat) : int := divz (numq x) (denq x).

(* contract of int() on non-negative numbers, e.g. robpy/univariate/mcd.py:91 *)
Definition is_int_of (T : realFieldType) (int_of : T -> int) : Prop :=
  forall x, 0 <= x -> (int_of x)%:~R <= x < (int_of x + 1)%:~R.

Lemma rat_floorP : is_int_of rat_floor.
Proof.
move=> x _; rewrite /rat_floor.
have e : x = (numq x)%:~R / (denq x)%:~R by rewrite divq_num_den.
have d0 := denq_gt0 x; move: (numq x) (denq x) e d0 => n d -> d0.
have d0' : 0 < d%:~R :> rat by rewrite ltr0z.
rewrite ler_pdivl_mulr // ltr_pdivr_mulr // -!rmorphM /= ler_int ltr_int.
have hd : d != 0 by rewrite gt_eqF.
rewrite {2 3}(divz_eq n d) ler_addl modz_ge0 //= mulrDl mul1r ltr_add2l.
exact: ltz_pmod.
Qed.
