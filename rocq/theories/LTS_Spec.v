(* What FastLTSRegression is expected to compute. *)
From mathcomp Require Import all_ssreflect all_algebra.
From Verif Require Import RFieldLra Prelude Regr.

Set Implicit Arguments.
Unset Strict Implicit.
Unset Printing Implicit Defensive.

Import Order.TTheory GRing.Theory Num.Theory.
Local Open Scope ring_scope.

Section Spec.
Variable T : realFieldType.
Implicit Types (X : seq (seq T)) (y : seq T).

(* squared residual of observation i *)
Definition resid2 (m : lin T) X y (i : nat) : T :=
  (nth 0 y i - predict1 m (nth [::] X i)) ^+ 2.

(* mean squared residual over the observations listed in H *)
Definition trimmed_loss (m : lin T) X y (H : seq nat) : T :=
  (\sum_(i <- H) resid2 m X y i) / (size H)%:R.

(* H lists k different observations out of n *)
Definition subset_of (n k : nat) (H : seq nat) : Prop :=
  [/\ uniq H, {in H, forall i, (i < n)%N} & size H = k].

(* the contract of np.random.choice(n, k, replace=False) for k <= n *)
Definition is_choice (choice : nat -> nat -> nat -> seq nat) : Prop :=
  forall seed n k, (k <= n)%N -> subset_of n k (choice seed n k).

(* initial weights: an intercept and p slopes *)
Definition good_weights (p : nat) (iw : option (seq T)) : Prop :=
  if iw is Some w then size w = p.+1 else True.

End Spec.
