(* What MMRegression is compared with: the weighted sum of squared residuals, and the sum of
   squares it really minimises. *)
From mathcomp Require Import all_ssreflect all_algebra.
From Verif Require Import RFieldLra Prelude Regr.

Set Implicit Arguments.
Unset Strict Implicit.
Unset Printing Implicit Defensive.

Import Order.TTheory GRing.Theory Num.Theory.
Local Open Scope ring_scope.

Section Spec.
Variable T : rcfType.
Implicit Types (X : seq (seq T)) (y w : seq T) (m : lin T).

(* sum of w_i (y_i - b0 - x_i b)^2 *)
Definition wsse w m X y : T :=
  \sum_(i < size y) nth 0 w i * (nth 0 y i - (icpt m + dot (coef m) (nth [::] X i))) ^+ 2.

(* sum of (v_i y_i - b0 - v_i x_i b)^2 with v_i the square root of w_i: the intercept has no
   weight *)
Definition usse w m X y : T :=
  \sum_(i < size y)
    (let v := Num.sqrt (nth 0 w i) in v * nth 0 y i - (icpt m + v * dot (coef m) (nth [::] X i))) ^+ 2.

(* m has p coefficients, and no such model has a smaller value *)
Definition minimises (p : nat) (f : lin T -> T) m : Prop :=
  size (coef m) = p /\ forall m', size (coef m') = p -> f m <= f m'.

(* the model with b added to the slopes *)
Definition add_slopes m (b : seq T) : lin T := Lin (icpt m) [seq q.1 + q.2 | q <- zip (coef m) b].

(* y + X b *)
Definition add_plane X y (b : seq T) : seq T := [seq q.2 + dot b q.1 | q <- zip X y].

End Spec.
