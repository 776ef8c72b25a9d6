(* What the DDC properties talk about, independent of the model's helpers. *)
From mathcomp Require Import all_ssreflect all_algebra.
From Verif Require Import RFieldLra Prelude Xnum DDC_Model.

Set Implicit Arguments.
Unset Strict Implicit.
Unset Printing Implicit Defensive.

Import Order.TTheory GRing.Theory Num.Theory.
Local Open Scope ring_scope.

Section Spec.
Variable T : rcfType.
Notation num := (xnum T).

(* a number *)
Definition is_fin (u : num) : bool := if u is Fin _ then true else false.
(* a number or NaN: what a screened cell holds *)
Definition fin_or_nan (u : num) : bool := if u is Fin _ then true else is_nan u.
(* missing for DDC: NaN or infinite *)
Definition missing (u : num) : bool := ~~ is_fin u.
(* the number itself, 0 for a missing cell *)
Definition val0 (u : num) : T := if u is Fin a then a else 0.

(* every row has p cells *)
Definition shaped (p : nat) (X : seq (seq num)) : bool := all (fun r => size r == p) X.

(* cell (a, i) of a list of rows *)
Definition at_ {A} (d : A) (m : seq (seq A)) (a i : nat) : A := nth d (nth [::] m a) i.

(* two rows agree except possibly in column i *)
Definition agree_off (i : nat) (r r' : seq num) : Prop :=
  forall k, k != i -> nth NaN r k = nth NaN r' k.

(* standardized value of cell k of a row: (x - location_k) / scale_k, NaN for a
   missing cell *)
Definition zscore (ls : seq num * seq num) (r : seq num) (k : nat) : num :=
  if is_fin (nth NaN r k)
  then xdiv (xsub (nth NaN r k) (nth NaN ls.1 k)) (nth NaN ls.2 k) else NaN.

(* cell k takes part in predictions: observed and |z| <= c *)
Definition kept (c : T) (z : num) : bool := if z is Fin u then `|u| <= c else false.

(* the convex weights that DDC uses to predict cell i of row r from the cells k
   of the row: non-negative, zero for the cell itself, for cells not kept and for
   columns with absolute correlation below 1/2, positive for the others, and
   summing to 1 unless all are zero *)
Definition prediction_weights (c : T) (ls : seq num * seq num) (corr : seq (seq num)) (p : nat)
    (r : seq num) (i : nat) (w : nat -> T) : Prop :=
  [/\ forall k, (k < p)%N -> 0 <= w k,
      forall k, (k < p)%N -> [|| k == i, ~~ kept c (zscore ls r k) |
         `|val0 (at_ NaN corr k i)| < 2%:R^-1] -> w k = 0,
      forall k, (k < p)%N -> k != i -> kept c (zscore ls r k) ->
         2%:R^-1 <= `|val0 (at_ NaN corr k i)| -> 0 < w k &
      \sum_(k < p) w k = 1 \/ (forall k, (k < p)%N -> w k = 0)].

(* the prediction of the standardized cell i: the weighted sum of slope times
   value over the columns that have a slope *)
Definition weighted_prediction (ls : seq num * seq num) (slopes : seq (seq num)) (p : nat)
    (r : seq num) (i : nat) (w : nat -> T) : T :=
  \sum_(k < p | ~~ is_nan (at_ NaN slopes k i))
     w k * val0 (at_ NaN slopes k i) * val0 (zscore ls r k).

End Spec.
