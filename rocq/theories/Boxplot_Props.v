(* Property theorems: adjusted boxplot (C27). *)
From mathcomp Require Import all_ssreflect all_algebra.
From Verif Require Import RFieldLra Prelude Stats Qn_Model Boxplot_Model Boxplot_Proofs.

Set Implicit Arguments.
Unset Strict Implicit.
Unset Printing Implicit Defensive.

Import Order.TTheory GRing.Theory Num.Theory.
Local Open Scope ring_scope.

(* C27; [exp] is any positive function *)
Theorem boxplot_ordered (T : realFieldType) (exp : T -> T) (mc : T) (s : seq T) :
  (forall u, 0 < exp u) -> (0 < size s)%N ->
  let b := adjusted_boxplot exp mc s in
  [/\ fmin s <= lower_whisker b, lower_whisker b <= bq1 b, bq1 b <= bmedian b,
      bmedian b <= bq3 b & bq3 b <= upper_whisker b <= fmax s].
Proof. by move=> he; exact: boxplot_order. Qed.
Print Assumptions boxplot_ordered.

Theorem boxplot_fliers (T : realFieldType) (exp : T -> T) (mc : T) (s : seq T) (x : T) :
  let b := adjusted_boxplot exp mc s in
  count_mem x (fliers b)
  = if (lower_whisker b <= x) && (x <= upper_whisker b) then 0%N else count_mem x s.
Proof.
move=> b; rewrite /fliers /= count_filter /=; set lw := lower_whisker b; set uw := upper_whisker b.
case: (boolP ((lw <= x) && (x <= uw))) => [/andP[h1 h2]|/negbTE h]; last first.
  apply: eq_count => y /=; case: eqVneq => //= ->.
  by rewrite -/lw -/uw !ltNge; case: (lw <= x) h => /=; case: (x <= uw).
apply/eqP; rewrite -leqn0 leqNgt -has_count; apply/hasPn => y _ /=.
by case: eqVneq => //= ->; rewrite -/lw -/uw !ltNge h1 h2.
Qed.
Print Assumptions boxplot_fliers.

(* every quartile of the data is inside the whiskers; the median is as well *)
Example boxplot_ex :
  let s : seq rat := [:: 1; 2%:Q; 3%:Q; 4%:Q; 30%:Q] in
  let b := adjusted_boxplot (fun _ => 1) 0 s in
  ((bq1 b, bmedian b, bq3 b), (lower_whisker b, upper_whisker b), fliers b)
  = ((2%:Q, 3%:Q, 4%:Q), (1, 7%:Q), [:: 30%:Q]).
Proof. by vm_compute. Qed.

(* C27: the whiskers are the skewness-adjusted fences, cut at the extremes *)
Theorem boxplot_whiskers (T : realFieldType) (exp : T -> T) (mc : T) (s : seq T) :
  let b := adjusted_boxplot exp mc s in
  let iqr := bq3 b - bq1 b in
  (0 <= mc ->
     lower_whisker b = Num.max (fmin s) (bq1 b - 3%:R / 2%:R * exp (- 4%:R * mc) * iqr) /\
     upper_whisker b = Num.min (fmax s) (bq3 b + 3%:R / 2%:R * exp (3%:R * mc) * iqr)) /\
  (mc < 0 ->
     lower_whisker b = Num.max (fmin s) (bq1 b - 3%:R / 2%:R * exp (- 3%:R * mc) * iqr) /\
     upper_whisker b = Num.min (fmax s) (bq3 b + 3%:R / 2%:R * exp (4%:R * mc) * iqr)).
Proof.
have e : dec T 15 1 = 3%:R / 2%:R.
  by rewrite /dec expn1; apply/eqP; rewrite eqr_div ?pnatr_eq0 // -!natrM.
by split=> h /=; rewrite e ?h // leNgt h.
Qed.
Print Assumptions boxplot_whiskers.

(* C27: reflecting the data (which flips the medcouple) reflects the boxplot *)
Theorem boxplot_reflection (T : realFieldType) (exp : T -> T) (mc : T) (s : seq T) :
  (0 < size s)%N -> mc != 0 ->
  let b := adjusted_boxplot exp mc s in
  let b' := adjusted_boxplot exp (- mc) [seq - x | x : T <- s] in
  [/\ bmedian b' = - bmedian b, bq1 b' = - bq3 b, bq3 b' = - bq1 b,
      lower_whisker b' = - upper_whisker b & upper_whisker b' = - lower_whisker b].
Proof. exact: boxplot_reflect_lem. Qed.
Print Assumptions boxplot_reflection.

Example boxplot_reflection_ex :
  let s : seq rat := [:: 1; 2%:Q; 3%:Q; 4%:Q; 30%:Q] in
  let exp (u : rat) : rat := if u < 0 then 1 / 2%:Q else 2%:Q in
  let b := adjusted_boxplot exp (1 / 2%:Q) s in
  (lower_whisker b, upper_whisker b) = (1, 10%:Q).
Proof. by vm_compute. Qed.
