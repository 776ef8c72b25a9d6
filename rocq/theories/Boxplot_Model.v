(* Model of robpy/univariate/adjusted_boxplot.py, one column at a time. *)
From mathcomp Require Import all_ssreflect all_algebra.
From Verif Require Import RFieldLra Prelude Stats Qn_Model.

Set Implicit Arguments.
Unset Strict Implicit.
Unset Printing Implicit Defensive.

Import Order.TTheory GRing.Theory Num.Theory.
Local Open Scope ring_scope.

Section Model.
Variable T : realFieldType.
Implicit Types (s : seq T).

(* adjusted_boxplot.py:62-63: np.percentile(X, 25 k) with NumPy's default linear
   interpolation between the order statistics at (n-1) k/4 *)
Definition quartile s (k : nat) : T :=
  let pos := ((size s).-1 * k)%N in
  let j := (pos %/ 4)%N in
  let g := (pos %% 4)%:R / 4%:R in
  let y := fsort s in
  nth 0 y j + g * (nth 0 y (minn j.+1 (size s).-1) - nth 0 y j).

(* adjusted_boxplot.py:10-18, Boxplot, together with the fliers of line 100 *)
Record boxplot := Boxplot {
  bmedian : T; bq1 : T; bq3 : T; upper_whisker : T; lower_whisker : T; fliers : seq T }.

(* adjusted_boxplot.py:61-88 and 100.  [exp] is np.exp and [mc] the medcouple of the
   column (statsmodels), both parameters; columns are non-empty. *)
Definition adjusted_boxplot (exp : T -> T) (mc : T) s : boxplot :=
  let q1 := quartile s 1 in
  let q3 := quartile s 3 in
  let lw := Num.max (fmin s)
      (q1 - dec T 15 1 * exp ((if 0 <= mc then - 4%:R else - 3%:R) * mc) * (q3 - q1)) in
  let uw := Num.min (fmax s)
      (q3 + dec T 15 1 * exp ((if 0 <= mc then 3%:R else 4%:R) * mc) * (q3 - q1)) in
  Boxplot (fmed s) q1 q3 uw lw [seq x <- s | (x < lw) || (uw < x)].

End Model.
