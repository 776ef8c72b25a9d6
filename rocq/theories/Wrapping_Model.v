(* Model of robpy/preprocessing/utils.py, wrapping_transformation, one column
   (all operations of lines 59-80 work along axis 0). *)
From mathcomp Require Import all_ssreflect all_algebra.
From Verif Require Import RFieldLra Prelude Stats.

Set Implicit Arguments.
Unset Strict Implicit.
Unset Printing Implicit Defensive.

Import Order.TTheory GRing.Theory Num.Theory.
Local Open Scope ring_scope.

Section Model.
Variable T : rcfType.
(* np.tanh, a parameter *)
Variable tanh : T -> T.
Variables (b c q1 q2 : T).
Implicit Types (s : seq T).

(* utils.py:65-69 *)
Definition wrap_psi (z : T) : T :=
  if `|z| < b then z
  else if `|z| <= c then q1 * tanh (q2 * (c - `|z|)) * Num.sg z else 0.

(* utils.py:61, np.where(scales == 0, 1, scales); also line 73 *)
Definition no_zero (sc : T) : T := if sc == 0 then 1 else sc.

(* utils.py:63-69; [loc] and [sc] are the values of the two estimators on the column *)
Definition z_wrapped (loc sc : T) s : seq T :=
  [seq wrap_psi ((x - loc) / no_zero sc) | x : T <- s].

(* utils.py:70-80; np.std is the square root of the population variance *)
Definition wrapping_transformation (rescale : bool) (loc sc : T) s : seq T :=
  let z := z_wrapped loc sc s in
  if rescale then
    let f := sc / no_zero (Num.sqrt (fvar z)) in
    [seq v * f + loc - fmean z * f | v : T <- z]
  else [seq v * sc + loc | v : T <- z].

End Model.
