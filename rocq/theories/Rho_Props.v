(* Property theorems: the loss functions (C08, C09). *)
From mathcomp Require Import all_ssreflect all_algebra.
From Verif Require Import RFieldLra Prelude Rho_Model Rho_Spec Rho_Proofs.

Set Implicit Arguments.
Unset Strict Implicit.
Unset Printing Implicit Defensive.

Import Order.TTheory GRing.Theory Num.Theory.
Local Open Scope ring_scope.

(* C08 *)
Theorem tukey_psi_is_derivative (T : realFieldType) (c x : T) : 0 < c ->
  has_derivative (tukey_rho c) x (tukey_psi c x).
Proof. by move=> c0; exact: tukey_derivative. Qed.
Print Assumptions tukey_psi_is_derivative.

Theorem tukey_rho_shape (T : realFieldType) (c : T) : 0 < c ->
  [/\ forall x, tukey_rho c (- x) = tukey_rho c x,
      forall x, (tukey_rho c x == 0) = (x == 0),
      forall x y, `|x| <= `|y| -> tukey_rho c x <= tukey_rho c y,
      forall x, 0 <= tukey_rho c x <= c ^+ 2 / 6%:R
    & forall x, c <= `|x| -> tukey_rho c x = c ^+ 2 / 6%:R].
Proof.
move=> c0; split=> *.
- exact: tukey_rho_even.
- exact: tukey_rho_eq0.
- exact: tukey_rho_mono.
- exact: tukey_rho_bounds.
- exact: tukey_rho_sup.
Qed.
Print Assumptions tukey_rho_shape.

Theorem tukey_psi_shape (T : realFieldType) (c : T) : 0 < c ->
  [/\ forall x, tukey_psi c (- x) = - tukey_psi c x,
      forall x, c <= `|x| -> tukey_psi c x = 0
    & forall x, x != 0 -> 0 <= tukey_psi c x / x <= 1].
Proof.
move=> c0; split=> *.
- exact: tukey_psi_odd.
- exact: tukey_psi_zero.
- exact: tukey_weight_range.
Qed.
Print Assumptions tukey_psi_shape.

Example tukey_ex :
  tukey_rho 3%:Q 1 = 1 / 2%:Q - 1 / 18%:Q + 1 / 486%:Q
  /\ tukey_psi 3%:Q 1 = 64%:Q / 81%:Q /\ tukey_rho 3%:Q 5%:Q = 3%:Q / 2%:Q
  /\ tukey_psi 3%:Q 5%:Q = 0.
Proof. by repeat split; vm_compute. Qed.

(* C09 *)
Theorem huber_psi_is_derivative (T : realFieldType) (b x : T) : 0 < b ->
  has_derivative (huber_rho b) x (huber_psi b x).
Proof. by move=> b0; exact: huber_derivative. Qed.
Print Assumptions huber_psi_is_derivative.

Theorem huber_rho_shape (T : realFieldType) (b : T) : 0 < b ->
  [/\ forall x, huber_rho b (- x) = huber_rho b x,
      forall x, 0 <= huber_rho b x /\ (huber_rho b x == 0) = (x == 0),
      forall x y, `|x| <= `|y| -> huber_rho b x <= huber_rho b y
    & forall x y, huber_rho b x + huber_psi b x * (y - x) <= huber_rho b y].
Proof.
move=> b0; split.
- by move=> x; exact: huber_rho_even.
- by move=> x; split; [exact: huber_rho_ge0|exact: huber_rho_eq0].
- by move=> x y; exact: huber_rho_mono.
- by move=> x y; have /andP[h _] := huber_tangent b0 x y; flra.
Qed.
Print Assumptions huber_rho_shape.

Theorem huber_psi_shape (T : realFieldType) (b : T) : 0 < b ->
  [/\ forall x, huber_psi b (- x) = - huber_psi b x,
      forall x y, x <= y -> huber_psi b x <= huber_psi b y,
      forall x, `|huber_psi b x| <= b
    & forall x, x != 0 -> 0 < huber_psi b x / x <= 1].
Proof.
move=> b0; split=> *.
- exact: huber_psi_odd.
- exact: huber_psi_mono.
- exact: huber_psi_bound.
- exact: huber_weight_range.
Qed.
Print Assumptions huber_psi_shape.

Example huber_ex :
  huber_rho (3%:Q / 2%:Q) 1 = 1 / 2%:Q /\ huber_rho (3%:Q / 2%:Q) (- 3%:Q) = 27%:Q / 8%:Q
  /\ huber_psi (3%:Q / 2%:Q) (- 3%:Q) = - (3%:Q / 2%:Q).
Proof. by repeat split; vm_compute. Qed.
