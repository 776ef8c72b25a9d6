(* Property theorems: weighted_median (C01, C02). *)
From mathcomp Require Import all_ssreflect all_algebra.
From Verif Require Import RFieldLra Prelude WeightedMedian_Model WeightedMedian_Spec
  WeightedMedian_Proofs.

Set Implicit Arguments.
Unset Strict Implicit.
Unset Printing Implicit Defensive.

Import Order.TTheory GRing.Theory Num.Theory.
Local Open Scope ring_scope.

(* C01: non-negative weights with positive sum: a weighted median is returned. *)
Theorem weighted_median_is_weighted_median (T : realFieldType) (X ws : seq T) :
  size X = size ws -> all (fun w => 0 <= w) ws -> 0 < fsum ws ->
  exists2 m, weighted_median X ws = Ok m & is_weighted_median X ws m.
Proof. exact: weighted_median_correct. Qed.
Print Assumptions weighted_median_is_weighted_median.

Example weighted_median_ex :
  weighted_median [:: 3%:Q; 1; 2%:Q; 2%:Q; 7%:Q] [:: 1; 1; 0; 5%:Q; 4%:Q] = Ok 2%:Q
  /\ size [:: 3%:Q; 1; 2%:Q; 2%:Q; 7%:Q] = size [:: 1%:Q; 1; 0; 5%:Q; 4%:Q]
  /\ all (fun w => 0 <= w) [:: 1%:Q; 1; 0; 5%:Q; 4%:Q]
  /\ 0 < fsum [:: 1%:Q; 1; 0; 5%:Q; 4%:Q].
Proof. by repeat split; vm_compute. Qed.

(* C01, termination part: for arbitrary (even negative) weights the loop ends. *)
Theorem weighted_median_terminates (T : realFieldType) (fuel : nat) (X ws : seq T)
    (wrest wtotal : T) :
  (size X < fuel)%N -> wm_loop fuel X ws wrest wtotal <> NoFuel.
Proof. exact: wm_loop_terminates. Qed.
Print Assumptions weighted_median_terminates.

(* C02: all-zero weights *)
Theorem weighted_median_zero_weights (T : realFieldType) (X ws : seq T) (m : T) :
  size X = size ws -> all (fun w => w == 0) ws -> is_max X m ->
  weighted_median X ws = if count_mem m X == 1%N then Ok m else Err IndexError.
Proof. exact: weighted_median_zero. Qed.
Print Assumptions weighted_median_zero_weights.

Theorem weighted_median_empty (T : realFieldType) (ws : seq T) :
  weighted_median [::] ws = Err IndexError.
Proof. exact: weighted_median_nil. Qed.
Print Assumptions weighted_median_empty.

Example weighted_median_zero_ex1 :
  weighted_median [:: 3%:Q; 1; 2%:Q] [:: 0; 0; 0] = Ok 3%:Q.
Proof. by vm_compute. Qed.
Example weighted_median_zero_ex2 :
  weighted_median [:: 3%:Q; 3%:Q; 2%:Q] [:: 0; 0; 0] = Err IndexError.
Proof. by vm_compute. Qed.
