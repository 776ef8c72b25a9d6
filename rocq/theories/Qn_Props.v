(* Property theorems: Qn (C13 - C16). *)
From mathcomp Require Import all_ssreflect all_algebra.
From Verif Require Import RFieldLra Prelude WeightedMedian_Model Qn_Model Qn_Spec Qn_Proofs.

Set Implicit Arguments.
Unset Strict Implicit.
Unset Printing Implicit Defensive.

Import Order.TTheory GRing.Theory Num.Theory.
Local Open Scope ring_scope.

(* C13 *)
Theorem qn_is_kth_pairwise_distance (T : realFieldType) (X : seq T) :
  (1 < size X)%N ->
  exists2 v, qn_raw X = Ok v & is_kth_smallest (pair_dists X) (qn_k (size X)) v.
Proof. exact: qn_raw_correct. Qed.
Print Assumptions qn_is_kth_pairwise_distance.

Theorem kth_smallest_determined (T : realFieldType) (s : seq T) (k : nat) (v w : T) :
  is_kth_smallest s k v -> is_kth_smallest s k w -> v = w.
Proof. exact: is_kth_unique. Qed.
Print Assumptions kth_smallest_determined.

Definition qn_ex_data : seq rat := [:: 3%:Q; 10%:Q; 4%:Q; 1; 15%:Q; 9%:Q; 2%:Q].
Example qn_ex :
  [/\ (1 < size qn_ex_data)%N,
      qn_raw qn_ex_data = Ok 2%:Q,
      qn_k 7 = 6%N
    & take 8 (sort <=%R (pair_dists qn_ex_data))
       = [:: 1; 1; 1; 1; 2%:Q; 2%:Q; 3%:Q; 5%:Q] ].
Proof. by split; vm_compute. Qed.

(* the reported scale is that order statistic times the published factors *)
Theorem qn_scale_factors (T : realFieldType) (fc cc : bool) (X : seq T) :
  (1 < size X)%N ->
  exists2 v, is_kth_smallest (pair_dists X) (qn_k (size X)) v &
    qn_scale fc cc X = Ok ((if cc then gauss_c T else 1)
                           * ((if fc then croux_dn T (size X) else 1) * v)).
Proof. exact: qn_scale_factors_lem. Qed.
Print Assumptions qn_scale_factors.

Example qn_factors_ex :
  qn_scale true false [:: 5%:Q; 8%:Q] = Ok (1197%:Q / 1000%:Q)
  /\ qn_scale true false [:: 1; 2%:Q; 3%:Q; 4%:Q; 5%:Q; 6%:Q; 7%:Q; 8%:Q; 9%:Q; 10%:Q]
     = Ok (100%:Q / 69%:Q).
Proof. by split; vm_compute. Qed.

(* C14 *)
Theorem qn_rejects_small_samples (T : realFieldType) fc cc (X : seq T) :
  (size X < 2)%N -> qn_scale fc cc X = Err ValueError.
Proof. exact: qn_scale_small. Qed.
Print Assumptions qn_rejects_small_samples.

Theorem qn_total (T : realFieldType) fc cc (X : seq T) :
  (1 < size X)%N -> exists q, qn_scale fc cc X = Ok q.
Proof. exact: qn_scale_total. Qed.
Print Assumptions qn_total.

Example qn_small_ex :
  qn_scale false false [:: 5%:Q] = Err ValueError
  /\ qn_scale false false [:: 5%:Q; 8%:Q] = Ok 3%:Q.
Proof. by split; vm_compute. Qed.

(* C15 *)
Theorem qn_permutation_invariant (T : realFieldType) fc cc (X Y : seq T) :
  perm_eq X Y -> qn_scale fc cc X = qn_scale fc cc Y.
Proof. exact: qn_scale_perm. Qed.
Print Assumptions qn_permutation_invariant.

Theorem qn_affine_equivariant (T : realFieldType) fc cc (a b : T) (X : seq T) :
  (1 < size X)%N ->
  exists q, [/\ 0 <= q, qn_scale fc cc X = Ok q
     & qn_scale fc cc [seq a * x + b | x <- X] = Ok (`|a| * q)].
Proof. exact: qn_scale_affine. Qed.
Print Assumptions qn_affine_equivariant.

Definition qn_ex_data2 : seq rat := [:: 3%:Q; 10%:Q; 4%:Q; 1].
Example qn_affine_ex :
  (1 < size qn_ex_data2)%N
  /\ qn_scale false false qn_ex_data2 = Ok 3%:Q
  /\ qn_scale false false [seq (- 2%:Q) * x + 5%:Q | x <- qn_ex_data2] = Ok 6%:Q
  /\ perm_eq qn_ex_data2 [:: 10%:Q; 1; 4%:Q; 3%:Q]
  /\ qn_scale false false [:: 10%:Q; 1; 4%:Q; 3%:Q] = Ok 3%:Q.
Proof. by repeat split; vm_compute. Qed.

(* C16 *)
Theorem qn_resists_contamination (T : realFieldType) (X : seq T) (lo L q : T) :
  (1 < size X)%N ->
  (size X %/ 2 + 1 <= count (fun x => (lo <= x <= lo + L)%R) X)%N ->
  qn_raw X = Ok q -> q <= L.
Proof. exact: qn_raw_breakdown. Qed.
Print Assumptions qn_resists_contamination.

Theorem qn_zero_iff_ties (T : realFieldType) (X : seq T) (q : T) :
  (1 < size X)%N -> qn_raw X = Ok q ->
  (q == 0) = (qn_k (size X) <= count (fun d => d == 0%R) (pair_dists X))%N.
Proof. exact: qn_raw_zero. Qed.
Print Assumptions qn_zero_iff_ties.

Definition qn_ex_data3 : seq rat := [:: 1; 50%:Q; 2%:Q; 70%:Q; 3%:Q].
Example qn_contamination_ex :
  (size qn_ex_data3 %/ 2 + 1
     <= count (fun x => (1 <= x <= 1 + 2%:Q)%R) qn_ex_data3)%N
  /\ qn_raw qn_ex_data3 = Ok 2%:Q.
Proof. by split; vm_compute. Qed.

Definition qn_ex_data4 : seq rat := [:: 4%:Q; 1; 4%:Q; 9%:Q; 4%:Q].
Example qn_zero_ex :
  qn_raw qn_ex_data4 = Ok 0
  /\ (qn_k 5 <= count (fun d => d == 0%R) (pair_dists qn_ex_data4))%N.
Proof. by split; vm_compute. Qed.
