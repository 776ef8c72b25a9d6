(* Property theorems: UnivariateMCD (C17 - C20). *)
From mathcomp Require Import all_ssreflect all_algebra.
From Verif Require Import RFieldLra Prelude Stats Xnum RatFloor UMcd_Model UMcd_Spec
  UMcd_Proofs.

Set Implicit Arguments.
Unset Strict Implicit.
Unset Printing Implicit Defensive.

Import Order.TTheory GRing.Theory Num.Theory.
Local Open Scope ring_scope.

(* the raw estimates, with the consistency factor in place *)
Lemma umcd_raw_mcd (T : realFieldType) craw cc h (X : seq T) : (0 < h <= size X)%N ->
  exists2 S, is_mcd_subset X h S &
    raw_estimates craw cc h X = (fvar S * (if cc then craw (size X) h else 1), fmean S).
Proof.
by move=> /raw0_is_mcd[S hS hr]; exists S => //; rewrite raw_estimates_cc hr.
Qed.

(* C17 *)
Theorem umcd_minimises_variance (T : realFieldType) craw cc h (X : seq T) :
  (0 < h <= size X)%N ->
  exists2 S, is_mcd_subset X h S &
    raw_estimates craw cc h X = (fvar S * (if cc then craw (size X) h else 1), fmean S).
Proof. exact: umcd_raw_mcd. Qed.
Print Assumptions umcd_minimises_variance.

Definition umcd_ex_data : seq rat := [:: 1; 9%:Q; 4%:Q; 2%:Q; 3%:Q].
Example umcd_ex :
  [/\ (0 < 4 <= size umcd_ex_data)%N,
      raw_estimates (fun _ _ => 1) false 4 umcd_ex_data = (5%:Q / 4%:Q, 5%:Q / 2%:Q)
    & h_subset umcd_ex_data 4 [:: 1; 4%:Q; 2%:Q; 3%:Q] ].
Proof. by split; [vm_compute|vm_compute|split; vm_compute]. Qed.

(* C18 *)
Theorem umcd_h_in_range (T : realFieldType) (int_of : T -> int) n alpha h :
  is_int_of int_of -> (0 < n)%N -> set_h_size int_of n alpha = Ok h ->
  (n %/ 2 + 1)%N%:Z <= h <= n%:Z.
Proof. by move=> hi; exact: set_h_size_range. Qed.
Print Assumptions umcd_h_in_range.

Theorem umcd_h_none (T : realFieldType) (int_of : T -> int) n :
  set_h_size int_of n AlphaNone = Ok (n %/ 2 + 1)%N%:Z.
Proof. by []. Qed.

Theorem umcd_h_int (T : realFieldType) (int_of : T -> int) n (a : int) :
  n%:Z <= 2%:Z * a -> a <= n%:Z ->
  set_h_size int_of n (AlphaInt a) = Ok (Num.max a (n %/ 2 + 1)%N%:Z).
Proof. by move=> h1 h2; rewrite /= h1 h2. Qed.

Theorem umcd_h_float (T : realFieldType) (int_of : T -> int) n (a : T) (k : int) :
  is_int_of int_of -> 2%:R^-1 <= a <= 1 -> k%:~R <= a * n%:R < (k + 1)%:~R ->
  set_h_size int_of n (AlphaFloat a) = Ok (Num.max k (n %/ 2 + 1)%N%:Z).
Proof. by move=> hi; exact: set_h_size_float. Qed.
Print Assumptions umcd_h_float.

(* the integer 1 means "all observations" *)
Theorem umcd_h_one (T : realFieldType) (int_of : T -> int) n :
  (0 < n)%N -> set_h_size int_of n (AlphaInt 1) = Ok n%:Z.
Proof. exact: set_h_size_one. Qed.

Theorem umcd_h_rejects (T : realFieldType) (int_of : T -> int) n (alpha : alpha_arg T) :
  (exists e, set_h_size int_of n alpha = Err e) <->
  match alpha with
  | AlphaNone => False
  | AlphaInt a => (2%:Z * a < n%:Z \/ n%:Z < a) /\ a <> 1
  | AlphaFloat a => a < 2%:R^-1 \/ 1 < a
  end.
Proof. exact: set_h_size_err. Qed.
Print Assumptions umcd_h_rejects.

Example umcd_h_ex :
  is_int_of rat_floor
  /\ set_h_size rat_floor 11 AlphaNone = Ok 6%:Z
  /\ set_h_size rat_floor 11 (AlphaInt 8) = Ok 8%:Z
  /\ set_h_size rat_floor 12 (AlphaInt 6) = Ok 7%:Z
  /\ set_h_size rat_floor 11 (AlphaFloat (3%:Q / 4%:Q)) = Ok 8%:Z
  /\ set_h_size rat_floor 11 (AlphaInt 1) = Ok 11%:Z
  /\ set_h_size rat_floor 11 (AlphaInt 5) = Err ValueError.
Proof. by split; [exact: rat_floorP|repeat split; vm_compute]. Qed.

(* C19 *)
Theorem umcd_exact_fit_nan (T : realFieldType) craw crew (q : T) cc h X v :
  (size X %/ 2 < h < size X)%N -> (h <= count_mem v X)%N ->
  umcd craw crew q cc h X = UMcdFit 0 v NaN NaN.
Proof. exact: umcd_exact. Qed.
Print Assumptions umcd_exact_fit_nan.

Example umcd_exact_ex :
  (size [:: 5%:Q; 7%:Q; 5%:Q; 9%:Q; 5%:Q] %/ 2 < 3 < size [:: 5%:Q; 7%:Q; 5%:Q; 9%:Q; 5%:Q])%N
  /\ (3 <= count_mem 5%:Q [:: 5%:Q; 7%:Q; 5%:Q; 9%:Q; 5%:Q])%N.
Proof. by split; vm_compute. Qed.

(* a positive raw variance gives finite reweighted estimates, computed from a
   non-empty part of the data *)
Theorem umcd_reweighted_finite (T : realFieldType) craw crew (q : T) cc h X :
  (0 < h < size X)%N -> 1 <= craw (size X) h -> 1 < q ->
  0 < raw_variance (umcd craw crew q cc h X) ->
  exists l v, [/\ location (umcd craw crew q cc h X) = Fin l,
    variance (umcd craw crew q cc h X) = Fin v,
    fmin X <= l <= fmax X
  & exists S, [/\ subseq S X, (0 < size S)%N, l = fmean S
       & v = fvar S * (if cc then crew (size S) (size X) else 1)]].
Proof. exact: umcd_finite_range. Qed.
Print Assumptions umcd_reweighted_finite.

Example umcd_finite_ex :
  0 < raw_variance (umcd (fun _ _ => 1) (fun _ _ => 1) 5%:Q true 4 umcd_ex_data)
  /\ location (umcd (fun _ _ => 1) (fun _ _ => 1) 5%:Q true 4 umcd_ex_data) = Fin (5%:Q / 2%:Q).
Proof. by split; vm_compute. Qed.

(* C20 *)
Theorem umcd_equivariant (T : realFieldType) craw crew (q : T) cc h X (a b : T) :
  0 < a -> (0 < h <= size X)%N ->
  let r := umcd craw crew q cc h X in
  umcd craw crew q cc h [seq a * x + b | x <- X] =
  UMcdFit (a ^+ 2 * raw_variance r) (a * raw_location r + b)
    (xmap (fun v => a ^+ 2 * v) (variance r)) (xmap (fun l => a * l + b) (location r)).
Proof. by move=> a0; exact: umcd_map. Qed.
Print Assumptions umcd_equivariant.

Theorem umcd_raw_variance_reflection (T : realFieldType) craw cc h X (a b : T) :
  (0 < h <= size X)%N ->
  (raw_estimates craw cc h [seq a * x + b | x <- X]).1
    = a ^+ 2 * (raw_estimates craw cc h X).1.
Proof. exact: raw_estimates_reflect. Qed.
Print Assumptions umcd_raw_variance_reflection.

Theorem umcd_location_reflection_refuted :
  exists (X : seq rat) (h : nat), (size X %/ 2 < h <= size X)%N /\
  (raw_estimates (fun _ _ => 1) false h [seq - x | x <- X]).2
    <> - (raw_estimates (fun _ _ => 1) false h X).2.
Proof. by exists [:: 0; 1; 2%:Q], 2%N; split; vm_compute. Qed.
Print Assumptions umcd_location_reflection_refuted.

Example umcd_equivariant_ex :
  let r := umcd (fun _ _ => 1) (fun _ _ => 1) 5%:Q true 2 [:: 4%:Q; 0; 1] in
  let r' := umcd (fun _ _ => 1) (fun _ _ => 1) 5%:Q true 2
              [seq 2%:Q * x + 3%:Q | x <- [:: 4%:Q; 0; 1]] in
  [/\ (raw_variance r, raw_location r) = (1 / 4%:Q, 1 / 2%:Q),
      (variance r, location r) = (Fin (1 / 4%:Q), Fin (1 / 2%:Q)),
      (raw_variance r', raw_location r') = (1, 4%:Q)
    & (variance r', location r') = (Fin 1, Fin 4%:Q)].
Proof. by split; vm_compute. Qed.
