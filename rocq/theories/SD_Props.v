(* Property theorems: Stahel-Donoho outlyingness (C10, C11). *)
From mathcomp Require Import all_ssreflect all_algebra.
From mathcomp.zify Require Import zify.
From mathcomp.algebra_tactics Require Import ring.
From Verif Require Import RFieldLra Prelude Stats Xnum Qn_Model Vec SD_Model SD_Proofs.

Set Implicit Arguments.
Unset Strict Implicit.
Unset Printing Implicit Defensive.

Import Order.TTheory GRing.Theory Num.Theory.
Local Open Scope ring_scope.

Section Props.
Variables (T : rcfType) (p : nat).
Notation vec := 'rV[T]_p.
Variable seeded : nat -> nat -> nat -> seq nat.
Variable entropy : nat -> nat -> nat -> seq nat.
Variable svd_last : seq vec -> vec.
Implicit Types (X : seq vec).
Notation direction := (get_random_direction seeded entropy svd_last).
Notation sd := (stahel_donoho seeded entropy svd_last).

(* C10: with a seed every direction is the first one, and the number of directions
   has no influence *)
Theorem sd_seed_single_direction X n_points n_dir r : (0 < n_dir)%N ->
  (forall call, direction X n_points (Some r) call = direction X n_points (Some r) 0%N)
  /\ sd X n_points n_dir (Some r) = sd X n_points 1 (Some r).
Proof. by move=> h; split; [exact: direction_seed|exact: sd_seed]. Qed.

(* C11: values.  The outlyingness of x is the largest of its per-direction values
   |x.d - median| / MAD over the directions d. *)
Theorem sd_values X (D : seq vec) : (0 < size D)%N ->
  (forall d, d \in D -> 0 < fmad [seq dotv y d | y <- X]) ->
  let per d x := `|dotv x d - fmed [seq dotv y d | y <- X]| / fmad [seq dotv y d | y <- X] in
  exists out : vec -> T,
  [/\ outlyingness X (map Some D) = [seq Fin (out x) | x <- X],
      forall x, 0 <= out x,
      forall x d, d \in D -> per d x <= out x,
      forall x, exists2 d, d \in D & out x = per d x
    & forall d, d \in D -> (size X <= 2 * count (fun x => (per d x <= 1)%R) X)%N].
Proof.
move=> h0 h per; exists (fun x => fmax [seq per d x | d <- D]).
have at_max x : exists2 d, d \in D & fmax [seq per d x | d <- D] = per d x.
  have /mapP[d hd e] : fmax [seq per d x | d <- D] \in [seq per d x | d <- D].
    by apply: fmax_mem; rewrite size_map.
  by exists d.
split=> //.
- exact: outlyingness_fin.
- by move=> x; have [d hd ->] := at_max x; rewrite divr_ge0 // ltW // h.
- by move=> x d hd; apply: fmax_ge; apply/mapP; exists d.
- by move=> d hd; apply: ratio_half; apply: h.
Qed.

(* C11: invariance.  For n_points = 2 nothing is needed of the SVD; otherwise the last
   right singular vector must be the same line after multiplying all rows by a. *)
Theorem sd_affine_invariant X n_points n_dir seed (a : T) (b : vec) : a != 0 ->
  (n_points != 2%N -> forall s : seq vec,
     exists e : T, `|e| = 1 /\ svd_last [seq a *: v | v <- s] = e *: svd_last s) ->
  (forall r n, size (seeded r n n_points) = n_points) ->
  (forall c n, size (entropy c n n_points) = n_points) ->
  (forall r n, all (fun i => i < n)%N (seeded r n n_points)) ->
  (forall c n, all (fun i => i < n)%N (entropy c n n_points)) ->
  sd [seq a *: x + b | x <- X] n_points n_dir seed = sd X n_points n_dir seed.
Proof. by move=> a0 h s1 s2 r1 r2; apply: (sd_affine _ a0). Qed.

(* two coinciding sampled observations make the whole result NaN *)
Theorem sd_duplicate_nan X n_dir seed call i j rest out : (call < n_dir)%N ->
  choose seeded entropy seed call (size X) 2 = Ok [:: i, j & rest] ->
  nth 0 X i = nth 0 X j ->
  sd X 2 n_dir seed = Ok out -> out = [seq NaN | x <- X].
Proof. exact: sd_duplicate. Qed.
End Props.

Section Examples.
Variable T : rcfType.
Let pt (x : T) : 'rV[T]_1 := const_mx x.
(* four observations on a line; the generator always picks the first two *)
Let X : seq 'rV[T]_1 := [:: pt 1; pt 0; pt 2%:R; pt 9%:R].
Let pick (r n k : nat) : seq nat := iota 0 k.
Let svd (s : seq 'rV[T]_1) : 'rV[T]_1 := 0.

Lemma dot_pt x y : dotv (pt x) (pt y) = x * y.
Proof. by rewrite /dotv big_ord1 !mxE. Qed.

Example sd_direction : get_random_direction pick pick svd X 2 (Some 7%N) 3 = Ok (Some (pt 1)).
Proof.
rewrite /get_random_direction /choose /=.
have -> : pt 1 - pt 0 = pt 1 by apply/rowP => i; rewrite !mxE subr0.
by rewrite /normalize /vnorm dot_pt mulr1 sqrtr1 oner_eq0 invr1 scale1r.
Qed.

Example sd_spread : 0 < fmad [seq dotv y (pt 1) | y <- X].
Proof.
rewrite /= !dot_pt !mulr1.
have hm : fmed [:: 1; 0; 2%:R; 9%:R : T] = 3%:R / 2%:R.
  rewrite /fmed /= (_ : fsort _ = [:: 0; 1; 2%:R; 9%:R]) /=; first by congr (_ / _); ring.
  have /fsort_perm -> : perm_eq [:: 1; 0; 2%:R; 9%:R : T] [:: 0; 1; 2%:R; 9%:R].
    by have -> := perm_catCA [:: 1] [:: 0] [:: 2%:R; 9%:R : T].
  by apply: (sorted_sort le_trans); rewrite /= ler01 ler1n ler_nat.
rewrite /fmad hm /=.
have h12 : 1 - 3%:R / 2%:R = - (2%:R^-1) :> T by field; rewrite ?pnatr_eq0.
have h0 : 0 - 3%:R / 2%:R = - (3%:R / 2%:R) :> T by ring.
have h2 : 2%:R - 3%:R / 2%:R = 2%:R^-1 :> T by field; rewrite ?pnatr_eq0.
have h9 : 9%:R - 3%:R / 2%:R = 15%:R / 2%:R :> T by field; rewrite ?pnatr_eq0.
have p2 : 0 < 2%:R^-1 :> T by rewrite invr_gt0 ltr0n.
have p3 : 0 < 3%:R / 2%:R :> T by rewrite divr_gt0 ?ltr0n.
have p15 : 0 < 15%:R / 2%:R :> T by rewrite divr_gt0 ?ltr0n.
rewrite h12 h0 h2 h9 !normrN !(gtr0_norm p2) !(gtr0_norm p3) !(gtr0_norm p15).
set s := [:: _; _; _; _].
have ps (x : T) : x \in s -> 0 < x.
  by rewrite !inE => /or4P[] /eqP ->.
have hs i : (i < 4)%N -> 0 < nth 0 (fsort s) i.
  by move=> hi; apply: ps; rewrite -mem_fsort mem_nth // size_fsort.
by rewrite /fmed divr_gt0 ?ltr0n // addr_gt0 // hs.
Qed.
End Examples.
Print Assumptions sd_seed_single_direction.
Print Assumptions sd_values.
Print Assumptions sd_affine_invariant.
Print Assumptions sd_duplicate_nan.
