(* Property theorems: the L1-median (C03, C04, C05). *)
From mathcomp Require Import all_ssreflect all_algebra.
From mathcomp.zify Require Import zify.
From mathcomp.algebra_tactics Require Import ring.
From Verif Require Import RFieldLra Prelude Stats Xnum Vec L1Median_Model L1Median_Proofs.

Set Implicit Arguments.
Unset Strict Implicit.
Unset Printing Implicit Defensive.

Import Order.TTheory GRing.Theory Num.Theory.
Local Open Scope ring_scope.

Section Props.
Variables (T : rcfType) (p : nat).
Implicit Types (X : seq 'rV[T]_p) (m x y v : 'rV[T]_p).

(* the sum of Euclidean distances that the L1-median minimises *)
Let cost X m : T := fsum [seq Num.sqrt (\sum_j (x 0 j - m 0 j) ^+ 2) | x : 'rV_p <- X].

Lemma costE X m : cost X m = obj X m.
Proof.
congr fsum; apply: eq_map => x; rewrite /vnorm /dotv; congr Num.sqrt.
by apply: eq_bigr => j _; rewrite !mxE expr2.
Qed.

(* C03: one iteration from a finite centre that is not an observation *)
Theorem l1median_step_descent X m : m \notin X -> (0 < size X)%N ->
  exists m', l1_step X (map_mx (@Fin T) m) = map_mx (@Fin T) m' /\ cost X m' <= cost X m.
Proof.
move=> hm h0; exists (step X m); split; first exact: step_fin.
by rewrite !costE; exact: descent.
Qed.

(* C03: a returned value is finite, not worse than the mean, and inside the bounding box *)
Theorem l1median_result X fuel eps r : (0 < p)%N -> (0 < size X)%N ->
  l1median fuel eps X = Ok r ->
  exists m, [/\ r = map_mx (@Fin T) m,
    cost X m <= cost X (\row_j fmean [seq x 0 j | x : 'rV_p <- X])
    & forall j lo hi, (forall x, x \in X -> lo <= x 0 j <= hi) -> lo <= m 0 j <= hi].
Proof.
move=> hp h0; rewrite /l1median start_fin // => /(loop_returns hp h0) [m [-> h1 h2]].
by exists m; rewrite !costE.
Qed.

(* C04: no number of iterations is enough when the mean is an observation *)
Theorem l1median_diverges X fuel eps : (0 < p)%N ->
  \row_j fmean [seq x 0 j | x : 'rV_p <- X] \in X -> l1median fuel eps X = NoFuel.
Proof.
move=> hp hm; have h0 : (0 < size X)%N by case: X hm.
by rewrite /l1median start_fin // loop_obs.
Qed.

(* C04: the same as soon as any iterate hits an observation *)
Theorem l1median_diverges_at_observation X fuel eps m : (0 < p)%N -> m \in X ->
  l1_loop fuel eps X (map_mx (@Fin T) m) = NoFuel.
Proof. exact: loop_obs. Qed.

(* C05 *)
Theorem l1median_step_box X m j lo hi : m \notin X -> (0 < size X)%N ->
  (forall x, x \in X -> lo <= x 0 j <= hi) ->
  exists2 c, l1_step X (map_mx (@Fin T) m) 0 j = Fin c & lo <= c <= hi.
Proof.
move=> hm h0 h; exists (step X m 0 j); last exact: step_between.
by rewrite (_ : map_mx _ _ = fin m) // step_fin // mxE.
Qed.

(* C05: the whole function commutes with shifts, also in the runs that never end *)
Theorem l1median_shift X fuel eps v : (0 < p)%N -> (0 < size X)%N ->
  l1median fuel eps [seq x + v | x <- X]
  = rmap (fun mu : 'rV[xnum T]_p => \row_j xadd (mu 0 j) (Fin (v 0 j))) (l1median fuel eps X).
Proof.
move=> hp h0; rewrite /l1median !start_fin ?size_map // mean_shift //.
exact: loop_shift.
Qed.
End Props.

Section Examples.
Variable T : rcfType.
Let pt (x : T) : 'rV[T]_1 := const_mx x.

(* two points: the mean is returned after one iteration *)
Example l1median_two (eps : T) : 0 < eps ->
  l1median 1 eps [:: pt 0; pt 2%:R] = Ok (map_mx (@Fin T) (pt 1)).
Proof.
move=> he; rewrite /l1median start_fin //.
have em : mean [:: pt 0; pt 2%:R] = pt 1.
  apply/rowP => j; rewrite !mxE /fmean /= !mxE; field; rewrite ?pnatr_eq0 //.
have ne (x y : T) : x != y -> pt x != pt y.
  by move=> h; apply: contra h => /eqP /rowP /(_ 0); rewrite !mxE => ->.
rewrite em /= step_fin //; last first.
  rewrite !inE negb_or !ne // ?oner_eq0 //.
  by rewrite -[1]/(1%:R) eqr_nat.
have wt1 (x : T) : `|x - 1| = 1 -> wt (pt 1) (pt x) = 1.
  move=> hx; rewrite /wt /vnorm /dotv big_ord1 !mxE -expr2 sqrtr_sqr hx invr1 //.
have e1 : wt (pt 1) (pt 0) = 1 by apply: wt1; rewrite sub0r normrN normr1.
have e2 : wt (pt 1) (pt 2%:R) = 1.
  by apply: wt1; rewrite (_ : 2%:R - 1 = 1) ?normr1 //; ring.
have -> : step [:: pt 0; pt 2%:R] (pt 1) = pt 1.
  by apply/rowP => j; rewrite !mxE /= e1 e2 !mxE; field; rewrite ?pnatr_eq0.
have -> // : l1_close eps (fin (pt 1)) (fin (pt 1)).
rewrite /l1_close (_ : [seq _ | _ <- _] = [seq Fin u | u <- [seq (0 : T) | j <- enum 'I_1]]).
  by rewrite xsum_fin fsum_map_const mul0r.
by rewrite -map_comp; apply: eq_map => j; rewrite !mxE /= subrr normr0.
Qed.

(* three equidistant points: the mean is the middle one *)
Example l1median_three : \row_j fmean [seq x 0 j | x : 'rV_1 <- [:: pt 0; pt 1; pt 2%:R]]
  \in [:: pt 0; pt 1; pt 2%:R].
Proof.
rewrite (_ : \row_j _ = pt 1) ?inE ?eqxx ?orbT //.
by apply/rowP => j; rewrite !mxE /fmean /= !mxE; field; rewrite ?pnatr_eq0.
Qed.

Example l1median_three_diverges fuel (eps : T) :
  l1median fuel eps [:: pt 0; pt 1; pt 2%:R] = NoFuel.
Proof. exact: (l1median_diverges _ _ _ l1median_three). Qed.
End Examples.
Print Assumptions l1median_step_descent.
Print Assumptions l1median_result.
Print Assumptions l1median_diverges.
Print Assumptions l1median_shift.
