(* Properties of FastMCD and DetMCD for unusual values of the arguments. *)
From mathcomp Require Import all_ssreflect all_algebra.
From mathcomp.zify Require Import zify.
From mathcomp.algebra_tactics Require Import ring.
From Verif Require Import RFieldLra Prelude Stats Xnum RatFloor Regr Vec PSD Qn_Model.
From Verif Require Import LinAlg_Model MCD_Model MCD_Spec MCD_Proofs MCDCase_Proofs MCDRun_Proofs MCD_Props.

Set Implicit Arguments.
Unset Strict Implicit.
Unset Printing Implicit Defensive.

Import Order.TTheory GRing.Theory Num.Theory.
Local Open Scope ring_scope.

Section Param.
Variables (T : rcfType) (p : nat).
Variable argsort : seq (xnum T) -> seq nat.
Variables (chi2_ppf : T -> nat -> T) (gamma_cdf : T -> T -> T).
Variables (G : Type) (choice : G -> nat -> nat -> seq nat * G) (choice1 : G -> seq nat -> nat * G).
Variable estimates : seq 'rV[T]_p -> res (seq 'rV[T]_p * seq ('rV[T]_p * 'M[T]_p)).
Implicit Type X : seq 'rV[T]_p.

Notation fast := (fast_mcd argsort chi2_ppf gamma_cdf choice choice1).
Notation det := (det_mcd argsort chi2_ppf gamma_cdf estimates).

(* C141: alpha equal to 1 or to the number of observations, as an int or as a float: both estimators
   return the plain mean and covariance, whatever the other arguments, and leave no h-subset and
   no mask *)
Theorem mcd_classical_alpha fuel (k nsub ncs nbest : nat) np tol cor rew g X a :
  k = 1%N \/ k = size X -> a = AInt k%:Z \/ a = AFloat k%:R ->
  let plain := McdOut None None ((size X)%:R^-1 *: \sum_(x <- X) x)
    (((size X)%:R - 1)^-1 *: \sum_(x <- X) (x - vmean X)^T *m (x - vmean X)) in
  fast fuel a nsub ncs nbest np tol cor rew g X = Ok plain /\ det fuel a tol cor rew X = Ok plain.
Proof.
move=> hk ha plain; suff h : alpha_eq a 1 || alpha_eq a (size X) by rewrite /fast_mcd /det_mcd h.
by case: ha => ->; case: hk => ->; rewrite /= ?eqxx ?orbT.
Qed.

(* C142: fewer initial subsets than partitions: no subset at all, IndexError *)
Theorem fast_mcd_no_subsets fuel a (nsub ncs nbest k : nat) tol cor rew g X :
  ~~ (alpha_eq a 1 || alpha_eq a (size X)) -> (nsub < k)%N ->
  fast fuel a nsub ncs nbest (Some k) tol cor rew g X = Err IndexError.
Proof.
move=> na hk; rewrite /fast_mcd (negbTE na) /fast_candidates.
have k0 : (0 < k)%N by apply: leq_trans hk.
have [_ /(_ k0) [parts [ep sp _ _]]] := mcd_partitions X (Some k).
rewrite ep [bind (Ok _) _]/= sp divn_small //.
suff -> : per_partition argsort choice choice1 fuel a 0 ncs nbest g parts = Ok [::] by [].
by elim: parts {ep sp} g => [|d parts IH] g //=; rewrite IH.
Qed.

(* C142: no best subset kept, no partition: no fit *)
Theorem fast_mcd_no_best fuel a (nsub ncs : nat) np tol cor rew g X o :
  ~~ (alpha_eq a 1 || alpha_eq a (size X)) ->
  fast fuel a nsub ncs 0 np tol cor rew g X <> Ok o.
Proof.
move=> na; rewrite /fast_mcd (negbTE na) /fast_candidates.
case: partition_data => //= parts; case: per_partition => //= s; case: mapM => //= s'.
by rewrite take0.
Qed.

Theorem fast_mcd_no_partition fuel a (nsub ncs nbest : nat) tol cor rew g X :
  ~~ (alpha_eq a 1 || alpha_eq a (size X)) ->
  fast fuel a nsub ncs nbest (Some 0%N) tol cor rew g X = Err ValueError.
Proof. by move=> na; rewrite /fast_mcd (negbTE na). Qed.

Lemma initial_subsets_small fuel g X k r : (size X <= p)%N ->
  initial_subsets choice choice1 fuel g X k.+1 <> Ok r.
Proof. by move=> hX /=; rewrite /initial_subset ltnS hX. Qed.

Lemma per_partition_small fuel a nsub ncs nbest g (parts : seq (seq 'rV[T]_p)) r :
  has (fun d => (size d <= p)%N) parts ->
  per_partition argsort choice choice1 fuel a nsub.+1 ncs nbest g parts <> Ok r.
Proof.
elim: parts g r => [//|d parts IH] g r /orP[hd|hp]; rewrite [per_partition _ _ _ _ _ _ _ _ _ _]/=.
  by rewrite /initial_subset ltnS hd.
rewrite -[bind _ _]/(do r0 <- initial_subsets choice choice1 fuel g d nsub.+1; _).
case: (initial_subsets choice choice1 fuel g d nsub.+1) => [t| |] //=.
case: mapM => //= s; case E: (per_partition _ _ _ _ _ _ _ _ _ _) => [v| |] //=.
by case: (IH _ _ hp E).
Qed.

(* C142: fewer than p + 1 observations per partition on average: no fit *)
Theorem fast_mcd_small_partition fuel a (nsub ncs nbest k : nat) tol cor rew g X o :
  ~~ (alpha_eq a 1 || alpha_eq a (size X)) -> (0 < k <= nsub)%N -> (size X < k * p.+1)%N ->
  fast fuel a nsub ncs nbest (Some k) tol cor rew g X <> Ok o.
Proof.
move=> na /andP[k0 kn] hX; rewrite /fast_mcd (negbTE na) /fast_candidates.
have [_ /(_ k0) [parts [-> sp _ hs]]] := mcd_partitions X (Some k); rewrite [bind (Ok _) _]/=.
have hsm : has (fun d : seq 'rV[T]_p => (size d <= p)%N) parts.
  apply/(has_nthP [::]); exists k.-1; rewrite ?sp ?prednK // hs ?prednK //.
  have -> : (k <= size X %% k)%N = false by rewrite leqNgt ltn_pmod.
  by rewrite addn0 -ltnS ltn_divLR // mulnC.
rewrite sp; have -> : (nsub %/ k = (nsub %/ k).-1.+1)%N by rewrite prednK // divn_gt0.
case E: (per_partition _ _ _ _ _ _ _ _ _ _) => [v| |] //=.
by case: (per_partition_small hsm E).
Qed.

(* C143: without initial C-steps every candidate has p + 1 rows, and the comparison with an
   h-subset raises ValueError *)
Theorem fast_mcd_no_initial_steps fuel a (nsub nbest h : nat) np tol cor rew g X :
  ~~ (alpha_eq a 1 || alpha_eq a (size X)) -> is_xargsort argsort -> is_choice choice -> p != 1%N ->
  np = Some 1%N \/ (np = None /\ (size X <= 600)%N) ->
  (0 < fuel)%N -> (0 < nsub)%N -> (0 < nbest)%N -> (p < size X)%N ->
  (forall idx, uniq idx -> size idx = p.+1 -> (forall i, i \in idx -> (i < size X)%N) -> \det (cov (sel 0 X idx)) != 0) ->
  get_h a (size X) p = Ok h -> h != p.+1 ->
  fast fuel a nsub 0 nbest np tol cor rew g X = Err ValueError.
Proof.
move=> na ha hc p1 hnp f0 ns nb pX gen eh hh; rewrite /fast_mcd (negbTE na) /fast_candidates.
have [-> _] := mcd_alpha_single_partition 0 hnp; rewrite [bind (Ok _) _]/= divn1.
pose ok s := [&& size (indices s) == p.+1, uniq (indices s), all (fun i => i < size X)%N (indices s),
  location s == vmean (sel 0 X (indices s)), scale s == cov (sel 0 X (indices s)),
  determinant s == \det (scale s) & \det (scale s) != 0].
have one g' : exists r, initial_subset choice choice1 fuel g' X = Ok r /\ ok r.1.
  have [u sz hin] := hc g' _ _ pX; have d0 := gen _ u sz hin.
  rewrite /initial_subset ltnNge pX (negbTE p1) /=.
  have -> : ensure choice1 fuel (choice g' (size X) p.+1).2 X (choice g' (size X) p.+1).1 
          = Ok ((choice g' (size X) p.+1).1, (choice g' (size X) p.+1).2).
    by case: fuel {f0} => [|f] /=; rewrite (negbTE d0).
  eexists; split; first reflexivity.
  by rewrite /ok /= u sz d0 !eqxx /= !andbT; apply/allP.
have many k g' : exists r, [/\ initial_subsets choice choice1 fuel g' X k = Ok r, size r.1 = k & all ok r.1].
  elim: k g' => [|k IH] g' /=; first by exists ([::], g').
  have [s [-> e1]] := one g'; have [r [er e3 e4]] := IH s.2.
  by rewrite /= er /=; exists (s.1 :: r.1, r.2); rewrite /= e3 e1 e4.
have m0 (l : seq (hsubset T p)) : mapM (fun s => Ok s) l = Ok l.
  by elim: l => [|s l IH] //=; rewrite IH.
have [[l g'] [/= el sl al]] := many nsub g.
rewrite el /= m0 /= cats0 m0 /=.
set l1 := take nbest (by_det l); set l2 := take nbest (by_det l1).
have s2 : (0 < size l2)%N.
  by rewrite /l2 /l1 !size_take_min /by_det !size_sort size_take_min size_sort sl; move: ns nb; clear; lia.
have hat n (m : seq (hsubset T p)) : all ok m -> all ok (take n (by_det m)).
  by rewrite -(all_sort ok (fun s1 s2 => determinant s1 <= determinant s2)) -{1}(cat_take_drop n (sort _ m)) all_cat => /andP[].
have : all ok l2 by apply/hat/hat.
case: l2 s2 => [//|c l2] _ /= /andP[/and5P[/eqP sc u /allP hi /eqP e1 /and3P[/eqP e2 /eqP e3 dc]] _].
have w : wf X c by split=> //; case: c e1 e2 e3 {sc u hi dc} => /= idx lo S d k -> -> ->.
case: fuel f0 {el one many} => // f _.
have [s' es] : exists s', c_step argsort a X c = Ok s' by apply: (c_step_ok argsort w _ eh p1); rewrite unitmxE unitfE.
have [h' eh' [_ _ _ _ ss]] := c_step_inv ha es; move: eh'; rewrite eh => -[eh']; subst h'.
rewrite /= es /= ss sc ifT //.
have [_] := mcd_h_bounds eh; rewrite (ltnW pX) => hX.
by rewrite (minn_idPl hX).
Qed.

End Param.

(* cases: six rows on a parabola *)
Section Case.
Variable T : rcfType.
Definition par6 : seq 'rV[T]_2 := [seq r2 (k%:R, (k * k)%:R) | k <- iota 0 6].

Lemma par6_det idx : uniq idx -> size idx = 3%N -> (forall i, i \in idx -> (i < 6)%N) ->
  \det (cov (sel 0 par6 idx)) != 0.
Proof.
case: idx => [|i [|j [|k [|? ?]]]] // u _ hin.
have e l : (l < 6)%N -> nth 0 par6 l = r2 (l%:R, (l * l)%:R).
  by move=> hl; rewrite (nth_map 0%N) ?size_iota // nth_iota.
have [hi hj hk] : [/\ (i < 6)%N, (j < 6)%N & (k < 6)%N] by split; apply: hin; rewrite !inE eqxx ?orbT.
rewrite /sel /= !e // det_cov3 /= mulf_neq0 ?invr_eq0 ?pnatr_eq0 // expf_neq0 //.
move: u; rewrite /= !inE !negb_or andbT => /andP[/andP[ij ik] jk].
have -> : (j%:R - i%:R) * ((k * k)%:R - (i * i)%:R) - (k%:R - i%:R) * ((j * j)%:R - (i * i)%:R)
  = (j%:R - i%:R) * (k%:R - i%:R) * (k%:R - j%:R) :> T by rewrite !natrM; ring.
by rewrite !mulf_neq0 // subr_eq0 eqr_nat eq_sym.
Qed.

Example fast_mcd_no_initial_steps_case chi2_ppf gamma_cdf cor rew (tol : T) :
  fast_mcd (@xargsort T) chi2_ppf gamma_cdf ch ch1 10 ANone 500 0 10 None tol cor rew 0%N par6 = Err ValueError.
Proof.
have [c1 _] := mcd_choice_case.
apply: (@fast_mcd_no_initial_steps T 2 (@xargsort T) chi2_ppf gamma_cdf nat ch ch1 10 ANone 500 10 4) => //.
- exact: xargsortP.
- by right.
- by move=> idx u s h; apply: par6_det.
Qed.

Example mcd_classical_alpha_case : 6%N = size par6 /\ AInt 6 = AInt 6%N%:Z.
Proof. by []. Qed.

(* six rows: seven partitions and one initial subset, or three partitions of two rows *)
Example fast_mcd_partition_case (a := ANone) :
  [/\ ~~ (alpha_eq a 1 || alpha_eq a (size par6)), (1 < 7)%N, (0 < 3 <= 500)%N & (size par6 < 3 * 3)%N].
Proof. by []. Qed.
End Case.

Print Assumptions fast_mcd_no_initial_steps.
