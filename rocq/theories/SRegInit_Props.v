(* Properties of the initial candidates of SRegression. *)
From mathcomp Require Import all_ssreflect all_algebra.
From mathcomp.zify Require Import zify.
From Verif Require Import RFieldLra Prelude Stats Xnum Rho_Model Regr SReg_Model SReg_Spec SReg_Proofs SReg_Props.

Set Implicit Arguments.
Unset Strict Implicit.
Unset Printing Implicit Defensive.

Import Order.TTheory GRing.Theory Num.Theory.
Local Open Scope ring_scope.

Section Init.
Variable T : rcfType.
Variables rho psi : xnum T -> xnum T.
Variable wls : seq (xnum T) -> seq (seq T) -> seq T -> res (seq T).
Variable argsort : seq (xnum T) -> seq nat.
Variable choice : nat -> nat -> nat -> seq nat.
Variable P : params T.
Variables (X : seq (seq T)) (y : seq T) (p : nat).

(* n i-steps, the first one from the residuals r, lead to coefficients and scale c *)
Fixpoint leads (n : nat) (r : seq T) (a c : seq T * xnum T) : Prop :=
  if n is n'.+1 then
    exists b, i_step rho psi wls P X y r = Ok b /\
              leads n' [seq q.1 - dot q.2 b.1 | q <- zip y X] b c
  else c = a.

(* one of n i-steps, the first one from the residuals r, raises LinAlgError *)
Fixpoint fails (n : nat) (r : seq T) : Prop :=
  if n is n'.+1 then
    i_step rho psi wls P X y r = Err LinAlgError \/
    exists b, i_step rho psi wls P X y r = Ok b /\ fails n' [seq q.1 - dot q.2 b.1 | q <- zip y X]
  else False.

(* the start from the subset of seed sd: least squares on p + 1 observations, then the i-steps;
   None when one of them fails *)
Definition start_of (sd : nat) (c : option (seq T * xnum T)) : Prop :=
  exists beta, let r := [seq dot q.1 beta - q.2 | q <- zip X y] in
  wls (nseq p.+1 (Fin 1)) (sel [::] X (choice sd (size X) p.+1)) (sel 0 y (choice sd (size X) p.+1)) = Ok beta /\
  if c is Some bs then leads (n_isteps P) r (beta, start_scale r) bs else fails (n_isteps P) r.

Lemma fitted_minusE beta : fitted_minus X y beta = [seq dot q.1 beta - q.2 | q <- zip X y].
Proof. by rewrite /fitted_minus /lin_predict; elim: X y => [|x X' IH] [|u y'] //=; rewrite IH. Qed.

Lemma residE beta : resid X y beta = [seq q.1 - dot q.2 beta | q <- zip y X].
Proof. by rewrite /resid /lin_predict; elim: X y => [|x X' IH] [|u y'] //=; rewrite IH. Qed.

Lemma initial_stepsP k (beta : seq T) s r :
  (forall c, initial_steps rho psi wls P k X y beta s r = Ok c <-> leads k r (beta, s) c) /\
  (initial_steps rho psi wls P k X y beta s r = Err LinAlgError <-> fails k r).
Proof.
elim: k beta s r => [|k IH] beta s r /=.
  by split=> [c|]; [split=> [[<-]|->]|split].
case E: (i_step _ _ _ _ _ _ _) => [b|e|] /=.
- have [h1 h2] := IH b.1 b.2 (resid X y b.1); rewrite residE -surjective_pairing in h1 h2 *; split=> [c|].
    split=> [/h1 h|[b' [[<-] /h1 //]]]; by exists b.
  split=> [/h2 h|[//|[b' [[<-] /h2 //]]]]; by right; exists b.
- split=> [c|]; first by split=> // -[b []].
  by split=> [[->]|[//|[b []//]]]; left.
- split=> [c|]; first by split=> // -[b []].
  by split=> // -[//|[b []//]].
Qed.

Lemma initial_oneP sd c : (p < size X)%N ->
  initial_one rho psi wls choice P X y p sd = Ok c <-> start_of sd c.
Proof.
move=> hp; rewrite /initial_one ltnS leqNgt hp /=.
case E: (wls _ _ _) => [beta|e|] /=; last 2 first.
- by split=> // -[b []]; rewrite E.
- by split=> // -[b []]; rewrite E.
have [h1 h2] := initial_stepsP (n_isteps P) beta (start_scale (fitted_minus X y beta)) (fitted_minus X y beta).
split.
  move=> h; exists beta; rewrite /= -fitted_minusE; split; first exact: E.
  move: h h1 h2; case: (initial_steps _ _ _ _ _ _ _ _ _ _) => [bs|e|//].
    by move=> [<-] h1 _; apply/h1.
  by case: e => // -[<-] _ h2; apply/h2.
move=> [b [e h]]; move: e h; rewrite E => -[<-]; rewrite -fitted_minusE.
by case: c => [bs|] h; [move/h1: h => -> | move/h2: h => ->].
Qed.

(* C139: the candidates are the starts, in the order of the seeds, without those in which an i-step
   raised LinAlgError; such a start is dropped silently *)
Theorem s_initial_candidates seeds cands : (p < size X)%N ->
  initial_models rho psi wls choice P X y p seeds = Ok cands <->
  exists outs, [/\ size outs = size seeds, cands = pmap id outs &
    forall k, (k < size seeds)%N -> start_of (nth 0%N seeds k) (nth None outs k)].
Proof.
move=> hp; elim: seeds cands => [|sd seeds IH] cands /=.
  split=> [[<-]|[outs [so -> _]]]; first by exists [::].
  by case: outs so.
split.
  case E: (initial_one _ _ _ _ _ _ _ _) => [c|//|//] /=.
  case E2: (initial_models _ _ _ _ _ _ _ _ _) => [cs|//|//] /= [<-].
  have [outs [s1 -> h]] := proj1 (IH cs) E2.
  exists (c :: outs); split=> [/=|/=|]; [by rewrite s1|by case: c {E}|].
  by case=> [_|k hk] /=; [exact/initial_oneP|exact: h].
move=> [[|c outs] [//= [s1] -> h]].
have -> : initial_one rho psi wls choice P X y p sd = Ok c by apply/initial_oneP => //; exact: (h 0%N).
have -> /= : initial_models rho psi wls choice P X y p seeds = Ok (pmap id outs).
  by apply/IH; exists outs; split=> // k hk; exact: (h k.+1).
by case: c {h}.
Qed.

(* C139: at most p observations: ValueError unless no start is asked for *)
Theorem s_too_few_observations fuel : (size X <= p)%N -> (0 < n_subsets P)%N ->
  fit_array rho psi wls argsort choice P fuel X y p = Err ValueError.
Proof.
move=> hp n0; rewrite /fit_array; case: (n_subsets P) n0 => [//|n] _ /=.
by rewrite /initial_one ltnS hp.
Qed.

(* C139: every start dropped (or none asked for, or n_best_models 0): ValueError, from argmin *)
Theorem s_no_candidates fuel cands : (forall s, size (argsort s) = size s) ->
  initial_models rho psi wls choice P X y p (iota (seed0 P) (n_subsets P)) = Ok cands ->
  n_best P = 0%N \/ cands = [::] ->
  fit_array rho psi wls argsort choice P fuel X y p = Err ValueError.
Proof.
move=> ha e h; rewrite /fit_array e /=.
suff -> : take (n_best P) (argsort [seq c.2 | c <- cands]) = [::] by [].
apply/eqP; rewrite -size_eq0 size_take_min ha size_map.
by case: h => ->; rewrite ?min0n ?minn0.
Qed.

(* C140: with a correct argsort and finite scales, the candidates that are refined are the
   n_best_models (or all) with the smallest initial scales, and no candidate is refined twice *)
Theorem s_best_candidates (s : seq T) (idxs := take (n_best P) (argsort [seq Fin x | x <- s])) :
  perm_eq (argsort [seq Fin x | x <- s]) (iota 0 (size s)) ->
  (forall i j, (i <= j)%N -> (j < size s)%N ->
     nth 0 s (nth 0%N (argsort [seq Fin x | x <- s]) i) <= nth 0 s (nth 0%N (argsort [seq Fin x | x <- s]) j)) ->
  [/\ uniq idxs, size idxs = minn (n_best P) (size s), {subset idxs <= iota 0 (size s)} &
      forall i j, i \in idxs -> (j < size s)%N -> j \notin idxs -> nth 0 s i <= nth 0 s j].
Proof.
move=> hp hs; rewrite /idxs; set a := argsort _ in hp hs *.
have sa : size a = size s by rewrite (perm_size hp) size_iota.
have ua : uniq a by rewrite (perm_uniq hp) iota_uniq.
split; [exact: take_uniq|by rewrite size_take_min sa|by move=> i /mem_take; rewrite (perm_mem hp)|].
move=> i j hi hj nj.
have ja : j \in a by rewrite (perm_mem hp) mem_iota.
have [k1 k2] : (index i a < n_best P)%N /\ (index i a < size s)%N.
  split; first by rewrite -(in_take _ (mem_take hi)).
  by rewrite -sa index_mem (mem_take hi).
have l1 : (n_best P <= index j a)%N by rewrite leqNgt -(in_take _ ja).
have := hs (index i a) (index j a) (ltnW (leq_trans k1 l1)).
by rewrite -sa index_mem ja => /(_ isT); rewrite !nth_index // (mem_take hi).
Qed.

End Init.

(* cases: two starts with one i-step each, with weights that are NaN or 1 *)
Section Case.
Variable T : rcfType.
Let P2 : params T := Params 2 1 2 1 1 false 0 1 0.
Let one (u : xnum T) : xnum T := Fin 1.
Notation models rho := (initial_models rho rho (@cs_wls T) (fun _ _ k => iota 0 k) P2 (cs_X T) (cs_y T) 1 (iota 0 2)).

(* every start dropped; fit raises ValueError *)
Example s_no_candidates_case :
  [/\ (1 < size (cs_X T))%N, models (@cs_nan T) = Ok [::],
   forall k, (k < 2)%N -> start_of (@cs_nan T) (@cs_nan T) (@cs_wls T) (fun _ _ k => iota 0 k) P2 (cs_X T) (cs_y T) 1 k None &
   fit_array (@cs_nan T) (@cs_nan T) (@cs_wls T) (fun s => iota 0 (size s)) (fun _ _ k => iota 0 k) P2 5 (cs_X T) (cs_y T) 1
   = Err ValueError].
Proof.
have e : models (@cs_nan T) = Ok [::] by [].
split=> //.
by move=> k _; exists [:: 2%:R]; split; [|left].
Qed.

(* a solver without failures: both starts are kept *)
Example s_initial_candidates_case :
  let wls (w : seq (xnum T)) (X : seq (seq T)) (y : seq T) : res (seq T) := Ok [:: 2%:R] in
  exists s, initial_models one one wls (fun _ _ k => iota 0 k) P2 (cs_X T) (cs_y T) 1 (iota 0 2)
  = Ok [:: ([:: 2%:R], s); ([:: 2%:R], s)].
Proof.
move=> wls.
have [s h] : exists s, forall sd, initial_one one one wls (fun _ _ k => iota 0 k) P2 (cs_X T) (cs_y T) 1 sd
  = Ok (Some ([:: 2%:R], s)).
  rewrite /initial_one /= /i_step /get_scale /=.
  by case: ifP => _; eexists=> sd; reflexivity.
by exists s; rewrite /= !h.
Qed.

Example s_too_few_observations_case : (size (cs_X T) <= 3)%N /\ (0 < n_subsets P2)%N.
Proof. by []. Qed.

(* scales 5, 2, 7, 3; the best two are the candidates 1 and 3 *)
Example s_best_candidates_case (s := [:: 5%:R; 2%:R; 7%:R; 3%:R : T]) (a := [:: 1; 3; 0; 2]%N) :
  perm_eq a (iota 0 (size s)) /\
  forall i j, (i <= j)%N -> (j < size s)%N -> nth 0 s (nth 0%N a i) <= nth 0 s (nth 0%N a j).
Proof.
split=> // i j ij; rewrite /s /a; case: j ij => [|[|[|[|//]]]]; case: i => [|[|[|[|//]]]] //= _ _; by rewrite ?lexx ?ler_nat.
Qed.
End Case.
