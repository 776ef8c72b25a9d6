(* Proofs about the model of SRegression. *)
From mathcomp Require Import all_ssreflect all_algebra.
From mathcomp.zify Require Import zify.
From mathcomp.algebra_tactics Require Import ring.
From Verif Require Import RFieldLra Prelude Stats Xnum Rho_Model Rho_Proofs Regr SReg_Model SReg_Spec.

Set Implicit Arguments.
Unset Strict Implicit.
Unset Printing Implicit Defensive.

Import Order.TTheory GRing.Theory Num.Theory.
Local Open Scope ring_scope.

Section Scale.
Variable T : rcfType.
Implicit Types (r : seq T) (s : xnum T) (P : params T).

(* ---- the scale loop, any rho *)
Lemma scale_loopE rho P k s0 last r : (0 < k)%N -> exists j,
  [/\ (0 < j <= k)%N,
    scale_loop rho P k s0 last r = Ok (iter j (fun s => new_scale rho P s r) s0),
    (forall i, (i.+1 < j)%N -> xlt (xabs (xsub (iter i (fun s => new_scale rho P s r) s0)
        (iter i.+1 (fun s => new_scale rho P s r) s0))) (Fin (stol P)) = false) &
    (j = k \/ xlt (xabs (xsub (iter j.-1 (fun s => new_scale rho P s r) s0)
        (iter j (fun s => new_scale rho P s r) s0))) (Fin (stol P)))].
Proof.
set f := fun s => new_scale rho P s r.
elim: k s0 last => // k IH s0 last _ /=; rewrite -/(f s0).
case: ifP => hb; first by exists 1%N; split => //; right.
case: k IH => [|k] IH; first by exists 1%N; split => //; left.
have [//|j [/andP[j0 jk] e h1 h2]] := IH (f s0) (Some (f s0)).
exists j.+1; split; rewrite ?ltnS //.
- by rewrite e iterSr.
- by case=> [|i] hi //; rewrite !(iterSr _ f) h1.
case: h2 => [->|h2]; [by left|right].
case: j j0 {jk e h1} h2 => // j _; rewrite [j.+1.-1]/= [j.+2.-1]/=.
by rewrite (iterSr j.+1 f) (iterSr j f s0).
Qed.

Lemma scale_loop0 rho P s0 r : scale_loop rho P 0 s0 None r = Err UnboundLocalError.
Proof. by []. Qed.

(* ---- equivariance *)
Lemma xdiv_scale (a u : T) s : 0 < a -> xdiv (Fin (a * u)) (xmul (Fin a) s) = xdiv (Fin u) s.
Proof.
move=> a0; have an : a != 0 by rewrite gt_eqF.
have is_sc x : inf_sign (a * x) = inf_sign x.
  by rewrite /inf_sign pmulr_rgt0 // pmulr_rlt0.
case: s => [x|||] //=; rewrite ?/inf_sign ?oppr_gt0 ?oppr_lt0 ?a0 ?(lt_gtF a0) //=.
by rewrite mulf_eq0 (negPf an) /= -/(inf_sign _) is_sc -mulf_div divff // mul1r.
Qed.

Lemma xmul_pos_assoc (a : T) s u : 0 < a -> xmul (xmul (Fin a) s) u = xmul (Fin a) (xmul s u).
Proof.
move=> a0.
have is_sc x : inf_sign (a * x) = inf_sign x by rewrite /inf_sign pmulr_rgt0 // pmulr_rlt0.
have pP : inf_sign a = PInf by rewrite /inf_sign a0.
have pN : inf_sign (- a) = NInf by rewrite /inf_sign oppr_gt0 oppr_lt0 (lt_gtF a0) a0.
have ip x : xmul (Fin a) (inf_sign x) = inf_sign x.
  by rewrite /inf_sign; case: (ltrgt0P x) => //= _; rewrite ?pP ?pN.
case: s => [x|||]; case: u => [z|||]; rewrite ?(xmul_nan_l, xmul_nan_r) //.
- by rewrite /= mulrA.
- by rewrite -[RHS]/(xmul (Fin a) (inf_sign x)) ip /= is_sc.
- by rewrite -[RHS]/(xmul (Fin a) (inf_sign (- x))) ip /= -mulrN is_sc.
- by rewrite -[RHS]/(xmul (Fin a) (inf_sign z)) ip /= pP.
- by rewrite /= pP.
- by rewrite /= pP pN.
- by rewrite -[RHS]/(xmul (Fin a) (inf_sign (- z))) ip /= pN.
- by rewrite /= pN.
- by rewrite /= pN pP.
Qed.

Lemma new_scale_equiv rho P P' (a : T) s r : 0 < a -> b P' = b P ->
  new_scale rho P' (xmul (Fin a) s) [seq a * u | u <- r] = xmul (Fin a) (new_scale rho P s r).
Proof.
move=> a0 eb; rewrite /new_scale eb xmul_pos_assoc //; congr (xmul _ (xmul _ (xsqrt (xdiv _ _)))).
rewrite /xmean !size_map -map_comp; congr (xdiv (xsum _) _).
by apply: eq_map => u; congr (rho _); exact: xdiv_scale.
Qed.

Lemma xlt_scale (a : T) s u t : 0 < a ->
  xlt (xabs (xsub (xmul (Fin a) s) (xmul (Fin a) u))) (Fin (a * t)) = xlt (xabs (xsub s u)) (Fin t).
Proof.
move=> a0; have an : a != 0 by rewrite gt_eqF.
have pP : inf_sign a = PInf by rewrite /inf_sign a0.
have pN : inf_sign (- a) = NInf by rewrite /inf_sign oppr_gt0 oppr_lt0 (lt_gtF a0) a0.
case: s => [x|||]; case: u => [z|||] //=; rewrite ?pP ?pN //=.
by rewrite -mulrN -mulrDr normrM (gtr0_norm a0) ltr_pmul2l.
Qed.

Lemma scale_loop_equiv rho P P' (a : T) k s last r : 0 < a -> b P' = b P -> stol P' = a * stol P ->
  scale_loop rho P' k (xmul (Fin a) s) (omap (xmul (Fin a)) last) [seq a * u | u <- r]
  = rmap (xmul (Fin a)) (scale_loop rho P k s last r).
Proof.
move=> a0 eb et; elim: k s last => [|k IH] s last /=; first by case: last.
rewrite (new_scale_equiv _ _ _ a0 eb) et xlt_scale //; case: ifP => // _.
by rewrite -(IH _ (Some _)).
Qed.

(* ---- the bisquare *)
End Scale.

Section Tukey.
Variable T : rcfType.
Variables (c : T) (P : params T).
Hypotheses (c0 : 0 < c) (b0 : 0 < b P).
Variable r : seq T.
Hypothesis r0 : (0 < size r)%N.

(* mean of rho(r / s) *)
Definition mrho (s : T) : T := fmean [seq tukey_rho c (u / s) | u <- r].

(* the new scale, as a function on numbers *)
Definition tstep (s : T) : T := if s == 0 then 0 else s * Num.sqrt (mrho s / b P).

Lemma mrho_ge0 s : 0 <= mrho s.
Proof.
rewrite /mrho /fmean divr_ge0 ?ler0n //; apply: fsum_ge0; apply/allP => x /mapP[u _ ->].
by have /andP[] := tukey_rho_bounds c0 (u / s).
Qed.

Lemma mrho_le s : mrho s <= c ^+ 2 / 6%:R.
Proof.
rewrite /mrho; suff : 0 <= mrho s <= c ^+ 2 / 6%:R by case/andP.
apply: fmean_between; rewrite ?size_map //.
by move=> x /mapP[u _ ->]; exact: tukey_rho_bounds.
Qed.

Lemma mrho_gt0 s : s != 0 -> (exists2 u, u \in r & u != 0) -> 0 < mrho s.
Proof.
move=> sn [u hu un]; rewrite lt_neqAle mrho_ge0 andbT eq_sym /mrho /fmean.
rewrite mulf_neq0 ?invr_eq0 ?pnatr_eq0 -?lt0n ?size_map //.
rewrite gt_eqF // fsumE big_map (big_rem u) //=.
apply: ltr_paddr; first by apply: sumr_ge0 => v _; case/andP: (tukey_rho_bounds c0 (v / s)).
rewrite lt_neqAle eq_sym tukey_rho_eq0 // mulf_neq0 ?invr_eq0 //.
by case/andP: (tukey_rho_bounds c0 (u / s)).
Qed.

Lemma new_scaleE (s : T) : new_scale (tukey_xrho c) P (Fin s) r = Fin (tstep s).
Proof.
have nz : ((size r)%:R == 0 :> T) = false by rewrite pnatr_eq0 eqn0Ngt r0.
rewrite /new_scale /xmean /tstep size_map; case: (eqVneq s 0) => [->|sn].
  have -> : [seq tukey_xrho c (xdiv (Fin u) (Fin 0)) | u <- r] = [seq Fin (c ^+ 2 / 6%:R) | _ <- r].
    by apply: eq_map => u /=; rewrite eqxx /inf_sign; case: ifP => // _; case: ifP.
  have := xsum_fin [seq c ^+ 2 / 6%:R | _ <- r]; rewrite -map_comp => -> /=.
  rewrite nz /= (gt_eqF b0) /=.
  rewrite ifT ?mul0r // divr_ge0 ?(ltW b0) // divr_ge0 ?ler0n //.
  rewrite fsum_map_const mulr_ge0 ?ler0n // divr_ge0 ?ler0n // exprn_ge0 //; exact: ltW.
have -> : [seq tukey_xrho c (xdiv (Fin u) (Fin s)) | u <- r] = [seq Fin (tukey_rho c (u / s)) | u <- r].
  by apply: eq_map => u /=; rewrite (negPf sn).
have := xsum_fin [seq tukey_rho c (u / s) | u <- r]; rewrite -map_comp => -> /=.
rewrite nz /= (gt_eqF b0) /=.
have -> : fsum [seq tukey_rho c (u / s) | u <- r] / (size r)%:R = mrho s.
  by rewrite /mrho /fmean size_map.
by rewrite divr_ge0 ?mrho_ge0 // ltW.
Qed.

Lemma iter_new_scaleE j (s : T) :
  iter j (fun s => new_scale (tukey_xrho c) P s r) (Fin s) = Fin (iter j tstep s).
Proof. by elim: j => //= j ->; rewrite new_scaleE. Qed.

Lemma tstep_ge0 s : 0 <= s -> 0 <= tstep s.
Proof. by move=> s0; rewrite /tstep; case: eqP => // _; rewrite mulr_ge0 ?sqrtr_ge0. Qed.

Lemma tstep_le q s : 0 <= q -> c ^+ 2 / 6%:R <= b P * q ^+ 2 -> 0 <= s -> tstep s <= q * s.
Proof.
move=> q0 hq s0; rewrite /tstep; case: eqP => [->|_]; first by rewrite mulr0.
rewrite mulrC ler_wpmul2r // -(ger0_norm q0) -sqrtr_sqr; apply: ler_wsqrtr.
by rewrite ler_pdivr_mulr // mulrC; apply: le_trans hq; exact: mrho_le.
Qed.

Lemma tstep_gt0 s : 0 < s -> (exists2 u, u \in r & u != 0) -> 0 < tstep s.
Proof.
move=> s0 hu; rewrite /tstep gt_eqF // mulr_gt0 // sqrtr_gt0 divr_gt0 //.
by apply: mrho_gt0 => //; rewrite gt_eqF.
Qed.

Lemma iter_tstep_ge0 j s : 0 <= s -> 0 <= iter j tstep s.
Proof. by move=> s0; elim: j => //= j; exact: tstep_ge0. Qed.

Lemma iter_tstep_gt0 j s : 0 < s -> (exists2 u, u \in r & u != 0) -> 0 < iter j tstep s.
Proof. by move=> s0 hu; elim: j => //= j IH; exact: tstep_gt0. Qed.

Lemma iter_tstep_le q j s : 0 <= q -> c ^+ 2 / 6%:R <= b P * q ^+ 2 -> 0 <= s ->
  iter j tstep s <= q ^+ j * s.
Proof.
move=> q0 hq s0; elim: j => [|j IH]; first by rewrite expr0 mul1r.
rewrite iterS exprS -mulrA.
apply: le_trans (tstep_le q0 hq (iter_tstep_ge0 j s0)) _.
exact: ler_wpmul2l.
Qed.

(* the result of the scale loop *)
Lemma get_scale_tukey q s : 0 <= q -> q < 1 -> c ^+ 2 / 6%:R <= b P * q ^+ 2 -> 0 <= s ->
  (0 < max_scale P)%N ->
  exists s', [/\ get_scale (tukey_xrho c) P (Fin s) r = Ok (Fin s'), 0 <= s', s' <= q * s,
    s' <= q ^+ max_scale P * s \/ (1 - q) * s' <= q * stol P &
    0 < s -> (exists2 u, u \in r & u != 0) -> 0 < s'].
Proof.
move=> q0 q1 hq s0 k0; rewrite /get_scale.
have [j [/andP[j0 jk] -> _ h]] := scale_loopE (tukey_xrho c) P (Fin s) None r k0.
exists (iter j tstep s); rewrite iter_new_scaleE; split => //.
- exact: iter_tstep_ge0.
- apply: le_trans (iter_tstep_le j q0 hq s0) _; apply: ler_wpmul2r => //.
  by case: j j0 {jk h} => // j _; rewrite exprS ler_pimulr // exprn_ile1 // ltW.
- case: h => [->|]; first by left; exact: iter_tstep_le.
  move=> h; right; case: j j0 {jk} h => // j _; rewrite [_.-1]/= !iter_new_scaleE /=.
  set u := iter j tstep s; have u0 : 0 <= u by exact: iter_tstep_ge0.
  have h1 : tstep u <= q * u by exact: tstep_le.
  move=> h2; have h3 : u - tstep u <= stol P.
    by apply: le_trans (ltW h2); exact: ler_norm.
  have : q * ((1 - q) * u) <= q * stol P.
    by apply: ler_wpmul2l => //; apply: le_trans h3; rewrite mulrBl mul1r ler_add2l ler_opp2.
  by apply: le_trans; rewrite mulrCA; apply: ler_wpmul2l => //; rewrite subr_ge0 ltW.
- by move=> sp hu; exact: iter_tstep_gt0.
Qed.

Lemma get_scale_ge0 s : 0 <= s -> (0 < max_scale P)%N ->
  exists s', [/\ get_scale (tukey_xrho c) P (Fin s) r = Ok (Fin s'), 0 <= s' &
    0 < s -> (exists2 u, u \in r & u != 0) -> 0 < s'].
Proof.
move=> s0 k0; rewrite /get_scale.
have [j [_ -> _ _]] := scale_loopE (tukey_xrho c) P (Fin s) None r k0.
exists (iter j tstep s); rewrite iter_new_scaleE; split => //; first exact: iter_tstep_ge0.
by move=> sp hu; exact: iter_tstep_gt0.
Qed.

Lemma tstep_fixed s : 0 < s -> tstep s = s <-> mrho s = b P.
Proof.
move=> s0; rewrite /tstep gt_eqF //; split => [h|->]; last by rewrite divff ?gt_eqF // sqrtr1 mulr1.
have h1 : Num.sqrt (mrho s / b P) = 1.
  by apply: (mulfI (x := s)); rewrite ?gt_eqF // mulr1.
have h2 : mrho s / b P = 1.
  by rewrite -[LHS]sqr_sqrtr ?h1 ?expr1n // divr_ge0 ?mrho_ge0 // ltW.
have bn : b P != 0 by rewrite gt_eqF.
by rewrite -[LHS](divfK bn) h2 mul1r.
Qed.
End Tukey.
