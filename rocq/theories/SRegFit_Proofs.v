(* Proofs about the control flow of SRegression.fit and predict. *)
From mathcomp Require Import all_ssreflect all_algebra.
From mathcomp.zify Require Import zify.
From mathcomp.algebra_tactics Require Import ring.
From Verif Require Import RFieldLra Prelude Stats Xnum Rho_Model Rho_Proofs Regr SReg_Model SReg_Spec.
From Verif Require Import SReg_Proofs.

Set Implicit Arguments.
Unset Strict Implicit.
Unset Printing Implicit Defensive.

Import Order.TTheory GRing.Theory Num.Theory.
Local Open Scope ring_scope.

(* ---- np.argmin *)
Section Argmin.
Variable T : rcfType.
Implicit Type s : seq (xnum T).

Lemma xle_refl (u : xnum T) : ~~ is_nan u -> xle u u. Proof. by case: u => //= x _. Qed.

Lemma xle_total (u v : xnum T) : ~~ is_nan u -> ~~ is_nan v -> xle u v || xle v u.
Proof. by case: u => //=; case: v => //= x y _ _; exact: le_total. Qed.

Lemma xle_trans (u v w : xnum T) : xle u v -> xle v w -> xle u w.
Proof. by case: u; case: v; case: w => //= x z t h1 h2; exact: (le_trans h1 h2). Qed.

Lemma has_least s : (0 < size s)%N -> ~~ has (@is_nan T) s -> has (fun u => all (xle u) s) s.
Proof.
move=> s0 hn; suff [i hi h] : exists2 i, (i < size s)%N &
    forall j, (j < size s)%N -> xle (nth NaN s i) (nth NaN s j).
  by apply/(has_nthP NaN); exists i => //; apply/(all_nthP NaN).
elim: s s0 hn => // u [|v s] IH _.
  by rewrite /= orbF => nu; exists 0%N => // -[] // _; exact: xle_refl.
rewrite -[has _ _]/(is_nan u || has (@is_nan T) (v :: s)) negb_or => /andP[nu ns]; have [//|//|i hi h] := IH.
have nw : ~~ is_nan (nth NaN (v :: s) i).
  by apply/negP => hn; case/negP: ns; apply/(has_nthP NaN); exists i.
have /orP[h1|h1] := xle_total nu nw.
  exists 0%N => // -[_|j hj]; first exact: xle_refl.
  exact: (xle_trans h1 (h j hj)).
by exists i.+1 => // -[_|j hj] //; exact: h.
Qed.

Lemma xargmin_lt s : (0 < size s)%N -> (xargmin s < size s)%N.
Proof.
move=> s0; rewrite /xargmin; case: ifP => h; first by rewrite -has_find.
by rewrite -has_find; apply: has_least => //; rewrite h.
Qed.

Lemma xargmin_least s j : ~~ has (@is_nan T) s -> (j < size s)%N ->
  xle (nth NaN s (xargmin s)) (nth NaN s j).
Proof.
move=> h hj; have s0 : (0 < size s)%N by apply: leq_ltn_trans hj.
rewrite /xargmin (negPf h); have := nth_find NaN (has_least s0 h).
by move=> /(all_nthP NaN); apply.
Qed.
End Argmin.

Section Fit.
Variable T : rcfType.
Variables rho psi : xnum T -> xnum T.
Variable wls : seq (xnum T) -> seq (seq T) -> seq T -> res (seq T).
Variable argsort : seq (xnum T) -> seq nat.
Variable choice : nat -> nat -> nat -> seq nat.
Variable P : params T.
Variables (X : seq (seq T)) (y : seq T).
Implicit Types (H : seq (mobj T)) (a : seq T * xnum T).

(* one i-step and the test of convergence, on pairs of coefficients and scale *)
Definition sstep a : res (seq T * xnum T) := i_step rho psi wls P X y (fitted_minus X y a.1).
Definition sstop a a' : bool := converged P a.1 a'.1.

Lemma get_rcons_old H m i : (i < size H)%N -> get (rcons H m) i = get H i.
Proof. by move=> h; rewrite /get nth_rcons h. Qed.

Lemma get_rcons_new H m : get (rcons H m) (size H) = m.
Proof. by rewrite /get nth_rcons ltnn eqxx. Qed.

Lemma size_set_niter H i k : (i < size H)%N -> size (set_niter H i k) = size H.
Proof. by move=> h; rewrite size_set_nth; apply/maxn_idPr. Qed.

Lemma params_set_niter H i k j : m_params (get (set_niter H i k) j) = m_params (get H j).
Proof. by rewrite /get /set_niter nth_set_nth /=; case: eqP => // ->. Qed.

Lemma niter_set_niter H i k : m_niter (get (set_niter H i k) i) = Some k.
Proof. by rewrite /get /set_niter nth_set_nth /= eqxx. Qed.

Lemma get_set_niter_other H i k j : j != i -> get (set_niter H i k) j = get H j.
Proof. by move=> h; rewrite /get /set_niter nth_set_nth /= (negPf h). Qed.

Let refine fuel := refine rho psi wls P fuel X y.

Lemma refine_lem fuel H mv prev sprev n0 o : (prev < size H)%N ->
  (forall m, mv = Some m -> (m < size H)%N) ->
  refine fuel H mv prev sprev n0 = Ok o ->
  let a0 := (m_params (get H prev), sprev) in
  let a' := (m_params (get (o_heap o) (o_ref o)), o_scale o) in
  [/\ (size H <= size (o_heap o))%N,
    (forall i, m_params (get (o_heap o) i) = m_params (get H i) \/ (size H <= i)%N),
    (o_ref o < size (o_heap o))%N,
    (forall m, o_m o = Some m -> (m < size (o_heap o))%N) &
   exists n, (stops sstep sstop n a0 a' /\ [/\ m_niter (get (o_heap o) (o_ref o)) = Some (n0 + n)%N,
       o_m o = Some (o_ref o) & (size H <= o_ref o)%N]) \/
     (breaks sstep sstop n a0 a' /\ exists m, [/\ o_m o = Some m,
        m_niter (get (o_heap o) m) = Some (n0 + n)%N, (0 < n)%N -> m = o_ref o &
        n = 0%N -> [/\ o_ref o = prev, mv = Some m &
           forall i, i != m -> get (o_heap o) i = get H i]])].
Proof.
elim: fuel H mv prev sprev n0 => // k IH H mv prev sprev n0 hp hm.
rewrite /refine /SReg_Model.refine -/SReg_Model.refine.
case e: (i_step _ _ _ _ _ _ _) => [[beta s]|er|] //; last first.
  case: er e => // e; case: mv hm => // m hm [<-] /=.
  have sz : size (set_niter H m n0) = size H by apply: size_set_niter; apply: hm.
  split; rewrite ?sz //.
  - by move=> i; left; rewrite params_set_niter.
  exists 0%N; right; split.
    by split => //=; rewrite params_set_niter.
  exists m; split; rewrite ?addn0 ?niter_set_niter // => _; split => // i hi.
  exact: get_set_niter_other.
case hc: (converged _ _ _).
  move=> [<-] /=; have hs : (size H < size (rcons H (MObj beta None)))%N by rewrite size_rcons.
  have sz k' : size (set_niter (rcons H (MObj beta None)) (size H) k') = (size H).+1.
    by rewrite size_set_niter // size_rcons.
  split; rewrite ?sz ?leqnSn //.
  - move=> i; rewrite params_set_niter; case: (ltnP i (size H)) => [hi|]; [left|by right].
    by rewrite get_rcons_old.
  - by move=> m [<-].
  exists 1%N; left; split; last by rewrite niter_set_niter addn1.
  exists 0%N, (m_params (get H prev), sprev); rewrite params_set_niter get_rcons_new; split => //.
move=> ho; have [||h1 h2 h3 h4 [n h5]] := IH _ _ _ _ _ _ _ ho; rewrite ?size_rcons //.
  by move=> m [<-].
have e' : sstep (m_params (get H prev), sprev) = Ok (beta, s) by exact: e.
have ns : sstop (m_params (get H prev), sprev) (beta, s) = false by exact: hc.
rewrite size_rcons in h1; split => //; first exact: ltnW.
- move=> i; case: (h2 i) => [->|]; rewrite ?size_rcons; last by move/ltnW; right.
  by case: (ltnP i (size H)) => [hi|]; [left; rewrite get_rcons_old|right].
rewrite get_rcons_new /= in h5; exists n.+1; case: h5 => [[h5 [h6 h7 h8]]|[h5 [m [h6 h7 h8 h9]]]].
  left; split; last by rewrite size_rcons in h8; rewrite addnS -addSn h6 h7; split => //; exact: ltnW.
  case: h5 => j [a1 [-> r1 r2 r3]]; exists j.+1, a1; split => //.
  by exists (beta, s).
right; split.
  by case: h5 => r1 r2; split => //; exists (beta, s).
exists m; split => //; first by rewrite addnS -addSn.
by move=> _; case: n h5 h7 h8 h9 => [_ _ _ /(_ erefl)[-> [->]]|n _ _ h8 _] //; exact: h8.
Qed.
(* a candidate's outcome *)
Definition ends (a a' : seq T * xnum T) : Prop :=
  exists n, stops sstep sstop n a a' \/ breaks sstep sstop n a a'.

Lemma refine_all_lem fuel scales H mv best idxs hb :
  (forall i, i \in idxs -> (i < size H)%N) -> (forall m, mv = Some m -> (m < size H)%N) ->
  (forall k, (k < size best)%N -> ((nth (0%N, NaN) best k).1 < size H)%N) ->
  refine_all rho psi wls P fuel X y scales H mv best idxs = Ok hb ->
  [/\ size hb.2 = (size best + size idxs)%N,
    (forall k, (k < size best)%N -> nth (0%N, NaN) hb.2 k = nth (0%N, NaN) best k),
    (forall i, (i < size H)%N -> m_params (get hb.1 i) = m_params (get H i)) &
    forall k, (k < size idxs)%N ->
      let q := nth (0%N, NaN) hb.2 (size best + k)%N in let i := nth 0%N idxs k in
      ends (m_params (get H i), nth NaN scales i) (m_params (get hb.1 q.1), q.2)].
Proof.
elim: idxs H mv best => [|i idxs IH] H mv best hi hm hb0 /=.
  by move=> [<-] /=; rewrite addn0; split.
case e: (SReg_Model.refine _ _ _ _ _ _ _ _ _ _ _ _) => [o||] //= ho.
have hi0 : (i < size H)%N by apply: hi; rewrite mem_head.
have [h1 h2 h3 h4 [n h5]] := refine_lem hi0 hm e.
have [|//||g1 g2 g3 g4] := IH _ _ _ _ _ _ ho.
- by move=> j hj; apply: leq_trans h1; apply: hi; rewrite in_cons hj orbT.
- move=> k; rewrite size_rcons ltnS leq_eqVlt => /orP[/eqP ->|hk].
    by rewrite nth_rcons ltnn eqxx.
  by rewrite nth_rcons hk; apply: leq_trans h1; exact: hb0.
rewrite size_rcons in g1 g2 g4.
have hp j : (j < size H)%N -> m_params (get hb.1 j) = m_params (get H j).
  move=> hj; rewrite g3; last exact: leq_trans h1.
  by case: (h2 j) => // hge; move: hj; rewrite ltnNge hge.
split => //; first by rewrite g1 addSnnS.
  by move=> k hk; rewrite g2; [rewrite nth_rcons hk|exact: ltnW].
case=> [_|k hk] /=.
  rewrite addn0 g2 // nth_rcons ltnn eqxx /= g3 //.
  by exists n; case: h5 => [[h5 _]|[h5 _]]; [left|right].
have := g4 k hk; rewrite /= addSnnS; set j := nth 0%N idxs k.
have hj : (j < size H)%N by apply: hi; rewrite in_cons mem_nth ?orbT.
by case: (h2 j) => [->|] //; rewrite leqNgt hj.
Qed.

(* the local variable m is unbound when the first i-step of the first candidate fails *)
Lemma refine_all_unbound fuel scales H best i idxs : (0 < fuel)%N ->
  sstep (m_params (get H i), nth NaN scales i) = Err LinAlgError ->
  refine_all rho psi wls P fuel X y scales H None best (i :: idxs) = Err UnboundLocalError.
Proof. by case: fuel => // k _; rewrite /sstep /= => ->. Qed.

(* an iteration that returns to its starting point never ends *)
Lemma refine_cycle a b H mv prev s n0 fuel : (prev < size H)%N ->
  m_params (get H prev) = a.1 \/ m_params (get H prev) = b.1 ->
  (forall s', sstep (a.1, s') = Ok b) -> (forall s', sstep (b.1, s') = Ok a) ->
  converged P a.1 b.1 = false -> converged P b.1 a.1 = false ->
  refine fuel H mv prev s n0 = NoFuel.
Proof.
case: a => a sa; case: b => b sb; rewrite [(a, sa).1]/= [(b, sb).1]/=.
move=> hp hab s1 s2 c1 c2; elim: fuel H mv prev s n0 hp hab => // k IH H mv prev s n0 hp hab.
rewrite /refine /SReg_Model.refine -/SReg_Model.refine.
have := s1 s; have := s2 s; rewrite /sstep /=; case: hab => -> => e2 e1.
  rewrite e1 c1.
  by apply: IH; rewrite ?size_rcons // get_rcons_new; right.
rewrite e2 c2.
by apply: IH; rewrite ?size_rcons // get_rcons_new; left.
Qed.

Lemma fit_array_lem fuel p f : (forall s, all (fun i => (i < size s)%N) (argsort s)) ->
  fit_array rho psi wls argsort choice P fuel X y p = Ok f ->
  exists cands outs : seq (seq T * xnum T), let idxs := take (n_best P) (argsort [seq c.2 | c <- cands]) in
  [/\ initial_models rho psi wls choice P X y p (iota (seed0 P) (n_subsets P)) = Ok cands,
    size outs = size idxs,
    forall k, (k < size idxs)%N -> ends (nth ([::], NaN) cands (nth 0%N idxs k)) (nth ([::], NaN) outs k) &
    exists k, [/\ (k < size outs)%N, nth ([::], NaN) outs k = (m_params (f_model f), f_scale f) &
      (~~ has (fun o => is_nan o.2) outs ->
       forall j, (j < size outs)%N -> xle (f_scale f) (nth ([::], NaN) outs j).2)]].
Proof.
move=> hA; rewrite /fit_array; case e: (initial_models _ _ _ _ _ _ _ _ _) => [cands||] //=.
set scales := [seq c.2 | c <- cands]; set H := [seq MObj c.1 None | c <- cands].
set idxs := take _ _.
case e2: (refine_all _ _ _ _ _ _ _ _ _ _ _ _) => [hb||] //=.
have hidx i : i \in idxs -> (i < size H)%N.
  move=> /mem_take hi; have /allP/(_ i hi) := hA scales.
  by rewrite /H /scales !size_map.
have [//|//|//|g1 _ g3 g4] := refine_all_lem _ _ _ e2.
case: hb e2 g1 g3 g4 => H' best e2 /= g1 g3 g4.
case eb: best => [|b0 best'] //; rewrite -eb => -[<-] /=.
set outs := [seq (m_params (get H' q.1), q.2) | q <- best].
have so : size outs = size best by rewrite size_map.
have b1 : (0 < size best)%N by rewrite eb.
exists cands, outs; split => //; first by rewrite so g1 add0n.
  move=> k hk; have := g4 k hk; rewrite add0n.
  have hi : (nth 0%N idxs k < size cands)%N.
    by have := hidx _ (mem_nth 0%N hk); rewrite size_map.
  rewrite /outs (nth_map (0%N, NaN)) ?g1 ?add0n //.
  rewrite /get /H (nth_map ([::], NaN)) // /scales (nth_map ([::], NaN)) //=.
  by rewrite -surjective_pairing.
set k0 := xargmin _; have hk0 : (k0 < size best)%N.
  by rewrite -[X in (_ < X)%N](size_map snd); apply: xargmin_lt; rewrite size_map.
exists k0; split; rewrite ?so // /outs; first by rewrite (nth_map (0%N, NaN)).
move=> hn j hj; rewrite (nth_map (0%N, NaN)) //=.
have hn' : ~~ has (@is_nan T) [seq q.2 | q <- best].
  by move: hn; rewrite has_map has_map /preim /=.
have := xargmin_least hn' (j := j); rewrite size_map => /(_ hj).
by rewrite -/k0 !(nth_map (0%N, NaN)).
Qed.
End Fit.

(* ---- an exactly fitted majority *)
Section Exact.
Variable T : rcfType.
Variables (c : T) (P : params T).
Hypotheses (c0 : 0 < c) (b0 : 0 < b P).
Variable wls : seq (xnum T) -> seq (seq T) -> seq T -> res (seq T).

Lemma start_scale0 (r : seq T) : (size r < 2 * count (fun u => u == 0%R) r)%N ->
  start_scale r = Fin 0.
Proof.
move=> h; rewrite /start_scale; suff -> : fmed [seq `|u| | u : T <- r] = 0 by rewrite mul0r.
have r0 : (0 < size r)%N by case: r h.
apply/eqP; rewrite eq_le andbC; apply: fmed_majority; rewrite ?size_map //.
rewrite count_map; apply: leq_trans h _; rewrite leq_mul2l /=; apply: sub_count => u /= /eqP ->.
by rewrite normr0 lexx.
Qed.

Lemma i_step_exact X y (r : seq T) : (size r < 2 * count (fun u => u == 0%R) r)%N ->
  (0 < max_scale P)%N ->
  i_step (tukey_xrho c) (tukey_xpsi c) wls P X y r
  = (do beta <- wls (nseq (size r) (Fin 0)) X y; Ok (beta, Fin 0)).
Proof.
move=> h k0; have r0 : (0 < size r)%N by case: r h.
rewrite /i_step (start_scale0 h) /get_scale.
have [j [_ -> _ _]] := scale_loopE (tukey_xrho c) P (Fin 0) None r k0.
rewrite (iter_new_scaleE c0 b0 r0).
have -> : iter j (tstep c P r) 0 = 0 by elim: j => //= j ->; rewrite /tstep eqxx.
rewrite /bind; suff -> : weights (tukey_xpsi c) r (Fin 0) = nseq (size r) (Fin 0) by [].
rewrite /weights; elim: r {h r0} => //= u r ->; congr cons.
have : (if u == 0 then feps T else u) != 0.
  case: ifP => [_|/negbT //].
  by rewrite /feps invr_eq0 expf_neq0 // pnatr_eq0.
by rewrite eqxx /inf_sign; case: ltrgt0P.
Qed.

Lemma zero_dot (x : seq T) n : dot x (nseq n 0) = 0.
Proof.
rewrite /dot; elim: x n => [|u x IH] [|n] //=.
by rewrite IH mulr0 add0r.
Qed.

Lemma norm2_ge0 (v : seq T) : 0 <= norm2 v. Proof. exact: sqrtr_ge0. Qed.

Lemma norm2_zero n : norm2 (nseq n (0 : T)) = 0.
Proof.
rewrite /norm2 [fsum _](_ : _ = 0) ?sqrtr0 //.
by elim: n => //= n ->; rewrite expr0n /= addr0.
Qed.

Lemma exact_cycle X y beta sy H mv prev s n0 fuel : size X = size y -> (0 < size X)%N ->
  (0 < max_scale P)%N -> 0 <= rtol P < 1 -> rtol P ^+ 2 < norm2 beta ->
  (forall i, (i < size X)%N -> dot (nth [::] X i) beta = nth 0 y i) ->
  wls (nseq (size X) (Fin 0)) X y = Ok (nseq (size beta) 0) ->
  get_scale (tukey_xrho c) P (start_scale [seq - u | u <- y]) [seq - u | u <- y] = Ok sy ->
  wls (weights (tukey_xpsi c) [seq - u | u <- y] sy) X y = Ok beta ->
  (prev < size H)%N -> m_params (get H prev) = beta ->
  refine (tukey_xrho c) (tukey_xpsi c) wls P fuel X y H mv prev s n0 = NoFuel.
Proof.
move=> szXY n1 k0 /andP[t0 t1] tb ex w0 gs wy hp eH.
have ez : fitted_minus X y beta = nseq (size X) 0.
  apply: (@eq_from_nth _ 0); first by rewrite size_map size_zip /lin_predict size_map szXY minnn size_nseq.
  move=> i; rewrite size_map size_zip /lin_predict size_map szXY minnn => hi.
  rewrite (nth_map (0, 0)); last by rewrite size_zip size_map szXY minnn.
  rewrite nth_zip ?size_map //= (nth_map [::]) ?szXY // ex ?szXY // subrr nth_nseq.
  by case: ifP.
have ey : fitted_minus X y (nseq (size beta) 0) = [seq - u | u <- y].
  rewrite /fitted_minus /lin_predict; elim: X y szXY {n1 ex w0 gs wy ez} => [|x X IH] [|u y] //= [/IH ->].
  by rewrite zero_dot add0r.
apply: (@refine_cycle _ _ _ _ _ X y (beta, sy) (nseq (size beta) 0, Fin 0)) => //.
- by left; rewrite eH.
- move=> s'; rewrite /sstep /= ez i_step_exact ?size_nseq // ?w0 //.
  by rewrite count_nseq eqxx mul1n mul2n -addnn -[X in (X < _)%N]addn0 ltn_add2l.
- by move=> s'; rewrite /sstep /= ey /i_step gs /= wy.
- rewrite /converged /=; apply/negbTE; rewrite -ltNge norm2_zero (max_idPl _) // -expr2.
  have -> : [seq q.1 - q.2 | q <- zip (nseq (size beta) 0) beta] = [seq - u | u <- beta].
    by elim: beta {tb ex w0 wy eH ez ey} => //= u beta ->; rewrite sub0r.
  suff -> : norm2 [seq - u | u <- beta] = norm2 beta by [].
  by rewrite /norm2 -map_comp; congr (Num.sqrt (fsum _)); apply: eq_map => u /=; rewrite sqrrN.
- rewrite /converged /=; apply/negbTE; rewrite -ltNge.
  have -> : [seq q.1 - q.2 | q <- zip beta (nseq (size beta) 0)] = beta.
    by elim: beta {tb ex w0 wy eH ez ey} => //= u beta ->; rewrite subr0.
  have nb : 0 < norm2 beta by apply: le_lt_trans tb; exact: sqr_ge0.
  case: (lerP (rtol P) (norm2 beta)) => _; last by rewrite -expr2.
  by rewrite -[X in _ < X]mul1r ltr_pmul2r.
Qed.
End Exact.

(* ---- the number of columns *)
Section Columns.
Variable T : rcfType.
Variables rho psi : xnum T -> xnum T.
Variable wls : seq (xnum T) -> seq (seq T) -> seq T -> res (seq T).
Variable argsort : seq (xnum T) -> seq nat.
Variable choice : nat -> nat -> nat -> seq nat.
Variable P : params T.
(* WLS returns one coefficient per column *)
Hypothesis Hw : forall w q X y beta, rect q X -> (0 < size X)%N -> wls w X y = Ok beta -> size beta = q.
Hypothesis Hc : forall sd n k, (k <= n)%N -> size (choice sd n k) = k /\ all (fun i => (i < n)%N) (choice sd n k).
Hypothesis HA : forall s, all (fun i => (i < size s)%N) (argsort s).

Lemma i_step_size X y r q a : rect q X -> (0 < size X)%N ->
  i_step rho psi wls P X y r = Ok a -> size a.1 = q.
Proof.
move=> hX n0; rewrite /i_step; case: (get_scale _ _ _ _) => [s||] //=.
by case e: (wls _ _ _) => [beta||] //= [<-] /=; exact: Hw e.
Qed.

Lemma initial_steps_size X y q k beta s r a : rect q X -> (0 < size X)%N -> size beta = q ->
  initial_steps rho psi wls P k X y beta s r = Ok a -> size a.1 = q.
Proof.
move=> hX n0; elim: k beta s r => [|k IH] beta s r hb /=; first by move=> [<-].
by case e: (i_step _ _ _ _ _ _ _) => [b||] //=; apply: IH; exact: i_step_size e.
Qed.

Lemma initial_models_size X y q seeds cands : rect q X ->
  initial_models rho psi wls choice P X y q seeds = Ok cands ->
  forall k, (k < size cands)%N -> size (nth ([::], NaN) cands k).1 = q.
Proof.
move=> hX; elim: seeds cands => [|sd seeds IH] cands /=; first by move=> [<-].
case e: (initial_one _ _ _ _ _ _ _ _ _) => [o||] //=.
case e2: (initial_models _ _ _ _ _ _ _ _ _) => [cs||] //= [<-].
case: o e => [a|] e; last exact: (IH _ e2).
case=> [_|k hk]; last exact: (IH _ e2).
move: e; rewrite /initial_one; case: ltnP => // hn.
case e3: (wls _ _ _) => [beta||] //=.
have [hs ha] := Hc sd hn.
have sb : size beta = q.
  apply: Hw e3; last by rewrite size_map hs.
  by rewrite /rect all_map; apply: sub_all ha => i hi /=; move/allP: hX; apply; rewrite mem_nth.
case e4: (initial_steps _ _ _ _ _ _ _ _ _ _) => [b|[]|] // [<-].
by apply: initial_steps_size sb e4 => //; apply: leq_ltn_trans hn.
Qed.

Lemma runs_size X y q n (a a' : seq T * xnum T) : rect q X -> (0 < size X)%N -> size a.1 = q ->
  runs (sstep rho psi wls P X y) (sstop P) n a a' -> size a'.1 = q.
Proof.
move=> hX n0; elim: n a => [|n IH] a ha /=; first by move=> ->.
by move=> [a1 [e _ h]]; apply: IH h; exact: i_step_size e.
Qed.

Lemma fit_array_size fuel X y q f : rect q X -> (0 < size X)%N ->
  fit_array rho psi wls argsort choice P fuel X y q = Ok f -> size (m_params (f_model f)) = q.
Proof.
move=> hX n0 e; have [cands [outs [e1 so h [k [hk e2 _]]]]] := fit_array_lem HA e.
have hk' : (k < size (take (n_best P) (argsort [seq c0.2 | c0 <- cands])))%N by rewrite -so.
have [n hn] := h k hk'.
set i := nth 0%N _ k in hn; have hi : (i < size cands)%N.
  have := mem_nth 0%N hk'; rewrite -/i => /mem_take hi.
  by have /allP/(_ i hi) := HA [seq c0.2 | c0 <- cands]; rewrite size_map.
have sa : size (nth ([::], NaN) cands i).1 = q := initial_models_size hX e1 hi.
rewrite e2 in hn; case: hn => [[j [a1 [_ r1 r2 _]]]|[r1 _]].
  exact: (i_step_size hX n0 r2).
exact: (runs_size hX n0 sa r1).
Qed.

Lemma add_constantE (X : seq (seq T)) p : (0 < size X)%N ->
  add_constant X p = if has (const_col X) (iota 0 p) then Ok (X, p) else Ok ([seq 1 :: x | x <- X], p.+1).
Proof. by case: X. Qed.

Lemma const_colP (X : seq (seq T)) p : (0 < size X)%N ->
  reflect (exists j v, [/\ (j < p)%N, v != 0 & forall x, x \in X -> nth 0 x j = v])
    (has (const_col X) (iota 0 p)).
Proof.
case: X => // x0 X _; apply: (iffP hasP).
  move=> [j]; rewrite mem_iota add0n => /= hj /andP[h1 /allP h2]; exists j, (nth 0 x0 j); split => //.
  by move=> x hx; apply/eqP; exact: h2.
move=> [j [v [hj vn h]]]; exists j; first by rewrite mem_iota add0n.
by rewrite /const_col /= (h x0) ?mem_head // vn eqxx /=; apply/allP => x hx; rewrite h // in_cons hx orbT.
Qed.

Lemma fit_size fuel X y p f : rect p X -> (0 < size X)%N ->
  fit rho psi wls argsort choice P fuel X y p = Ok f ->
  size (m_params (f_model f)) = (p + (intercept P && ~~ has (const_col X) (iota 0 p)))%N.
Proof.
move=> hX n0; rewrite /fit; case: (intercept P); last by rewrite addn0; exact: fit_array_size.
rewrite add_constantE //; case: ifP => hcc /=; first by rewrite addn0; exact: fit_array_size.
rewrite addn1; apply: fit_array_size; rewrite ?size_map // /rect all_map.
by apply: sub_all hX => x /= /eqP ->.
Qed.
End Columns.
