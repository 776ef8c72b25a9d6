(* Proofs about the cellwise MCD: submatrices, deltas and the objective. *)
From mathcomp Require Import all_ssreflect all_algebra perm.
From mathcomp.zify Require Import zify.
From mathcomp.algebra_tactics Require Import ring.
From Verif Require Import RFieldLra Prelude Stats Xnum RatFloor Vec PSD LinAlg_Model LinAlg_Proofs.
From Verif Require Import MCD_Model OGK_Model OGK_Proofs Cov_Model Gauss_Proofs CellMCD_Model CellMCD_Spec.

Set Implicit Arguments.
Unset Strict Implicit.
Unset Printing Implicit Defensive.

Import Order.TTheory GRing.Theory Num.Theory.
Local Open Scope ring_scope.

Lemma pos_enum r (s : seq 'I_r) (a : 'I_(size s)) : s = enum 'I_r -> val (pos s a) = val a.
Proof.
move=> se; have es : size s = r by rewrite se size_enum_ord.
have ha : (a < r)%N by rewrite -{2}es.
case: r s a se es ha => // r s a se es ha.
rewrite /pos (tnth_nth ord0) /=; have -> : nth ord0 s a = nth ord0 (enum 'I_r.+1) a by rewrite -se.
by rewrite nth_enum_ord.
Qed.

Section Sub.
Variables (T : rcfType) (p : nat).
Implicit Types (s : seq 'I_p) (sigma : 'M[T]_p).

Lemma pos_inj s : uniq s -> injective (pos s).
Proof. by move=> u; have /tuple_uniqP := (u : uniq (in_tuple s)). Qed.

Lemma pos_nth s d (a : 'I_(size s)) : pos s a = nth d s a.
Proof. by rewrite /pos (tnth_nth d). Qed.

Lemma mem_pos s k : (k \in codom (pos s)) = (k \in s).
Proof. by rewrite codom_pos. Qed.

Lemma subseq_full s : subseq s (enum 'I_p) -> size s = p -> s = enum 'I_p.
Proof.
move=> h e; have := size_subseq_leqif h; rewrite size_enum_ord e => -[_ /esym].
by rewrite eqxx => /eqP.
Qed.

Lemma sub_inv_ok sigma sigma_inv s : subseq s (enum 'I_p) -> spd sigma -> sigma *m sigma_inv = 1%:M ->
  sub_inv sigma sigma_inv s = Ok (invmx (mxsub (pos s) (pos s) sigma)).
Proof.
move=> hs pS e; have us : uniq s := subseq_uniq hs (enum_uniq _).
have hi := pos_inj us; rewrite /sub_inv.
have [lt|ge] := ltnP (size s) p.
  rewrite (inverse_submatrix_lt hi e) //; last exact/spd_unit/spd_sub.
  by rewrite /= conform_mx_id.
have es : size s = p by apply/eqP; rewrite eqn_leq ge andbT -[p in (_ <= p)%N]size_enum_ord size_subseq.
have se := subseq_full hs es.
have eg : sigma_inv = invmx sigma by have [_ ->] := invmx_unique e.
have hv a : val (pos s a) = val a by exact: pos_enum.
have -> : inverse_submatrix sigma sigma_inv (pos s) = Ok (SqMat sigma_inv).
  by rewrite /inverse_submatrix ltnNge ge.
congr Ok; rewrite eg /=.
move: (pos s) hi hv es; move: (size s) => m f hi hv es; subst m.
rewrite conform_mx_id invmx_mxsub_bij ?spd_unit //.
by apply/matrixP => i j; rewrite mxE; congr (invmx _ _ _); apply/val_inj; rewrite hv.
Qed.

End Sub.

Section Objective.
Variables (T : rcfType) (n p : nat) (ln : T -> T) (log2pi : T).
Hypothesis lnM : forall a b, 0 < a -> 0 < b -> ln (a * b) = ln a + ln b.
Implicit Types (X : 'M[option T]_(n, p)) (W : 'M[bool]_(n, p)) (w : 'rV[bool]_p) (s : seq 'I_p).
Implicit Types (mu q : 'rV[T]_p) (sigma sigma_inv : 'M[T]_p) (i : 'I_n) (j k : 'I_p).

Lemma spdE sigma : pos_def sigma <-> spd sigma.
Proof. by []. Qed.

Lemma ones_sub w : subseq (ones w) (enum 'I_p).
Proof. exact: filter_subseq. Qed.
Lemma mem_ones w k : (k \in ones w) = w 0 k.
Proof. by rewrite mem_filter mem_enum andbT. Qed.
Lemma mem_zeros w k : (k \in zeros w) = ~~ w 0 k.
Proof. by rewrite mem_filter mem_enum andbT. Qed.
Lemma ones_uniq w : uniq (ones w).
Proof. by rewrite filter_uniq ?enum_uniq. Qed.
Lemma zeros_uniq w : uniq (zeros w).
Proof. by rewrite filter_uniq ?enum_uniq. Qed.

(* the terms of the objective through lists of indices and through sets *)
Lemma neg2loglikE (A : {set 'I_p}) s sigma mu x : spd sigma -> uniq s -> s =i A ->
  neg2loglik ln log2pi A sigma mu x = gterm ln log2pi (pos s) sigma mu x.
Proof.
move=> pS us e.
have -> : gterm ln log2pi (pos s) sigma mu x = gterm ln log2pi (@enum_val _ (mem A)) sigma mu x.
  apply: gterm_codom => //; [exact: enum_val_inj|exact: pos_inj|].
  move=> k; rewrite mem_pos e; apply/idP/idP => [kA|/codomP[a ->]]; last exact: enum_valP.
  by apply/codomP; exists (enum_rank_in kA k); rewrite enum_rankK_in.
rewrite /neg2loglik /gterm.
have -> : mxsub (@enum_val _ (mem A)) (@enum_val _ (mem A)) sigma = sub_mat A sigma by apply/matrixP => a b; rewrite !mxE.
have -> : colsub (@enum_val _ (mem A)) x - colsub (@enum_val _ (mem A)) mu = sub_vec A (x - mu).
  by apply/matrixP => a b; rewrite !mxE !ord1.
by [].
Qed.

(* the patterns *)
Lemma mem_unique_rows W w : (w \in unique_rows W) = [exists i, row i W == w].
Proof.
rewrite mem_sort mem_undup; apply/mapP/existsP => [[i _ ->]|[i /eqP <-]]; exists i => //.
by rewrite mem_enum.
Qed.

Lemma unique_rows_uniq W : uniq (unique_rows W).
Proof. by rewrite sort_uniq undup_uniq. Qed.

Section Delta.
Variables (X : 'M[option T]_(n, p)) (W : 'M[bool]_(n, p)) (sigma sigma_inv : 'M[T]_p) (mu : 'rV[T]_p) (j : 'I_p).
Variable F : 'rV[bool]_p -> 'I_n -> xnum T.
Hypothesis hF : forall w, delta_pattern ln log2pi X sigma sigma_inv mu j w = Ok (F w).

Lemma delta_loopE ws d : uniq ws ->
  exists2 d', delta_loop ln log2pi X W sigma sigma_inv mu j ws d = Ok d'
  & forall i, d' i = if (row i W \in ws) && X i j then F (row i W) i else d i.
Proof.
elim: ws d => [|w ws IH] d /=; first by move=> _; exists d.
case/andP => nw uw; case: ifP => hx.
  rewrite hF /=; have [d' -> hd'] := IH (fun i => if (row i W == w) && X i j then F w i else d i) uw.
  exists d' => // i; rewrite hd' inE; case: eqP => [-> /=|_] //.
  by rewrite (negbTE nw) /=.
have [d' -> hd'] := IH d uw; exists d' => // i; rewrite hd' inE; case: eqP => [ei|//] /=.
have /existsPn /(_ i) := negbT hx; rewrite ei eqxx /= => /negbTE ->; by rewrite andbF.
Qed.

Lemma calculate_deltaE : exists2 d, calculate_delta ln log2pi X W sigma sigma_inv mu j = Ok d
  & forall i, d i = if X i j then F (row i W) i else PInf.
Proof.
have [d hd e] := delta_loopE (fun=> PInf) (unique_rows_uniq W); exists d => // i.
rewrite e mem_unique_rows; have -> // : [exists i0, row i0 W == row i W].
by apply/existsP; exists i.
Qed.

End Delta.

(* the cells of a row *)
Lemma cellsE X i s : all (fun k => isSome (X i k)) s -> cells X i s = Some (colsub (pos s) (vals X i)).
Proof. by rewrite /cells => ->; congr Some; apply/rowP => a; rewrite !mxE. Qed.

Lemma cells_none X i s : ~~ all (fun k => isSome (X i k)) s -> cells X i s = None.
Proof. by rewrite /cells => /negbTE ->. Qed.

Lemma sub_muE mu s : sub_mu mu s = colsub (pos s) mu.
Proof. by apply/rowP => a; rewrite !mxE. Qed.

Lemma cond_varianceE sigma s k :
  cond_variance sigma (invmx (mxsub (pos s) (pos s) sigma)) k = cvar (pos s) sigma k.
Proof. by []. Qed.

Lemma predict_cellE X sigma mu s k i : all (fun k => isSome (X i k)) s ->
  predict_cell X sigma mu (invmx (mxsub (pos s) (pos s) sigma)) k i
  = Some (vals X i 0 k - cres (pos s) sigma mu (vals X i) k).
Proof.
move=> h; rewrite /predict_cell cellsE // sub_muE; congr Some; rewrite /cres.
by rewrite opprB addrCA subrr addr0.
Qed.

Lemma gterm0 f sigma mu x : gterm ln log2pi (f : 'I_0 -> 'I_p) sigma mu x = ln 1.
Proof. by rewrite /gterm det_mx00 mulr0 addr0 mxE big_ord0 add0r. Qed.

(* C72: delta is the change of the objective *)
Lemma deltaE X W sigma sigma_inv mu j : spd sigma -> sigma *m sigma_inv = 1%:M -> observed X W ->
  exists2 d, calculate_delta ln log2pi X W sigma sigma_inv mu j = Ok d
  & forall i, d i = if X i j then
      Fin (neg2loglik ln log2pi (j |: clean W i) sigma mu (vals X i)
           - neg2loglik ln log2pi (clean W i :\ j) sigma mu (vals X i)) else PInf.
Proof.
move=> pS e hobs.
pose F w i : xnum T :=
  let s := ones (without w j) in
  if (0 < size s)%N then
    let R := invmx (mxsub (pos s) (pos s) sigma) in
    match X i j, predict_cell X sigma mu R j i with
      | Some x, Some x_hat => log_term ln log2pi (x - x_hat) (cond_variance sigma R j)
      | Some _, None => NaN
      | None, _ => PInf
      end
  else if X i j is Some x then log_term ln log2pi (x - mu 0 j) (sigma j j) else PInf.
have hF w : delta_pattern ln log2pi X sigma sigma_inv mu j w = Ok (F w).
  by rewrite /delta_pattern /F; case: ifP => // _; rewrite sub_inv_ok //; exact: ones_sub.
have [d -> hd] := calculate_deltaE W hF; exists d => // i; rewrite hd.
case ex: (X i j) => [x|] //=.
set s := ones (without (row i W) j).
have us : uniq s := ones_uniq _.
have ms k : (k \in s) = (k \in clean W i :\ j) by rewrite mem_ones !mxE !inE andbC.
have js : j \notin codom (pos s) by rewrite mem_pos ms !inE eqxx.
have vj : vals X i 0 j = x by rewrite mxE ex.
have aobs : all (fun k => isSome (X i k)) s.
  by apply/allP => k; rewrite ms !inE => /andP[_ /hobs].
pose s1 := j :: s.
have us1 : uniq s1 by rewrite /= us andbT -mem_pos.
have m1 k : (k \in s1) = (k \in j |: clean W i) by rewrite inE ms !inE; case: eqP.
rewrite (neg2loglikE mu (vals X i) pS us1 m1) (neg2loglikE mu (vals X i) pS us ms).
have := @gterm_add T ln log2pi lnM (size s) p (pos s) j (pos_inj us) js sigma mu (vals X i) pS _ (pos s1) (pos_inj us1).
move=> ->; last by move=> k; rewrite mem_pos !inE mem_pos.
have c0 := cvar_gt0 (pos_inj us) js pS.
rewrite addrC addKr /F ex -/s; case: ltnP => h0.
  by rewrite predict_cellE // cond_varianceE /log_term c0 vj opprB addrCA subrr addr0.
have s0 : size s = 0%N by apply/eqP; rewrite -leqn0.
have ec : cvar (pos s) sigma j = sigma j j.
  rewrite /cvar; move: (pos s); rewrite s0 => f; by rewrite mxE big_ord0 subr0.
have er : cres (pos s) sigma mu (vals X i) j = x - mu 0 j.
  rewrite /cres vj; move: (pos s); rewrite s0 => f; by rewrite [(_ *m _ *m _) 0 0]mxE big_ord0 addr0.
by rewrite -ec -er /log_term c0.
Qed.


(* the objective is the sum over the rows *)
Lemma dotv_gterm s sigma mu x : spd sigma -> uniq s ->
  let d := colsub (pos s) x - colsub (pos s) mu in
  xadd (xadd (Fin (dotv (d *m invmx (mxsub (pos s) (pos s) sigma)) d)) (log_abs_det ln (mxsub (pos s) (pos s) sigma)))
       (Fin (log2pi * (size s)%:R)) = Fin (gterm ln log2pi (pos s) sigma mu x).
Proof.
move=> pS us d; have d0 := spd_det (spd_sub (pos_inj us) pS).
by rewrite /log_abs_det gt_eqF // ger0_norm ?(ltW d0) //= /gterm dotvE.
Qed.

Lemma xsum_Fin (I : Type) (F : I -> T) (r : seq I) : xsum [seq Fin (F i) | i <- r] = Fin (\sum_(i <- r) F i).
Proof. by elim: r => [|i r IH] /=; rewrite ?big_nil // big_cons IH. Qed.

Section Obj.
Variables (X : 'M[option T]_(n, p)) (W : 'M[bool]_(n, p)) (sigma sigma_inv : 'M[T]_p) (mu : 'rV[T]_p).
Hypothesis pS : spd sigma.
Hypothesis eS : sigma *m sigma_inv = 1%:M.
Hypothesis hobs : observed X W.

Local Notation t := (fun i => neg2loglik ln log2pi (clean W i) sigma mu (vals X i)).

Lemma objective_patternE w : objective_pattern ln log2pi X W mu sigma sigma_inv w
  = Ok (Fin (\sum_(i | row i W == w) t i)).
Proof.
rewrite /objective_pattern sub_inv_ok //; last exact: ones_sub.
rewrite /=; congr Ok.
have -> : \sum_(i | row i W == w) t i = \sum_(i <- [seq i <- enum 'I_n | row i W == w]) t i.
  by rewrite big_filter big_enum_cond.
rewrite -xsum_Fin; congr xsum.
apply/eq_in_map => i; rewrite mem_filter => /andP[/eqP ew _].
have mi k : (k \in ones w) = (k \in clean W i) by rewrite mem_ones -ew !inE mxE.
rewrite cellsE; last by apply/allP => k; rewrite mi inE => /hobs.
by rewrite sub_muE dotv_gterm ?ones_uniq // (neg2loglikE mu (vals X i) pS (ones_uniq w) mi).
Qed.

Lemma objective_loopE ws a : objective_loop ln log2pi X W mu sigma sigma_inv ws (Fin a)
  = Ok (Fin (a + \sum_(w <- ws) \sum_(i | row i W == w) t i)).
Proof.
elim: ws a => [|w ws IH] a /=; first by rewrite big_nil addr0.
by rewrite objective_patternE /= IH big_cons addrA.
Qed.

Lemma objective_functionE : objective_function ln log2pi X W mu sigma sigma_inv = Ok (Fin (\sum_i t i)).
Proof.
rewrite /objective_function objective_loopE add0r; congr (Ok (Fin _)).
rewrite (exchange_big_dep predT) //=; apply: eq_bigr => i _.
rewrite -big_filter (@eq_filter _ _ (pred1 (row i W))); last by move=> w /=; rewrite eq_sym.
rewrite filter_pred1_uniq ?big_seq1 ?unique_rows_uniq // mem_unique_rows.
by apply/existsP; exists i.
Qed.

Lemma penaltyE (q : 'rV[T]_p) : penalty q W = \sum_i \sum_(k | ~~ W i k) q 0 k.
Proof.
rewrite /penalty (exchange_big_dep predT) //=; apply: eq_bigr => k _.
rewrite big_distrr [RHS]big_mkcond /=; apply: eq_bigr => i _.
by case: (W i k); rewrite ?mulr0 ?mulr1.
Qed.

Lemma objectiveE q : objective ln log2pi X W mu sigma sigma_inv q
  = Ok (Fin (penalised ln log2pi q X W mu sigma)).
Proof. by rewrite /objective objective_functionE /= penaltyE. Qed.

End Obj.

End Objective.

Section Column.
Variables (T : rcfType) (n : nat) (D : 'I_n -> T) (obs : pred 'I_n) (d : 'I_n -> xnum T) (q : T) (h : nat).
Hypothesis hd : forall i, d i = if obs i then Fin (D i) else PInf.
Hypothesis hobs : (h <= #|obs|)%N.

Local Notation le := (fun a b => sort_le (d a) (d b)).
Local Notation good := (good_cells d q h).
Local Notation order := (sort le (enum 'I_n)).

Lemma leE a b : sort_le (d a) (d b) = if obs b then obs a && (D a <= D b) else true.
Proof. by rewrite /sort_le !hd; case: (obs a); case: (obs b). Qed.

Lemma le_total : total le.
Proof.
by move=> a b /=; rewrite !leE; case: (obs a); case: (obs b) => //=; exact: le_total.
Qed.

Lemma le_trans' : transitive le.
Proof.
move=> b a c /=; rewrite !leE; case: (obs a); case: (obs b); case: (obs c) => //=; exact: le_trans.
Qed.

Lemma size_order : size order = n.
Proof. by rewrite size_sort size_enum_ord. Qed.

Lemma h_n : (h <= n)%N.
Proof. by apply: leq_trans hobs _; rewrite -[n in (_ <= n)%N]card_ord; exact: max_card. Qed.

Lemma top_rest a b : a \in take h order -> b \in drop h order -> le a b.
Proof.
move=> ha hb; have : pairwise le order.
  by rewrite -(sorted_pairwise le_trans') sort_sorted //; exact: le_total.
by rewrite -[order in pairwise _ order](cat_take_drop h) pairwise_cat => /and3P[/allrelP /(_ a b ha hb)].
Qed.

Lemma in_drop b : b \notin take h order -> b \in drop h order.
Proof.
move=> nb; have : b \in order by rewrite mem_sort mem_enum.
by rewrite -{1}[order](cat_take_drop h) mem_cat (negbTE nb).
Qed.

Lemma order_uniq : uniq order.
Proof. by rewrite sort_uniq enum_uniq. Qed.

Lemma top_obs a : a \in take h order -> obs a.
Proof.
move=> ha; apply: contraT => na.
have sub : {subset [set x | obs x] <= [predD1 (take h order) & a]}.
  move=> b; rewrite !inE => ob; apply/andP; split; first by apply: contra na => /eqP <-.
  apply: contraT => /in_drop hb; have := top_rest ha hb; by rewrite leE ob (negbTE na).
have := subset_leq_card (introT subsetP sub).
rewrite (@eq_card _ _ obs) => [hc|x]; last by rewrite inE.
have := cardD1 a (mem (take h order)); rewrite [a \in _]ha (card_uniqP _) ?take_uniq ?order_uniq //.
rewrite size_take size_order; move: h_n hobs hc; set z := #|[predD1 _ & _]|; set y := #|obs|.
by case: (ltnP h n) => *; lia.
Qed.

Lemma size_top : size (take h order) = h.
Proof. by rewrite size_take size_order; have := h_n; rewrite leq_eqVlt => /orP[/eqP ->|->] //; rewrite ltnn. Qed.

Definition low := [seq i <- enum 'I_n | xle (d i) (Fin q)].

Lemma mem_low i : (i \in low) = obs i && (D i <= q).
Proof. by rewrite mem_filter mem_enum andbT hd; case: (obs i). Qed.

Lemma good_obs i : i \in good -> obs i.
Proof.
rewrite /good_cells; case: ifP => _; first exact: top_obs.
by rewrite -/low mem_low => /andP[].
Qed.

Lemma good_uniq : uniq good.
Proof. by rewrite /good_cells; case: ifP => _; [exact: take_uniq order_uniq | exact: filter_uniq (enum_uniq _)]. Qed.

Lemma good_size : (h <= size good)%N.
Proof. by rewrite /good_cells; case: ltnP => // _; rewrite size_top. Qed.

Lemma sum_good : \sum_i (if i \in good then D i else q) = \sum_(i in good) (D i - q) + n%:R * q.
Proof.
rewrite [in RHS]big_mkcond /= -[n in n%:R]card_ord mulr_natl -sumr_const -big_split /=.
by apply: eq_bigr => i _; case: ifP => _; rewrite ?subrK ?add0r.
Qed.

(* C73: the new column is optimal *)
Lemma good_optimal (v : pred 'I_n) : (forall i, v i -> obs i) -> (h <= #|v|)%N ->
  \sum_i (if i \in good then D i else q) <= \sum_i (if v i then D i else q).
Proof.
move=> vo hv.
have sv : \sum_i (if v i then D i else q) = \sum_(i | v i) (D i - q) + n%:R * q.
  rewrite [in RHS]big_mkcond /= -[n in n%:R]card_ord mulr_natl -sumr_const -big_split /=.
  by apply: eq_bigr => i _; case: ifP => _; rewrite ?subrK ?add0r.
rewrite sum_good sv ler_add2r /good_cells; case: ltnP => hl; last first.
  rewrite big_mkcond [leRHS]big_mkcond /=; apply: ler_sum => i _.
  rewrite -/low mem_low; case: ifP => [/andP[oi di]|hi]; case: ifP => [vi|_] //.
    by rewrite subr_le0.
  by move: hi; rewrite (vo _ vi) /= => /negbT; rewrite -ltNge subr_ge0 => /ltW.
have h0 : (0 < h)%N by exact: leq_ltn_trans hl.
have [t [a et]] : exists t a, take h order = rcons t a.
  by move: size_top; case/lastP: (take h order) => [e|t a _]; [move: h0; rewrite -e | exists t, a].
have ha : a \in take h order by rewrite et mem_rcons inE eqxx.
have tle i : i \in take h order -> D i <= D a.
  move=> hi; have : pairwise le order.
    by rewrite -(sorted_pairwise le_trans') sort_sorted //; exact: le_total.
  rewrite -[order in pairwise _ order](cat_take_drop h) pairwise_cat et => /and3P[_ hp _].
  move: hp hi; rewrite et -cats1 pairwise_cat mem_cat => /and3P[/allrelP hr _ _] /orP[hi|].
    by have := hr i a hi; rewrite inE eqxx => /(_ isT) /=; rewrite leE top_obs // => /andP[].
  by rewrite inE => /eqP ->.
have tge i : i \notin take h order -> obs i -> D a <= D i.
  by move=> hi oi; have := top_rest ha (in_drop hi); rewrite /= leE oi => /andP[].
have qa : q < D a.
  rewrite ltNge; apply/negP => aq.
  have : {subset take h order <= low}.
    by move=> i hi; rewrite mem_low top_obs // (le_trans (tle _ hi) aq).
  move/(uniq_leq_size (take_uniq _ order_uniq)); rewrite size_top => hh.
  by move: hl; rewrite ltnNge -/low hh.
have split_sum (P : pred 'I_n) : \sum_(i | P i) (D i - q) = \sum_(i | P i) (D i - D a) + (#|P|)%:R * (D a - q).
  rewrite mulr_natl -sumr_const -big_split /=; apply: eq_bigr => i _; ring.
rewrite !split_sum; apply: ler_add; last first.
  rewrite ler_pmul2r ?subr_gt0 // ler_nat (card_uniqP _) ?take_uniq ?order_uniq // size_top //.
rewrite big_mkcond [leRHS]big_mkcond /=; apply: ler_sum => i _.
case: ifP => [hi|/negbT hi]; case: ifP => [vi|_] //; first by rewrite subr_le0 tle.
by rewrite subr_ge0 tge ?vo.
Qed.

End Column.

Section Update.
Variables (T : rcfType) (n p : nat) (ln : T -> T) (log2pi : T).
Hypothesis lnM : forall a b, 0 < a -> 0 < b -> ln (a * b) = ln a + ln b.
Variables (X : 'M[option T]_(n, p)) (sigma sigma_inv : 'M[T]_p) (mu q : 'rV[T]_p) (h : nat).
Hypothesis pS : spd sigma.
Hypothesis eS : sigma *m sigma_inv = 1%:M.

Local Notation L := (fun A i => neg2loglik ln log2pi A sigma mu (vals X i)).
Local Notation pen W := (penalised ln log2pi q X W mu sigma).

(* W with another column *)
Definition with_column (W : 'M[bool]_(n, p)) j (v : pred 'I_n) : 'M[bool]_(n, p) :=
  \matrix_(i, k) if k == j then v i else W i k.

Lemma penalised_column W j v : pen (with_column W j v)
  = (\sum_i (L (clean W i :\ j) i + \sum_(k | (k != j) && ~~ W i k) q 0 k))
    + \sum_i (if v i then L (j |: clean W i) i - L (clean W i :\ j) i else q 0 j).
Proof.
rewrite /penalised -!big_split /=; apply: eq_bigr => i _.
rewrite (bigID (pred1 j)) /= addrA -addrA.
have -> : \sum_(k | ~~ with_column W j v i k && (k != j)) q 0 k = \sum_(k | (k != j) && ~~ W i k) q 0 k.
  by apply: eq_bigl => k; rewrite mxE; case: (k == j); rewrite ?andbF ?andbT.
case: ifP => vi.
  have -> : clean (with_column W j v) i = j |: clean W i.
    by apply/setP => k; rewrite !inE mxE; case: eqP.
  rewrite big_pred0; last by move=> k; rewrite mxE; case: eqP; rewrite ?vi ?andbF.
  rewrite add0r; set a := L (j |: _) i; set b := L (_ :\ j) i; set c := \sum_(_ | _) _.
  by move: a b c => a b c; ring.
have -> : clean (with_column W j v) i = clean W i :\ j.
  by apply/setP => k; rewrite !inE mxE; case: eqP.
rewrite (big_pred1 j); last by move=> k /=; rewrite mxE; case: eqP; rewrite ?vi ?andbF.
by rewrite [q 0 j + _]addrC addrA.
Qed.

Lemma with_column_id W j : with_column W j (fun i => W i j) = W.
Proof. by apply/matrixP => i k; rewrite mxE; case: eqP => // ->. Qed.

Lemma set_columnE W j g : set_column W j g = with_column W j (mem g).
Proof. by apply/matrixP => i k; rewrite !mxE. Qed.

Hypothesis hcol : forall j, (h <= #|[pred i | isSome (X i j)]|)%N.

(* C73 *)
Lemma column_update W j : observed X W ->
  exists2 W', (do d <- calculate_delta ln log2pi X W sigma sigma_inv mu j;
               Ok (set_column W j (good_cells d (q 0 j) h))) = Ok W'
  & [/\ observed X W', (h <= n_clean W' j)%N, forall i k, k != j -> W' i k = W i k
    & forall W1, observed X W1 -> (h <= n_clean W1 j)%N -> (forall i k, k != j -> W1 i k = W i k) ->
      pen W' <= pen W1].
Proof.
move=> oW; have [d -> hd] := deltaE log2pi lnM mu j pS eS oW.
pose D i := L (j |: clean W i) i - L (clean W i :\ j) i.
pose obs : pred 'I_n := [pred i | isSome (X i j)].
have hd' i : d i = if obs i then Fin (D i) else PInf by rewrite hd.
exists (set_column W j (good_cells d (q 0 j) h)) => //; split.
- move=> i k; rewrite mxE; case: eqP => [->|_]; last exact: oW.
  by move/(good_obs hd' (hcol j)).
- rewrite /n_clean (@eq_card _ _ (mem (good_cells d (q 0 j) h))); last by move=> i; rewrite !inE mxE eqxx.
  by rewrite (card_uniqP _) ?good_uniq //; exact: good_size (hcol j).
- by move=> i k /negbTE nk; rewrite mxE nk.
- move=> W1 o1 h1 e1.
  have -> : W1 = with_column W j (fun i => W1 i j).
    by apply/matrixP => i k; rewrite mxE; case: eqP => [-> //|/eqP /e1].
  rewrite set_columnE !penalised_column ler_add2l.
  have := good_optimal (q 0 j) hd' (hcol j) (v := fun i => W1 i j); apply.
    by move=> i /o1.
  by move: h1; rewrite /n_clean => /leq_trans; apply; apply: eq_leq; apply: eq_card => i; rewrite inE.
Qed.

Lemma update_loopE js W : observed X W -> (forall j, (h <= n_clean W j)%N) ->
  exists2 W', update_loop ln log2pi X sigma sigma_inv mu q h js W = Ok W'
  & [/\ observed X W', forall j, (h <= n_clean W' j)%N & pen W' <= pen W].
Proof.
elim: js W => [|j js IH] W oW hW /=; first by exists W.
have [W1] := column_update j oW.
case: (calculate_delta _ _ _ _ _ _ _ _) => //= d [<-] [o1 h1 e1 op1].
set W2 := set_column W j _ in o1 h1 e1 op1 *.
have [|k|W' -> [o' h' l']] := IH W2; first by [].
  have [->|nk] := eqVneq k j; first exact: h1.
  apply: leq_trans (hW k) _; apply: subset_leq_card; apply/subsetP => i; rewrite !inE.
  by rewrite e1.
exists W' => //; split=> //; apply: le_trans l' _; exact: op1.
Qed.

Lemma update_WE W : observed X W -> (forall j, (h <= n_clean W j)%N) ->
  exists2 W', update_W ln log2pi X W mu sigma sigma_inv q h = Ok W'
  & [/\ observed X W', forall j, (h <= n_clean W' j)%N & pen W' <= pen W].
Proof. exact: update_loopE. Qed.

End Update.
