(* More about the cellwise MCD: columns after an update, multiples of the identity, a rejected step. *)
From mathcomp Require Import all_ssreflect all_algebra perm.
From mathcomp.zify Require Import zify.
From mathcomp.algebra_tactics Require Import ring.
From Verif Require Import RFieldLra Prelude Stats Xnum RatFloor Vec PSD LinAlg_Model LinAlg_Proofs.
From Verif Require Import MCD_Model MCD_Spec MCD_Proofs OGK_Model OGK_Proofs Cov_Model Cov_Spec Cov_Proofs.
From Verif Require Import Gauss_Proofs CellMCD_Model CellMCD_Spec CellMCD_Proofs CellMCD_Step_Proofs CellMCD_Loop_Proofs.

Set Implicit Arguments.
Unset Strict Implicit.
Unset Printing Implicit Defensive.

Import Order.TTheory GRing.Theory Num.Theory.
Local Open Scope ring_scope.

Section Columns.
Variables (T : rcfType) (n p : nat) (ln : T -> T) (log2pi : T).
Variables (X : 'M[option T]_(n, p)) (sigma sigma_inv : 'M[T]_p) (mu q : 'rV[T]_p) (h : nat).
Hypothesis hn : (h <= n)%N.

Lemma good_cells_size (d : 'I_n -> xnum T) qj : (h <= size (good_cells d qj h))%N /\ uniq (good_cells d qj h).
Proof.
rewrite /good_cells; case: ltnP => hg; last by split=> //; exact: filter_uniq (enum_uniq _).
split; last by rewrite take_uniq // sort_uniq enum_uniq.
by rewrite size_take size_sort size_enum_ord; case: ltnP => //; lia.
Qed.

Lemma update_loop_cols js W W' : uniq js ->
  update_loop ln log2pi X sigma sigma_inv mu q h js W = Ok W' ->
  (forall j, j \in js -> (h <= n_clean W' j)%N) /\ (forall i j, j \notin js -> W' i j = W i j).
Proof.
elim: js W => [|j js IH] W /=; first by move=> _ [<-].
case/andP => nj ujs; case: (calculate_delta _ _ _ _ _ _ _ _) => //= d /(IH _ ujs) [h1 h2]; split.
  move=> k; rewrite inE => /orP[/eqP -> {k}|/h1 //].
  have [sz uz] := good_cells_size d (q 0 j); apply: leq_trans sz _.
  rewrite -(card_uniqP uz); apply: subset_leq_card; apply/subsetP => i hi.
  by rewrite inE h2 // mxE eqxx.
by move=> i k; rewrite inE negb_or => /andP[nk kj]; rewrite h2 // mxE (negbTE nk).
Qed.

(* every column keeps h ones, whatever the estimates *)
Lemma update_W_cols W W' : update_W ln log2pi X W mu sigma sigma_inv q h = Ok W' ->
  forall j, (h <= n_clean W' j)%N.
Proof.
move=> hU j; have [] // := update_loop_cols _ hU; first by rewrite sort_uniq enum_uniq.
by move=> hj _; apply: hj; rewrite mem_sort mem_enum.
Qed.

(* a column with fewer than h observed cells gets a missing cell declared clean *)
Lemma update_W_missing W W' j : update_W ln log2pi X W mu sigma sigma_inv q h = Ok W' ->
  (#|[pred i | isSome (X i j)]| < h)%N -> exists2 i, W' i j & X i j = None.
Proof.
move=> hU hj; have hc := update_W_cols hU j.
have /subsetPn[i] : ~~ ([set i | W' i j] \subset [set i | isSome (X i j)]).
  apply/negP => /subset_leq_card hs; have : (n_clean W' j < h)%N; last by rewrite ltnNge hc.
  apply: leq_ltn_trans hs _; apply: leq_ltn_trans hj; apply: eq_leq; apply: eq_card => i; by rewrite !inE.
by rewrite !inE => wi ni; exists i => //; case: (X i j) ni.
Qed.

Hypothesis lnM : forall a b, 0 < a -> 0 < b -> ln (a * b) = ln a + ln b.
Hypothesis pS : spd sigma.
Hypothesis eS : sigma *m sigma_inv = 1%:M.
Hypothesis hcol : forall j, (h <= #|[pred i | isSome (X i j)]|)%N.
Local Notation pen W := (penalised ln log2pi q X W mu sigma).

(* the final column j comes from an optimal update *)
Lemma update_loop_opt js W W' j : uniq js -> j \in js -> observed X W ->
  update_loop ln log2pi X sigma sigma_inv mu q h js W = Ok W' ->
  exists2 W1 : 'M[bool]_(n, p), (forall i, W1 i j = W' i j)
  & forall W2 : 'M[bool]_(n, p), observed X W2 -> (h <= n_clean W2 j)%N -> (forall i k, k != j -> W2 i k = W1 i k) ->
    pen W1 <= pen W2.
Proof.
elim: js W => [|k js IH] W //=; case/andP => nk ujs; rewrite inE => hj oW.
have [W1] := column_update log2pi lnM mu q pS eS hcol k oW.
case: (calculate_delta _ _ _ _ _ _ _ _) => //= d [<-] [o1 h1 e1 op1] hU.
case/orP: hj => [/eqP ej|hj]; last exact: (IH _ ujs hj o1 hU).
subst k; have [_ ec] := update_loop_cols ujs hU.
exists (set_column W j (good_cells d (q 0 j) h)); first by move=> i; rewrite ec.
by move=> W2 o2 h2 e2; apply: op1 => // i k kj; rewrite e2 // e1.
Qed.

End Columns.

Section Scalar.
Variables (T : rcfType) (n p : nat) (ln : T -> T) (log2pi : T).
Hypothesis lnM : forall a b, 0 < a -> 0 < b -> ln (a * b) = ln a + ln b.
Hypothesis ln_le : forall a, 0 < a -> ln a <= a - 1.

Lemma quad_scalar m (c : T) (d : 'rV[T]_m) : (d *m c%:M *m d^T) 0 0 = c * dotv d d.
Proof. by rewrite mul_mx_scalar -scalemxAl mxE dotvE. Qed.

Lemma scalar_spd m (c : T) : 0 < c -> spd (c%:M : 'M[T]_m).
Proof.
move=> c0; split=> [|x x0]; first by rewrite tr_scalar_mx.
by rewrite quad_scalar mulr_gt0 // dotv_gt0.
Qed.

Lemma neg2loglik_scalar (c : T) (A : {set 'I_p}) mu x : 0 < c ->
  neg2loglik ln log2pi A c%:M mu x = \sum_(k in A) ((x 0 k - mu 0 k) ^+ 2 / c + ln c + log2pi).
Proof.
move=> c0.
have -> : neg2loglik ln log2pi A c%:M mu x = gterm ln log2pi (pos (enum A)) c%:M mu x.
  by apply: neg2loglikE; rewrite ?enum_uniq //; [exact: scalar_spd|move=> k; rewrite mem_enum].
have us := enum_uniq (mem A).
have fi := pos_inj us; have fA : codom (pos (enum A)) =i A by move=> k; rewrite mem_pos mem_enum.
have sz : size (enum A) = #|A| by rewrite cardE.
rewrite /gterm (_ : mxsub _ _ _ = c%:M); last by apply/matrixP => a b; rewrite !mxE (inj_eq fi).
rewrite det_scalar (lnX lnM) // invmx_scalar quad_scalar.
have -> : dotv (colsub (pos (enum A)) x - colsub (pos (enum A)) mu) (colsub (pos (enum A)) x - colsub (pos (enum A)) mu)
   = \sum_(k in A) (x 0 k - mu 0 k) ^+ 2.
  rewrite (sum_codom _ fi fA) dotvE mxE; apply: eq_bigr => a _; by rewrite !mxE expr2.
have nE : ((size (enum A))%:R : T) = #|A|%:R by rewrite sz.
rewrite nE; move: (#|A|) (@sumr_const T _ (mem A)) => N hc.
rewrite big_split big_split /= !hc [c^-1 * _]mulrC big_distrl /= -[ln c *+ N]mulr_natl -[log2pi *+ N]mulr_natl.
by rewrite [log2pi * _]mulrC.
Qed.

Lemma embed m (f : 'I_m -> 'I_p) (x : 'rV[T]_m) : injective f ->
  exists y : 'rV[T]_p, forall A : 'M[T]_p, (x *m mxsub f f A *m x^T) 0 0 = (y *m A *m y^T) 0 0.
Proof.
move=> fi; exists (\row_k \sum_(a | f a == k) x 0 a) => A; set y := \row_k _.
have sumy (F : 'I_p -> T) : \sum_k y 0 k * F k = \sum_a x 0 a * F (f a).
  under eq_bigr => k _ do rewrite mxE big_distrl /=.
  rewrite (exchange_big_dep predT) //=; apply: eq_bigr => a _.
  by rewrite (big_pred1 (f a)) // => k; rewrite eq_sym.
have sumy' (F : 'I_p -> T) : \sum_k F k * y 0 k = \sum_a F (f a) * x 0 a.
  by under eq_bigr => k _ do rewrite mulrC; rewrite sumy; apply: eq_bigr => a _; rewrite mulrC.
rewrite !mxE; under [RHS]eq_bigr => k _ do rewrite [y^T _ _]mxE.
rewrite sumy'; apply: eq_bigr => a _; rewrite [x^T _ _]mxE; congr (_ * _).
by rewrite !mxE sumy; apply: eq_bigr => b _; rewrite mxE.
Qed.

Lemma geI_sub m (f : 'I_m -> 'I_p) (a : T) S : injective f -> geI a S -> geI a (mxsub f f S).
Proof.
move=> fi gS x; have [y hy] := embed x fi; rewrite hy.
have -> : (x *m x^T) 0 0 = (y *m y^T) 0 0; last exact: gS.
rewrite -{1}[y]mulmx1 -hy; have -> : mxsub f f (1%:M : 'M[T]_p) = 1%:M; last by rewrite mulmx1.
by apply/matrixP => i j; rewrite !mxE (inj_eq fi).
Qed.

Lemma dotv_delta m (i : 'I_m) : dotv (delta_mx 0 i : 'rV[T]_m) (delta_mx 0 i) = 1.
Proof. by rewrite dotvE trmx_delta mul_delta_mx mxE !eqxx. Qed.

Lemma neg2loglik_lower (a : T) (A : {set 'I_p}) S mu x : 0 < a -> spd S -> geI a S ->
  \sum_(k in A) (ln a + log2pi) <= neg2loglik ln log2pi A S mu x.
Proof.
move=> a0 pS gS; rewrite /neg2loglik.
have fi := @enum_val_inj _ (mem A).
have eA : sub_mat A S = mxsub (@enum_val _ (mem A)) (@enum_val _ (mem A)) S by apply/matrixP => k l; rewrite !mxE.
have pA : spd (sub_mat A S) by rewrite eA; exact: spd_sub.
have gA : geI a (sub_mat A S).
  by rewrite eA; exact: geI_sub.
have hl := logdet_le lnM ln_le pA (scalar_spd #|A| a0).
have tr : \tr (invmx (sub_mat A S) *m (a%:M : 'M_(#|A|))) <= #|A|%:R.
  rewrite mul_mx_scalar mxtraceZ -ler_pdivl_mull // /mxtrace.
  apply: le_trans (_ : \sum_(i < #|A|) a^-1 <= _); last by rewrite sumr_const card_ord mulr_natr.
  apply: ler_sum => i _; have := inv_le (delta_mx 0 i) a0 pA gA.
  have dd : ((delta_mx 0 i : 'rV[T]_#|A|) *m (delta_mx 0 i : 'rV[T]_#|A|)^T) 0 0 = 1.
    by rewrite -dotvE dotv_delta.
  rewrite -rowE dd; suff -> : (row i (invmx (sub_mat A S)) *m (delta_mx 0 i : 'rV[T]_#|A|)^T) 0 0 = invmx (sub_mat A S) i i by rewrite mulr1.
  by rewrite trmx_delta -colE !mxE.
rewrite det_scalar (lnX lnM) // in hl.
have qd : 0 <= (sub_vec A (x - mu) *m invmx (sub_mat A S) *m (sub_vec A (x - mu))^T) 0 0.
  by have [_] := spd_psd (spd_inv pA); exact.
rewrite sumr_const -[(ln a + log2pi) *+ _]mulr_natl mulrDr [_ * log2pi]mulrC ler_add2r.
move: hl tr qd; move: (\tr _) (ln (\det _)) (fun_of_matrix _ _ _) (_ * ln a) => u v w z.
move: (#|A|%:R : T) => m; flra.
Qed.

End Scalar.

Lemma c_loop_reject (T : rcfType) n p (ln : T -> T) log2pi eigh as_ (X : 'M[option T]_(n, p)) q h crit a left m r old cur conv objs W e v :
  crit < conv -> pure_step ln log2pi eigh as_ X q h a (m r) old = Ok (W, e, v) -> xlt (head NaN objs) v ->
  c_loop ln log2pi eigh as_ X q h crit a left.+1 m r old cur conv objs = Ok (old, W, objs).
Proof.
move=> hc; rewrite /pure_step /= hc /C_step.
case: (update_W _ _ _ _ _ _ _ _ _) => [W'| |] //=.
case: (m_step _ _ _ _ _) => [[mu1 S1]| |] //=; case: (np_inv _) => [I| |] //=.
have hr : hset m r W' r = W' by rewrite /hset eqxx.
by rewrite !hr; case: (objective _ _ _ _ _ _ _ _) => [v'| |] //= [<- _ ->] ->.
Qed.

Lemma pure_step_W (T : rcfType) n p (ln : T -> T) log2pi eigh as_ (X : 'M[option T]_(n, p)) q h a W old W' e v :
  pure_step ln log2pi eigh as_ X q h a W old = Ok (W', e, v) ->
  update_W ln log2pi X W (e_mu old) (e_sigma old) (e_inv old) q h = Ok W'.
Proof.
rewrite /pure_step; case: (update_W _ _ _ _ _ _ _ _ _) => [W1| |] //=.
case: (m_step _ _ _ _ _) => [[mu1 S1]| |] //=; case: (np_inv _) => [I| |] //=.
by case: (objective _ _ _ _ _ _ _ _) => [v'| |] //= [->].
Qed.

Lemma column_order_uniq n p (W : 'M[bool]_(n, p)) : uniq (column_order W).
Proof. by rewrite sort_uniq enum_uniq. Qed.

Lemma mem_column_order n p (W : 'M[bool]_(n, p)) j : j \in column_order W.
Proof. by rewrite mem_sort mem_enum. Qed.

Section Rejected.
Variables (T : rcfType) (ln : T -> T) (log2pi : T).
Hypothesis lnM : forall a b, 0 < a -> 0 < b -> ln (a * b) = ln a + ln b.
Hypothesis ln_le : forall a, 0 < a -> ln a <= a - 1.
Variables (eigh : 'M[T]_2 -> 'rV[T]_2 * 'M[T]_2) (as_ : 'rV[T]_2 -> 'I_2 -> 'I_2).
Hypothesis He : correct_eigh eigh.
Hypothesis Ha : forall w, injective (as_ w).
Variables (a chi99 : T).
Hypothesis a0 : 0 < a.
Hypothesis chi_ge : 1 / 2%:R <= chi99.

Local Notation c := (a / 2%:R).
Let c0 : 0 < c. Proof. by rewrite divr_gt0 ?ltr0n. Qed.

(* one cell a little above the threshold, nine zeros *)
Definition rejX : 'M[option T]_(5, 2) :=
  \matrix_(i, k) Some (if (i == 0) && (k == 0) then Num.sqrt (c * (chi99 + 1)) else 0).

Definition rej0 : est T 2 := Est 0 c%:M (c^-1)%:M.

Local Notation K := (ln c + log2pi).
Local Notation q := (q_vec ln log2pi chi99 (e_inv rej0)).

Lemma ln2_ge : ln a = ln 2%:R + ln c /\ 1 / 2%:R <= ln 2%:R.
Proof.
have two : (0 : T) < 2%:R by rewrite ltr0n.
split; first by rewrite -lnM //; congr (ln _); rewrite mulrC divfK // gt_eqF.
have h0 : (0 : T) < 1 / 2%:R by rewrite divr_gt0 ?ltr01.
have := ln_le h0; have := lnM two h0; rewrite mulrC divfK ?gt_eqF // (ln1 lnM).
move: (ln 2%:R) (ln (1 / 2%:R)) => u v; flra.
Qed.

Lemma rej_q k : q 0 k = chi99 + K.
Proof.
rewrite mxE /= mxE eqxx mulr1n.
have ci : 0 < c^-1 by rewrite invr_gt0.
have := lnM c0 ci; rewrite mulfV ?gt_eqF // (ln1 lnM) => h.
have -> : ln c^-1 = - ln c by move: h; move: (ln _) (ln _) => u v; flra.
by rewrite opprK addrA.
Qed.

Lemma rej_val i k : (vals rejX i 0 k) ^+ 2 / c = if (i == 0) && (k == 0) then chi99 + 1 else 0.
Proof.
rewrite !mxE /=; case: ifP => _; last by rewrite expr0n mul0r.
have chi0 : 0 <= chi99 + 1 by move: chi_ge; flra.
have chi1 : 0 <= c * (chi99 + 1) by apply: mulr_ge0 => //; exact: ltW.
by rewrite (sqr_sqrtr chi1) mulrC mulKf // gt_eqF.
Qed.

Lemma pen_scalar (W : 'M[bool]_(5, 2)) : penalised ln log2pi q rejX W 0 c%:M
  = \sum_i \sum_k (if W i k then (if (i == 0) && (k == 0) then chi99 + 1 else 0) + K else chi99 + K).
Proof.
rewrite /penalised -big_split /=; apply: eq_bigr => i _.
rewrite neg2loglik_scalar // [in RHS](bigID (W i)) /=; congr (_ + _).
  apply: eq_big => [k|k wk]; first by rewrite inE.
  by rewrite inE in wk; rewrite wk -rej_val [(0 : 'rV__) _ _]mxE subr0 addrA.
by apply: eq_bigr => k /negbTE ->; rewrite rej_q.
Qed.

Lemma rej_W (W1 : 'M[bool]_(5, 2)) : (forall W2 : 'M[bool]_(5, 2), observed rejX W2 -> (4 <= n_clean W2 (0 : 'I_2)%R)%N ->
     (forall i k, k != 0 -> W2 i k = W1 i k) ->
     penalised ln log2pi q rejX W1 0 c%:M <= penalised ln log2pi q rejX W2 0 c%:M) ->
  W1 0 0 = false.
Proof.
move=> opt; apply/negbTE/negP => w1.
pose W2 : 'M[bool]_(5, 2) := \matrix_(i, k) if k == 0 then i != 0 else W1 i k.
have o2 : observed rejX W2 by move=> i k _; rewrite mxE.
have h2 : (4 <= n_clean W2 (0 : 'I_2)%R)%N.
  rewrite /n_clean (_ : [set i | W2 i 0] = ~: [set 0]); last by apply/setP => i; rewrite !inE mxE.
  by rewrite cardsC1 card_ord.
have e2 : forall i k, k != 0 -> W2 i k = W1 i k by move=> i k /negbTE nk; rewrite mxE nk.
have := opt W2 o2 h2 e2; rewrite !pen_scalar; apply/negP; rewrite -ltNge [X in _ < X](bigD1 0) //= [X in X < _](bigD1 0) //=.
apply: ltr_le_add.
  rewrite (bigD1 0) //= [X in _ < X](bigD1 0) //= !mxE /= w1; apply: ltr_le_add.
    by move: chi_ge; move: (ln _) => u; flra.
  by apply: ler_sum => k /negbTE nk; rewrite mxE nk.
apply: ler_sum => i /negbTE ni; apply: ler_sum => k _; rewrite mxE ni /=.
have [nk|nk] := altP (k =P 0); last exact: lexx.
by case: ifP => _ //; move: chi_ge; move: (ln _) => u; flra.
Qed.

Lemma pen_lower (W : 'M[bool]_(5, 2)) mu S : spd S -> geI a S ->
  \sum_i \sum_k (if W i k then ln a + log2pi else chi99 + K) <= penalised ln log2pi q rejX W mu S.
Proof.
move=> pS gS; rewrite /penalised -big_split /=; apply: ler_sum => i _.
rewrite (bigID (W i)) /=; apply: ler_add.
  have := neg2loglik_lower log2pi lnM ln_le (clean W i) mu (vals rejX i) a0 pS gS.
  by under eq_bigl => k do rewrite inE; apply: le_trans; apply: ler_sum => k ->.
by apply: ler_sum => k /negbTE ->; rewrite rej_q.
Qed.

Lemma rej_lt (W : 'M[bool]_(5, 2)) : W 0 0 = false ->
  \sum_i \sum_k (if initial_W rejX i k then (if (i == 0) && (k == 0) then chi99 + 1 else 0) + K else chi99 + K)
  < \sum_i \sum_k (if W i k then ln a + log2pi else chi99 + K).
Proof.
move=> w0; have [-> l2] := ln2_ge.
have -> : \sum_i \sum_k (if initial_W rejX i k then (if (i == 0) && (k == 0) then chi99 + 1 else 0) + K else chi99 + K)
   = \sum_(i < 5) \sum_(k < 2) ((if (i == 0) && (k == 0) then chi99 + 1 else 0) + K).
  by apply: eq_bigr => i _; apply: eq_bigr => k _; rewrite !mxE.
have [G GE] : {G : bool -> T | forall b, (if b then ln 2%:R + ln c + log2pi else chi99 + K) = G b} by eexists.
have lo (b : bool) : 1 / 2%:R + K <= G b.
  by rewrite -GE; case: b; move: l2 chi_ge; move: (ln 2%:R) (ln _) => u v; flra.
under [X in _ < X]eq_bigr => i _ do under eq_bigr => k _ do rewrite GE.
rewrite !big_ord_recl !big_ord0 /=.
have z : (ord0 : 'I_5) = 0 by []. have z2 : (ord0 : 'I_2) = 0 by [].
have g0 : G (W ord0 ord0) = chi99 + K by rewrite z z2 w0 -GE.
rewrite g0.
do 9! match goal with |- context [G ?b] => generalize (lo b); generalize (G b); intros ? ? end.
move: chi_ge; flra.
Qed.

Lemma rejected (crit : T) m : crit < 1 ->
  exists W, [/\ C_steps_until_convergence ln log2pi eigh as_ rejX (3%:R / 4%:R) chi99 crit a m.+1 rej0
      = Ok (rej0, W, [:: Fin (penalised ln log2pi q rejX (initial_W rejX) (e_mu rej0) (e_sigma rej0))]), W 0 0 = false & initial_W rejX 0 0].
Proof.
move=> c1; have h4 : py_round (3%:R / 4%:R * 5%:R) = 4%N by [].
have pS : spd (e_sigma rej0) by exact: scalar_spd.
have eS : e_sigma rej0 *m e_inv rej0 = 1%:M.
  by rewrite /= -scalar_mxM mulfV // gt_eqF.
have hc j : (4 <= #|[pred i | isSome (rejX i j)]|)%N.
  rewrite (@eq_card _ _ predT) ?card_ord // => i; by rewrite !inE mxE.
have gW := initial_W_good hc; have [oW _] := gW.
have [W' [e' [eP gW' ge _]]] := pure_stepE log2pi lnM ln_le He Ha q a0 pS eS gW.
have hU := pure_step_W eP.
have [W1 e1 opt] := update_loop_opt (isT : (4 <= 5)%N) lnM pS eS hc (column_order_uniq _) (mem_column_order _ 0) oW hU.
have w00 : W' 0 0 = false.
  by rewrite -e1; apply: rej_W => W2 o2 h2 e2; apply: opt.
exists W'; split=> //; last by rewrite !mxE.
rewrite /C_steps_until_convergence h4 (objectiveE _ _ _ pS eS oW).
apply: (@c_loop_reject _ _ _ _ _ _ _ _ _ _ _ _ _ (fun=> initial_W rejX) 0%N _ _ _ _ _ _ _ c1 eP) => /=.
have [pS' gS' _] := ge; apply: lt_le_trans (pen_lower _ _ pS' gS').
rewrite pen_scalar; exact: rej_lt.
Qed.

End Rejected.
