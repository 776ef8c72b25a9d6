(* Lemmas: the preliminary estimates of DetMCD. *)
From mathcomp Require Import all_ssreflect all_algebra.
From mathcomp.zify Require Import zify.
From mathcomp.algebra_tactics Require Import ring.
From Verif Require Import RFieldLra Prelude Stats Xnum Qn_Model Qn_Spec Qn_Proofs Tau_Model Tau_Proofs Regr Vec
  LinAlg_Model LinAlg_Proofs PSD MCD_Model MCD_Spec MCD_Proofs MCDRun_Proofs MCDEquiv_Proofs
  OGK_Model OGK_Spec OGK_Proofs Cov_Model Cov_Spec Cov_Proofs DetMCD_Model DetMCD_Spec.

Set Implicit Arguments.
Unset Strict Implicit.
Unset Printing Implicit Defensive.

Import Order.TTheory GRing.Theory Num.Theory.
Local Open Scope ring_scope.

Section Scales.
Variable T : rcfType.
Implicit Types (s : seq T).

Lemma qn_of_affine : scale_equivariant (@qn_of T).
Proof.
move=> a b s h0 a0; rewrite /qn_of; case: (ltnP 1 (size s)) => [h1|h1].
  by have [q [_ -> ->]] := qn_scale_affine true true a b h1; rewrite gtr0_norm.
by rewrite !qn_scale_small ?size_map // mulr0.
Qed.

Lemma qn_of_ge0 s : 0 <= qn_of s.
Proof.
rewrite /qn_of; case: (ltnP 1 (size s)) => [h1|h1]; last by rewrite qn_scale_small.
by have [q [h -> _]] := qn_scale_affine true true 1 0 h1.
Qed.

Lemma qn_of_const s (c : T) : (forall x, x \in s -> x = c) -> qn_of s = 0.
Proof.
move=> h; rewrite /qn_of; case: (ltnP 1 (size s)) => [h1|h1]; last by rewrite qn_scale_small.
have -> : s = [seq 0 * x + c | x <- s].
  by rewrite -[LHS]map_id; apply/eq_in_map => x /h ->; rewrite mul0r add0r.
have [q [_ _ ->]] := qn_scale_affine true true 0 c h1.
by rewrite normr0 mul0r.
Qed.

Lemma qn_of_zero s : (1 < size s)%N ->
  (qn_of s == 0) = (qn_k (size s) <= count (fun d => d == 0%R) (pair_dists s))%N.
Proof.
move=> h; have [v hv _] := qn_raw_correct h; rewrite -(qn_raw_zero h hv).
rewrite /qn_of (qn_scale_factor true true h hv) mulf_eq0.
by rewrite (gt_eqF (qn_factor_gt0 _ true true h)).
Qed.

Lemma qn_of_uniq s : (1 < size s)%N -> uniq s -> 0 < qn_of s.
Proof.
move=> h u; rewrite lt_def qn_of_ge0 andbT qn_of_zero // -ltnNge.
have [k0 _] := qn_k_bounds h; apply: leq_trans k0.
rewrite ltnS leqn0 -[_ == _]negbK -lt0n -has_count; apply/negP => /hasP[d hd /eqP d0].
move: u hd; rewrite {}d0 {h}; elim: s => //= x s IH /andP[xs us].
rewrite mem_cat => /orP[/mapP[z zs /eqP]|]; last exact: IH.
by rewrite eq_sym normr_eq0 subr_eq0 => /eqP e; move: xs; rewrite e zs.
Qed.

Variable tau_corr : T.

Lemma c1_ok : (1 : T) < 9%:R / 2%:R.
Proof. by rewrite ltr_pdivl_mulr ?ltr0n // mul1r ltr_nat. Qed.

Lemma tau_of_affine : scale_equivariant (tau_of tau_corr).
Proof.
move=> a b s h0 a0; rewrite /tau_of /tau /=.
have [m0|m0] := eqVneq (fmad s) 0.
  have [_ ->] := tau_mad0 (9%:R / 2%:R) 3%:R m0.
  have m1 : fmad [seq a * x + b | x <- s] = 0 by rewrite fmad_affine // m0 mulr0.
  by have [_ ->] := tau_mad0 (9%:R / 2%:R) 3%:R m1; rewrite mul0r mulr0.
have m1 : 0 < fmad s by rewrite lt_def m0 fmad_ge0.
by rewrite (tau_scale_affine c1_ok) ?gt_eqF // gtr0_norm // mulrA.
Qed.

Lemma tau_of_ge0 s : 0 <= tau_of tau_corr s.
Proof.
rewrite /tau_of /tau /=; apply: divr_ge0; last exact: sqrtr_ge0.
by rewrite /tau_raw_scale mulr_ge0 ?fmad_ge0 ?sqrtr_ge0.
Qed.

Lemma tau_of_const s (c : T) : (forall x, x \in s -> x = c) -> tau_of tau_corr s = 0.
Proof.
move=> h; rewrite /tau_of /tau /=.
suff m0 : fmad s = 0 by have [_ ->] := tau_mad0 (9%:R / 2%:R) 3%:R m0; rewrite mul0r.
case: s h => [|x s] h; first by rewrite /fmad /fmed /fsort /= ?addr0 ?mul0r.
have -> : x :: s = [seq 0 * z + c | z <- x :: s].
  by rewrite -[LHS]map_id; apply/eq_in_map => z /h ->; rewrite mul0r add0r.
by rewrite fmad_affine // normr0 mul0r.
Qed.

End Scales.

Section Standardize.
Variables (T : rcfType) (p : nat) (tau_corr : T) (enan : err).
Implicit Types (X Y Z : seq 'rV[T]_p).

Let sc n : seq T -> T := if (n < 1000)%N then @qn_of T else tau_of tau_corr.

Lemma sc_affine n : scale_equivariant (sc n).
Proof. by rewrite /sc; case: ifP => _; [exact: qn_of_affine|exact: tau_of_affine]. Qed.

Lemma sc_ge0 n s : 0 <= sc n s.
Proof. by rewrite /sc; case: ifP => _; [exact: qn_of_ge0|exact: tau_of_ge0]. Qed.

Lemma sc_const n s c : (forall x, x \in s -> x = c) -> sc n s = 0.
Proof. by rewrite /sc; case: ifP => _; [exact: qn_of_const|exact: tau_of_const]. Qed.

Lemma det_scalesE X j : det_scales tau_corr X 0 j = sc (size X) (coln X j).
Proof. by rewrite mxE /sc; case: ifP. Qed.

Definition stdz X : seq 'rV[T]_p :=
  [seq \row_j ((x 0 j - fmed (coln X j)) / det_scales tau_corr X 0 j) | x : 'rV[T]_p <- X].

Lemma standardize_ok X Z : standardize tau_corr enan X = Ok Z <->
  [/\ (1 < size X)%N, (forall j, 0 < det_scales tau_corr X 0 j) & Z = stdz X].
Proof.
rewrite /standardize; case: ltnP => [h|h]; first by split=> // -[]; lia.
case: existsP => [[j /eqP hj]|hn].
  by split=> // -[_ /(_ j)]; rewrite hj ltxx.
have hp j : 0 < det_scales tau_corr X 0 j.
  have := sc_ge0 (size X) (coln X j); rewrite -det_scalesE lt_def => ->; rewrite andbT; apply/negP => e; apply: hn; by exists j.
by split=> [[<-]|[_ _ ->]].
Qed.

Lemma standardize_fails X : ~ (exists Z, standardize tau_corr enan X = Ok Z) ->
  exists e, standardize tau_corr enan X = Err e.
Proof.
rewrite /standardize; case: ifP => _; first by exists ValueError.
by case: ifP => _ h; [exists enan|case: h; eexists].
Qed.

Lemma standardize_aff (c b : 'rV[T]_p) X : (forall j, 0 < c 0 j) ->
  standardize tau_corr enan (aff c b X) = standardize tau_corr enan X.
Proof.
move=> hc; rewrite /standardize size_map; case: ltnP => // h.
have h0 : (0 < size X)%N by exact: leq_trans h.
have es j : det_scales tau_corr (aff c b X) 0 j = c 0 j * det_scales tau_corr X 0 j.
  rewrite !det_scalesE size_map coln_aff sc_affine // /coln size_map //.
have -> : [exists j, det_scales tau_corr (aff c b X) 0 j == 0] = [exists j, det_scales tau_corr X 0 j == 0].
  by apply: eq_existsb => j; rewrite es mulf_eq0 (gt_eqF (hc j)).
case: ifP => // /negbT/existsPn hn; congr Ok; rewrite -map_comp; apply/eq_in_map => x _ /=.
apply/rowP => j; rewrite [LHS]mxE [RHS]mxE es coln_aff fmed_affine; last by rewrite size_map.
rewrite affE; have := hn j; have := hc j.
move: (det_scales _ _ _ _) (c 0 j) (b 0 j) (x 0 j) (fmed _) => s cj bj xj m cp s0.
by field; rewrite s0 gt_eqF.
Qed.

Lemma size_stdz X : size (stdz X) = size X. Proof. exact: size_map. Qed.

Lemma coln_stdz X j : coln (stdz X) j
  = [seq (det_scales tau_corr X 0 j)^-1 * x + (- fmed (coln X j) / det_scales tau_corr X 0 j) | x <- coln X j].
Proof.
rewrite /coln /stdz -!map_comp; apply: eq_map => x /=; rewrite [LHS]mxE.
by rewrite mulrBl mulNr mulrC.
Qed.

(* a standardised column is not constant *)
Lemma stdz_nonconst X Z j : standardize tau_corr enan X = Ok Z ->
  exists z z', [/\ z \in Z, z' \in Z & z 0 j != z' 0 j].
Proof.
move=> /standardize_ok[h hp ->].
have [/allP hc|] := boolP (all (fun x : T => x == head 0 (coln X j)) (coln X j)).
  have := hp j; rewrite det_scalesE (@sc_const _ _ (head 0 (coln X j))) ?ltxx // => x /hc /eqP //.
move=> /allPn[a]; rewrite /coln => /mapP[x xX ->] ne.
case: X h hp xX ne => // x0 X h hp xX /= ne.
set f := fun x : 'rV[T]_p => \row_j ((x 0 j - fmed (coln (x0 :: X) j)) / det_scales tau_corr (x0 :: X) 0 j).
exists (f x), (f x0); split; [exact: (map_f f)|by apply: (map_f f); rewrite mem_head|].
rewrite /f !mxE; apply: contra ne => /eqP e.
have s0 := lt0r_neq0 (hp j).
have : (x 0 j - fmed (coln (x0 :: X) j)) / det_scales tau_corr (x0 :: X) 0 j
     = (x0 0 j - fmed (coln (x0 :: X) j)) / det_scales tau_corr (x0 :: X) 0 j by rewrite [det_scales _ _ _ _]mxE.
by move=> /(divIf s0) /addIr ->.
Qed.

End Standardize.

Section Corr.
Variables (T : rcfType) (p : nat).
Implicit Types (X Y Z : seq 'rV[T]_p).

Lemma corr_matrix (A : 'M[T]_p) : psd A -> (forall j, 0 < A j j) -> correlation_matrix (corr A).
Proof.
move=> pA hp; have ps := corr_psd pA; have d1 j : corr A j j = 1 by exact: corr_diag.
split=> // i j; have [sS qS] := ps; move: (corr A) sS qS d1 => S sS qS d1.
have sij : S j i = S i j by rewrite -{1}sS mxE.
have q (s : T) : 0 <= S i i + s * S j i + s * S i j + s * s * S j j.
  have := qS (delta_mx 0 i + s *: delta_mx 0 j).
  rewrite mulmxDl linearD /= mulmxDr !mulmxDl linearZ /= -!scalemxAl -!scalemxAr scalerA.
  set a := delta_mx 0 i; set b := delta_mx 0 j.
  rewrite [X in 0 <= X]mxE [X in 0 <= X + _]mxE [X in 0 <= _ + X]mxE.
  rewrite [X in 0 <= _ + X + _]mxE [X in 0 <= _ + (X + _)]mxE [X in 0 <= _ + (_ + X)]mxE.
  by rewrite !quad_delta !addrA.
have := q 1; have := q (-1); rewrite !d1 sij; move: (S i j) => v; rewrite !mulr1 !mul1r !mulN1r opprK.
by move=> h1 h2; apply/andP; split; flra.
Qed.


Definition varies Y (j : 'I_p) : Prop :=
  exists (z z' : 'rV[T]_p), [/\ z \in Y, z' \in Y & z 0 j != z' 0 j].

Lemma cov_pos Y j : varies Y j -> 0 < cov Y j j.
Proof.
move=> [z [z' [h h' ne]]]; have h1 : (1 < size Y)%N.
  case: Y h h' => // y [|y' Y] //; rewrite !inE => /eqP ez /eqP ez'.
  by move: ne; rewrite ez ez' eqxx.
have n0 : 0 < ((size Y).-1)%:R :> T by rewrite ltr0n; lia.
have := cov_entry j j h1; set v := cov Y j j; set m := vmean Y 0 j => e.
have [//|v0|v0] := ltgtP 0 v; last first.
- have hz y : y \in Y -> y 0 j = m.
    move=> yY; apply/eqP; rewrite -subr_eq0 -sqrf_eq0 eq_le sqr_ge0 andbT.
    move: e; rewrite -v0 mulr0 => e; rewrite e expr2.
    rewrite (big_rem y) //= ler_addl; apply: sumr_ge0 => i _; exact: sqr_ge0.
  by move: ne; rewrite (hz z) // (hz z') // eqxx.
- have : 0 <= (size Y).-1%:R * v by rewrite e; apply: sumr_ge0 => i _; exact: sqr_ge0.
  by rewrite pmulr_rge0 // leNgt v0.
Qed.

Lemma corrcoef_ok Y : (forall j, varies Y j) -> corrcoef Y = Some (corr (cov Y)).
Proof.
move=> h; rewrite /corrcoef ifF //; apply/negbTE/existsPn => j.
by rewrite gt_eqF // cov_pos.
Qed.

Lemma corrcoef_matrix Y : (forall j, varies Y j) ->
  exists2 S, corrcoef Y = Some S & correlation_matrix S.
Proof.
move=> h; exists (corr (cov Y)); first exact: corrcoef_ok.
by apply: corr_matrix => [|j]; [exact: psd_cov|exact: cov_pos].
Qed.

Lemma varies_map (f : 'rV[T]_p -> 'rV[T]_p) Y j :
  (forall x y, x \in Y -> y \in Y -> x 0 j != y 0 j -> f x 0 j != f y 0 j) ->
  varies Y j -> varies (map f Y) j.
Proof.
move=> hf [z [z' [h h' ne]]]; exists (f z), (f z'); split; [exact: map_f|exact: map_f|exact: hf].
Qed.

End Corr.

Section Ranks.
Variable T : rcfType.
Implicit Types (s : seq T).

Lemma cnt_leE s x : cnt_le s x = (cnt_lt s x + count_mem x s)%N.
Proof.
rewrite /cnt_lt /cnt_le; elim: s => //= y s ->; rewrite le_eqVlt.
by case: (ltgtP y x) => //= _; lia.
Qed.

Lemma cnt_lt_le s x : x \in s -> (cnt_lt s x < cnt_le s x)%N.
Proof.
by move=> hx; rewrite cnt_leE -[X in (X < _)%N]addn0 ltn_add2l -has_count has_pred1.
Qed.

Lemma cnt_le_lt s x y : x < y -> (cnt_le s x <= cnt_lt s y)%N.
Proof. by move=> h; apply: sub_count => z /= hz; exact: le_lt_trans hz h. Qed.

Lemma avg_rank_lt s x y : x \in s -> y \in s -> x < y -> avg_rank s x < avg_rank s y.
Proof.
move=> hx hy h; rewrite /avg_rank ltr_pmul2r ?invr_gt0 ?ltr0n // ltr_nat.
have := cnt_lt_le hx; have := cnt_lt_le hy; have := cnt_le_lt s h; lia.
Qed.

Lemma avg_rank_range s x : x \in s -> 1 <= avg_rank s x <= (size s)%:R.
Proof.
move=> hx; rewrite /avg_rank ler_pdivl_mulr ?ltr0n // ler_pdivr_mulr ?ltr0n // mul1r -natrM !ler_nat.
have := cnt_lt_le hx; have : (cnt_le s x <= size s)%N by exact: count_size.
lia.
Qed.

Lemma score_arg_range n (r : T) : (0 < n)%N -> 1 <= r <= n%:R -> (0 : T) < score_arg n r < 1.
Proof.
move=> n0 /andP[h1 h2]; rewrite /score_arg.
have n1 : (1 : T) <= n%:R by rewrite (ler_nat _ 1).
have d0 : 0 < n%:R + 1 / 3%:R :> T by flra.
rewrite divr_gt0 //=; last by flra.
by rewrite ltr_pdivr_mulr // mul1r; flra.
Qed.

Lemma score_arg_lt n (r r' : T) : r < r' -> (score_arg n r : T) < score_arg n r'.
Proof.
move=> h; rewrite /score_arg ltr_pmul2r ?ltr_add2r // invr_gt0.
have n0 : (0 : T) <= n%:R by exact: ler0n.
by move: (n%:R : T) n0 => m n0; flra.
Qed.

(* the average of the places *)
Lemma sum_places (a b : nat) : (a <= b)%N ->
  (\sum_(a <= i < b) i.+1).*2 = ((b - a) * (a + b + 1))%N.
Proof.
have e k : (\sum_(a <= i < a + k) i.+1).*2 = (k * (a + (a + k) + 1))%N.
  elim: k => [|k IH]; first by rewrite addn0 big_geq.
  rewrite addnS big_nat_recr ?leq_addr //= doubleD IH; nia.
by move=> h; have := e (b - a)%N; rewrite subnKC.
Qed.

Lemma avg_rank_place s x : average_place s x (avg_rank s x).
Proof.
rewrite /average_place.
set t := sort <=%R s; have ss : sorted <=%R t by exact: (sort_sorted le_total).
have pt : perm_eq t s by rewrite perm_sort.
have cl : cnt_lt t x = cnt_lt s x by apply/permP.
have ce : cnt_le t x = cnt_le s x by apply/permP.
have hab : (cnt_lt s x <= cnt_le s x)%N by apply: sub_count => y /= /ltW.
have cm : count_mem x s = (cnt_le s x - cnt_lt s x)%N.
  by rewrite cnt_leE addKn.
have es (i : nat) : (i < size s)%N -> (nth 0 t i == x) = (cnt_lt s x <= i < cnt_le s x)%N.
  move=> hi; have hi' : (i < size t)%N by rewrite (perm_size pt).
  by rewrite eq_le (sorted_nth_le _ ss hi') leNgt (sorted_nth_lt _ ss hi') cl ce -leqNgt andbC.
have -> : \sum_(i < size s | nth 0 t i == x) (i.+1)%:R
        = (\sum_(cnt_lt s x <= i < cnt_le s x) i.+1)%:R :> T.
  rewrite natr_sum big_mkcond /= -(big_mkord xpredT (fun i => if nth 0 t i == x then (i.+1)%:R else 0)).
  have hb : (cnt_le s x <= size s)%N by exact: count_size.
  rewrite (@big_cat_nat _ _ _ (cnt_lt s x)) //=; last exact: leq_trans hab hb.
  rewrite (@big_cat_nat _ _ _ (cnt_le s x) (cnt_lt s x)) //=.
  rewrite big_nat_cond big1 ?add0r; last first.
    by move=> i /andP[/andP[_ hi] _]; rewrite es ?ifF //; [apply/negbTE; lia|lia].
  rewrite [X in _ + X]big_nat_cond [X in _ + X]big1 ?addr0; last first.
    by move=> i /andP[/andP[hi hi'] _]; rewrite es ?ifF //; apply/negbTE; lia.
  by apply: eq_big_nat => i /andP[h1 h2]; rewrite es ?h1 ?h2 //; lia.
rewrite cm /avg_rank; have := sum_places hab; set w := (\sum_(_ <= i < _) _)%N => ew.
have -> : (w%:R : T) = (w.*2)%:R / 2%:R by rewrite -muln2 natrM mulfK // pnatr_eq0.
by rewrite ew natrM mulrAC; congr (_ / _); rewrite mulrC.
Qed.

End Ranks.

Section Prelim.
Variables (T : rcfType) (p : nat).
Variables (tanh ppf : T -> T).
Variable argsort : seq (xnum T) -> seq nat.
Variable eigvecs : 'M[T]_p -> 'M[T]_p.
Variable enan : err.
Implicit Types (X Y Z : seq 'rV[T]_p).

Lemma S1_matrix Z : injective tanh -> (forall j, varies Z j) ->
  exists2 S, S1 tanh Z = Some S & correlation_matrix S.
Proof.
move=> ti hv; apply: corrcoef_matrix => j; apply: varies_map (hv j) => x y _ _.
by rewrite !mxE; apply: contra => /eqP/ti ->.
Qed.

Lemma mem_coln Z (z : 'rV[T]_p) j : z \in Z -> z 0 j \in coln Z j.
Proof. by move=> h; apply: (map_f (fun z : 'rV[T]_p => z 0 j)). Qed.

Lemma size_ranks Z : size (ranks Z) = size Z. Proof. exact: size_map. Qed.

Lemma varies_ranks Z j : varies Z j -> varies (ranks Z) j.
Proof.
apply: varies_map => x y hx hy; rewrite !mxE => ne.
have [lt|lt|e] := ltgtP (x 0 j) (y 0 j); last by move: ne; rewrite e eqxx.
- by rewrite lt_eqF // avg_rank_lt ?mem_coln.
- by rewrite gt_eqF // avg_rank_lt ?mem_coln.
Qed.

Lemma S2_matrix Z : (forall j, varies Z j) -> exists2 S, S2 Z = Some S & correlation_matrix S.
Proof. by move=> hv; apply: corrcoef_matrix => j; exact: varies_ranks. Qed.

Lemma ranks_range Z r j : r \in ranks Z -> 0 < score_arg (size Z) (r 0 j) < 1.
Proof.
move=> /mapP[z zZ ->]; rewrite mxE; apply: score_arg_range.
  by case: Z zZ.
by have := avg_rank_range (mem_coln j zZ); rewrite size_map.
Qed.

Lemma S3_matrix Z : increasing01 ppf -> (forall j, varies Z j) ->
  exists2 S, S3 ppf Z = Some S & correlation_matrix S.
Proof.
move=> hi hv; apply: corrcoef_matrix => j; apply: varies_map (varies_ranks (hv j)) => x y hx hy.
have /andP[x0 x1] := ranks_range j hx; have /andP[y0 y1] := ranks_range j hy.
rewrite !mxE => ne.
have [lt|lt|e] := ltgtP (x 0 j) (y 0 j); last by move: ne; rewrite e eqxx.
- by rewrite lt_eqF // hi // score_arg_lt.
- by rewrite gt_eqF // hi // score_arg_lt.
Qed.

Lemma S4_none Z : S4 Z = None <-> exists2 z, z \in Z & z = 0.
Proof.
rewrite /S4; case: hasP => [[z hz /eqP h]|hn]; split=> //.
- by move=> _; exists z => //; apply/eqP; rewrite -vnorm_eq0 h.
- by move=> [z hz z0]; case: hn; exists z => //; rewrite z0 vnorm_eq0.
Qed.

Lemma S4_trace Z S : (0 < size Z)%N -> S4 Z = Some S -> psd S /\ \tr S = 1.
Proof.
move=> h0; rewrite /S4; case: hasP => // hn [<-]; split.
  apply: psd_scale; first by rewrite invr_ge0 ler0n.
  apply: psd_sum => w; exact: psd_gram.
rewrite mxtraceZ linear_sum big_map big_seq.
rewrite (eq_bigr (fun _ => 1)).
  rewrite -big_seq big_const_seq count_predT iter_addr_0 mulVf // pnatr_eq0; lia.
move=> z hz /=; rewrite mxtrace_mulC.
have v0 : vnorm z != 0 by apply/negP => h; apply: hn; exists z.
rewrite linearZ /= -scalemxAl -scalemxAr scalerA mxtraceZ.
have -> : \tr (z *m z^T) = dotv z z.
  by rewrite /mxtrace big_ord1 mxE; apply: eq_bigr => j _; rewrite mxE.
by rewrite -vnormK mul1r -expr2 exprVn mulVf // expf_neq0.
Qed.

Lemma S6_psd Z S : S6 enan eigvecs Z = Ok S -> psd S.
Proof.
rewrite /S6; case e: ogk_raw => [mc| |] // [<-].
by move: e; rewrite ogk_rawE => /ogk_rec_psd.
Qed.

Hypothesis Has : is_xargsort argsort.

Lemma half_idxP Z : [/\ row_set Z (uphalf (size Z)) (half_idx argsort Z)
  & forall i j, i \in half_idx argsort Z -> (j < size Z)%N -> j \notin half_idx argsort Z ->
      vnorm (nth 0 Z i) <= vnorm (nth 0 Z j)].
Proof.
set d := [seq vnorm z | z <- Z].
have ed : [seq Fin (vnorm z) | z <- Z] = map (@Fin T) d by rewrite -map_comp.
have pm := proj1 Has (map (@Fin T) d); rewrite !size_map in pm.
have sa : size (argsort (map (@Fin T) d)) = size Z by rewrite (perm_size pm) size_iota.
have hle : (uphalf (size Z) <= size Z)%N by lia.
rewrite /half_idx ed; split.
  split; first by rewrite take_uniq // (perm_uniq pm) iota_uniq.
    by move=> i /mem_take; rewrite (perm_mem pm) mem_iota.
  by rewrite size_takel // sa.
move=> i j hi hj hnj.
have ij : i \in argsort (map (@Fin T) d) by exact: mem_take hi.
have jj : j \in argsort (map (@Fin T) d) by rewrite (perm_mem pm) mem_iota.
have hiz : (i < size Z)%N by move: ij; rewrite (perm_mem pm) mem_iota.
have /nthP := hi => /(_ 0%N)[a ha]; rewrite size_takel ?sa // in ha.
rewrite nth_take // => ea.
have hb : (index j (argsort (map (@Fin T) d)) < size Z)%N by rewrite -sa index_mem.
have hk : (uphalf (size Z) <= index j (argsort (map (@Fin T) d)))%N.
  rewrite leqNgt; apply: contra hnj => hlt; rewrite -(nth_index 0%N jj) -(nth_take (n0 := uphalf (size Z))) //.
  by apply: mem_nth; rewrite size_takel ?sa.
have := proj2 Has d a (index j (argsort (map (@Fin T) d))).
rewrite size_map => /(_ (ltnW (leq_trans ha hk)) hb).
rewrite ea nth_index // /d !(nth_map 0) //.
Qed.

Lemma S5_cov Z S : S5 argsort Z = Some S -> is_cov (sel 0 Z (half_idx argsort Z)) S.
Proof.
rewrite /S5; case: ltnP => // h [<-]; apply: is_cov_cov; rewrite size_sel.
by have [[_ _ ->] _] := half_idxP Z.
Qed.

(* data ordered alike have the same ranks *)
Lemma coln_nth Z j : coln Z j = [seq nth 0 Z i 0 j | i <- iota 0 (size Z)].
Proof. by rewrite -[in LHS](mkseq_nth 0 Z) /mkseq /coln -map_comp. Qed.

Lemma ranks_order X Y : same_order X Y -> ranks X = ranks Y.
Proof.
move=> [es ho].
have hlt i k j : (i < size X)%N -> (k < size X)%N ->
  (nth 0 X i 0 j < nth 0 X k 0 j) = (nth 0 Y i 0 j < nth 0 Y k 0 j).
  by move=> hi hk; rewrite !ltNge ho.
apply: (@eq_from_nth _ 0); first by rewrite !size_ranks.
rewrite size_ranks => i hi; rewrite /ranks !(nth_map 0) -?es //.
apply/rowP => j; rewrite !mxE /avg_rank /cnt_lt /cnt_le !coln_nth !count_map -es.
by congr ((_ + _ + 1)%N%:R / _); apply: eq_in_count => k;
  rewrite mem_iota add0n => /andP[_ hk] /=; rewrite ?ho ?hlt.
Qed.

Lemma S2_order X Y : same_order X Y -> S2 X = S2 Y.
Proof. by move=> h; rewrite /S2 (ranks_order h). Qed.

Lemma S3_order X Y : same_order X Y -> S3 ppf X = S3 ppf Y.
Proof. by move=> h; rewrite /S3 (ranks_order h) (proj1 h). Qed.

Lemma same_order_trans X Y Z : same_order X Y -> same_order Y Z -> same_order X Z.
Proof.
move=> [e1 h1] [e2 h2]; split; first by rewrite e1.
by move=> i k j hi hk; rewrite h1 // h2 // -e1.
Qed.

Lemma same_order_sym X Y : same_order X Y -> same_order Y X.
Proof. by move=> [e1 h1]; split=> // i k j hi hk; rewrite h1 // e1. Qed.

Lemma stdz_order tau_corr X Z : standardize tau_corr enan X = Ok Z -> same_order X Z.
Proof.
move=> /standardize_ok[h hp ->]; split; first by rewrite size_stdz.
move=> i k j hi hk; rewrite !(nth_map 0) //.
rewrite [X in _ = (X <= _)]mxE [X in _ = (_ <= X)]mxE.
by rewrite ler_pmul2r ?invr_gt0 // ler_add2r.
Qed.

End Prelim.

Section Estimate.
Variables (T : rcfType) (p : nat).
Variables (enan : err) (eigvecs sqrtm : 'M[T]_p -> 'M[T]_p).
Hypothesis He : correct_eigvecs eigvecs.
Hypothesis Hs : is_sqrtm sqrtm.
Implicit Types (X Y Z : seq 'rV[T]_p) (S C E : 'M[T]_p).

Lemma axes_orth S : S^T = S -> (axes eigvecs S)^T *m axes eigvecs S = 1%:M.
Proof. by move=> /He[h _]; exact: rev_cols_orth. Qed.

Lemma axes_diag S : S^T = S -> exists d, (axes eigvecs S)^T *m S *m axes eigvecs S = diag_mx d.
Proof.
move=> /He[_ [d hd]]; exists (\row_j d 0 (rev_ord j)); apply/matrixP => i j.
have -> : ((axes eigvecs S)^T *m S *m axes eigvecs S) i j = ((eigvecs S)^T *m S *m eigvecs S) (rev_ord i) (rev_ord j).
  rewrite !mxE; apply: eq_bigr => k _; rewrite !mxE; congr (_ * _).
  by apply: eq_bigr => l _; rewrite !mxE.
by rewrite hd !mxE (inj_eq rev_ord_inj).
Qed.

Let proj Z S j := coln [seq z *m axes eigvecs S | z <- Z] j.

Lemma projE Z S j : proj Z S j = [seq dotv z (col j (axes eigvecs S))^T | z <- Z].
Proof.
rewrite /proj /coln -map_comp; apply: eq_map => z /=; rewrite mxE.
by apply: eq_bigr => k _; rewrite !mxE.
Qed.

Lemma det_sigma_psd Z S : psd (det_sigma eigvecs Z S).
Proof.
apply: psd_congr; rewrite (_ : diag_mx _ = diag_mx (\row_j ((\row_k qn_of (proj Z S k)) 0 j ^+ 2))).
  exact: psd_diag_sq.
by congr diag_mx; apply/rowP => j; rewrite [LHS]mxE [RHS]mxE; congr (_ ^+ 2); rewrite mxE.
Qed.

Lemma det_sigma_det Z S : S^T = S ->
  \det (det_sigma eigvecs Z S) = \prod_j qn_of (proj Z S j) ^+ 2.
Proof.
move=> sS; have o := axes_orth sS; rewrite /det_sigma !det_mulmx mulrAC -det_mulmx.
rewrite (mulmx1C o) det1 mul1r det_diag; apply: eq_bigr => j _; by rewrite mxE.
Qed.

Lemma det_sigma_unit Z S : S^T = S ->
  (det_sigma eigvecs Z S \in unitmx) = [forall j, 0 < qn_of (proj Z S j)].
Proof.
move=> sS; rewrite unitmxE unitfE det_sigma_det //.
apply/prodf_neq0/forallP => [h j|h j _].
  by have := h j isT; rewrite sqrf_eq0 lt_def qn_of_ge0 andbT.
by rewrite sqrf_eq0 gt_eqF.
Qed.

Lemma det_sigma_axis Z S j : S^T = S ->
  det_sigma eigvecs Z S *m col j (axes eigvecs S) = qn_of (proj Z S j) ^+ 2 *: col j (axes eigvecs S).
Proof.
move=> sS; have o := axes_orth sS; rewrite /det_sigma -!mulmxA.
have -> : (axes eigvecs S)^T *m col j (axes eigvecs S) = delta_mx j 0.
  by rewrite colE mulmxA o mul1mx.
have -> : diag_mx (\row_k qn_of (proj Z S k) ^+ 2) *m delta_mx j 0 = qn_of (proj Z S j) ^+ 2 *: (delta_mx j 0 : 'cV[T]_p).
  apply/colP => i; rewrite mul_diag_mx [LHS]mxE [X in X * _]mxE [RHS]mxE [X in _ * X = _]mxE [X in _ = _ * X]mxE.
  by case: eqP => [->//|]; rewrite /= !mulr0.
by rewrite -scalemxAr -colE.
Qed.

Lemma sqrtm_unit C : psd C -> (sqrtm C \in unitmx) = (C \in unitmx).
Proof.
move=> /Hs[_ {2}<-]; by rewrite unitmx_mul andbb.
Qed.

Lemma det_estimate_ok Z S : p != 1%N -> S^T = S ->
  det_estimate enan eigvecs sqrtm Z (Some S)
  = if [forall j, 0 < qn_of (proj Z S j)] then
      let C := det_sigma eigvecs Z S in let R := sqrtm C in
      Ok ((\row_j fmed (coln [seq z *m invmx R | z <- Z] j)) *m R^T, C)
    else Err LinAlgError.
Proof.
move=> p1 sS; rewrite /det_estimate (negbTE p1) -det_sigma_unit // -sqrtm_unit; last exact: det_sigma_psd.
by rewrite /det_mu /np_inv; case: ifP.
Qed.

End Estimate.

(* a transformation of the data that leaves the estimates unchanged *)
Section Equivariance.
Variables (T : rcfType) (p : nat).
Variable argsort : seq (xnum T) -> seq nat.
Hypothesis Has : is_xargsort argsort.
Variable estimates : seq 'rV[T]_p -> res (seq 'rV[T]_p * seq ('rV[T]_p * 'M[T]_p)).
Variables (chi2_ppf : T -> nat -> T) (gamma_cdf : T -> T -> T).
Variables (A : 'M[T]_p) (b : 'rV[T]_p).
Hypothesis uA : A \in unitmx.
Implicit Types (X Y Z : seq 'rV[T]_p).

Lemma det_candidate_t a X Z e : X != [::] -> size Z = size X ->
  det_candidate argsort a (map (tx A b) X) Z e = rmap (ts A b) (det_candidate argsort a X Z e).
Proof.
move=> X0 sZ; rewrite /det_candidate; case ed: mahalanobis_distance => [d| |] //=.
rewrite /get_subset; case: ifP => // _ /=; rewrite size_map.
have sd : size d = size X by rewrite (maha_size ed).
have [[_ _ hin] sz] := take_argsort_wf Has (uphalf (size X)) 0 sd.
rewrite mk_subset_t // ?c_step_t // -size_eq0 sz.
by move: X0; rewrite -size_eq0 -!lt0n leq_min; move: (size X) => n; case: n.
Qed.

Lemma mapM_rmap_in (B C : Type) (f f' : B -> res C) (k : C -> C) l :
  (forall x, f' x = rmap k (f x)) -> mapM f' l = rmap (map k) (mapM f l).
Proof.
move=> h; elim: l => [|x l IH] //=; rewrite h IH.
by case: (f x) => //= y; case: (mapM f l).
Qed.

Lemma foldl_ts (c : hsubset T p) l :
  foldl (fun b0 c0 => if determinant c0 < determinant b0 then c0 else b0) (ts A b c) (map (ts A b) l)
  = ts A b (foldl (fun b0 c0 => if determinant c0 < determinant b0 then c0 else b0) c l).
Proof.
elim: l c => //= d l IH c; rewrite ltr_pmul2l ?detA2 //; case: ifP => _; exact: IH.
Qed.

Lemma det_mcd_t fuel a tol cor rew X : X != [::] -> 0 < tol ->
  estimates (map (tx A b) X) = estimates X ->
  (forall Z es, estimates X = Ok (Z, es) -> size Z = size X) ->
  let run Y := det_mcd argsort chi2_ppf gamma_cdf estimates fuel.+1 a tol cor rew Y in
  let X' := map (tx A b) X in
  (forall e, run X = Err e -> run X' = Err e) /\
  (forall o, run X = Ok o -> (forall m, o_mask o = Some m -> has id m) -> run X' = Ok (to A b o)).
Proof.
move=> X0 t0 ee hs run X'.
case: (boolP (alpha_eq a 1 || alpha_eq a (size X))) => na.
  have -> : run X = Ok (classical X) by rewrite /run /det_mcd na.
  have -> : run X' = Ok (classical X') by rewrite /run /det_mcd size_map na.
  by split=> // o [<-] _; rewrite /classical /to /= (vmean_t A b X0) (cov_t A b X).
have -> : run X' = do ze <- estimates X;
    do cands <- rmap (map (ts A b)) (mapM (det_candidate argsort a X ze.1) ze.2);
    if cands is c :: l then
      if all (fun s => determinant s != 0) cands then
        post chi2_ppf gamma_cdf cor rew X'
          (foldl (fun b c => if determinant c < determinant b then c else b) c l)
      else Err LinAlgError
    else Err IndexError.
  rewrite /run (det_mcd_unfold Has) //; last by rewrite size_map.
  rewrite ee; case ez: (estimates X) => [[Z es]| |] //.
  rewrite ![bind (Ok _) _]/= (@mapM_rmap_in _ _ (det_candidate argsort a X Z) _ (ts A b)) // => x.
  by apply: det_candidate_t => //; exact: hs ez.
rewrite /run (det_mcd_unfold Has) //; case: (estimates X) => [[Z es]| |] //; rewrite ![bind (Ok _) _]/=.
case: (mapM _ _) => [[|c l]| |] //; rewrite [rmap _ _]/= ![bind (Ok _) _]/=.
have ed s : (\det A ^+ 2 * determinant s != 0) = (determinant s != 0).
  by rewrite mulf_eq0 gt_eqF // detA2.
have -> : all (fun s => determinant s != 0) (map (ts A b) l) = all (fun s => determinant s != 0) l.
  by rewrite all_map; apply: eq_all => s; exact: ed.
rewrite ed foldl_ts; case: ifP => [_|_ /=]; last by split=> [e|o] //.
split=> [e er|o ho hm]; first exact: (post_err b uA er).
exact: (post_t b uA ho hm).
Qed.

End Equivariance.

Section Run.
Variables (T : rcfType) (p : nat) (tau_corr : T) (enan : err) (tanh ppf : T -> T).
Variable argsort : seq (xnum T) -> seq nat.
Hypothesis Has : is_xargsort argsort.
Variables eigvecs sqrtm : 'M[T]_p -> 'M[T]_p.
Variables (chi2_ppf : T -> nat -> T) (gamma_cdf : T -> T -> T).
Implicit Types (X Y Z : seq 'rV[T]_p).

Let est := det_estimates tau_corr enan tanh ppf argsort eigvecs sqrtm.

Lemma est_aff (c b : 'rV[T]_p) X : (forall j, 0 < c 0 j) -> est (aff c b X) = est X.
Proof. by move=> hc; rewrite /est /det_estimates standardize_aff. Qed.

Lemma est_size X Z es : est X = Ok (Z, es) -> size Z = size X.
Proof.
rewrite /est /det_estimates; case e: standardize => [Z'| |] //=.
case: estimates_S => [Ss| |] //=; case: (mapM _ _) => [es'| |] //= [<- _].
by have /standardize_ok[_ _ ->] := e; rewrite size_stdz.
Qed.

Let run := det_mcd_run tau_corr enan tanh ppf argsort eigvecs sqrtm chi2_ppf gamma_cdf.

Lemma run_aff (c b : 'rV[T]_p) fuel a tol cor rew X : X != [::] -> 0 < tol -> (forall j, 0 < c 0 j) ->
  (forall e, run fuel.+1 a tol cor rew X = Err e -> run fuel.+1 a tol cor rew (aff c b X) = Err e) /\
  (forall o, run fuel.+1 a tol cor rew X = Ok o -> (forall m, o_mask o = Some m -> has id m) ->
     run fuel.+1 a tol cor rew (aff c b X) = Ok (to (diag_mx c) b o)).
Proof.
move=> X0 t0 hc; rewrite affT.
have uc : diag_mx c \in unitmx by apply: diag_unit => j; rewrite gt_eqF.
have e1 : est (map (tx (diag_mx c) b) X) = est X by rewrite -affT est_aff.
exact: (@det_mcd_t _ _ _ Has est chi2_ppf gamma_cdf _ b uc fuel a tol cor rew X X0 t0 e1 (@est_size X)).
Qed.

(* failures *)
Lemma run_est_err fuel a tol cor rew X e : ~~ (alpha_eq a 1 || alpha_eq a (size X)) ->
  est X = Err e -> run fuel a tol cor rew X = Err e.
Proof. by move=> na he; rewrite /run /det_mcd_run /det_mcd (negbTE na) -/est he. Qed.

Lemma mapM_err (B C : Type) (f : B -> res C) l : (forall x, f x <> NoFuel) ->
  (exists2 x, List.In x l & exists e, f x = Err e) -> exists e, mapM f l = Err e.
Proof.
move=> hf; elim: l => [[x []]|y l IH [x /= [->|hx] [e he]]] /=; first by rewrite he /=; exists e.
have [e' ->] : exists e', mapM f l = Err e' by apply: IH; exists x => //; exists e.
by case ey: (f y) => [z|e2|] /=; [exists e'|exists e2|case: (hf y)].
Qed.

Lemma est_fuel Z S : det_estimate enan eigvecs sqrtm Z S <> NoFuel.
Proof.
rewrite /det_estimate; case: ifP => // _; case: S => // S.
by rewrite /det_mu /np_inv; case: ifP.
Qed.

Lemma est_none X Z Ss : standardize tau_corr enan X = Ok Z ->
  estimates_S enan tanh ppf argsort eigvecs Z = Ok Ss -> List.In None Ss -> exists e, est X = Err e.
Proof.
move=> hz hS hn; rewrite /est /det_estimates hz /= hS /=.
have [e ->] : exists e, mapM (det_estimate enan eigvecs sqrtm Z) Ss = Err e; last by exists e.
apply: mapM_err; first exact: est_fuel.
by exists None => //; rewrite /det_estimate; case: ifP => _; eexists.
Qed.

Lemma est_S_fail Z : (exists Ss, estimates_S enan tanh ppf argsort eigvecs Z = Ok Ss) \/
  estimates_S enan tanh ppf argsort eigvecs Z = Err enan.
Proof.
rewrite /estimates_S /S6; case: ogk_raw => [mc| |] /=; [by left; eexists|by right|by right].
Qed.

Lemma est_S_sub Z Ss : estimates_S enan tanh ppf argsort eigvecs Z = Ok Ss ->
  [/\ List.In (S1 tanh Z) Ss, List.In (S2 Z) Ss, List.In (S3 ppf Z) Ss, List.In (S4 Z) Ss
    & List.In (S5 argsort Z) Ss].
Proof.
rewrite /estimates_S; case: S6 => //= s6 [<-]; split; rewrite /=; tauto.
Qed.

Lemma at_median_fails X x : x \in X -> (forall j, x 0 j = fmed (coln X j)) -> exists e, est X = Err e.
Proof.
move=> xX hx.
have [[Z hz]|hz] : (exists Z, standardize tau_corr enan X = Ok Z) \/ ~ (exists Z, standardize tau_corr enan X = Ok Z).
- rewrite /standardize; case: ifP => _; first by right=> -[].
  by case: ifP => _; [right=> -[]|left; eexists].
- have [[Ss hS]|hS] := est_S_fail Z.
    apply: (est_none hz hS); have [_ _ _ h4 _] := est_S_sub hS.
    rewrite -[None](_ : S4 Z = None) //; apply/S4_none.
    have /standardize_ok[_ _ eZ] := hz.
    exists (\row_j ((x 0 j - fmed (coln X j)) / det_scales tau_corr X 0 j)); last first.
      by apply/rowP => j; rewrite mxE hx subrr mul0r mxE.
    rewrite eZ; exact: (map_f (fun x : 'rV[T]_p => \row_j ((x 0 j - fmed (coln X j)) / det_scales tau_corr X 0 j))).
  by exists enan; rewrite /est /det_estimates hz /= hS.
- by have [e he] := standardize_fails hz; exists e; rewrite /est /det_estimates he.
Qed.

(* too few rows *)
Lemma cov_singular (Y : seq 'rV[T]_p) : (0 < p)%N -> (size Y <= p)%N -> cov Y \notin unitmx.
Proof.
move=> p0 hs; set m := size Y.
pose W : 'M[T]_(m, p) := \matrix_(i, k) (nth 0 Y i - vmean Y) 0 k.
have eW : cov Y = (m%:R - 1)^-1 *: (W^T *m W).
  rewrite /cov; congr (_ *: _); rewrite (big_nth 0) big_mkord.
  apply/matrixP => i k; rewrite summxE [RHS]mxE; apply: eq_bigr => l _.
  by rewrite mxE big_ord1 [W _ _]mxE [W^T _ _]mxE [W _ _]mxE [(_ - _)^T _ _]mxE.
have rW : (\rank W < p)%N.
  case: (posnP m) => [m0|m0]; first by apply: leq_ltn_trans (rank_leq_row W) _; rewrite m0.
  have : (\rank W <= m)%N by exact: rank_leq_row.
  rewrite leq_eqVlt => /orP[|lt]; last exact: leq_trans lt hs.
  rewrite -/(row_free W) => /row_free_inj inj.
  have e0 : const_mx 1 *m W = 0 :> 'rV[T]_p.
    apply/rowP => k; rewrite mxE [RHS]mxE -[RHS](_ : (\sum_(y <- Y) (y - vmean Y)) 0 k = 0).
      rewrite (big_nth 0) big_mkord summxE; apply: eq_bigr => i _.
      by rewrite [const_mx _ _ _]mxE mul1r [W _ _]mxE.
    by rewrite sum_dev mxE.
  have := inj 1%N (const_mx 1) 0; rewrite mul0mx => /(_ e0)/rowP/(_ (Ordinal m0)).
  by rewrite !mxE => /eqP; rewrite oner_eq0.
rewrite -row_full_unit /row_full eW; apply/negP => /eqP e.
have : (\rank ((m%:R - 1)^-1 *: (W^T *m W)) <= \rank W)%N.
  rewrite scalemxAl; exact: mxrankM_maxr.
by rewrite e leqNgt rW.
Qed.

Lemma small_sample_fails fuel a tol cor rew X : (1 < p)%N -> (uphalf (size X) <= p)%N ->
  ~~ (alpha_eq a 1 || alpha_eq a (size X)) -> exists e, run fuel a tol cor rew X = Err e.
Proof.
move=> p1 hs na; case ee: (est X) => [[Z es]|e|]; last 2 first.
- by exists e; exact: run_est_err.
- move: ee; rewrite /est /det_estimates; rewrite /standardize; case: ifP => // _; case: ifP => // _ /=.
  set Z0 := (X in estimates_S _ _ _ _ _ X).
  have [[Ss ->]|->] //= := est_S_fail Z0.
  case em: (mapM _ _) => //= _; exfalso; move: em; clear; elim: Ss => //= S Ss IH.
  by case ev: det_estimate => [r|e|] //=; [case: (mapM _ _) IH => // _ /(_ erefl)|move: ev => /est_fuel].
rewrite /run /det_mcd_run /det_mcd (negbTE na) -/est ee /=.
have sZ := est_size ee.
have [e1 [es1 ees]] : exists e1 es1, es = e1 :: es1.
  move: ee; rewrite /est /det_estimates; case: standardize => //= Z'.
  rewrite /estimates_S; case: S6 => //= s6.
  by case: det_estimate => //= r1; case: det_estimate => //= r2; case: det_estimate => //= r3;
     case: det_estimate => //= r4; case: det_estimate => //= r5; case: det_estimate => //= r6 [_ <-]; eexists; eexists.
rewrite ees /=.
suff [e ->] : exists e, det_candidate argsort a X Z e1 = Err e by exists e.
rewrite /det_candidate; case ed: mahalanobis_distance => [d|e|] /=; last 2 first.
- by exists e.
- by move: ed; rewrite /mahalanobis_distance /np_inv; case: ifP.
rewrite /get_subset gtn_eqF //= /c_step maha_sing /=; first by exists LinAlgError.
apply: cov_singular; first exact: ltnW.
by rewrite size_sel; apply: leq_trans hs; rewrite size_take; case: ltnP.
Qed.

End Run.
