(* Proofs about the Qn scale estimator. *)
From mathcomp Require Import all_ssreflect all_algebra.
From mathcomp.zify Require Import zify.
From mathcomp.algebra_tactics Require Import ring.
From Verif Require Import RFieldLra Prelude WeightedMedian_Model WeightedMedian_Spec
  WeightedMedian_Proofs Qn_Model Qn_Spec.

Set Implicit Arguments.
Unset Strict Implicit.
Unset Printing Implicit Defensive.

Import Order.TTheory GRing.Theory Num.Theory.
Local Open Scope ring_scope.

Lemma mapM_ok (A : eqType) (B : Type) (f : A -> res B) (g : A -> B) (l : seq A) :
  (forall a, a \in l -> f a = Ok (g a)) -> mapM f l = Ok (map g l).
Proof.
elim: l => //= a l IH h; rewrite h ?mem_head //= IH // => b hb.
by apply: h; rewrite in_cons hb orbT.
Qed.

Section Rows.
Variable T : realFieldType.
Variable y : seq T.
Hypothesis ysorted : sorted <=%R y.
Notation n := (size y).

Definition row (i : nat) : seq T := [seq nth 0 y i - z | z <- rev y].
Definition ent (i m : nat) : T := nth 0 (row i) m.
Definition cl (i : nat) (t : T) : nat := cnt_lt (row i) t.
Definition ce (i : nat) (t : T) : nat := cnt_le (row i) t.

Lemma size_row i : size (row i) = n.
Proof. by rewrite size_map size_rev. Qed.

Lemma row_sorted i : sorted <=%R (row i).
Proof.
rewrite /row sorted_map /= rev_sorted /=.
apply: sub_sorted ysorted => a b hab /=; rewrite /relpre /=; flra.
Qed.

Lemma entE i m : (m < n)%N -> ent i m = nth 0 y i - nth 0 y (n - m.+1).
Proof. by move=> hm; rewrite /ent /row (nth_map 0) ?size_rev // nth_rev. Qed.

Lemma ent_lt i m t : (m < n)%N -> (ent i m < t) = (m < cl i t)%N.
Proof. by move=> hm; rewrite /ent sorted_nth_lt ?size_row // row_sorted. Qed.

Lemma ent_le i m t : (m < n)%N -> (ent i m <= t) = (m < ce i t)%N.
Proof. by move=> hm; rewrite /ent sorted_nth_le ?size_row // row_sorted. Qed.

Lemma cl_le_n i t : (cl i t <= n)%N.
Proof. by rewrite -(size_row i); exact: count_size. Qed.
Lemma ce_le_n i t : (ce i t <= n)%N.
Proof. by rewrite -(size_row i); exact: count_size. Qed.

Lemma sumn_mkseq (f : nat -> nat) m : sumn (mkseq f m) = (\sum_(i < m) f i)%N.
Proof. by rewrite sumnE /mkseq big_map -[m in iota 0 m]subn0 big_mkord. Qed.

Lemma qn_PE t : qn_P y t = mkseq (fun i => cl i t) n.
Proof.
rewrite /qn_P -{2}(mkseq_nth 0 y) /mkseq -map_comp; apply: eq_map => i /=.
rewrite /searchsorted_left /cl /cnt_lt /row !count_map; apply: eq_count => z /=.
by rewrite ltr_subr_addl addrC.
Qed.

Lemma qn_QE t : qn_Q y t = mkseq (fun i => (ce i t).+1) n.
Proof.
rewrite /qn_Q -{2}(mkseq_nth 0 y) /mkseq -map_comp; apply: eq_map => i /=.
rewrite /searchsorted_right /ce /cnt_le /row !count_map; congr _.+1; apply: eq_count => z /=.
by rewrite ler_subr_addl addrC.
Qed.

Lemma sum_S (f : nat -> nat) m : (\sum_(i < m) (f i).+1 = \sum_(i < m) f i + m)%N.
Proof.
rewrite (eq_bigr (fun i : 'I_m => (f i + 1)%N)); last by move=> i _; rewrite addn1.
by rewrite big_split /= sum1_card card_ord.
Qed.

Variable knew : nat.

(* the invariant of the while loop *)
Record Inv (lo hi : nat -> nat) (nL nR : nat) : Prop := MkInv {
  inv_nL : nL = (\sum_(i < n) lo i)%N;
  inv_nR : nR = (\sum_(i < n) hi i)%N;
  inv_kL : (nL < knew)%N;
  inv_kR : (knew <= nR)%N;
  inv_row : forall i, (i < n)%N -> (n - i <= lo i)%N;
  inv_le : forall i, (i < n)%N -> (lo i <= hi i)%N;
  inv_hi : forall i, (i < n)%N -> (hi i <= n)%N;
  inv_L : forall i m i' m', (i < n)%N -> (i' < n)%N -> (lo i <= m < n)%N -> (m' < lo i')%N ->
     ent i' m' <= ent i m;
  inv_R : forall i m i' m', (i < n)%N -> (i' < n)%N -> (m < hi i)%N -> (hi i' <= m' < n)%N ->
     ent i m < ent i' m' }.

Definition lft (lo : nat -> nat) := mkseq (fun i => (lo i).+1) n.
Definition rgt (hi : nat -> nat) := mkseq hi n.

Section Step.
Variables (lo hi : nat -> nat) (nL nR : nat).
Hypothesis inv : Inv lo hi nL nR.

Lemma weightE i : (i < n)%N -> qn_weight (lft lo) (rgt hi) i = (hi i - lo i)%:Z.
Proof.
move=> hi'; rewrite /qn_weight !nth_mkseq //.
have := inv_le inv hi'; lia.
Qed.

Definition jh (i : nat) : nat := ((lo i).+1 + (hi i - lo i) %/ 2)%N.

Lemma jhE i : (i < n)%N ->
  (nth 0%N (lft lo) i)%:Z + divz (qn_weight (lft lo) (rgt hi) i) 2 = (jh i)%:Z.
Proof.
move=> hi'; rewrite weightE // nth_mkseq // /jh.
by rewrite divz_nat PoszD.
Qed.

Definition wk (i : nat) : T :=
  nth 0 y i - (if (jh i <= n)%N then nth 0 y (n - jh i) else nth 0 y n.-1).

Lemma jh_bound i : (i < n)%N -> (0 < jh i <= n.+1)%N.
Proof.
move=> hi'; have h1 := inv_le inv hi'; have h2 := inv_hi inv hi'.
rewrite /jh; lia.
Qed.

Lemma workE i : (i < n)%N -> qn_work_row y (lft lo) (rgt hi) i = Ok (wk i).
Proof.
move=> hi'; rewrite /qn_work_row jhE // /wk.
have /andP[h1 h2] := jh_bound hi'.
case: (leqP (jh i) n) => h.
  rewrite subzn // /=.
  by rewrite ltn_subrL h1 (leq_ltn_trans _ hi').
have -> : jh i = n.+1 by apply/eqP; rewrite eqn_leq h2 h.
have -> : n%:Z - n.+1%:Z = Negz 0 by lia.
by rewrite /= (leq_ltn_trans _ hi') // subn1.
Qed.

Lemma work_active i : (i < n)%N -> (lo i < hi i)%N ->
  exists m, [/\ (lo i <= m)%N, (m < hi i)%N & wk i = ent i m].
Proof.
move=> hi' hact; exists (jh i).-1; have h2 := inv_hi inv hi'.
have h1 : (jh i <= n)%N by rewrite /jh; lia.
split; rewrite ?/jh; try lia.
rewrite -/(jh i) /wk h1 entE; last by rewrite /jh in h1 *; lia.
by rewrite prednK.
Qed.

Definition wgts : seq T := [seq (qn_weight (lft lo) (rgt hi) i)%:~R | i <- iota 0 n].

Lemma wgtsE : wgts = [seq (hi i - lo i)%N%:R | i <- iota 0 n].
Proof.
by apply/eq_in_map => i; rewrite mem_iota /= add0n => hi'; rewrite weightE.
Qed.

Lemma wgts_ge0 : all (fun w => 0 <= w) wgts.
Proof. by rewrite wgtsE all_map; apply/allP => i _ /=; rewrite ler0n. Qed.

Lemma sum_sub (f g : nat -> nat) m : (forall i, (i < m)%N -> (f i <= g i)%N) ->
  (\sum_(i < m) (g i - f i) = \sum_(i < m) g i - \sum_(i < m) f i)%N.
Proof.
move=> h; apply/eqP; rewrite -(eqn_add2r (\sum_(i < m) f i)) -big_split /=.
rewrite subnK; last by apply: leq_sum => i _; exact: h.
by apply/eqP; apply: eq_bigr => i _; rewrite subnK ?h.
Qed.

Lemma fsum_wgts : fsum wgts = (nR - nL)%N%:R.
Proof.
rewrite wgtsE (inv_nL inv) (inv_nR inv) -sum_sub; last by move=> i; exact: (inv_le inv).
rewrite fsumE big_map natr_sum -[n in iota 0 n]subn0 big_mkord.
by [].
Qed.

(* the trial value is an active entry *)
Lemma trial_active : (nL < nR)%N ->
  exists t i m, [/\ weighted_median [seq wk i | i <- iota 0 n] wgts = Ok t, t = ent i m,
      (i < n)%N, (lo i <= m)%N & (m < hi i)%N].
Proof.
move=> hlt.
have [|||t ht [htX h1 h2]] := @weighted_median_correct T [seq wk i | i <- iota 0 n] wgts.
- by rewrite !size_map.
- exact: wgts_ge0.
- by rewrite fsum_wgts ltr0n subn_gt0.
have hsz : size [seq wk i | i <- iota 0 n] = n by rewrite size_map size_iota.
have [i /andP[/eqP hi1 hi2]] : exists i : 'I_n,
    (nth 0 [seq wk i | i <- iota 0 n] i == t) && (0 < nth 0 wgts i).
  apply/existsP; case: existsP => // hN; exfalso.
  move: h1 h2; rewrite /weight_of hsz => h1.
  rewrite [X in _ < _ * X](bigID (fun i : 'I_n => nth 0 [seq wk i | i <- iota 0 n] i == t)) /=.
  rewrite [X in _ < _ * (X + _)]big1; last first.
    move=> i /andP[_ he]; apply/eqP; rewrite eq_le.
    have := wgts_ge0 => /(all_nthP 0)/(_ i).
    rewrite size_map size_iota ltn_ord => -> //; rewrite andbT leNgt.
    by apply/negP => hpos; apply: hN; exists i; rewrite he.
  rewrite add0r => h2; have := le_lt_trans h1 h2.
  rewrite (eq_bigl (fun i : 'I_n => nth 0 [seq wk i | i <- iota 0 n] i < t)) ?ltxx //.
  by move=> i /=; rewrite lt_neqAle andbC.
have hin := ltn_ord i.
move: hi1 hi2; rewrite wgtsE !(nth_map 0%N) ?size_iota // nth_iota // add0n => hi1.
rewrite ltr0n subn_gt0 => hact.
have [m [hm1 hm2 hm3]] := work_active hin hact.
by exists t, i, m; split=> //; [rewrite -wgtsE|rewrite -hi1].
Qed.

(* lowering the right border *)
Lemma inv_right t i0 m0 : t = ent i0 m0 -> (i0 < n)%N -> (lo i0 <= m0)%N -> (m0 < hi i0)%N ->
  (knew <= \sum_(i < n) cl i t)%N ->
  Inv lo (fun i => cl i t) nL (\sum_(i < n) cl i t)%N
  /\ (\sum_(i < n) cl i t < nR)%N.
Proof.
move=> ht hi0 hm1 hm2 hk.
have hm0n : (m0 < n)%N := leq_trans hm2 (inv_hi inv hi0).
have le_hi i : (i < n)%N -> (cl i t <= hi i)%N.
  move=> hin; rewrite leqNgt; apply/negP => hc.
  have hn : (hi i < n)%N := leq_trans hc (cl_le_n _ _).
  have h1 : ent i (hi i) < t by rewrite ent_lt.
  have h2 := inv_R inv hi0 hin hm2 (m' := hi i); rewrite leqnn hn -ht in h2.
  by have := lt_trans h1 (h2 isT); rewrite ltxx.
have lo_lt i m : (i < n)%N -> (m < lo i)%N -> ent i m < t.
  move=> hin hm; rewrite ltNge; apply/negP => hge.
  suff : (\sum_(i < n) cl i t <= nL)%N by have := inv_kL inv; lia.
  rewrite (inv_nL inv); apply: leq_sum => j _; rewrite leqNgt; apply/negP => hc.
  have hn : (lo j < n)%N := leq_trans hc (cl_le_n _ _).
  have h1 : ent j (lo j) < t by rewrite ent_lt.
  have h2 := inv_L inv (ltn_ord j) hin (m := lo j) (m' := m).
  rewrite leqnn hn hm in h2.
  by have := lt_le_trans h1 (le_trans hge (h2 isT isT)); rewrite ltxx.
split.
- split=> //; try exact: (inv_nL inv) || exact: (inv_kL inv) || exact: (inv_row inv).
  + move=> i hin; rewrite leqNgt; apply/negP => hc.
    have h1 := lo_lt i (cl i t) hin hc.
    have hn : (cl i t < n)%N.
      apply: leq_trans hc _; exact: leq_trans (inv_le inv hin) (inv_hi inv hin).
    by move: h1; rewrite ent_lt // ltnn.
  + by move=> i _; exact: cl_le_n.
  + exact: (inv_L inv).
  + move=> i m i' m' hin hin' hm /andP[hm'1 hm'2].
    apply: (@lt_le_trans _ _ t).
      by rewrite ent_lt //; apply: leq_trans hm (cl_le_n _ _).
    by rewrite leNgt ent_lt // -leqNgt.
- rewrite (inv_nR inv) (bigD1 (Ordinal hi0)) //= [X in (_ < X)%N](bigD1 (Ordinal hi0)) //=.
  rewrite -addSn leq_add //; last by apply: leq_sum => i _; exact: le_hi.
  apply: leq_trans hm2; rewrite ltnS leqNgt -ent_lt // -ht ltxx //.
Qed.

(* raising the left border *)
Lemma inv_left t i0 m0 : t = ent i0 m0 -> (i0 < n)%N -> (lo i0 <= m0)%N -> (m0 < hi i0)%N ->
  (\sum_(i < n) ce i t < knew)%N ->
  Inv (fun i => ce i t) hi (\sum_(i < n) ce i t)%N nR
  /\ (nL < \sum_(i < n) ce i t)%N.
Proof.
move=> ht hi0 hm1 hm2 hk.
have hm0n : (m0 < n)%N := leq_trans hm2 (inv_hi inv hi0).
have lo_le i : (i < n)%N -> (lo i <= ce i t)%N.
  move=> hin; rewrite leqNgt; apply/negP => hc.
  have hn : (ce i t < n)%N.
    apply: leq_trans hc _; exact: leq_trans (inv_le inv hin) (inv_hi inv hin).
  have h2 : ent i (ce i t) <= t.
    by rewrite [X in _ <= X]ht; apply: (inv_L inv) => //; rewrite hm1 hm0n.
  by move: h2; rewrite ent_le // ltnn.
split.
- split=> //; try exact: (inv_nR inv) || exact: (inv_kR inv) || exact: (inv_hi inv).
  + by move=> i hin; apply: leq_trans (lo_le i hin); exact: (inv_row inv hin).
  + move=> i hin; rewrite leqNgt; apply/negP => hc.
    have hn : (hi i < n)%N := leq_trans hc (ce_le_n _ _).
    have h1 : ent i (hi i) <= t by rewrite ent_le.
    have h2 := inv_R inv hi0 hin hm2 (m' := hi i); rewrite leqnn hn -ht in h2.
    by have := le_lt_trans h1 (h2 isT); rewrite ltxx.
  + move=> i m i' m' hin hin' /andP[hm hmn] hm'.
    apply: (@le_trans _ _ t).
      by rewrite ent_le //; apply: leq_trans hm' (ce_le_n _ _).
    by apply: ltW; rewrite ltNge ent_le // -leqNgt.
  + exact: (inv_R inv).
- rewrite (inv_nL inv) (bigD1 (Ordinal hi0)) //= [X in (_ < X)%N](bigD1 (Ordinal hi0)) //=.
  rewrite -addSn leq_add //; last by apply: leq_sum => i _; exact: lo_le.
  by apply: leq_ltn_trans hm1 _; rewrite -ent_le // -ht lexx.
Qed.
End Step.

(* the while loop *)
Lemma qn_loop_correct fuel lo hi nL nR : Inv lo hi nL nR -> (nR - nL < fuel)%N ->
  (exists t i m, [/\ qn_loop fuel y knew (lft lo) (rgt hi) nL nR = Ok (QFound t),
      t = ent i m /\ (i < n)%N /\ (m < n)%N,
      (\sum_(i < n) cl i t < knew)%N & (knew <= \sum_(i < n) ce i t)%N])
  \/ (exists lo' hi' nL' nR',
      qn_loop fuel y knew (lft lo) (rgt hi) nL nR = Ok (QExit T (lft lo') (rgt hi') nL')
      /\ Inv lo' hi' nL' nR').
Proof.
elim: fuel lo hi nL nR => // fuel IH lo hi nL nR inv hf /=.
case: ifPn => [hbig|_]; last by right; exists lo, hi, nL, nR.
rewrite (@mapM_ok _ _ _ (wk lo hi)); last first.
  by move=> i; rewrite mem_iota add0n /= => hin; exact: (workE inv hin).
have hlt : (nL < nR)%N by lia.
have [t [i0 [m0 [ht ht0 hi0 hm1 hm2]]]] := trial_active inv hlt.
rewrite /= -/(wgts lo hi) ht /= qn_PE qn_QE !sumn_mkseq (sum_S (fun i => ce i t)) addnK.
case: ifPn => hP; [|case: ifPn => hQ].
- have [inv' hdec] := inv_right inv ht0 hi0 hm1 hm2 hP.
  apply: (IH _ _ _ _ inv'); have := inv_kL inv'; lia.
- have [inv' hdec] := inv_left inv ht0 hi0 hm1 hm2 hQ.
  by rewrite -/(lft (fun i => ce i t)); apply: (IH _ _ _ _ inv'); have := inv_kR inv'; lia.
- left; exists t, i0, m0; split=> //; try by rewrite ltnNge.
    by split=> //; split=> //; apply: leq_trans hm2 (inv_hi inv hi0).
  by rewrite leqNgt.
Qed.

(* the enumeration after the loop *)
Lemma qn_enum_correct lo hi nL nR : (0 < n)%N -> Inv lo hi nL nR ->
  exists work, [/\ qn_enum y (lft lo) (rgt hi) = Ok work,
     size work = (nR - nL)%N
   & forall p : pred T, count p work =
       (\sum_(i < n) count p (drop (lo i) (take (hi i) (row i))))%N].
Proof.
move=> hn inv.
have hrow i : (i < n)%N -> drop (lo i) (take (hi i) (row i)) =
    map (fun jj => nth 0 y i - nth 0 y (n - jj)) (iota (lo i).+1 (hi i - lo i)).
  move=> hin; have h1 := inv_le inv hin; have h2 := inv_hi inv hin.
  apply: (@eq_from_nth _ 0).
    by rewrite size_drop size_takel ?size_row // size_map size_iota.
  move=> m; rewrite size_drop size_takel ?size_row // => hm.
  have hm' : (lo i + m < hi i)%N by lia.
  have hm2 : (m < hi i - lo i)%N by lia.
  rewrite nth_drop nth_take // -/(ent i (lo i + m)) entE; last by lia.
  by rewrite (nth_map 0%N) ?size_iota // nth_iota // addSn.
have hgood i : (0 < i < n)%N ->
   (let l := nth 0%N (lft lo) i in let r := nth 0%N (rgt hi) i in
    if (l <= r)%N then
      mapM (fun jj => do v <- pyget y (n%:Z - jj%:Z - 1 + 1); Ok (nth 0 y i - v)) (iota l (r + 1 - l))
    else Ok [::]) = Ok (drop (lo i) (take (hi i) (row i))).
  case/andP=> hi0 hin; rewrite /= !nth_mkseq //.
  have h1 := inv_le inv hin; have h2 := inv_hi inv hin.
  rewrite hrow //; case: ltnP => hlt; last first.
    by have -> : (hi i - lo i = 0)%N by lia.
  have -> : (hi i + 1 - (lo i).+1 = hi i - lo i)%N by lia.
  apply: mapM_ok => jj; rewrite mem_iota => hjj.
  have -> : n%:Z - jj%:Z - 1 + 1 = (n - jj)%N%:Z by lia.
  rewrite /=; case: ifPn => //; lia.
exists (flatten [seq drop (lo i) (take (hi i) (row i)) | i <- iota 1 (n - 1)]).
have hcount (p : pred T) :
   count p (flatten [seq drop (lo i) (take (hi i) (row i)) | i <- iota 1 (n - 1)]) =
   (\sum_(i < n) count p (drop (lo i) (take (hi i) (row i))))%N.
  rewrite count_flatten -map_comp sumnE big_map.
  rewrite -(big_mkord xpredT (fun i => count p (drop (lo i) (take (hi i) (row i))))) /=.
  rewrite [RHS](@big_ltn _ _ _ 0 n) //= [X in _ = (X + _)%N](_ : _ = 0%N) ?add0n.
    by rewrite /index_iota.
  have h0 := inv_row inv hn; have h1 := inv_le inv hn; have h2 := inv_hi inv hn.
  rewrite drop_oversize //= size_takel ?size_row //; lia.
split.
- rewrite /qn_enum (@mapM_ok _ _ _ (fun i => drop (lo i) (take (hi i) (row i)))) //.
  by move=> i; rewrite mem_iota => hi'; apply: hgood; lia.
- rewrite -(count_predT (flatten _)) hcount (inv_nR inv) (inv_nL inv) -sum_sub.
    apply: eq_bigr => i _; rewrite count_predT size_drop size_takel //.
    by rewrite size_row; exact: (inv_hi inv (ltn_ord i)).
  by move=> i; exact: (inv_le inv).
- exact: hcount.
Qed.

Lemma qn_exit_correct lo hi nL nR : (0 < n)%N -> Inv lo hi nL nR ->
  exists work v, [/\ qn_enum y (lft lo) (rgt hi) = Ok work,
    partition_max work (knew - nL) = Ok v,
    (\sum_(i < n) cl i v < knew)%N & (knew <= \sum_(i < n) ce i v)%N].
Proof.
move=> hn inv; have [work [hw hsz hcnt]] := qn_enum_correct hn inv.
have hkL := inv_kL inv; have hkR := inv_kR inv.
have hk : (0 < knew - nL <= size work)%N by rewrite hsz; lia.
exists work, (kth_smallest work (knew - nL)); split=> //.
  by rewrite /partition_max hk.
all: have [h1 h2] := kth_smallest_count hk; have hmem := kth_smallest_mem hk.
all: set v := kth_smallest _ _ in h1 h2 hmem *.
all: have [iv [mv [hiv hm1 hm2 hv]]] : exists i m, [/\ (i < n)%N, (lo i <= m)%N, (m < hi i)%N & v = ent i m].
  1, 3: have : (0 < count (pred1 v) work)%N by rewrite -has_count has_pred1.
  1, 2: rewrite hcnt lt0n sum_nat_eq0 negb_forall => /existsP[i].
  1, 2: rewrite -lt0n -has_count has_pred1 => /(nthP 0)[m].
  1, 2: have hb := inv_hi inv (ltn_ord i).
  1, 2: rewrite size_drop size_takel ?size_row // => hm; rewrite nth_drop nth_take; last by lia.
  1, 2: by move=> hv; exists i, (lo i + m)%N; split; rewrite ?leq_addr //; lia.
all: have hrow i (p : pred T) : (i < n)%N -> count p (row i) =
   (count p (take (lo i) (row i)) + count p (drop (lo i) (take (hi i) (row i)))
    + count p (drop (hi i) (row i)))%N.
  1, 3: move=> hin; rewrite -{1}[row i](cat_take_drop (hi i)) count_cat; congr addn.
  1, 2: by rewrite -{1}[take (hi i) _](cat_take_drop (lo i)) count_cat take_take //; exact: (inv_le inv).
- apply: leq_ltn_trans (_ : nL + cnt_lt work v < knew)%N; last by lia.
  rewrite (inv_nL inv) /cnt_lt hcnt -big_split /=; apply: leq_sum => i _.
  rewrite /cl /cnt_lt hrow // [X in (_ + X <= _)%N](_ : _ = 0%N) ?addn0.
    rewrite leq_add2r; apply: leq_trans (count_size _ _) _.
    by rewrite size_take; case: ltnP.
  apply/eqP; rewrite -leqn0 leqNgt -has_count; apply/hasPn => x /(nthP 0)[m].
  rewrite size_drop size_row ltn_subRL => hm <-; rewrite nth_drop -leNgt hv.
  by apply: ltW; apply: (inv_R inv) => //; rewrite leq_addr.
- apply: leq_trans (_ : nL + cnt_le work v <= _)%N; first by lia.
  rewrite (inv_nL inv) /cnt_le hcnt -big_split /=; apply: leq_sum => i _.
  rewrite /ce /cnt_le hrow // -addnA leq_add //; last exact: leq_addr.
  have hlo : (lo i <= size (row i))%N.
    by rewrite size_row; exact: leq_trans (inv_le inv (ltn_ord i)) (inv_hi inv (ltn_ord i)).
  suff /eqP -> : count (fun z => z <= v) (take (lo i) (row i)) == size (take (lo i) (row i)).
    by rewrite size_takel.
  rewrite -all_count; apply/(all_nthP 0) => m.
  rewrite size_takel // => hm; rewrite nth_take // hv.
  apply: (inv_L inv) => //; rewrite hm1 /=.
  by apply: leq_trans hm2 (inv_hi inv hiv).
Qed.
End Rows.

Section Pairs.
Variable T : realFieldType.
Implicit Types (X : seq T) (p : pred T).

(* number of ordered pairs (x, z), including x = z, with p (x - z) *)
Definition ord_cnt p X : nat := (\sum_(x <- X) count (fun z => p (x - z)%R) X)%N.

Lemma ord_cnt_perm p X Y : perm_eq X Y -> ord_cnt p X = ord_cnt p Y.
Proof.
move=> h; rewrite /ord_cnt (perm_big _ h) /=; apply: eq_bigr => x _.
exact/permP.
Qed.

Lemma ord_cnt_cons p x X :
  ord_cnt p (x :: X) =
  (p 0%R + (count (fun z => p (x - z)%R) X + count (fun z => p (z - x)%R) X) + ord_cnt p X)%N.
Proof.
rewrite /ord_cnt big_cons /= subrr.
rewrite (eq_bigr (fun z => (p (z - x)%R : nat) + count (fun w => p (z - w)%R) X)%N) //.
have -> : count (fun z => p (z - x)%R) X = (\sum_(z <- X) (p (z - x)%R : nat))%N.
  by rewrite -sumn_count sumnE big_map.
by rewrite big_split /= !addnA.
Qed.

Lemma size_pair_dists X : size (pair_dists X) = (size X * (size X - 1) %/ 2)%N.
Proof.
have h : (size (pair_dists X)).*2 = (size X * (size X - 1))%N.
  elim: X => //= x X IH; rewrite size_cat size_map doubleD IH subSS subn0.
  case: (size X) => [|m] //; rewrite subSS subn0; nia.
by rewrite -h -muln2 mulnK.
Qed.

Lemma size_pair_dists2 X : (size (pair_dists X) + size X = size X * (size X + 1) %/ 2)%N.
Proof.
have h : (size (pair_dists X) + size X).*2 = (size X * (size X + 1))%N.
  elim: X => //= x X IH; rewrite size_cat size_map.
  move: IH; rewrite !doubleD; nia.
by rewrite -h -muln2 mulnK.
Qed.

Lemma count_split2 (A : Type) (a b c : pred A) (X : seq A) :
  (forall z, (a z + b z = 1 + c z)%N) -> (count a X + count b X = size X + count c X)%N.
Proof. by move=> h; elim: X => //= x X IH; move: (h x); lia. Qed.

Lemma ord_cnt_le v X : 0 <= v ->
  ord_cnt (fun d => (d <= v)%R) X =
  (size X * (size X + 1) %/ 2 + count (fun d => (d <= v)%R) (pair_dists X))%N.
Proof.
move=> hv; rewrite -size_pair_dists2; elim: X => [|x X IH]; first by rewrite /ord_cnt big_nil.
rewrite ord_cnt_cons IH /= hv count_cat size_cat size_map count_map.
set c := count (preim _ _) X.
have -> : (count (fun z => (x - z <= v)%R) X + count (fun z => (z - x <= v)%R) X = size X + c)%N.
  apply: count_split2 => z /=; rewrite ler_norml.
  have -> : (- v <= x - z) = (z - x <= v) by apply/idP/idP => ?; flra.
  case: (lerP (x - z) v) => h1; case: (lerP (z - x) v) => h2 //.
  by exfalso; flra.
lia.
Qed.

Lemma ord_cnt_lt v X : 0 < v ->
  ord_cnt (fun d => (d < v)%R) X =
  (size X * (size X + 1) %/ 2 + count (fun d => (d < v)%R) (pair_dists X))%N.
Proof.
move=> hv; rewrite -size_pair_dists2; elim: X => [|x X IH]; first by rewrite /ord_cnt big_nil.
rewrite ord_cnt_cons IH /= hv count_cat size_cat size_map count_map.
set c := count (preim _ _) X.
have -> : (count (fun z => (x - z < v)%R) X + count (fun z => (z - x < v)%R) X = size X + c)%N.
  apply: count_split2 => z /=; rewrite ltr_norml.
  have -> : (- v < x - z) = (z - x < v) by apply/idP/idP => ?; flra.
  case: (ltrP (x - z) v) => h1; case: (ltrP (z - x) v) => h2 //.
  by exfalso; flra.
lia.
Qed.

Lemma ord_cnt_neg v X : v < 0 -> (ord_cnt (fun d => (d <= v)%R) X <= size (pair_dists X))%N.
Proof.
move=> hv; elim: X => [|x X IH]; first by rewrite /ord_cnt big_nil.
rewrite ord_cnt_cons /= leNgt hv /= size_cat size_map add0n leq_add //.
elim: {IH} X => //= z X IH.
rewrite addnACA -[X in (_ <= X)%N]add1n leq_add //.
case: (lerP (x - z) v) => h1; case: (lerP (z - x) v) => h2 //.
by exfalso; flra.
Qed.
End Pairs.

Section Main.
Variable T : realFieldType.
Implicit Types (X : seq T).

Lemma sum_cl (y : seq T) v : (\sum_(i < size y) cl y i v = ord_cnt (fun d => (d < v)%R) y)%N.
Proof.
rewrite /ord_cnt (big_nth 0) big_mkord; apply: eq_bigr => i _.
by rewrite /cl /cnt_lt /row count_map; apply/permP; rewrite perm_rev.
Qed.

Lemma sum_ce (y : seq T) v : (\sum_(i < size y) ce y i v = ord_cnt (fun d => (d <= v)%R) y)%N.
Proof.
rewrite /ord_cnt (big_nth 0) big_mkord; apply: eq_bigr => i _.
by rewrite /ce /cnt_le /row count_map; apply/permP; rewrite perm_rev.
Qed.

Lemma qn_k_bounds n : (1 < n)%N -> (0 < qn_k n /\ qn_k n <= n * (n - 1) %/ 2)%N.
Proof.
move=> hn; rewrite /qn_k /qn_h addnK; split.
- rewrite divn_gt0 //; have : (0 < n %/ 2)%N by rewrite divn_gt0.
  nia.
- apply: leq_div2r.
  have h : (n %/ 2 + 1 <= n)%N by lia.
  have h' : (n %/ 2 <= n - 1)%N by lia.
  exact: leq_mul.
Qed.

Lemma sum_rev_id m : (\sum_(i < m) (m - i) = m * (m + 1) %/ 2)%N.
Proof.
have h : ((\sum_(i < m) (m - i)).*2 = m * (m + 1))%N.
  elim: m => [|m IH]; first by rewrite big_ord0.
  rewrite big_ord_recl subn0 /= doubleD (eq_bigr (fun i : 'I_m => (m - i)%N)) //.
  rewrite IH; nia.
by rewrite -h -muln2 mulnK.
Qed.

Lemma qn_left0E n : qn_left0 n = mkseq (fun i => (n - i).+1) n.
Proof.
by apply/eq_in_map => i; rewrite mem_iota /= add0n => hi; rewrite addn1 subSn // ltnW.
Qed.

Lemma qn_right0E n : qn_right0 n = mkseq (fun _ => n) n.
Proof.
apply: (@eq_from_nth _ 0%N); first by rewrite size_nseq size_mkseq.
by move=> i; rewrite size_nseq => hi; rewrite nth_nseq nth_mkseq hi.
Qed.

Lemma inv0 (y : seq T) : sorted <=%R y -> (1 < size y)%N ->
  Inv y (qn_k (size y) + qn_jhelp (size y)) (fun i => (size y - i)%N) (fun _ => size y)
    (qn_jhelp (size y)) (size y * size y).
Proof.
move=> ys hn; have [h1 h2] := qn_k_bounds hn; split.
- by rewrite sum_rev_id.
- by rewrite sum_nat_const card_ord.
- by rewrite -[X in (X < _)%N]add0n ltn_add2r.
- apply: leq_trans (_ : size y * (size y - 1) %/ 2 + size y * (size y + 1) %/ 2 <= _)%N.
    by rewrite leq_add2r.
  have : (size y * (size y - 1) + size y * (size y + 1) = size y * size y * 2)%N by nia.
  by move: (size y * (size y - 1))%N (size y * (size y + 1))%N (size y * size y)%N => a b c; lia.
- by [].
- by move=> i _; exact: leq_subr.
- by [].
- move=> i m i' m' hi hi' /andP[hm hmn] hm'.
  rewrite !entE //; last by lia.
  have hle a b : (a <= b)%N -> (b < size y)%N -> nth 0 y a <= nth 0 y b.
    move=> hab hb; apply: (sorted_leq_nth le_trans lexx 0 ys) => //.
    by rewrite inE (leq_ltn_trans hab).
  have ha := hle i' (size y - m'.+1)%N _ _.
  have hb := hle (size y - m.+1)%N i _ _.
  apply: (@le_trans _ _ 0).
    by rewrite subr_le0; apply: ha; lia.
  by rewrite subr_ge0; apply: hb; lia.
- by move=> i m i' m' _ _ _; lia.
Qed.

Lemma qn_raw_ord X : (1 < size X)%N ->
  exists v, [/\ qn_raw X = Ok v,
   (ord_cnt (fun d => (d < v)%R) X < qn_k (size X) + qn_jhelp (size X))%N
   & (qn_k (size X) + qn_jhelp (size X) <= ord_cnt (fun d => (d <= v)%R) X)%N].
Proof.
move=> hn; set y := fsort X.
have ys : sorted <=%R y := sort_le_sorted X.
have ysz : size y = size X by rewrite size_fsort.
have yn : (1 < size y)%N by rewrite ysz.
have inv := inv0 ys yn.
have hfuel : (size y * size y - qn_jhelp (size y) < (size X * size X).+1)%N.
  by rewrite ltnS ysz leq_subr.
have hp p : ord_cnt p X = ord_cnt p y.
  by apply: ord_cnt_perm; rewrite perm_sym; exact: perm_fsort.
rewrite /qn_raw -/y qn_left0E qn_right0E -!ysz.
rewrite -/(lft y (fun i => (size y - i)%N)) -/(rgt y (fun _ => size y)).
rewrite -ysz in hfuel.
have [[t [i [m [-> _ h1 h2]]]]|[lo [hi [nL [nR [-> inv']]]]]] := qn_loop_correct ys inv hfuel.
- by exists t; rewrite !hp -sum_cl -sum_ce.
- have [work [v [/= -> /= -> h1 h2]]] := qn_exit_correct ys (ltnW yn) inv'.
  by exists v; rewrite !hp -sum_cl -sum_ce.
Qed.

Lemma qn_raw_correct X : (1 < size X)%N ->
  exists2 v, qn_raw X = Ok v & is_kth_smallest (pair_dists X) (qn_k (size X)) v.
Proof.
move=> hn; have [v [hv h1 h2]] := qn_raw_ord hn; exists v => //.
have [k0 k1] := qn_k_bounds hn.
have hge : 0 <= v.
  rewrite leNgt; apply/negP => hneg; have := ord_cnt_neg X hneg.
  have := size_pair_dists2 X; rewrite -/(qn_jhelp (size X)); lia.
have c1 : (count (fun x => (x < v)%R) (pair_dists X) < qn_k (size X))%N.
  move: hge; rewrite le_eqVlt => /orP[/eqP v0|hpos].
    apply: leq_trans k0; rewrite ltnS leqn0 -leqn0 leqNgt -has_count; apply/hasPn => x.
    move=> hx; rewrite -v0 -leNgt {v hv h1 h2 v0}.
    elim: X hx {hn k1} => //= x0 X IH; rewrite mem_cat => /orP[/mapP[z _ ->]|/IH //].
    exact: normr_ge0.
  by move: h1; rewrite ord_cnt_lt // -/(qn_jhelp (size X)) addnC ltn_add2r.
have c2 : (qn_k (size X) <= count (fun x => (x <= v)%R) (pair_dists X))%N.
  by move: h2; rewrite ord_cnt_le // -/(qn_jhelp (size X)) addnC leq_add2l.
split=> //; apply/negPn/negP => hnot.
have : (count (fun x => (x <= v)%R) (pair_dists X) <= count (fun x => (x < v)%R) (pair_dists X))%N.
  rewrite leq_eqVlt; apply/orP; left; apply/eqP; apply: eq_in_count => x hx /=.
  by rewrite le_eqVlt; case: eqP => // hxv; rewrite hxv in hx; rewrite hx in hnot.
lia.
Qed.

Lemma is_kth_unique (s : seq T) k u v :
  is_kth_smallest s k u -> is_kth_smallest s k v -> u = v.
Proof. by case=> _ h1 h2 [_ h3 h4]; apply: (kth_unique h1 h2 h3 h4). Qed.
End Main.

Section Consequences.
Variable T : realFieldType.
Implicit Types (X Y : seq T).

Lemma qn_raw_small X : (size X < 2)%N -> qn_raw X = Err ValueError.
Proof. by case: X => [|x [|z X]]. Qed.

Lemma qn_scale_small fc cc X : (size X < 2)%N -> qn_scale fc cc X = Err ValueError.
Proof. by move=> h; rewrite /qn_scale qn_raw_small. Qed.

Lemma qn_scale_perm fc cc X Y : perm_eq X Y -> qn_scale fc cc X = qn_scale fc cc Y.
Proof.
move=> h; have hs := perm_size h.
by rewrite /qn_scale /qn_raw (fsort_perm h) hs.
Qed.

Lemma pair_dists_affine (a b : T) X :
  pair_dists [seq a * x + b | x <- X] = [seq `|a| * d | d <- pair_dists X].
Proof.
elim: X => //= x X IH; rewrite IH map_cat -!map_comp; congr cat.
by apply: eq_map => z /=; rewrite -normrM; congr `|_|; ring.
Qed.

Lemma is_kth_scale (c : T) s k v : 0 <= c ->
  is_kth_smallest s k v -> is_kth_smallest [seq c * d | d <- s] k (c * v).
Proof.
rewrite le_eqVlt => /orP[/eqP <-|c0] [h1 h2 h3].
- split; first by apply/mapP; exists v.
  + rewrite mul0r count_map (eq_count (a2 := pred0)) ?count_pred0; last first.
      by move=> x /=; rewrite mul0r ltxx.
    exact: leq_ltn_trans h2.
  + rewrite mul0r count_map (eq_count (a2 := predT)) ?count_predT; last first.
      by move=> x /=; rewrite mul0r lexx.
    exact: leq_trans h3 (count_size _ _).
- split; first by apply/mapP; exists v.
  + rewrite count_map (eq_count (a2 := fun x => x < v)) // => x /=.
    by rewrite ltr_pmul2l.
  + rewrite count_map (eq_count (a2 := fun x => x <= v)) // => x /=.
    by rewrite ler_pmul2l.
Qed.

Lemma qn_raw_affine (a b : T) X q : qn_raw X = Ok q ->
  qn_raw [seq a * x + b | x <- X] = Ok (`|a| * q).
Proof.
case: (ltnP (size X) 2) => [/qn_raw_small -> //|hn hq].
have [v hv hk] := qn_raw_correct hn.
have hn' : (1 < size [seq (a * x + b)%R | x <- X])%N by rewrite size_map.
have [w hw hk'] := qn_raw_correct hn'.
rewrite hw; congr Ok; move: hq; rewrite hv => -[<-].
apply: is_kth_unique hk' _; rewrite size_map pair_dists_affine.
by apply: is_kth_scale hk; exact: normr_ge0.
Qed.

Lemma dec_gt0 num e : (0 < num)%N -> 0 < dec T num e.
Proof. by move=> h; rewrite /dec divr_gt0 // ltr0n // expn_gt0. Qed.

Lemma dn_pos n : (1 < n)%N -> exists2 d : T, small_sample_dn T n = Some d & 0 < d.
Proof.
rewrite /small_sample_dn; case: (leqP n 9) => h9.
  case: n h9 => [|[|[|[|[|[|[|[|[|[|n]]]]]]]]]] // _ _ /=;
    by eexists; [reflexivity|exact: dec_gt0].
move=> hn; case: (odd n); eexists; try reflexivity.
all: by rewrite divr_gt0 ?ltr0n ?(ltnW hn) // addr_gt0 ?ltr0n ?(ltnW hn) ?dec_gt0.
Qed.

Lemma qn_c_gt0 : 0 < qn_c T.
Proof. rewrite /qn_c; have h1 := @dec_gt0 219 3 isT; have h2 := @dec_gt0 144 6 isT; flra. Qed.

(* the corrections are a positive factor depending on n and the flags only *)
Definition qn_factor (fc cc : bool) (n : nat) : T :=
  (if cc then qn_c T else 1) *
  (if fc then (if small_sample_dn T n is Some d then d else 1) else 1).

Lemma qn_factor_gt0 fc cc n : (1 < n)%N -> 0 < qn_factor fc cc n.
Proof.
move=> hn; rewrite /qn_factor mulr_gt0 //.
  by case: cc; rewrite ?qn_c_gt0 ?ltr01.
by case: fc; rewrite ?ltr01 //; have [d -> ?] := dn_pos hn.
Qed.

Lemma qn_scale_factor fc cc X q : (1 < size X)%N -> qn_raw X = Ok q ->
  qn_scale fc cc X = Ok (qn_factor fc cc (size X) * q).
Proof.
move=> hn hq; rewrite /qn_scale hq /= /qn_factor.
have [d -> _] := dn_pos hn.
by case: fc; case: cc; rewrite /= ?mul1r ?mulr1 ?mulrA.
Qed.

Lemma small_sample_dnE n : (1 < n)%N -> small_sample_dn T n = Some (croux_dn T n).
Proof.
rewrite /small_sample_dn; case: (leqP n 9) => h9.
  by case: n h9 => [|[|[|[|[|[|[|[|[|[|n]]]]]]]]]] //.
have -> : croux_dn T n = (10 * n)%:R / (10 * n + (if odd n then 14%N else 38%N))%:R.
  by case: n h9 => [|[|[|[|[|[|[|[|[|[|n]]]]]]]]]] //.
have n0 : 0 < n%:R :> T by rewrite ltr0n; case: (n) h9.
have key (k : nat) : n%:R / (n%:R + dec T k 1) = (10 * n)%:R / (10 * n + k)%:R :> T.
  have k0 : 0 <= k%:R :> T := ler0n _ _.
  rewrite /dec expn1 natrD natrM; field.
  by rewrite ?gt_eqF //; flra.
by move=> _; case: (odd n); rewrite key.
Qed.

Lemma qn_cE : qn_c T = gauss_c T.
Proof.
rewrite /qn_c /gauss_c /dec (natrX T 10 3) (natrX T 10 6) (exprD _ 3 3).
have -> : 2219%:R = 2%:R * 10%:R ^+ 3 + 219%:R :> T by rewrite -natrX -natrM -natrD.
have h : 10%:R ^+ 3 != 0 :> T by rewrite expf_neq0 // pnatr_eq0.
by move: (10%:R ^+ 3) h => K h; field.
Qed.

Lemma qn_scale_factors_lem fc cc X : (1 < size X)%N ->
  exists2 v, is_kth_smallest (pair_dists X) (qn_k (size X)) v &
    qn_scale fc cc X = Ok ((if cc then gauss_c T else 1)
                           * ((if fc then croux_dn T (size X) else 1) * v)).
Proof.
move=> hn; have [v hv hk] := qn_raw_correct hn; exists v => //.
rewrite /qn_scale hv /= small_sample_dnE // -qn_cE.
by case: fc; case: cc; rewrite /= ?mul1r.
Qed.

Lemma qn_scale_affine fc cc (a b : T) X : (1 < size X)%N ->
  exists q, [/\ 0 <= q, qn_scale fc cc X = Ok q
     & qn_scale fc cc [seq a * x + b | x <- X] = Ok (`|a| * q)].
Proof.
move=> hn; have [v hv [hk _ _]] := qn_raw_correct hn.
exists (qn_factor fc cc (size X) * v); split.
- apply: mulr_ge0; first by apply: ltW; exact: qn_factor_gt0.
  clear hv.
  elim: X hk {hn} => //= x X IH; rewrite mem_cat => /orP[/mapP[z _ ->]|/IH //].
  by rewrite normr_ge0.
- exact: qn_scale_factor.
- rewrite (@qn_scale_factor _ _ _ (`|a| * v)) ?size_map //.
    by rewrite mulrCA.
  exact: qn_raw_affine.
Qed.

Lemma qn_scale_total fc cc X : (1 < size X)%N -> exists q, qn_scale fc cc X = Ok q.
Proof. by move=> /(qn_scale_affine fc cc 1 0)[q [_ h _]]; exists q. Qed.

Lemma count_pair_dists_filter (p : pred T) (L : T) X :
  (forall x z, p x -> p z -> `|x - z| <= L) ->
  (size (pair_dists (filter p X)) <= count (fun d => (d <= L)%R) (pair_dists X))%N.
Proof.
move=> hL; elim: X => //= x X IH; rewrite count_cat.
case hx: (p x) => /=; last by apply: leq_trans IH _; rewrite leq_addl.
rewrite size_cat leq_add // size_map count_map size_filter.
by apply: sub_count => z hz /=; apply: hL.
Qed.

Lemma qn_raw_breakdown X (lo L q : T) :
  (1 < size X)%N ->
  (size X %/ 2 + 1 <= count (fun x => (lo <= x <= lo + L)%R) X)%N ->
  qn_raw X = Ok q -> q <= L.
Proof.
move=> hn hcnt; have [v -> [_ h1 h2]] := qn_raw_correct hn => -[<-].
rewrite leNgt; apply/negP => hlt.
suff : (qn_k (size X) <= count (fun x => (x < v)%R) (pair_dists X))%N by rewrite leqNgt h1.
apply: leq_trans (_ : count (fun x => (x <= L)%R) (pair_dists X) <= _)%N; last first.
  by apply: sub_count => x /= hx; apply: le_lt_trans hx hlt.
apply: leq_trans (@count_pair_dists_filter (fun x => lo <= x <= lo + L) L X _).
  rewrite size_pair_dists size_filter /qn_k /qn_h addnK leq_div2r //.
  move: hcnt; set c := count _ X; set m := (size X %/ 2)%N => hcnt.
  by apply: leq_mul; [exact: hcnt|move: hcnt; clearbody c m; lia].
move=> x z /andP[x1 x2] /andP[z1 z2]; rewrite ler_norml; apply/andP; split; flra.
Qed.

Lemma qn_raw_zero X q : (1 < size X)%N -> qn_raw X = Ok q ->
  (q == 0) = (qn_k (size X) <= count (fun d => d == 0%R) (pair_dists X))%N.
Proof.
move=> hn; have [v -> [hv h1 h2]] := qn_raw_correct hn => -[<-].
have hpos d : d \in pair_dists X -> 0 <= d.
  elim: X {hn hv h1 h2} => //= x X IH; rewrite mem_cat => /orP[/mapP[z _ ->]|/IH //].
  by rewrite normr_ge0.
have he : count (fun d => d == 0%R) (pair_dists X) = count (fun d => (d <= 0)%R) (pair_dists X).
  by apply: eq_in_count => d /hpos hd; rewrite eq_le hd andbT.
rewrite he; apply/eqP/idP => [v0|hk]; first by rewrite -v0.
apply/eqP; rewrite eq_le hpos // andbT leNgt; apply/negP => hlt.
suff : (qn_k (size X) <= count (fun x => (x < v)%R) (pair_dists X))%N by rewrite leqNgt h1.
apply: leq_trans hk _; apply: sub_count => x /= hx; exact: le_lt_trans hx hlt.
Qed.
End Consequences.
