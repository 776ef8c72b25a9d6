(* Elementary statistics used throughout robpy: variance, median, median
   absolute deviation, with the facts about them that the proofs share. *)
From mathcomp Require Import all_ssreflect all_algebra.
From mathcomp.zify Require Import zify.
From mathcomp.algebra_tactics Require Import ring.
From Verif Require Import RFieldLra Prelude.

Set Implicit Arguments.
Unset Strict Implicit.
Unset Printing Implicit Defensive.

Import Order.TTheory GRing.Theory Num.Theory.
Local Open Scope ring_scope.

Section Stats.
Variable T : realFieldType.
Implicit Types (s : seq T).

(* np.var, e.g. robpy/univariate/mcd.py:54, 69: mean squared deviation from the mean (empty input:
   NumPy gives NaN, here 0; callers establish non-emptiness) *)
Definition fvar s : T := fmean [seq (x - fmean s) ^+ 2 | x : T <- s].

(* np.median, e.g. robpy/univariate/tau.py:44: middle element of the sorted data, or the mean of the
   two middle elements (for odd length both indices below coincide) *)
Definition fmed s : T :=
  (nth 0 (fsort s) ((size s).-1 %/ 2) + nth 0 (fsort s) (size s %/ 2)) / 2%:R.

(* scipy.stats.median_abs_deviation with scale=1.0, e.g. robpy/univariate/tau.py:43 *)
Definition fmad s : T := fmed [seq `|x - fmed s| | x : T <- s].

(* np.min of a non-empty list, robpy/univariate/adjusted_boxplot.py:66-80 *)
Definition fmin s : T := foldr Num.min (head 0 s) s.
(* np.max of a non-empty list, robpy/univariate/adjusted_boxplot.py:66-80 *)
Definition fmax s : T := foldr Num.max (head 0 s) s.

Lemma fmin_le s x : x \in s -> fmin s <= x.
Proof.
rewrite /fmin; elim: s (head 0 s) => //= y s IH d; rewrite inE => /orP[/eqP ->|/IH h].
  by rewrite le_minl lexx.
by rewrite le_minl h orbT.
Qed.

Lemma fmax_ge s x : x \in s -> x <= fmax s.
Proof.
rewrite /fmax; elim: s (head 0 s) => //= y s IH d; rewrite inE => /orP[/eqP ->|/IH h].
  by rewrite le_maxr lexx.
by rewrite le_maxr h orbT.
Qed.

Lemma fmin_mem s : (0 < size s)%N -> fmin s \in s.
Proof.
case: s => // x s _; rewrite /fmin.
have h (d : T) l : foldr Num.min d l \in d :: l.
  elim: l => [|y l IH] /=; first by rewrite inE.
  case: leP => _; first by rewrite !inE eqxx orbT.
  by move: IH; rewrite !inE => /orP[->|->]; rewrite ?orbT.
by have := h x (x :: s); rewrite inE => /orP[/eqP ->|//]; rewrite mem_head.
Qed.

Lemma fmax_mem s : (0 < size s)%N -> fmax s \in s.
Proof.
case: s => // x s _; rewrite /fmax.
have h (d : T) l : foldr Num.max d l \in d :: l.
  elim: l => [|y l IH] /=; first by rewrite inE.
  case: leP => _; last by rewrite !inE eqxx orbT.
  by move: IH; rewrite !inE => /orP[->|->]; rewrite ?orbT.
by have := h x (x :: s); rewrite inE => /orP[/eqP ->|//]; rewrite mem_head.
Qed.

(* ------------------------------------------------------------ means *)
Lemma size_gt0_r s : (0 < size s)%N -> 0 < (size s)%:R :> T.
Proof. by rewrite ltr0n. Qed.

Lemma fmeanM s : (0 < size s)%N -> fmean s * (size s)%:R = fsum s.
Proof. by move=> h; rewrite /fmean divfK // pnatr_eq0 -lt0n. Qed.

Lemma fsum_affine (a b : T) s :
  fsum [seq a * x + b | x : T <- s] = a * fsum s + b * (size s)%:R.
Proof. by rewrite fsum_map_add fsum_map_mul map_id fsum_map_const. Qed.

Lemma fmean_affine (a b : T) s : (0 < size s)%N ->
  fmean [seq a * x + b | x : T <- s] = a * fmean s + b.
Proof.
move=> h; rewrite /fmean size_map fsum_affine.
have h0 : (size s)%:R != 0 :> T by rewrite pnatr_eq0 -lt0n.
by rewrite mulrDl mulrA mulfK.
Qed.

Lemma fmean_perm s t : perm_eq s t -> fmean s = fmean t.
Proof. by move=> h; rewrite /fmean (fsum_perm h) (perm_size h). Qed.

Lemma fmean_between s lo hi : (0 < size s)%N ->
  (forall x, x \in s -> lo <= x <= hi) -> lo <= fmean s <= hi.
Proof.
move=> h hb; rewrite /fmean ler_pdivl_mulr ?ler_pdivr_mulr ?ltr0n //.
rewrite -!fsum_map_const -[X in _ <= X <= _](congr1 fsum (map_id s)).
by apply/andP; split; apply: fsum_map_le => x /hb /andP[].
Qed.

Lemma fvar_ge0 s : 0 <= fvar s.
Proof.
rewrite /fvar /fmean divr_ge0 ?ler0n // fsum_ge0 //.
by apply/allP => _ /mapP[x _ ->]; rewrite sqr_ge0.
Qed.

Lemma fvar_perm s t : perm_eq s t -> fvar s = fvar t.
Proof.
move=> h; rewrite /fvar (fmean_perm h); apply: fmean_perm; exact: perm_map.
Qed.

Lemma fvar_affine (a b : T) s :
  fvar [seq a * x + b | x : T <- s] = a ^+ 2 * fvar s.
Proof.
case: (posnP (size s)) => [/size0nil ->|h]; first by rewrite /fvar /fmean /= mul0r mulr0.
rewrite /fvar fmean_affine // -map_comp.
transitivity (fmean [seq a ^+ 2 * (x - fmean s) ^+ 2 | x : T <- s]).
  by congr fmean; apply: eq_map => x /=; ring.
by rewrite /fmean !size_map fsum_map_mul mulrA.
Qed.

(* the mean minimises the sum of squares *)
Lemma fsum_sq_shift s (c : T) : (0 < size s)%N ->
  fsum [seq (x - c) ^+ 2 | x : T <- s] =
  fsum [seq (x - fmean s) ^+ 2 | x : T <- s] + (size s)%:R * (fmean s - c) ^+ 2.
Proof.
move=> h; have := fmeanM h; set m := fmean s => hm.
transitivity (fsum [seq (x - m) ^+ 2 + ((2%:R * (m - c)) * x
   + ((m - c) ^+ 2 - 2%:R * (m - c) * m)) | x : T <- s]).
  by congr fsum; apply: eq_map => x /=; ring.
by rewrite fsum_map_add fsum_affine -hm; congr (_ + _); ring.
Qed.

Lemma fvarM s : (0 < size s)%N ->
  fvar s * (size s)%:R = fsum [seq (x - fmean s) ^+ 2 | x : T <- s].
Proof. by move=> h; rewrite /fvar -fmeanM ?size_map. Qed.

Lemma fvar_eq0 s : (0 < size s)%N ->
  (fvar s == 0) = all (fun x => x == fmean s) s.
Proof.
move=> h; have hs := size_gt0_r h.
have -> : (fvar s == 0) = (fsum [seq (x - fmean s) ^+ 2 | x : T <- s] == 0).
  by rewrite -(fvarM h) [in RHS]mulf_eq0 (gt_eqF hs) orbF.
elim: s (fmean s) {h hs} => [|x s IH] m /=; first by rewrite eqxx.
rewrite paddr_eq0 ?sqr_ge0 //; last first.
  by apply: fsum_ge0; apply/allP => _ /mapP[y _ ->]; rewrite sqr_ge0.
by rewrite IH sqrf_eq0 subr_eq0.
Qed.

(* ------------------------------------------------------------ medians *)
Lemma fmed_perm s t : perm_eq s t -> fmed s = fmed t.
Proof. by move=> h; rewrite /fmed (fsort_perm h) (perm_size h). Qed.

Lemma fmad_perm s t : perm_eq s t -> fmad s = fmad t.
Proof. by move=> h; rewrite /fmad (fmed_perm h); apply/fmed_perm/perm_map. Qed.

Lemma fsort_mono_pos (f : T -> T) s : {mono f : x y / x <= y} ->
  fsort [seq f x | x : T <- s] = [seq f x | x <- fsort s].
Proof.
move=> hf; apply: (@sorted_eq _ <=%R); [exact: le_trans|exact: le_anti|..].
- exact: sort_le_sorted.
- rewrite sorted_map; have := sort_le_sorted s.
  by apply: sub_sorted => x y; rewrite /= hf.
- apply: perm_trans (perm_fsort _) _; apply: perm_map.
  by rewrite perm_sym perm_fsort.
Qed.

Lemma fsort_mono_neg (f : T -> T) s : {mono f : x y /~ x <= y} ->
  fsort [seq f x | x : T <- s] = rev [seq f x | x <- fsort s].
Proof.
move=> hf; apply: (@sorted_eq _ <=%R); [exact: le_trans|exact: le_anti|..].
- exact: sort_le_sorted.
- rewrite rev_sorted sorted_map; have := sort_le_sorted s.
  by apply: sub_sorted => x y; rewrite /= hf.
- apply: perm_trans (perm_fsort _) _; rewrite perm_sym perm_rev; apply: perm_map.
  exact: perm_fsort.
Qed.

Lemma fmed_affine (a b : T) s : (0 < size s)%N ->
  fmed [seq a * x + b | x : T <- s] = a * fmed s + b.
Proof.
move=> hs; rewrite /fmed size_map; set n := size s.
have hn : (size (fsort s) = n)%N by rewrite size_fsort.
have h1 : (n.-1 %/ 2 < n)%N by move: hs; rewrite -/n; lia.
have h2 : (n %/ 2 < n)%N by move: hs; rewrite -/n; lia.
have twon0 : 2%:R != 0 :> T by rewrite pnatr_eq0.
case: (ltrgt0P a) => a0.
- rewrite fsort_mono_pos; last by move=> x y; rewrite ler_add2r ler_pmul2l.
  by rewrite !(nth_map 0) ?hn //; field.
- rewrite fsort_mono_neg; last by move=> x y; rewrite ler_add2r ler_nmul2l.
  rewrite !nth_rev ?size_map ?hn //.
  have -> : (n - (n.-1 %/ 2).+1 = n %/ 2)%N by lia.
  have -> : (n - (n %/ 2).+1 = n.-1 %/ 2)%N by lia.
  by rewrite !(nth_map 0) ?hn //; field.
- have -> : [seq a * x + b | x : T <- s] = nseq n b.
    by rewrite /n; elim: (s) => //= x l ->; rewrite a0 mul0r add0r.
  have -> : fsort (nseq n b) = nseq n b.
    apply: sorted_sort; first exact: le_trans.
    by elim: (n) => // -[|m] //= IH; rewrite lexx.
  by rewrite !nth_nseq h1 h2 a0; field.
Qed.

Lemma fmad_affine (a b : T) s : (0 < size s)%N ->
  fmad [seq a * x + b | x : T <- s] = `|a| * fmad s.
Proof.
move=> h; rewrite /fmad fmed_affine // -map_comp.
transitivity (fmed [seq `|a| * `|x - fmed s| + 0 | x : T <- s]).
  by congr fmed; apply: eq_map => x /=; rewrite addr0 -normrM; congr `|_|; ring.
rewrite (map_comp (fun x => `|a| * x + 0) (fun x => `|x - fmed s|)).
by rewrite fmed_affine ?size_map // addr0.
Qed.

(* a predicate that is down-closed and holds for more than half of the data holds
   for the two middle order statistics *)
Lemma nth_fsort_le_count s i v : (i < size s)%N ->
  (nth 0 (fsort s) i <= v) = (i < cnt_le s v)%N.
Proof.
move=> hi; rewrite (sorted_nth_le _ (sort_le_sorted s)) ?size_fsort //.
by rewrite /cnt_le (permP (perm_fsort s)).
Qed.

Lemma nth_fsort_lt_count s i v : (i < size s)%N ->
  (nth 0 (fsort s) i < v) = (i < cnt_lt s v)%N.
Proof.
move=> hi; rewrite (sorted_nth_lt _ (sort_le_sorted s)) ?size_fsort //.
by rewrite /cnt_lt (permP (perm_fsort s)).
Qed.

Lemma cnt_lt_ge s v : (cnt_lt s v + count (fun x => (v <= x)%R) s = size s)%N.
Proof.
rewrite -(count_predC (fun x => x < v) s); congr addn.
by apply: eq_count => x /=; rewrite leNgt.
Qed.

Lemma cnt_le_gt s v : (cnt_le s v + count (fun x => (v < x)%R) s = size s)%N.
Proof.
rewrite -(count_predC (fun x => x <= v) s); congr addn.
by apply: eq_count => x /=; rewrite ltNge.
Qed.

Lemma fmed_bounds s (lo hi : T) : (0 < size s)%N ->
  (size s < 2 * count (fun x => (lo <= x)%R) s)%N ->
  (size s < 2 * count (fun x => (x <= hi)%R) s)%N ->
  lo <= fmed s <= hi.
Proof.
move=> h0 hlo hhi.
have i1 : ((size s).-1 %/ 2 < size s)%N by lia.
have i2 : ((size s) %/ 2 < size s)%N by lia.
have l1 : lo <= nth 0 (fsort s) ((size s).-1 %/ 2).
  rewrite leNgt nth_fsort_lt_count //; move: hlo (cnt_lt_ge s lo).
  move: (count _ _) (cnt_lt _ _) => c1 c2; lia.
have l2 : nth 0 (fsort s) (size s %/ 2) <= hi.
  rewrite nth_fsort_le_count //; move: hhi; rewrite -/(cnt_le s hi).
  move: (cnt_le _ _) => c1; lia.
have l3 : nth 0 (fsort s) ((size s).-1 %/ 2) <= nth 0 (fsort s) (size s %/ 2).
  by apply: nth_fsort_le => //; apply: leq_div2r; exact: leq_pred.
rewrite /fmed ler_pdivl_mulr ?ler_pdivr_mulr ?ltr0n //; apply/andP; split; flra.
Qed.

Lemma fmed_majority s (lo hi : T) : (0 < size s)%N ->
  (size s < 2 * count (fun x => (lo <= x <= hi)%R) s)%N ->
  lo <= fmed s <= hi.
Proof.
move=> h0 h; apply: fmed_bounds => //; apply: leq_trans h _; rewrite leq_mul2l /=.
- by apply: sub_count => x /= /andP[].
- by apply: sub_count => x /= /andP[].
Qed.

Lemma fmed_between s (lo hi : T) : (0 < size s)%N ->
  (forall x, x \in s -> lo <= x <= hi) -> lo <= fmed s <= hi.
Proof.
move=> h0 hb; apply: fmed_majority => //.
have -> : count (fun x => (lo <= x <= hi)%R) s = size s.
  by apply/eqP; rewrite -all_count; apply/allP.
lia.
Qed.

(* at least half of the data are at most the median *)
Lemma fmed_half_le s : (size s <= 2 * count (fun x => (x <= fmed s)%R) s)%N.
Proof.
case: (posnP (size s)) => [->//|h0].
have i1 : ((size s).-1 %/ 2 < size s)%N by lia.
have i2 : ((size s) %/ 2 < size s)%N by lia.
have l3 : nth 0 (fsort s) ((size s).-1 %/ 2) <= nth 0 (fsort s) (size s %/ 2).
  by apply: nth_fsort_le => //; apply: leq_div2r; exact: leq_pred.
have : nth 0 (fsort s) ((size s).-1 %/ 2) <= fmed s.
  rewrite /fmed ler_pdivl_mulr ?ltr0n //; flra.
rewrite nth_fsort_le_count // /cnt_le; move: (count _ _) => c; lia.
Qed.

Lemma fmed_half_ge s : (size s <= 2 * count (fun x => (fmed s <= x)%R) s)%N.
Proof.
case: (posnP (size s)) => [->//|h0].
have i1 : ((size s).-1 %/ 2 < size s)%N by lia.
have i2 : ((size s) %/ 2 < size s)%N by lia.
have l3 : nth 0 (fsort s) ((size s).-1 %/ 2) <= nth 0 (fsort s) (size s %/ 2).
  by apply: nth_fsort_le => //; apply: leq_div2r; exact: leq_pred.
have : ~~ (nth 0 (fsort s) (size s %/ 2) < fmed s).
  rewrite -leNgt /fmed ler_pdivr_mulr ?ltr0n //; flra.
rewrite nth_fsort_lt_count //; move: (cnt_lt_ge s (fmed s)).
move: (count _ _) (cnt_lt _ _) => c c'; lia.
Qed.

Lemma fmed_ge0 s : (forall x, x \in s -> 0 <= x) -> 0 <= fmed s.
Proof.
move=> h; rewrite /fmed divr_ge0 ?ler0n // addr_ge0 //.
  case: (ltnP ((size s).-1 %/ 2) (size s)) => hi; last by rewrite nth_default ?size_fsort.
  by apply: h; rewrite -(mem_fsort s) mem_nth // size_fsort.
case: (ltnP ((size s) %/ 2) (size s)) => hi; last by rewrite nth_default ?size_fsort.
by apply: h; rewrite -(mem_fsort s) mem_nth // size_fsort.
Qed.

Lemma fmad_ge0 s : 0 <= fmad s.
Proof. by apply: fmed_ge0 => _ /mapP[x _ ->]. Qed.

(* under a majority in [lo, hi] the MAD is at most the length *)
Lemma fmad_majority s (lo hi : T) : (0 < size s)%N ->
  (size s < 2 * count (fun x => (lo <= x <= hi)%R) s)%N ->
  fmad s <= hi - lo.
Proof.
move=> h0 h; have /andP[m1 m2] := fmed_majority h0 h.
suff /andP[] : 0 <= fmad s <= hi - lo by [].
apply: fmed_majority; first by rewrite size_map.
rewrite size_map count_map; apply: leq_trans h _; rewrite leq_mul2l /=.
apply: sub_count => x /= /andP[x1 x2]; rewrite normr_ge0 /= ler_norml.
by apply/andP; split; flra.
Qed.

End Stats.

Arguments fvar {T} s.
Arguments fmed {T} s.
Arguments fmad {T} s.
Arguments fmin {T} s.
Arguments fmax {T} s.
