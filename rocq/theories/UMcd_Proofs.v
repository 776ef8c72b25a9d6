(* Proofs about the univariate MCD. *)
From mathcomp Require Import all_ssreflect all_algebra.
From mathcomp.zify Require Import zify.
From mathcomp.algebra_tactics Require Import ring.
From Verif Require Import RFieldLra Prelude Stats Xnum UMcd_Model UMcd_Spec.

Set Implicit Arguments.
Unset Strict Implicit.
Unset Printing Implicit Defensive.

Import Order.TTheory GRing.Theory Num.Theory.
Local Open Scope ring_scope.

Section Windows.
Variable T : realFieldType.
Implicit Types (s c y X S : seq T).

Lemma subseq_extend s c : subseq s c -> (size s < size c)%N ->
  exists e t, [/\ e \in c, subseq t c & perm_eq t (e :: s)].
Proof.
elim: c s => [|z c IH] [|a s] //=.
- by move=> _ _; exists z, [:: z]; rewrite mem_head /= eqxx sub0seq perm_refl.
case: eqP => [-> hs|_ hs _].
- rewrite ltnS => /(IH _ hs)[e [t [h1 h2 h3]]].
  exists e, (z :: t); split; first by rewrite inE h1 orbT.
    by rewrite /= eqxx.
  apply: perm_trans (_ : perm_eq _ (z :: e :: s)) _; first by rewrite perm_cons.
  by rewrite -!(cat1s _ s) -[z :: _]cat1s -[e :: _]cat1s perm_catCA.
- exists z, (z :: a :: s); split; first by rewrite mem_head.
    by rewrite /= eqxx.
  exact: perm_refl.
Qed.

(* dropping a largest first element *)
Lemma subseq_drop_first x c s : (forall e, e \in c -> e <= x) ->
  subseq s (x :: c) -> (size s <= size c)%N ->
  exists t, [/\ subseq t c, size t = size s & fsum t <= fsum s].
Proof.
move=> hx; case: s => [|a s] /=; first by exists [::]; rewrite sub0seq.
case: eqP => [-> hs hsz|_ hs hsz]; last by exists (a :: s).
have [e [t [h1 h2 h3]]] := subseq_extend hs hsz.
exists t; split=> //; first by rewrite (perm_size h3).
by rewrite (fsum_perm h3) /= ler_add2r hx.
Qed.

(* every entry is at most the larger of any two entries around it *)
Definition qconv c := forall i j k, (i <= j <= k)%N -> (k < size c)%N ->
  nth 0 c j <= Num.max (nth 0 c i) (nth 0 c k).

Lemma qconv_behead x c : qconv (x :: c) -> qconv c.
Proof.
move=> h i j k hijk hk; apply: (h i.+1 j.+1 k.+1); first by rewrite !ltnS.
by rewrite /= ltnS.
Qed.

Lemma qconv_rev c : qconv c -> qconv (rev c).
Proof.
move=> h i j k /andP[hij hjk]; rewrite size_rev => hk.
have hj := leq_ltn_trans hjk hk; have hi := leq_ltn_trans hij hj.
rewrite !nth_rev // maxC; apply: h; move: (size c) hk hj hi => n; lia.
Qed.

Lemma size_win (A : Type) (c : seq A) h i : (i + h <= size c)%N ->
  size (take h (drop i c)) = h.
Proof. by move=> hi; rewrite size_takel // size_drop leq_subRL // (leq_trans (leq_addr h i)). Qed.

Lemma take_drop_rev (c : seq T) h i : (i + h <= size c)%N ->
  take h (drop i (rev c)) = rev (take h (drop (size c - h - i) c)).
Proof.
move=> hi; have hi2 : (size c - h - i + h <= size c)%N by move: (size c) hi => n; lia.
apply: (@eq_from_nth _ 0); first by rewrite size_rev !size_win ?size_rev.
move=> j; rewrite size_win ?size_rev // => hj.
rewrite nth_take // nth_drop nth_rev; last by move: (size c) hi hi2 => n; lia.
rewrite nth_rev size_win // nth_take; last by lia.
by rewrite nth_drop; congr nth; move: (size c) hi hi2 => n; lia.
Qed.

Lemma fsum_rev s : fsum (rev s) = fsum s.
Proof. by apply: fsum_perm; rewrite perm_rev. Qed.

Lemma best_window c h s : qconv c -> subseq s c -> size s = h ->
  exists2 i, (i + h <= size c)%N & fsum (take h (drop i c)) <= fsum s.
Proof.
have [m] := ubnP (size c); elim: m c s => // m IH c s hm hq hs hsz.
have hle : (h <= size c)%N by rewrite -hsz; exact: size_subseq.
case: (ltnP h (size c)) => hlt; last first.
  have he : size s = size c by apply/eqP; rewrite hsz eqn_leq hle hlt.
  have es : s = c.
    by apply/eqP; have [_ <-] := size_subseq_leqif hs; rewrite he.
  by exists 0%N; rewrite ?add0n // drop0 take_oversize ?es // -?hsz ?es.
(* the two ends *)
have step c0 s0 : (size c0 < m.+1)%N -> qconv c0 -> subseq s0 c0 -> size s0 = h ->
    (h < size c0)%N -> nth 0 c0 (size c0).-1 <= nth 0 c0 0 ->
    exists2 i, (i + h <= size c0)%N & fsum (take h (drop i c0)) <= fsum s0.
  case: c0 => //= x c' hm' hq' hs' hsz' hlt' hend.
  have hx e : e \in c' -> e <= x.
    move=> /(nthP 0)[j hj <-].
    apply: le_trans (hq' 0%N j.+1 (size c') _ _) _ => //=.
    by rewrite /= le_maxl lexx.
  have hsz2 : (size s0 <= size c')%N by rewrite hsz'.
  have [t [t1 t2 t3]] := subseq_drop_first hx hs' hsz2.
  rewrite hsz' in t2; have [i hi hb] := IH c' t hm' (qconv_behead hq') t1 t2.
  exists i.+1; first by rewrite addSn ltnS.
  exact: le_trans hb t3.
case: (lerP (nth 0 c (size c).-1) (nth 0 c 0)) => hend; first exact: step.
have [||||||i] := step (rev c) (rev s); rewrite ?size_rev //; first exact: qconv_rev.
- by rewrite subseq_rev.
- have h0 : (0 < size c)%N by apply: leq_ltn_trans hlt.
  rewrite !nth_rev ?subn1 ?prednK ?subnn ?ltn_predL //.
  exact: ltW.
move=> hi; rewrite take_drop_rev // => hb.
exists (size c - h - i)%N; first by lia.
by move: hb; rewrite !fsum_rev.
Qed.
End Windows.

Section Main.
Variable T : realFieldType.
Implicit Types (s c y X S : seq T).

Lemma sq_le_max (a b d m : T) : a <= b -> b <= d ->
  (b - m) ^+ 2 <= Num.max ((a - m) ^+ 2) ((d - m) ^+ 2).
Proof.
move=> l1 l2; rewrite le_maxr; case: (lerP b m) => hb; apply/orP; [left|right].
- rewrite -[(b - m) ^+ 2]sqrrN -[(a - m) ^+ 2]sqrrN ler_sqr ?nnegrE; flra.
- rewrite ler_sqr ?nnegrE; flra.
Qed.

Lemma qconv_sq y (m : T) : sorted <=%R y -> qconv [seq (x - m) ^+ 2 | x <- y].
Proof.
move=> hs i j k /andP[hij hjk]; rewrite size_map => hk.
have hj := leq_ltn_trans hjk hk; have hi := leq_ltn_trans hij hj.
rewrite !(nth_map 0) //.
apply: sq_le_max; exact: (sorted_leq_nth le_trans lexx 0 hs).
Qed.

Lemma fsort_subseq S X : subseq S X -> subseq (fsort S) (fsort X).
Proof. by apply: subseq_sort; [exact: le_total|exact: le_trans]. Qed.

(* for every subset some window of the sorted data has no larger variance *)
Lemma window_beats_subset X h S : (0 < h)%N -> h_subset X h S ->
  exists2 i, (i + h <= size X)%N & fvar (window (fsort X) h i) <= fvar S.
Proof.
move=> h0 [hsub hsz]; set m := fmean S.
have hc := @qconv_sq _ m (sort_le_sorted X).
have hs1 : subseq [seq (x - m) ^+ 2 | x <- fsort S] [seq (x - m) ^+ 2 | x <- fsort X].
  by apply: map_subseq; exact: fsort_subseq.
have hsz1 : size [seq (x - m) ^+ 2 | x <- fsort S] = h by rewrite size_map size_fsort.
have [i hi hb] := best_window hc hs1 hsz1.
rewrite size_map size_fsort in hi; exists i => //.
set W := window _ _ _.
have hW : size W = h by rewrite size_win ?size_fsort.
have hW0 : (0 < size W)%N by rewrite hW.
have hS0 : (0 < size S)%N by rewrite hsz.
rewrite -(@ler_pmul2r _ h%:R) ?ltr0n // -{1}hW -hsz !fvarM //.
have hm : fsum [seq (x - fmean W) ^+ 2 | x <- W] <= fsum [seq (x - m) ^+ 2 | x <- W].
  by rewrite (@fsum_sq_shift _ W m hW0) ler_addl; apply: mulr_ge0; rewrite ?ler0n ?sqr_ge0.
apply: le_trans hm _.
apply: le_trans (le_trans hb _); first by rewrite -map_drop -map_take.
by rewrite le_eqVlt; apply/orP; left; apply/eqP/fsum_perm/perm_map/perm_fsort.
Qed.

Lemma window_subset X h i : (i + h <= size X)%N ->
  exists2 S, h_subset X h S & perm_eq S (window (fsort X) h i).
Proof.
move=> hi; set W := window _ _ _.
have hsub : subseq W (fsort X).
  by apply: subseq_trans (take_subseq _ _) (drop_subseq _ _).
have /count_subseqP[S h1 h2] : forall x, (count_mem x W <= count_mem x X)%N.
  by move=> x; rewrite -(permP (perm_fsort X)); exact: leq_count_subseq.
exists S; last by rewrite perm_sym.
by split=> //; rewrite -(perm_size h2) size_win ?size_fsort.
Qed.

(* the scan keeps the best window *)
Lemma scan_spec y h ixs best index :
  (best = None -> ixs <> [::]) ->
  (forall b, best = Some b -> b = fvar (window y h index)) ->
  exists2 b, (scan y h ixs best index).1 = Some b &
    let i := (scan y h ixs best index).2 in
    [/\ b = fvar (window y h i),
        (forall j, j \in ixs -> b <= fvar (window y h j)),
        (forall b', best = Some b' -> b <= b')
      & i \in ixs \/ (best <> None /\ i = index)].
Proof.
elim: ixs best index => [|i ixs IH] best index h1 h2 /=.
  case: best h1 h2 => [b|] h1 h2; last by case: (h1 erefl).
  exists b => //=; split=> //; first exact: h2.
    by move=> b' [->].
  by right.
have key (c : bool) : (if c then True else best <> None) ->
   (forall b', best = Some b' -> if c then fvar (window y h i) <= b' else
      b' <= fvar (window y h i)) ->
   exists2 b, (if c then scan y h ixs (Some (fvar (window y h i))) i
                 else scan y h ixs best index).1 = Some b &
    let k := (if c then scan y h ixs (Some (fvar (window y h i))) i
                 else scan y h ixs best index).2 in
    [/\ b = fvar (window y h k),
        (forall j, j \in i :: ixs -> b <= fvar (window y h j)),
        (forall b', best = Some b' -> b <= b')
      & k \in i :: ixs \/ (best <> None /\ k = index)].
  case: c => hn hc.
  - have [||b hb [e1 e2 e3 e4]] := IH (Some (fvar (window y h i))) i => //.
      by move=> b [<-].
    exists b => //; split=> //.
    + by move=> j; rewrite inE => /orP[/eqP ->|/e2 //]; exact: e3.
    + by move=> b' /hc; apply: le_trans; exact: e3.
    + by left; rewrite inE; case: e4 => [->|[_ ->]]; rewrite ?eqxx ?orbT.
  - have [||b hb [e1 e2 e3 e4]] := IH best index => //.
    exists b => //; split=> //.
    + move=> j; rewrite inE => /orP[/eqP ->|/e2 //].
      case eb: best hn => [b'|] // _; apply: le_trans (hc _ eb).
      exact: e3.
    + by case: e4 => [g|g]; [left; rewrite inE g orbT|right].
case: best h1 h2 IH key => [b|] h1 h2 IH key.
- apply: (key (fvar (window y h i) < b)); first by case: ifP.
  by move=> b' [<-]; case: ltP => // /ltW.
- exact: (key true).
Qed.

(* the raw estimates without correction factor *)
Definition raw0 h X : T * T :=
  raw_estimates (fun _ _ => 1) false h X.

Lemma raw_estimates_cc craw cc h X :
  raw_estimates craw cc h X =
  ((raw0 h X).1 * (if cc then craw (size X) h else 1), (raw0 h X).2).
Proof.
rewrite /raw0 /raw_estimates; case: (scan _ _ _ _ _) => [vb ib] /=.
by case: cc; rewrite ?mulr1.
Qed.

Lemma raw0_window h X : (0 < h <= size X)%N ->
  exists i, [/\ (i + h <= size X)%N,
     raw0 h X = (fvar (window (fsort X) h i), fmean (window (fsort X) h i))
   & forall j, (j + h <= size X)%N ->
       fvar (window (fsort X) h i) <= fvar (window (fsort X) h j)].
Proof.
move=> /andP[h0 hle]; rewrite /raw0 /raw_estimates.
have [|//|b hb [e1 e2 e3 e4]] := @scan_spec (fsort X) h (iota 0 (size X - h + 1)) None 1.
  by move=> _; rewrite addn1.
move: hb e1 e2 e3 e4; case: (scan _ _ _ _ _) => [vb ib] /= -> e1 e2 e3 e4.
exists ib; split.
- case: e4 => [|[]//]; rewrite mem_iota; move: (size X) hle => n; lia.
- by rewrite e1.
- move=> j hj; rewrite -e1; apply: e2; rewrite mem_iota; move: (size X) hle hj => n; lia.
Qed.

Lemma raw0_is_mcd h X : (0 < h <= size X)%N ->
  exists2 S, is_mcd_subset X h S & raw0 h X = (fvar S, fmean S).
Proof.
move=> hh; have /andP[h0 hle] := hh.
have [i [hi -> hmin]] := raw0_window hh.
have [S hS hp] := window_subset hi.
exists S; last by rewrite (fvar_perm hp) (fmean_perm hp).
split=> // S' hS'; rewrite (fvar_perm hp).
have [j hj hb] := window_beats_subset h0 hS'.
exact: le_trans (hmin j hj) hb.
Qed.


(* ------------------------------------------------------ exact fit *)
Lemma window_const X h v : (0 < h)%N -> (h <= count_mem v X)%N ->
  exists2 S, h_subset X h S & fvar S = 0.
Proof.
move=> h0 hv; exists (nseq h v).
  split; last by rewrite size_nseq.
  have : subseq (nseq h v) (filter (pred1 v) X).
    have -> : filter (pred1 v) X = nseq (count_mem v X) v.
      rewrite -size_filter; apply/all_pred1P/allP => x.
      by rewrite mem_filter => /andP[].
    by rewrite -(subnKC hv) nseqD prefix_subseq.
  by move=> hs; apply: subseq_trans hs (filter_subseq _ _).
have -> : fmean (nseq h v) = v -> fvar (nseq h v) = 0.
  move=> hm; apply/eqP; rewrite fvar_eq0 ?size_nseq //.
  by apply/allP => x; rewrite mem_nseq => /andP[_ /eqP ->]; rewrite hm.
- by [].
suff /andP[h1 h2] : v <= fmean (nseq h v) <= v by apply/eqP; rewrite eq_le h1 h2.
apply: fmean_between; first by rewrite size_nseq.
by move=> x; rewrite mem_nseq => /andP[_ /eqP ->]; rewrite lexx.
Qed.

Lemma raw0_exact h X v : (size X %/ 2 < h <= size X)%N -> (h <= count_mem v X)%N ->
  raw0 h X = (0, v).
Proof.
move=> /andP[hhalf hle] hv.
have h0 : (0 < h)%N by exact: leq_ltn_trans hhalf.
have hh : (0 < h <= size X)%N by rewrite h0.
have [S [[hS hSz] hmin] ->] := raw0_is_mcd hh.
have [S' hS' hS'0] := window_const h0 hv.
have v0 : fvar S = 0 by apply/eqP; rewrite eq_le fvar_ge0 andbT -hS'0 hmin.
rewrite v0; congr pair.
have S0 : (0 < size S)%N by rewrite hSz.
move/eqP: v0; rewrite fvar_eq0 // => /allP hall.
apply/eqP/negPn/negP => hne.
have hdis : (count_mem (fmean S) X + count_mem v X <= size X)%N.
  rewrite -(count_predC (pred1 v) X) addnC leq_add2l; apply: sub_count => x /= /eqP ->.
  exact: hne.
have : (h <= count_mem (fmean S) X)%N.
  rewrite -hSz; apply: leq_trans (leq_count_subseq _ hS).
  by apply: eq_leq; apply/esym/eqP; rewrite -all_count; apply/allP.
move: (count_mem _ X) (count_mem _ X) (size X) hdis hv hhalf => c1 c2 n; lia.
Qed.

Lemma rew_mask0 (q l : T) X : rew_mask q 0 l X = [::].
Proof.
rewrite /rew_mask; apply/eqP; rewrite -(negbK (_ == _)) -has_filter; apply/hasPn => x _.
by rewrite /= eqxx /inf_sign; case: ifP => // _; rewrite ltNge sqr_ge0.
Qed.

Lemma umcd_exact craw crew q cc h X v :
  (size X %/ 2 < h < size X)%N -> (h <= count_mem v X)%N ->
  umcd craw crew q cc h X = UMcdFit 0 v NaN NaN.
Proof.
move=> /andP[h1 h2] hv; rewrite /umcd (ltn_eqF h2) raw_estimates_cc (@raw0_exact _ _ v) //=.
  by rewrite mul0r /reweighting rew_mask0.
by rewrite h1 ltnW.
Qed.

(* some element of S is at most one standard deviation from the mean *)
Lemma exists_close S : (0 < size S)%N ->
  exists2 x, x \in S & (x - fmean S) ^+ 2 <= fvar S.
Proof.
move=> h; case ha: (all (fun x => fvar S < (x - fmean S) ^+ 2) S).
  have : fsum [seq (fun=> fvar S) x | x <- S] < fsum [seq (x - fmean S) ^+ 2 | x <- S].
    elim: S (fvar S) (fmean S) h ha => // x [|x2 S] IH v m _ /=.
      by rewrite !addr0 andbT.
    by move=> /andP[h1 h2]; apply: ltr_add => //; exact: IH.
  by rewrite -fvarM // fsum_map_const ltxx.
have /allPn[x hx] := negbT ha; rewrite -leNgt => hl.
by exists x.
Qed.

Lemma umcd_finite craw crew q cc h X :
  (0 < h < size X)%N -> 1 <= craw (size X) h -> 1 < q ->
  0 < raw_variance (umcd craw crew q cc h X) ->
  exists l v, [/\ location (umcd craw crew q cc h X) = Fin l,
    variance (umcd craw crew q cc h X) = Fin v
  & exists S, [/\ subseq S X, (0 < size S)%N, l = fmean S
       & v = fvar S * (if cc then crew (size S) (size X) else 1)]].
Proof.
move=> /andP[h0 h1] hc hq; rewrite /umcd (ltn_eqF h1) raw_estimates_cc.
have hh : (0 < h <= size X)%N by rewrite h0 ltnW.
have [S [[hS hSz] hmin] ->] := raw0_is_mcd hh => /=.
set c := (if cc then craw _ _ else 1); have c1 : 1 <= c by rewrite /c; case: (cc).
have S0 : (0 < size S)%N by rewrite hSz.
rewrite /reweighting; set sel := rew_mask _ _ _ _.
case: ifP => [/eqP hs0|hs0] /=; last first.
  move=> _; exists (fmean sel), (fvar sel * (if cc then crew (size sel) (size X) else 1)).
  split=> //; first by case: (cc); rewrite ?mulr1.
  by exists sel; split=> //; [exact: filter_subseq|rewrite lt0n hs0].
move=> hpos; have [x hx hxc] := exists_close S0.
suff : x \in sel by rewrite (size0nil hs0).
rewrite mem_filter (mem_subseq hS hx) andbT /= (gt_eqF hpos) /=.
rewrite ltr_pdivr_mulr //; apply: le_lt_trans hxc _.
have vS := fvar_ge0 S.
apply: le_lt_trans (_ : fvar S * c < _); first by rewrite ler_pmulr // lt_neqAle vS andbT;
  apply: contraTneq hpos => <-; rewrite mul0r ltxx.
by rewrite -subr_gt0 -{2}(mul1r (fvar S * c)) -mulrBl mulr_gt0 // subr_gt0.
Qed.

(* ------------------------------------------------------ equivariance *)
Section Equi.
Variables (a b : T).
Hypothesis a0 : 0 < a.
Let f (x : T) := a * x + b.

Lemma window_map y h i : window (map f y) h i = map f (window y h i).
Proof. by rewrite /window map_take map_drop. Qed.

Lemma scan_map y h ixs best index :
  scan (map f y) h ixs (omap ( *%R (a ^+ 2)) best) index =
  (omap ( *%R (a ^+ 2)) (scan y h ixs best index).1, (scan y h ixs best index).2).
Proof.
elim: ixs best index => //= i ixs IH best index.
rewrite window_map fvar_affine.
have -> : (if omap ( *%R (a ^+ 2)) best is Some v then a ^+ 2 * fvar (window y h i) < v else true)
        = (if best is Some v then fvar (window y h i) < v else true).
  by case: best => //= v; rewrite ltr_pmul2l // exprn_gt0.
by case: (if best is Some v then _ else _); [rewrite -(IH (Some _))|rewrite IH].
Qed.

Lemma raw0_map h X : (0 < h <= size X)%N ->
  raw0 h (map f X) = (a ^+ 2 * (raw0 h X).1, f (raw0 h X).2).
Proof.
move=> /andP[h0 hle]; rewrite /raw0 /raw_estimates size_map fsort_mono_pos; last first.
  by move=> x y; rewrite /f ler_add2r ler_pmul2l.
rewrite -[None]/(omap ( *%R (a ^+ 2)) None) (scan_map _ _ _ None).
have [|//|b' _ [_ _ _]] := @scan_spec (fsort X) h (iota 0 (size X - h + 1)) None 1.
  by move=> _; rewrite addn1.
case: (scan _ _ _ _ _) => [vb ib] /= [hib|[]//]; congr pair.
  by case: vb => [v|] //=; rewrite mulr0.
rewrite window_map fmean_affine // size_win // size_fsort.
by move: hib; rewrite mem_iota; move: (size X) hle => n; lia.
Qed.

Lemma rew_mask_map q rv rl X :
  rew_mask q (a ^+ 2 * rv) (f rl) (map f X) = map f (rew_mask q rv rl X).
Proof.
rewrite /rew_mask filter_map; congr map; apply: eq_filter => x /=.
have -> : (f x - f rl) ^+ 2 = a ^+ 2 * (x - rl) ^+ 2 by rewrite /f; ring.
have a2 : 0 < a ^+ 2 by rewrite exprn_gt0.
rewrite mulf_eq0 (gt_eqF a2) /=; case: ifP => [_|/negbT rv0] /=.
  by rewrite /inf_sign pmulr_rgt0 // pmulr_rlt0.
by rewrite -mulf_div divff ?mul1r // gt_eqF.
Qed.

Lemma umcd_map craw crew q cc h X : (0 < h <= size X)%N ->
  let r := umcd craw crew q cc h X in
  umcd craw crew q cc h (map f X) =
  UMcdFit (a ^+ 2 * raw_variance r) (f (raw_location r))
    (xmap ( *%R (a ^+ 2)) (variance r)) (xmap f (location r)).
Proof.
move=> hh; have /andP[h0 hle] := hh; rewrite /umcd size_map.
case: ifP => /= [_|hn].
  by rewrite fvar_affine fmean_affine // (leq_trans h0).
rewrite !raw_estimates_cc size_map raw0_map //=.
case: (raw0 h X) => [rv rl] /=; rewrite -mulrA /reweighting rew_mask_map size_map.
set sel := rew_mask _ _ _ _; rewrite size_map; case hs: (size sel == 0%N) => //=.
rewrite fvar_affine fmean_affine ?lt0n ?hs //.
by case: (cc) => //; rewrite -(mulrA (a ^+ 2) (fvar sel)).
Qed.
End Equi.
End Main.

Section Reflect.
Variable T : realFieldType.
Implicit Types (X S : seq T).

Lemma h_subset_map (f : T -> T) X h S' : h_subset (map f X) h S' ->
  exists2 S, h_subset X h S & S' = map f S.
Proof.
move=> [/subseqP[m hm ->] hsz]; exists (mask m X); last by rewrite map_mask.
split; first exact: mask_subseq.
by rewrite -hsz -map_mask size_map.
Qed.

(* the raw variance is even reflection equivariant *)
Lemma raw_variance_map (a b : T) h X : (0 < h <= size X)%N ->
  (raw0 h [seq a * x + b | x <- X]).1 = a ^+ 2 * (raw0 h X).1.
Proof.
move=> hh; have [S [hS hmin] ->] := raw0_is_mcd hh.
have hh' : (0 < h <= size [seq (a * x + b)%R | x <- X])%N by rewrite size_map.
have [S' [hS' hmin'] ->] := raw0_is_mcd hh' => /=.
apply/eqP; rewrite eq_le; apply/andP; split.
- rewrite -(fvar_affine a b); apply: hmin'; case: hS => h1 h2.
  by split; [exact: map_subseq|rewrite size_map].
- have [S2 hS2 ->] := h_subset_map hS'; rewrite fvar_affine.
  by rewrite ler_wpmul2l ?sqr_ge0 // hmin.
Qed.
End Reflect.

Section HSize.
Variable T : realFieldType.
Variable int_of : T -> int.
Hypothesis int_ofP : forall x, 0 <= x -> (int_of x)%:~R <= x < (int_of x + 1)%:~R.

Lemma int_of_unique (x : T) (k : int) : 0 <= x -> k%:~R <= x < (k + 1)%:~R -> int_of x = k.
Proof.
move=> x0 /andP[k1 k2]; have /andP[i1 i2] := int_ofP x0.
have l1 : int_of x < k + 1 by rewrite -(ltr_int T); apply: le_lt_trans k2.
have l2 : k < int_of x + 1 by rewrite -(ltr_int T); apply: le_lt_trans i2.
by move: l1 l2; lia.
Qed.

Lemma half_le_n n : (0 < n)%N -> (n %/ 2 + 1 <= n)%N.
Proof. lia. Qed.

Lemma set_h_size_range n alpha h : (0 < n)%N ->
  set_h_size int_of n alpha = Ok h -> (n %/ 2 + 1)%N%:Z <= h <= n%:Z.
Proof.
move=> n0; have hh := half_le_n n0; case: alpha => [|al|al] /=.
- by case=> <-; rewrite lexx lez_nat.
- case: ifP => [/andP[_ ha] [<-]|_].
    by rewrite le_maxr le_maxl lexx orbT ha lez_nat.
  case: ifP => // /eqP -> [<-].
  by rewrite mul1r le_maxr le_maxl lexx orbT lexx lez_nat.
- case: ifP => // hal [<-]; rewrite le_maxr le_maxl lexx orbT lez_nat hh andbT /=.
  have /andP[hal1 hal2] : 2%:R^-1 <= al <= 1.
    by case/orP: hal => // /eqP ->; rewrite lexx andbT invf_le1 ?ltr0n // ler1n.
  have al0 : 0 <= al by apply: le_trans hal1; rewrite invr_ge0 ler0n.
  have /andP[i1 _] := int_ofP (mulr_ge0 al0 (ler0n T n)).
  rewrite -(ler_int T); apply: le_trans i1 _.
  by rewrite ler_pimull ?ler0n.
Qed.

Lemma set_h_size_float n (al : T) (k : int) : 2%:R^-1 <= al <= 1 ->
  k%:~R <= al * n%:R < (k + 1)%:~R ->
  set_h_size int_of n (AlphaFloat al) = Ok (Num.max k (n %/ 2 + 1)%N%:Z).
Proof.
move=> hal hk; rewrite /= hal /=; do 2 congr (_ _); congr Num.max.
apply: int_of_unique => //; apply: mulr_ge0; last exact: ler0n.
by case/andP: hal => h _; apply: le_trans h; rewrite invr_ge0 ler0n.
Qed.
End HSize.

Section More.
Variable T : realFieldType.

Lemma raw_estimates_reflect craw cc h X (a b : T) :
  (0 < h <= size X)%N ->
  (raw_estimates craw cc h [seq a * x + b | x <- X]).1
    = a ^+ 2 * (raw_estimates craw cc h X).1.
Proof.
by move=> hh; rewrite !raw_estimates_cc /= raw_variance_map // size_map mulrA.
Qed.

Lemma umcd_finite_range craw crew (q : T) cc h X :
  (0 < h < size X)%N -> 1 <= craw (size X) h -> 1 < q ->
  0 < raw_variance (umcd craw crew q cc h X) ->
  exists l v, [/\ location (umcd craw crew q cc h X) = Fin l,
    variance (umcd craw crew q cc h X) = Fin v,
    fmin X <= l <= fmax X
  & exists S, [/\ subseq S X, (0 < size S)%N, l = fmean S
       & v = fvar S * (if cc then crew (size S) (size X) else 1)]].
Proof.
move=> h1 h2 h3 h4; have [l [v [e1 e2 [S [s1 s2 s3 s4]]]]] := umcd_finite h1 h2 h3 h4.
exists l, v; split=> //; last by exists S.
rewrite s3; apply: fmean_between => // x /(mem_subseq s1) hx.
by rewrite fmin_le ?fmax_ge.
Qed.

Lemma set_h_size_one (int_of : T -> int) n :
  (0 < n)%N -> set_h_size int_of n (AlphaInt 1) = Ok n%:Z.
Proof.
move=> n0 /=; case: ifP => [/andP[h1 h2]|_].
  congr Ok; move: h1 h2 n0; case: n => [|[|[|n]]] //.
rewrite mul1r; congr Ok; apply/max_idPl; rewrite lez_nat; exact: half_le_n.
Qed.

Lemma set_h_size_err (int_of : T -> int) n (alpha : alpha_arg T) :
  (exists e, set_h_size int_of n alpha = Err e) <->
  match alpha with
  | AlphaNone => False
  | AlphaInt a => (2%:Z * a < n%:Z \/ n%:Z < a) /\ a <> 1
  | AlphaFloat a => a < 2%:R^-1 \/ 1 < a
  end.
Proof.
case: alpha => [|a|a] /=.
- by split=> // -[].
- case: ifP => [/andP[h1 h2]|/negbT h].
    by split=> [[]//|[[]]]; rewrite ltNge ?h1 ?h2.
  case: eqP => [->|ha]; first by split=> [[]//|[_ []]].
  split=> _; last by exists ValueError.
  by split=> //; move: h; rewrite negb_and -!ltNge => /orP.
- case: ifP => [h|/negbT h].
    have /andP[h1 h2] : 2%:R^-1 <= a <= 1.
      by case/orP: h => // /eqP ->; rewrite lexx andbT invf_le1 ?ltr0n // ler1n.
    by split=> [[]//|[]]; rewrite ltNge ?h1 ?h2.
  split=> _; last by exists ValueError.
  by move: h; rewrite negb_or negb_and -!ltNge => /andP[/orP].
Qed.
End More.
