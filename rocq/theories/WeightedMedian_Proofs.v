(* Proofs about weighted_median. *)
From mathcomp Require Import all_ssreflect all_algebra.
From mathcomp.zify Require Import zify.
From mathcomp.algebra_tactics Require Import ring.
From Verif Require Import RFieldLra Prelude WeightedMedian_Model WeightedMedian_Spec.

Set Implicit Arguments.
Unset Strict Implicit.
Unset Printing Implicit Defensive.

Import Order.TTheory GRing.Theory Num.Theory.
Local Open Scope ring_scope.

Section Proofs.
Variable T : realFieldType.
Implicit Types (X ws : seq T).

(* weight selected by a predicate, executable *)
Definition wsel (X ws : seq T) (p : pred T) : T := fsum (mask [seq p x | x <- X] ws).

Lemma wsel_cons x X w ws p :
  wsel (x :: X) (w :: ws) p = (if p x then w else 0) + wsel X ws p.
Proof. by rewrite /wsel /=; case: (p x) => //=; rewrite add0r. Qed.

Lemma size_mask_sel X ws (p : pred T) :
  size X = size ws -> size (mask [seq p x | x <- X] ws) = size (mask [seq p x | x <- X] X).
Proof. by move=> h; rewrite !size_mask // size_map // h. Qed.

Lemma mask_sel_filter X (p : pred T) : mask [seq p x | x <- X] X = filter p X.
Proof. by rewrite filter_mask. Qed.

Lemma wsel_ge0 X ws p : all (fun w => 0 <= w) ws -> 0 <= wsel X ws p.
Proof.
move=> h; apply: fsum_ge0; apply/allP => w /mem_mask; exact: (allP h).
Qed.

Lemma wsel_all X ws p : size X = size ws -> all p X -> wsel X ws p = fsum ws.
Proof.
move=> hs hp; rewrite /wsel (_ : [seq p x | x <- X] = nseq (size X) true).
  by rewrite mask_true // hs.
apply: (@eq_from_nth _ true); first by rewrite size_map size_nseq.
by move=> i; rewrite size_map => hi; rewrite (nth_map 0) // nth_nseq hi (all_nthP 0 hp).
Qed.

(* predicates on X restricted to a selection *)
Lemma wsel_sub X ws (p q : pred T) : size X = size ws ->
  wsel (mask [seq p x | x <- X] X) (mask [seq p x | x <- X] ws) q =
  wsel X ws (predI p q).
Proof.
elim: X ws => [|x X IH] [|w ws] //= [hs].
case hp: (p x) => /=; rewrite !wsel_cons /= hp /=; last by rewrite add0r IH.
by rewrite IH.
Qed.

Lemma wsel_split X ws (p q r : pred T) : size X = size ws ->
  (forall x, x \in X -> p x = q x || r x) -> (forall x, x \in X -> ~~ (q x && r x)) ->
  wsel X ws p = wsel X ws q + wsel X ws r.
Proof.
elim: X ws => [|x X IH] [|w ws] //=; first by rewrite /wsel /= addr0.
case=> hs h1 h2; rewrite !wsel_cons IH //.
- rewrite h1 ?mem_head //; move: (h2 x (mem_head _ _)).
  by case: (q x); case: (r x) => //= _; ring.
- by move=> y hy; apply: h1; rewrite in_cons hy orbT.
- by move=> y hy; apply: h2; rewrite in_cons hy orbT.
Qed.

Lemma wsel_eq X ws (p q : pred T) :
  (forall x, x \in X -> p x = q x) -> wsel X ws p = wsel X ws q.
Proof. by move=> h; rewrite /wsel; congr (fsum (mask _ _)); apply/eq_in_map. Qed.

Arguments wsel_split {X ws p} q r.
Arguments wsel_eq {X ws p} q.

Lemma wsel_pred0 X ws (p : pred T) : (forall x, x \in X -> ~~ p x) -> wsel X ws p = 0.
Proof.
elim: X ws => [|x X IH] [|w ws] //=; rewrite ?/wsel //= => h.
have /negbTE -> := h x (mem_head _ _).
by apply: IH => y hy; apply: h; rewrite in_cons hy orbT.
Qed.

Lemma weight_ofE X ws p : size X = size ws -> weight_of X ws p = wsel X ws p.
Proof.
rewrite /weight_of; elim: X ws => [|x X IH] [|w ws] //=.
  by move=> _; rewrite big_ord0 /wsel.
case=> hs; rewrite big_mkcond big_ord_recl wsel_cons -IH //= [in RHS]big_mkcond.
by [].
Qed.

Lemma sel_size_lt X (p : pred T) x :
  x \in X -> ~~ p x -> (size (mask [seq p x | x <- X] X) < size X)%N.
Proof.
move=> hx hp; rewrite mask_sel_filter size_filter.
by rewrite ltn_neqAle count_size andbT -all_count; apply/allPn; exists x.
Qed.

Lemma uphalf_bounds n : (1 < n)%N -> (0 < uphalf n < n)%N.
Proof. lia. Qed.

Lemma trial_mem X : (1 < size X)%N -> kth_smallest X (uphalf (size X)) \in X.
Proof.
move=> h; apply: kth_smallest_mem.
by case/andP: (uphalf_bounds h) => -> /ltnW ->.
Qed.

(* the loop invariant *)
Lemma wm_loop_correct fuel X ws wrest wtot :
  (size X < fuel)%N -> size X = size ws -> all (fun w => 0 <= w) ws ->
  2%:R * wrest <= wtot -> wtot < 2%:R * (wrest + fsum ws) ->
  exists m, [/\ wm_loop fuel X ws wrest wtot = Ok m, m \in X,
     2%:R * (wrest + wsel X ws (fun x => x < m)) <= wtot
   & wtot < 2%:R * (wrest + wsel X ws (fun x => x <= m))].
Proof.
elim: fuel X ws wrest => // fuel IH X ws wrest hf hs hpos h1 h2 /=.
case: ifPn => [hn|]; last first.
  case: X hf hs => [|x [|y X]] //= hf hs _.
    case: ws hs {hpos} h2 => //= _; rewrite addr0; flra.
  exists x; split=> //; first by rewrite inE.
  - rewrite wsel_pred0 ?addr0 // => y; rewrite inE => /eqP ->.
    by rewrite ltxx.
  - by rewrite wsel_all //= lexx.
rewrite -hs eqxx /=; set t := kth_smallest _ _.
have ht : t \in X := trial_mem hn.
rewrite -/(wsel X ws (fun x => x < t)) -/(wsel X ws (fun x => x == t)).
case: ifPn => [hlt|]; [|rewrite -leNgt => hle; case: ifPn => [hmid|]; [|rewrite -leNgt => hge]].
- have [|||||m [-> hm hm1 hm2]] := IH (mask [seq x < t | x <- X] X) (mask [seq x < t | x <- X] ws) wrest.
  + rewrite -ltnS; apply: leq_trans hf; rewrite ltnS.
    by apply: (sel_size_lt ht); rewrite ltxx.
  + by rewrite (size_mask_sel _ hs).
  + by apply/allP => w /mem_mask; exact: (allP hpos).
  + by [].
  + by [].
  exists m; move: hm hm1 hm2; rewrite mask_sel_filter mem_filter => /andP[hmt hmX].
  rewrite -mask_sel_filter !wsel_sub // => hm1 hm2; split=> //.
  + rewrite (wsel_eq (predI (fun x => x < t) (fun x => x < m))) // => x _ /=.
    by case: (ltP x m) => hxm; rewrite ?andbF ?andbT // (lt_trans hxm).
  + rewrite (wsel_eq (predI (fun x => x < t) (fun x => x <= m))) // => x _ /=.
    by case: (leP x m) => hxm; rewrite ?andbF ?andbT // (le_lt_trans hxm).
- exists t; split=> //.
  rewrite (wsel_split (fun x => x < t) (fun x => x == t)) ?addrA //.
  + by move=> x _; rewrite le_eqVlt orbC.
  + by move=> x _; case: ltgtP.
- have [|||||m [-> hm hm1 hm2]] := IH (mask [seq t < x | x <- X] X) (mask [seq t < x | x <- X] ws)
      (wrest + wsel X ws (fun x => x < t) + wsel X ws (fun x => x == t)).
  + rewrite -ltnS; apply: leq_trans hf; rewrite ltnS.
    by apply: (sel_size_lt ht); rewrite ltxx.
  + by rewrite (size_mask_sel _ hs).
  + by apply/allP => w /mem_mask; exact: (allP hpos).
  + by [].
  + rewrite -/(wsel X ws (fun x => t < x)); move: h2.
    rewrite -(wsel_all (p := predT) hs) ?all_predT //.
    rewrite (wsel_split (fun x => x < t) (fun x => t <= x)) //; last first.
    * by move=> x _; case: ltgtP.
    * by move=> x _; case: ltgtP.
    rewrite (@wsel_split _ _ (fun x => t <= x) (fun x => x == t) (fun x => t < x)) //; last first.
    * by move=> x _; case: ltgtP.
    * by move=> x _; case: ltgtP.
    by rewrite !addrA.
  exists m; move: hm hm1 hm2; rewrite mask_sel_filter mem_filter => /andP[hmt hmX].
  rewrite -mask_sel_filter !wsel_sub // => hm1 hm2; split=> //.
  + rewrite (wsel_split (fun x => x <= t) (predI (fun x => t < x) (fun x => x < m))) //.
    * rewrite (@wsel_split _ _ (fun x => x <= t) (fun x => x < t) (fun x => x == t)) ?addrA //.
      - by move=> x _; rewrite le_eqVlt orbC.
      - by move=> x _; case: ltgtP.
    * move=> x _ /=; case: (leP x t) => //= hxt; exact: le_lt_trans hxt hmt.
    * by move=> x _ /=; case: (leP x t).
  + rewrite (wsel_split (fun x => x <= t) (predI (fun x => t < x) (fun x => x <= m))) //.
    * rewrite (@wsel_split _ _ (fun x => x <= t) (fun x => x < t) (fun x => x == t)) ?addrA //.
      - by move=> x _; rewrite le_eqVlt orbC.
      - by move=> x _; case: ltgtP.
    * move=> x _ /=; case: (leP x t) => //= hxt; exact: le_trans hxt (ltW hmt).
    * by move=> x _ /=; case: (leP x t).
Qed.

(* any weights: the loop always ends *)
Lemma wm_loop_terminates fuel X ws wrest wtot :
  (size X < fuel)%N -> wm_loop fuel X ws wrest wtot <> NoFuel.
Proof.
elim: fuel X ws wrest => // fuel IH X ws wrest hf /=.
case: ifPn => [hn|_]; last by case: X {hf}.
case: ifP => // _; set t := kth_smallest _ _.
have ht : t \in X := trial_mem hn.
have hlt (p : pred T) : ~~ p t -> (size (mask [seq p x | x <- X] X) < fuel)%N.
  by move=> hp; apply: leq_trans (sel_size_lt ht hp) _.
case: ifP => _; first by apply: IH; apply: hlt; rewrite ltxx.
by case: ifP => // _; apply: IH; apply: (hlt (fun x => t < x)); rewrite ltxx.
Qed.

Lemma weighted_median_correct X ws :
  size X = size ws -> all (fun w => 0 <= w) ws -> 0 < fsum ws ->
  exists2 m, weighted_median X ws = Ok m & is_weighted_median X ws m.
Proof.
move=> hs hpos hsum.
have [//|//|//|||m [hm hmX h1 h2]] := @wm_loop_correct (size X).+1 X ws 0 (fsum ws).
- by rewrite mulr0 ltW.
- rewrite add0r; flra.
exists m => //; rewrite /is_weighted_median !weight_ofE //.
move: h1 h2; rewrite !add0r => h1 h2.
by split=> //; rewrite hs -fsum_nth.
Qed.

(* all weights zero *)
Lemma wsel_zero X ws p : all (fun w => w == 0) ws -> wsel X ws p = 0.
Proof.
rewrite /wsel => h; have : all (fun w => w == 0) (mask [seq p x | x <- X] ws).
  by apply/allP => w /mem_mask; exact: (allP h).
by elim: (mask _ _) => //= w s IH /andP[/eqP -> /IH ->]; rewrite addr0.
Qed.

Lemma wm_loop_zero fuel X ws m :
  (size X < fuel)%N -> size X = size ws -> all (fun w => w == 0) ws -> is_max X m ->
  wm_loop fuel X ws 0 0 = if count_mem m X == 1%N then Ok m else Err IndexError.
Proof.
elim: fuel X ws => // fuel IH X ws hf hs h0 [hm hmax] /=.
case: ifPn => [hn|]; last first.
  case: X hm {hmax hf hs} => [|x [|y X]] //=; rewrite inE => /eqP -> _.
  by rewrite eqxx.
rewrite -hs eqxx /=; set t := kth_smallest _ _.
have ht : t \in X := trial_mem hn.
rewrite -/(wsel X ws (fun x => x < t)) -/(wsel X ws (fun x => x == t)).
rewrite !wsel_zero // !addr0 mulr0 ltxx.
have := hmax t ht; rewrite le_eqVlt => /orP[/eqP etm|ltm].
- have -> : mask [seq t < x | x <- X] X = [::].
    rewrite mask_sel_filter; apply/eqP; rewrite -size_eq0 size_filter -leqn0 leqNgt -has_count.
    by apply/hasPn => x hx; rewrite -leNgt etm hmax.
  have -> : (count_mem m X == 1%N) = false.
    apply/negbTE; have [|h1 h2] := @kth_smallest_count T X (uphalf (size X)).
      by case/andP: (uphalf_bounds hn) => -> /ltnW ->.
    move: h1; rewrite -/t etm => h1.
    have hsz : (cnt_lt X m + count_mem m X = size X)%N.
      rewrite -(count_predC (fun y => y < m)); congr addn.
      apply: eq_in_count => x hx /=; rewrite -leNgt.
      by rewrite eq_le hmax.
    apply/eqP => h3; move: hsz; rewrite h3.
    by case/andP: (uphalf_bounds hn) => _; lia.
  by case: fuel {IH} hf => [|fuel] //=; rewrite ltnS leqn0 => /eqP hX; rewrite hX in hn.
- rewrite (IH _ _ _ _ _ _); first 1 last.
  + by apply: leq_trans (sel_size_lt (p := fun x => t < x) ht _) _; rewrite ?ltxx.
  + by rewrite (size_mask_sel _ hs).
  + by apply/allP => w /mem_mask; exact: (allP h0).
  + rewrite mask_sel_filter; split; first by rewrite mem_filter ltm hm.
    by move=> x; rewrite mem_filter => /andP[_]; exact: hmax.
  + rewrite mask_sel_filter count_filter.
    rewrite (eq_count (a2 := pred1 m)) // => x /=.
    by case: eqP => // ->; rewrite ltm.
Qed.

Lemma fsum_zero (s : seq T) : all (fun w => w == 0) s -> fsum s = 0.
Proof. by elim: s => //= w s IH /andP[/eqP -> /IH ->]; rewrite addr0. Qed.

Lemma weighted_median_zero X ws m :
  size X = size ws -> all (fun w => w == 0) ws -> is_max X m ->
  weighted_median X ws = if count_mem m X == 1%N then Ok m else Err IndexError.
Proof. by move=> hs h0 hm; rewrite /weighted_median fsum_zero // (wm_loop_zero _ hs h0 hm). Qed.

Lemma weighted_median_nil ws : weighted_median [::] ws = Err IndexError.
Proof. by []. Qed.
End Proofs.
