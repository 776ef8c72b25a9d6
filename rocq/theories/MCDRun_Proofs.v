(* Whole runs of FastMCD and DetMCD. *)
From mathcomp Require Import all_ssreflect all_algebra.
From mathcomp.zify Require Import zify.
From mathcomp.algebra_tactics Require Import ring.
From Verif Require Import RFieldLra Prelude Stats Xnum RatFloor Qn_Model Regr Regr_Proofs Vec PSD.
From Verif Require Import LinAlg_Model LinAlg_Proofs MCD_Model MCD_Spec MCD_Proofs.

Set Implicit Arguments.
Unset Strict Implicit.
Unset Printing Implicit Defensive.

Import Order.TTheory GRing.Theory Num.Theory.
Local Open Scope ring_scope.

Section Generic.

Lemma mapM_all (A B : Type) (f : A -> res B) (Q : pred A) (P : pred B) l r :
  (forall a b, Q a -> f a = Ok b -> P b) -> all Q l -> mapM f l = Ok r -> all P r.
Proof.
move=> h; elim: l r => [|a l IH] r /=; first by move=> _ [<-].
move=> /andP[ha hl]; case e: (f a) => [b| |] //=; case e': (mapM f l) => [t| |] //= -[<-] /=.
by rewrite (h _ _ ha e) (IH _ hl e').
Qed.

Lemma all_In (A : Type) (P : pred A) l : all P l <-> forall a, List.In a l -> P a.
Proof.
elim: l => [|a l IH]; first by split.
split=> [/= /andP[ha /IH hl] b [<-//|/hl]|h] //.
by rewrite /= h /=; [apply/IH => b hb; apply: h; right | left].
Qed.

Lemma all_take (A : Type) (P : pred A) k l : all P l -> all P (take k l).
Proof. by move=> h; move: h; rewrite -{1}(cat_take_drop k l) all_cat => /andP[]. Qed.

End Generic.

Section Runs.
Variables (T : rcfType) (p : nat).
Variable argsort : seq (xnum T) -> seq nat.
Hypothesis Has : is_xargsort argsort.
Implicit Types (X : seq 'rV[T]_p) (s : hsubset T p) (cands : seq (hsubset T p)).

Definition wfb X s : bool :=
  [&& location s == vmean (sel 0 X (indices s)), scale s == cov (sel 0 X (indices s)),
      determinant s == \det (scale s), uniq (indices s)
    & all (fun i => i < size X)%N (indices s)].

Lemma wfP X s : reflect (wf X s) (wfb X s).
Proof.
apply: (iffP and5P).
- case: s => idx l S d k /= [/eqP -> /eqP -> /eqP -> u /allP h]; exact: wf_mk.
- case=> es u h; split=> //; last by apply/allP.
  + by rewrite es.
  + by rewrite es.
  + by rewrite es.
Qed.

Lemma by_det_head c l cands : by_det cands = c :: l ->
  all (fun d => determinant c <= determinant d) (c :: l).
Proof.
move=> e; rewrite /= lexx /=.
apply: (order_path_min (leT := fun s1 s2 => determinant s1 <= determinant s2)).
  by move=> a b d; exact: le_trans.
have -> : path (fun s1 s2 => determinant s1 <= determinant s2) c l
        = sorted (fun s1 s2 => determinant s1 <= determinant s2) (by_det cands) by rewrite e.
by apply: sort_sorted => a b; exact: le_total.
Qed.

Lemma by_det_take_head k c l cands : take k (by_det cands) = c :: l ->
  all (fun d => determinant c <= determinant d) (c :: l).
Proof.
case e: (by_det cands) => [|c' l']; first by case: k.
have h := by_det_head e; case: k => // k e'.
have ec : c = c' by case: e' => ->.
by rewrite -e'; apply: all_take; rewrite ec.
Qed.

Lemma foldl_head b l : all (fun c : hsubset T p => determinant b <= determinant c) l ->
  foldl (fun b c => if determinant c < determinant b then c else b) b l = b.
Proof.
by elim: l => //= c l IH /andP[h hl]; rewrite ltNge h /= IH.
Qed.

Lemma select_trial fuel a tol X c l : 0 < tol -> all (wfb X) (c :: l) ->
  select argsort fuel.+1 a tol X (c :: l)
  = do _ <- mapM (trial argsort a X) (c :: l);
    Ok (foldl (fun b c => if determinant c < determinant b then c else b) c l).
Proof.
move=> t0 hw.
have -> : select argsort fuel.+1 a tol X (c :: l)
  = final_loop argsort fuel.+1 a tol X c (c :: l) by [].
rewrite final_loop_trial //; last first.
  by move=> d /(proj1 (all_In _ _) hw d) /wfP.
case e: (mapM _ _) => [r| |] //=; have -> := mapM_trial e.
by rewrite /= ltxx.
Qed.

Lemma select_sorted fuel a tol X k cands0 c l : 0 < tol ->
  take k (by_det cands0) = c :: l -> all (wfb X) (c :: l) ->
  select argsort fuel.+1 a tol X (c :: l) = do _ <- mapM (trial argsort a X) (c :: l); Ok c.
Proof.
move=> t0 e hw; rewrite select_trial //; have /= /andP[_ h] := by_det_take_head e.
by rewrite foldl_head.
Qed.

(* candidates on which a trial step can fail only by a singular covariance *)
Definition candb X h k s : bool :=
  [&& wfb X s, n_c_steps s == k & size (indices s) == minn h (size X)].

Lemma trial_cand a X h k s : p != 1%N -> get_h a (size X) p = Ok h -> candb X h k s ->
  trial argsort a X s = if determinant s == 0 then Err LinAlgError else Ok s.
Proof.
move=> p1 eh /and3P[/wfP w _ /eqP sz]; rewrite /trial (wf_det w).
case: (boolP (\det (scale s) == 0)) => [d0|d0].
  rewrite /c_step maha_sing //; by rewrite -detP negbK.
have uS : scale s \in unitmx by rewrite -detP.
have [t et] := c_step_ok argsort w uS eh p1; rewrite et /=.
have [h' eh' [_ _ _ _ sz']] := c_step_inv Has et.
have ehh : h' = h by move: eh'; rewrite eh => -[].
by rewrite sz' sz ehh eqxx.
Qed.

Lemma mapM_trial_cand a X h k l : p != 1%N -> get_h a (size X) p = Ok h -> all (candb X h k) l ->
  mapM (trial argsort a X) l
  = if all (fun s => determinant s != 0) l then Ok l else Err LinAlgError.
Proof.
move=> p1 eh; elim: l => [|s l IH] //= /andP[hs hl]; rewrite (trial_cand p1 eh hs).
by case: (determinant s == 0) => //=; rewrite IH //; case: ifP.
Qed.

End Runs.

Section Fast.
Variables (T : rcfType) (p : nat).
Variable argsort : seq (xnum T) -> seq nat.
Hypothesis Has : is_xargsort argsort.
Variables (G : Type) (choice : G -> nat -> nat -> seq nat * G) (choice1 : G -> seq nat -> nat * G).
Implicit Types (X : seq 'rV[T]_p) (s : hsubset T p) (cands : seq (hsubset T p)).

Lemma initial_subsets_steps fuel g X k r : initial_subsets choice choice1 fuel g X k = Ok r ->
  all (fun s => n_c_steps s == 0%N) r.1.
Proof.
elim: k g r => [|k IH] g r /=; first by move=> [<-].
case e: initial_subset => [s| |] //=; case e': initial_subsets => [t| |] //= -[<-] /=.
rewrite (IH _ _ e') andbT; move: e; rewrite /initial_subset; case: ifP => // _; case: ifP => // _.
by case: ensure => //= q [<-].
Qed.

Lemma per_partition_steps fuel a nsub ncs nbest g parts r :
  per_partition argsort choice choice1 fuel a nsub ncs.+1 nbest g parts = Ok r ->
  all (fun s => n_c_steps s == ncs.+1) r.
Proof.
move em: ncs.+1 => m; elim: parts g r => [|d parts IH] g r /=; first by move=> [<-].
case e: initial_subsets => [t| |] //=; case e1: (mapM _ _) => [u| |] //=.
case e2: (per_partition _ _ _ _ _ _ _ _ _ _) => [v| |] //= -[<-].
rewrite all_cat (IH _ _ e2) andbT.
apply: all_take; rewrite /by_det all_sort.
apply: mapM_all e1; last exact: initial_subsets_steps e.
move=> s s' /= /eqP s0 ; rewrite -em => e3.
by have [_ _ [_ -> _]] := c_steps_inv Has e3; rewrite s0 add0n.
Qed.

Lemma fast_candidates_good fuel a nsub ncs nbest np g X cands :
  fast_candidates argsort choice choice1 fuel a nsub ncs.+1 nbest np g X = Ok cands ->
  cands = [::] \/ exists2 h, get_h a (size X) p = Ok h &
  p != 1%N /\ all (candb X h (2 * ncs.+1)%N) cands.
Proof.
rewrite /fast_candidates; case: partition_data => [parts| |] //=.
case e1: (per_partition _ _ _ _ _ _ _ _ _ _) => [l| |] //=; case e2: (mapM _ _) => [l'| |] //= -[<-].
have h1 := per_partition_steps e1.
case eh: (get_h a (size X) p) => [h|e|]; last 2 first.
- case: l e2 {e1 h1} => [[<-]|s l]; first by left; case: (nbest).
  by rewrite /= /c_step; case: mahalanobis_distance => //= d; rewrite eh.
- case: l e2 {e1 h1} => [[<-]|s l]; first by left; case: (nbest).
  by rewrite /= /c_step; case: mahalanobis_distance => //= d; rewrite eh.
case: (boolP (p == 1%N)) => p1.
  case: l e2 {e1 h1} => [[<-]|s l]; first by left; case: (nbest).
  rewrite /= /c_step; case: mahalanobis_distance => //= d; by rewrite eh /get_subset /= p1.
right; exists h => //; split=> //; apply: all_take; rewrite /by_det all_sort.
apply: mapM_all e2; last exact: h1.
move=> s s' /= /eqP s0 e3; have [h' eh' [w n sz]] := c_steps_inv Has e3.
have ehh : h' = h by move: eh'; rewrite eh => -[].
rewrite /candb sz ehh eqxx andbT n s0; apply/andP; split; first exact/wfP.
by apply/eqP; lia.
Qed.

Variables (chi2_ppf : T -> nat -> T) (gamma_cdf : T -> T -> T).

Lemma fast_mcd_unfold fuel a nsub ncs nbest np tol cor rew g X : 0 < tol ->
  ~~ (alpha_eq a 1 || alpha_eq a (size X)) ->
  fast_mcd argsort chi2_ppf gamma_cdf choice choice1 fuel.+1 a nsub ncs.+1 nbest np tol cor rew g X
  = do cands <- fast_candidates argsort choice choice1 fuel.+1 a nsub ncs.+1 nbest np g X;
    if cands is c :: _ then
      if all (fun s => determinant s != 0) cands then post chi2_ppf gamma_cdf cor rew X c
      else Err LinAlgError
    else Err IndexError.
Proof.
move=> t0 na; rewrite /fast_mcd (negbTE na).
case e: (fast_candidates _ _ _ _ _ _ _ _ _ _ _) => [cands| |] //; rewrite ![bind (Ok _) _]/=.
have := fast_candidates_good e; case => [->//|[h eh [p1 hc]]].
case: cands e hc => [//|c l] e hc.
have hw : all (wfb X) (c :: l) by apply: sub_all hc => s /and3P[].
have [k [l0 el]] : exists k l0, take k (by_det l0) = c :: l.
  move: e; rewrite /fast_candidates; case: partition_data => //= parts.
  case: per_partition => //= l1; case: (mapM _ _) => //= l2 [<-]; by exists nbest, l2.
rewrite (select_sorted Has fuel a t0 el hw) (mapM_trial_cand Has p1 eh hc).
by case: ifP.
Qed.

Lemma fast_candidates_sorted fuel a nsub ncs nbest np g X c l :
  fast_candidates argsort choice choice1 fuel a nsub ncs nbest np g X = Ok (c :: l) ->
  all (fun d => determinant c <= determinant d) (c :: l).
Proof.
rewrite /fast_candidates; case: partition_data => //= parts.
case: per_partition => //= l1; case: (mapM _ _) => //= l2 [e]; exact: by_det_take_head e.
Qed.

Lemma fast_candidates_sizes fuel a nsub ncs nbest np g X cands :
  fast_candidates argsort choice choice1 fuel a nsub ncs nbest np g X = Ok cands ->
  (size cands <= nbest)%N.
Proof.
rewrite /fast_candidates; case: partition_data => //= parts.
case: per_partition => //= l1; case: (mapM _ _) => //= l2 [<-].
by rewrite size_take; case: ifP => // /negbT; lia.
Qed.

End Fast.

Section Det.
Variables (T : rcfType) (p : nat).
Variable argsort : seq (xnum T) -> seq nat.
Hypothesis Has : is_xargsort argsort.
Variable estimates : seq 'rV[T]_p -> res (seq 'rV[T]_p * seq ('rV[T]_p * 'M[T]_p)).
Variables (chi2_ppf : T -> nat -> T) (gamma_cdf : T -> T -> T).
Implicit Types (X : seq 'rV[T]_p) (s : hsubset T p) (cands : seq (hsubset T p)).

Lemma det_candidates_good a X Z e cands :
  mapM (det_candidate argsort a X Z) e = Ok cands ->
  cands = [::] \/ exists2 h, get_h a (size X) p = Ok h & p != 1%N /\ all (candb X h 1%N) cands.
Proof.
case: e => [[<-]|e0 e]; first by left.
move=> hm; right; case eh: (get_h a (size X) p) => [h|er|]; last 2 first.
- move: hm; rewrite /= /det_candidate; case: mahalanobis_distance => //= d.
  by case: get_subset => //= s; rewrite /c_step; case: mahalanobis_distance => //= ?; rewrite eh.
- move: hm; rewrite /= /det_candidate; case: mahalanobis_distance => //= d.
  by case: get_subset => //= s; rewrite /c_step; case: mahalanobis_distance => //= ?; rewrite eh.
exists h => //; split.
  apply/negP => p1; move: hm; rewrite /= /det_candidate; case: mahalanobis_distance => //= d.
  by rewrite /get_subset p1.
apply: (mapM_all (Q := predT)) hm; last by rewrite all_predT.
move=> x s _; rewrite /det_candidate; case: mahalanobis_distance => //= d.
case e1: get_subset => [H| |] //= e2; have [h' eh' [_ _ w n sz]] := c_step_inv Has e2.
have ehh : h' = h by move: eh'; rewrite eh => -[].
rewrite /candb sz ehh eqxx andbT; apply/andP; split; first exact/wfP.
by rewrite n; move: e1; rewrite /get_subset; case: ifP => // _ [<-].
Qed.

Lemma det_mcd_unfold fuel a tol cor rew X : 0 < tol ->
  ~~ (alpha_eq a 1 || alpha_eq a (size X)) ->
  det_mcd argsort chi2_ppf gamma_cdf estimates fuel.+1 a tol cor rew X
  = do ze <- estimates X;
    do cands <- mapM (det_candidate argsort a X ze.1) ze.2;
    if cands is c :: l then
      if all (fun s => determinant s != 0) cands then
        post chi2_ppf gamma_cdf cor rew X
          (foldl (fun b c => if determinant c < determinant b then c else b) c l)
      else Err LinAlgError
    else Err IndexError.
Proof.
move=> t0 na; rewrite /det_mcd (negbTE na).
case: estimates => [[Z e]| |] //=.
case em: (mapM _ _) => [cands| |] //; rewrite ![bind (Ok _) _]/=.
have := det_candidates_good em; case => [->//|[h eh [p1 hc]]].
case: cands em hc => [//|c l] em hc.
have hw : all (wfb X) (c :: l) by apply: sub_all hc => s /and3P[].
rewrite (select_trial Has fuel a t0 hw) (mapM_trial_cand Has p1 eh hc).
by case: ifP.
Qed.

(* the running minimum returns the first smallest element *)
Lemma foldl_first (c : hsubset T p) l :
  let s := foldl (fun b c => if determinant c < determinant b then c else b) c l in
  exists i, [/\ (i < size (c :: l))%N, s = nth c (c :: l) i,
    (forall j, (j < size (c :: l))%N -> determinant s <= determinant (nth c (c :: l) j))
    & (forall j, (j < i)%N -> determinant s < determinant (nth c (c :: l) j))].
Proof.
elim/last_ind: l => [|l d IH] /=; first by exists 0%N; split=> // -[].
rewrite foldl_rcons; move: IH => /= [i]; set s := foldl _ c l => -[hi es h1 h2].
have nr j : (j < (size l).+1)%N -> nth c (c :: rcons l d) j = nth c (c :: l) j.
  by case: j => // j hj; rewrite /= nth_rcons -ltnS hj.
have nl : nth c (c :: rcons l d) (size l).+1 = d by rewrite /= nth_rcons ltnn eqxx.
rewrite size_rcons; case: ifP => hd.
- exists (size l).+1; split=> //.
  + move=> j; rewrite ltnS leq_eqVlt => /predU1P[->|hj]; first by rewrite nl.
    by rewrite nr // (le_trans (ltW hd)) // h1.
  + by move=> j hj; rewrite nr // (lt_le_trans hd) // h1.
- exists i; split; [by rewrite ltnS ltnW | by rewrite nr | | by move=> j hj; rewrite nr ?h2 //; lia].
  move=> j; rewrite ltnS leq_eqVlt => /predU1P[->|hj]; first by rewrite nl leNgt hd.
  by rewrite nr // h1.
Qed.

End Det.

Section Alpha.

Lemma size_parts (A : Type) k (X : seq A) parts : array_split k X = Ok parts ->
  [/\ (0 < k)%N, size parts = k, flatten parts = X
    & forall i, (i < k)%N -> size (nth [::] parts i)
        = ((size X %/ k) + (i < size X %% k))%N].
Proof.
rewrite /array_split; case: eqP => // /eqP k0 [<-].
set q := (size X %/ k)%N; set r := (size X %% k)%N; set sh := _ ++ _.
have rk : (r < k)%N by rewrite ltn_mod lt0n.
have ss : size sh = k by rewrite size_cat !size_nseq subnKC // ltnW.
have sm : sumn sh = size X.
  rewrite /sh sumn_cat !sumn_nseq [RHS](divn_eq (size X) k) -/q -/r mulnBr mulSn.
  have : (q * r <= q * k)%N by rewrite leq_mul2l ltnW ?orbT.
  lia.
split; rewrite ?lt0n //; first by rewrite size_reshape.
  by rewrite reshapeKr // sm.
move=> i hi; have -> : size (nth [::] (reshape sh X) i) = nth 0%N sh i.
  by rewrite -{2}(@reshapeKl _ sh X) ?sm // /shape (nth_map [::]) // size_reshape ss.
rewrite /sh nth_cat size_nseq; case: ltnP => hr; first by rewrite nth_nseq hr addn1.
by rewrite nth_nseq addn0; case: ifP => //; lia.
Qed.

End Alpha.

Section Ensure.
Variables (T : rcfType) (p : nat).
Variables (G : Type) (choice : G -> nat -> nat -> seq nat * G) (choice1 : G -> seq nat -> nat * G).
Hypotheses (Hc : is_choice choice) (Hc1 : is_choice1 choice1).
Implicit Types (X : seq 'rV[T]_p) (idx : seq nat).

Lemma ensure_lem fuel g X idx :
  (count (fun i => i \notin idx) (iota 0 (size X)) <= fuel)%N ->
  (forall i, i \in idx -> (i < size X)%N) -> idx != [::] ->
  ensure choice1 fuel g X idx = Err ValueError \/
  exists r, [/\ ensure choice1 fuel g X idx = Ok r, \det (cov (sel 0 X r.1)) != 0, r.1 != [::]
    & forall i, i \in r.1 -> (i < size X)%N].
Proof.
elim: fuel g idx => [|f IH] g idx hf hi h0 /=; (case: ifP => d0;
  last by right; exists (idx, g); rewrite /= d0).
  case er: [seq i <- _ | _] => [|x r]; first by left.
  by move: hf; rewrite -size_filter er.
case er: [seq i <- _ | _] => [|x r]; first by left.
set c := choice1 _ _; have hc : c.1 \in x :: r by apply: Hc1.
have := hc; rewrite -er mem_filter mem_iota add0n => /andP[cn /= cX].
apply: IH; last by case: (idx).
  rewrite -ltnS; apply: leq_trans hf; rewrite -!size_filter.
  have -> : [seq i <- iota 0 (size X) | i \notin rcons idx c.1]
          = [seq i <- [seq i <- iota 0 (size X) | i \notin idx] | i != c.1].
    by rewrite -filter_predI; apply: eq_filter => i /=; rewrite mem_rcons inE negb_or.
  rewrite er size_filter ltnNge; apply/negP => hge.
  have : all (fun i => i != c.1) (x :: r) by rewrite all_count eqn_leq count_size.
  by move=> /allP /(_ _ hc); rewrite eqxx.
by move=> i; rewrite mem_rcons inE => /predU1P[->//|/hi].
Qed.

Lemma initial_lem fuel g X : (size X <= fuel)%N -> p != 1%N ->
  initial_subset choice choice1 fuel g X = Err ValueError \/
  exists idx g', [/\ initial_subset choice choice1 fuel g X = Ok (mk_subset X idx 0, g'),
    \det (cov (sel 0 X idx)) != 0, idx != [::] & forall i, i \in idx -> (i < size X)%N].
Proof.
move=> hf p1; rewrite /initial_subset (negbTE p1); case: ltnP => [_|hX]; first by left.
have [_ sz hin] := Hc g hX; set c := choice _ _ _ in sz hin *.
have [||//|-> /=|[r [-> d0 r0 hr]] /=] := @ensure_lem fuel c.2 X c.1.
- by apply: leq_trans hf; rewrite -[X in (_ <= X)%N](size_iota 0) count_size.
- exact: hin.
- by rewrite -size_eq0 sz.
- by left.
- by right; exists r.1, r.2.
Qed.

End Ensure.

Section IntAlpha.
Variables (T : rcfType) (p : nat).
Variable argsort : seq (xnum T) -> seq nat.
Variables (G : Type) (choice : G -> nat -> nat -> seq nat * G) (choice1 : G -> seq nat -> nat * G).
Hypotheses (Hc : is_choice choice) (Hc1 : is_choice1 choice1).
Implicit Types (X : seq 'rV[T]_p).

Lemma c_step_bad_h a X (s : hsubset T p) e : psd (scale s) -> scale s \in unitmx ->
  get_h a (size X) p = Err e -> c_step argsort a X s = Err e.
Proof. by move=> pS uS eh; rewrite /c_step (maha_fin _ _ pS uS) /= eh. Qed.

Lemma initial_subsets_lem fuel g X k : (size X <= fuel)%N -> p != 1%N ->
  initial_subsets choice choice1 fuel g X k = Err ValueError \/
  exists l g', [/\ initial_subsets choice choice1 fuel g X k = Ok (l, g'), size l = k
    & forall s, List.In s l -> psd (scale s) /\ scale s \in unitmx].
Proof.
move=> hf p1; elim: k g => [|k IH] g; first by right; exists [::], g.
rewrite /=; have [->|[idx [g' [-> d0 _ _]]]] := initial_lem Hc Hc1 g hf p1; first by left.
rewrite /=; have [->|[l [g2 [-> sl hl]]]] := IH g'; first by left.
right; exists (mk_subset X idx 0 :: l), g2; split=> //=; first by rewrite sl.
by move=> s [<-|/hl//]; rewrite /= -detP; split=> //; exact: psd_cov.
Qed.

(* a partition for which alpha is refused makes the whole run fail *)
Lemma per_partition_bad fuel a nsub ncs nbest g (data : seq 'rV[T]_p) parts :
  (size data <= fuel)%N -> p != 1%N -> get_h a (size data) p = Err ValueError ->
  per_partition argsort choice choice1 fuel a nsub.+1 ncs.+1 nbest g (data :: parts)
  = Err ValueError.
Proof.
move=> hf p1 eh.
have -> : per_partition argsort choice choice1 fuel a nsub.+1 ncs.+1 nbest g (data :: parts)
  = do r <- initial_subsets choice choice1 fuel g data nsub.+1;
    do subsets <- mapM (c_steps argsort a data ncs.+1) r.1;
    do rest <- per_partition argsort choice choice1 fuel a nsub.+1 ncs.+1 nbest r.2 parts;
    Ok (take nbest (by_det subsets) ++ rest) by [].
have [->//|[l [g' [-> sl hl]]]] := initial_subsets_lem g nsub.+1 hf p1.
case: l sl hl => [//|s l] _ hl /=.
by have [pS uS] := hl s (or_introl erefl); rewrite (c_step_bad_h pS uS eh).
Qed.

Lemma int_alpha_refused n m p' (i : int) : (600 < n)%N -> (n%:Z <= 2%:Z * i)%R ->
  (m <= n %/ 5 + 1)%N -> get_h (AInt i) m p' = Err ValueError.
Proof.
move=> hn hi hm; rewrite /= /get_h_prop.
have -> : (i <= m%:Z) = false by apply/negbTE; rewrite -ltNge; lia.
by rewrite andbF; have -> : (i == 1) = false by apply/negbTE/eqP; lia.
Qed.

End IntAlpha.

Section Correct.
Variables (T : rcfType) (p : nat).
Variable chi2_ppf : T -> nat -> T.
Implicit Types (X : seq 'rV[T]_p) (s : hsubset T p).

Lemma invmxZ_ n (c : T) (S : 'M[T]_n) : c != 0 -> S \in unitmx -> invmx (c *: S) = c^-1 *: invmx S.
Proof.
move=> c0 uS; have h : (c *: S) *m (c^-1 *: invmx S) = 1%:M.
  by rewrite -scalemxAl -scalemxAr scalerA divff // scale1r mulmxV.
by have [_ <-] := invmx_unique h.
Qed.

Lemma unitmxZ_ n (c : T) (S : 'M[T]_n) : c != 0 -> S \in unitmx -> c *: S \in unitmx.
Proof.
move=> c0 uS; have h : (c *: S) *m (c^-1 *: invmx S) = 1%:M.
  by rewrite -scalemxAl -scalemxAr scalerA divff // scale1r mulmxV.
by have [] := invmx_unique h.
Qed.

Lemma maha_sqZ (c : T) (M : 'M[T]_p) m x : maha_sq (c *: M) m x = c * maha_sq M m x.
Proof. by rewrite !maha_sqE -scalemxAr -scalemxAl mxE. Qed.

Lemma dist_sq X m S : psd S -> S \in unitmx ->
  (do d <- mahalanobis_distance X m S; Ok [seq fin u ^+ 2 | u <- d])
  = Ok [seq maha2 S m x | x <- X].
Proof.
move=> pS uS; rewrite (maha_fin _ _ pS uS) /=; congr Ok; rewrite -!map_comp.
apply: eq_map => x /=; rewrite maha2E sqr_sqrtr //; apply: maha_sq_ge0; exact: psd_inv.
Qed.

Lemma rescale_factorE X s : psd (scale s) -> scale s \in unitmx ->
  rescale_factor chi2_ppf X s
  = Ok (fmed [seq maha2 (scale s) (location s) x | x <- X] / chi2_ppf (c05 T) p).
Proof.
move=> pS uS; have := dist_sq X (location s) pS uS; rewrite /rescale_factor.
by case: mahalanobis_distance => //= d [->].
Qed.

Lemma correct_median X s : psd (scale s) -> scale s \in unitmx -> X != [::] ->
  0 < fmed [seq maha2 (scale s) (location s) x | x <- X] -> 0 < chi2_ppf (c05 T) p ->
  exists S, [/\ correct_covariance chi2_ppf X s = Ok S, psd S, S \in unitmx
    & fmed [seq maha2 S (location s) x | x <- X] = chi2_ppf (c05 T) p].
Proof.
move=> pS uS X0; set q := chi2_ppf _ _; set md := fmed _ => m0 q0.
have f0 : 0 < md / q by rewrite divr_gt0.
exists ((md / q) *: scale s); split.
- by rewrite /correct_covariance rescale_factorE.
- by apply: psd_scale; rewrite ?ltW.
- by apply: unitmxZ_; rewrite ?gt_eqF.
have -> : [seq maha2 ((md / q) *: scale s) (location s) x | x <- X]
        = [seq (md / q)^-1 * u + 0 | u : T <- [seq maha2 (scale s) (location s) x | x <- X]].
  rewrite -map_comp; apply: eq_map => x /=.
  by rewrite !maha2E invmxZ_ ?gt_eqF // maha_sqZ addr0.
rewrite fmed_affine; last by rewrite size_map lt0n size_eq0.
by rewrite -/md addr0 invf_div mulfVK // gt_eqF.
Qed.

End Correct.
