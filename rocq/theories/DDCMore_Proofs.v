(* Further proofs about DDC: weights, min_correlation, NaN correlations. *)
From mathcomp Require Import all_ssreflect all_algebra.
From mathcomp.zify Require Import zify.
From mathcomp.algebra_tactics Require Import ring.
From Verif Require Import RFieldLra Prelude Xnum Qn_Model DDC_Model DDC_Spec DDC_Proofs.
From Verif Require Import DDCFit_Proofs.

Set Implicit Arguments.
Unset Strict Implicit.
Unset Printing Implicit Defensive.

Import Order.TTheory GRing.Theory Num.Theory.
Local Open Scope ring_scope.

Section More.
Variable T : rcfType.
Notation num := (xnum T).
Variable est osm : seq num -> res (num * num).
Variable lstsq : seq num -> seq num -> res num.
Variable cdf1 : num -> num.
Variable round3 : T -> T.
Implicit Types (o : ddc T) (X Y : table T) (r : seq num) (corr slopes U : seq (seq num)).

Notation fit := (fit est osm lstsq cdf1).
Notation run := (run est osm lstsq cdf1).

Lemma big_iota (p : nat) (P : pred nat) (F : nat -> T) :
  \sum_(k <- iota 0 p | P k) F k = \sum_(k < p | P k) F k.
Proof. by rewrite -{1}[p]subn0 big_mkord. Qed.

(* ---- screened standardized rows ---- *)
Lemma zrow_score ls p r k : (k < p)%N ->
  nth NaN (zrow ls p (map (@drop_inf T) r)) k = zscore ls r k.
Proof.
move=> kp; rewrite zrow_nth // /zscore.
have -> : nth NaN (map (@drop_inf T) r) k = drop_inf (nth NaN r k).
  by case: (ltnP k (size r)) => h; [rewrite (nth_map NaN)|rewrite !nth_default ?size_map].
by case: (nth NaN r k).
Qed.

Lemma urow_score (c : T) ls p r k : (k < p)%N ->
  nth NaN (urow (Fin c) (zrow ls p (map (@drop_inf T) r))) k =
  if kept c (zscore ls r k) then zscore ls r k else NaN.
Proof.
move=> kp; rewrite (nth_map NaN) ?size_zrow // zrow_score //.
by case: (zscore ls r k) => //= x; rewrite ltNge; case: (`|x| <= c).
Qed.

Lemma weights_spec (c : T) ls corr p r i : fin_col corr p i ->
  prediction_weights c ls corr p r i
    (nwt corr p i (urow (Fin c) (zrow ls p (map (@drop_inf T) r)))).
Proof.
move=> fc; set u := urow _ _.
have un k : (k < p)%N -> is_nan (nth NaN u k) = ~~ kept c (zscore ls r k).
  by move=> kp; rewrite urow_score //; case: ifP => // ; case: (zscore ls r k).
have ef k : (k < p)%N -> cell corr k i = Fin (val0 (cell corr k i)).
  by move=> kp; have := fc k kp; case: (cell corr k i).
split.
- by move=> k _; exact: nwt_ge0.
- move=> k kp h; rewrite /nwt; case: eqP => // _; rewrite (wt_eq0 (ef _ kp)) ?mul0r //.
  by rewrite un // -orbA.
- move=> k kp ki kk hc; have w0 : 0 < wt corr i u k.
    by apply: wt_gt0 => //; rewrite un // kk.
  have s0 : 0 < wsum corr p i u.
    rewrite /wsum big_iota; apply: lt_le_trans w0 _.
    rewrite (bigD1 (Ordinal kp)) //= ler_addl; apply: sumr_ge0 => l _; exact: wt_ge0.
  by rewrite /nwt gt_eqF // divr_gt0.
- case: (eqVneq (wsum corr p i u) 0) => [e|e]; [right|left].
    by move=> k _; rewrite /nwt e eqxx.
  by rewrite -(big_iota p xpredT) nwt_sum.
Qed.

Lemma weighted_spec (c : T) ls corr slopes p r i : fin_col corr p i ->
  (forall j, (j < p)%N -> fin_or_nan (cell slopes j i)) ->
  pred1 corr slopes p (urow (Fin c) (zrow ls p (map (@drop_inf T) r))) i =
  Fin (weighted_prediction ls slopes p r i
    (nwt corr p i (urow (Fin c) (zrow ls p (map (@drop_inf T) r))))).
Proof.
move=> fc fs; rewrite pred1_fin //; last by move=> j _; exact: urow_fon.
congr Fin; rewrite big_iota; apply: eq_bigr => k _.
have [_ h0 _ _] := weights_spec c ls r fc.
rewrite urow_score //; case: ifP => // hk.
by rewrite h0 ?hk ?orbT // !mul0r.
Qed.

(* C44 *)
Lemma convex_lem o Y fs c ls corr slopes deshr rs a i :
  predict o Y = Ok fs -> o_cutoff o = Fin c ->
  o_ls o = Some ls -> o_corr o = Some corr -> o_slopes o = Some slopes ->
  o_deshr o = Some deshr -> o_rscale o = Some rs ->
  (forall k, (k < ncol Y)%N -> is_fin (at_ NaN corr k i)) ->
  (forall k, (k < ncol Y)%N -> fin_or_nan (at_ NaN slopes k i)) ->
  (a < size (rows Y))%N -> (i < ncol Y)%N ->
  exists w, prediction_weights c ls corr (ncol Y) (nth [::] (rows Y) a) i w /\
    at_ NaN fs.2 a i =
    xdiv (xsub (zscore ls (nth [::] (rows Y) a) i)
               (xmul (Fin (weighted_prediction ls slopes (ncol Y) (nth [::] (rows Y) a) i w))
                     (nth NaN deshr i)))
         (nth NaN rs i).
Proof.
move=> ep ec e1 e2 e3 e4 e5 fc fs' ha hi.
have [nx [ls' [corr' [slopes' [deshr' [rs' pa]]]]]] := predict_inv ep.
have := pa_ls pa; rewrite e1 => -[E]; subst ls'.
have := pa_corr pa; rewrite e2 => -[E]; subst corr'.
have := pa_slopes pa; rewrite e3 => -[E]; subst slopes'.
have := pa_deshr pa; rewrite e4 => -[E]; subst deshr'.
have := pa_rs pa; rewrite e5 => -[E]; subst rs'.
exists (nwt corr (ncol Y) i (urow (Fin c) (zrow ls (ncol Y) (map (@drop_inf T) (nth [::] (rows Y) a))))).
split; first exact: weights_spec.
move: ep; rewrite (predict_intro pa nx) => -[<-] /=.
rewrite /at_ (nth_map [::]) ?size_map // nth_replace.
rewrite srow_nth ?(pa_deshrs pa) ?(pa_rss pa) // zrow_score // /dpred ec.
by rewrite weighted_spec.
Qed.

(* C42, second part: nothing stays missing *)
Definition all_fin (s : seq num) := all (@is_fin T) s.

Lemma impute_complete_lem o X b fs c ls corr slopes deshr :
  predict o X = Ok fs -> shaped (ncol X) (rows X) -> o_cutoff o = Fin c ->
  o_ls o = Some ls -> o_corr o = Some corr -> o_slopes o = Some slopes -> o_deshr o = Some deshr ->
  all_fin ls.1 -> all_fin ls.2 -> all_fin deshr ->
  (forall k i, (k < ncol X)%N -> (i < ncol X)%N -> is_fin (at_ NaN corr k i)) ->
  (forall k i, (k < ncol X)%N -> (i < ncol X)%N -> fin_or_nan (at_ NaN slopes k i)) ->
  exists2 Y : seq (seq num), impute round3 o X b = Ok Y &
    forall a i, (a < size (rows X))%N -> (i < ncol X)%N -> is_fin (at_ NaN Y a i).
Proof.
move=> ep sh ec e1 e2 e3 e4 f1 f2 f3 fc fs'.
have [nx [ls' [corr' [slopes' [deshr' [rs' pa]]]]]] := predict_inv ep.
have := pa_ls pa; rewrite e1 => -[E]; subst ls'.
have := pa_corr pa; rewrite e2 => -[E]; subst corr'.
have := pa_slopes pa; rewrite e3 => -[E]; subst slopes'.
have := pa_deshr pa; rewrite e4 => -[E]; subst deshr'.
have [Y eY [_ _ h]] := impute_intro round3 b pa ep sh.
exists Y => // a i ha hi; rewrite h //; case: (boolP (missing _)) => /= hm.
  rewrite /imputed /dpred ec weighted_spec; [| by move=> k kp; exact: fc| by move=> k kp; exact: fs'].
  have := all_nthP NaN f1 i; have := all_nthP NaN f2 i; have := all_nthP NaN f3 i.
  rewrite (pa_lss pa) (pa_lss2 pa) (pa_deshrs pa) => /(_ hi) + /(_ hi) + /(_ hi).
  by case: (nth NaN deshr i) => // d _; case: (nth NaN ls.2 i) => // s _; case: (nth NaN ls.1 i).
case: (b && _); last by move: hm; rewrite negbK.
rewrite /imputed /dpred ec weighted_spec; [| by move=> k kp; exact: fc| by move=> k kp; exact: fs'].
have := all_nthP NaN f1 i; have := all_nthP NaN f2 i; have := all_nthP NaN f3 i.
rewrite (pa_lss pa) (pa_lss2 pa) (pa_deshrs pa) => /(_ hi) + /(_ hi) + /(_ hi).
by case: (nth NaN deshr i) => // d _; case: (nth NaN ls.2 i) => // s _; case: (nth NaN ls.1 i).
Qed.

(* C42, first part *)
Lemma impute_cells_lem o X b fs : predict o X = Ok fs -> shaped (ncol X) (rows X) ->
  exists (Y : seq (seq num)) (P : nat -> nat -> num) ls rs,
    [/\ impute round3 o X b = Ok Y, o_ls o = Some ls, o_rscale o = Some rs,
        size Y = size (rows X) /\ shaped (ncol X) Y &
     forall a i, (a < size (rows X))%N -> (i < ncol X)%N ->
       at_ NaN fs.2 a i = xdiv (xsub (zscore ls (nth [::] (rows X) a) i) (P a i)) (nth NaN rs i) /\
       at_ NaN Y a i =
       if missing (at_ NaN (rows X) a i) || (b && at_ false fs.1 a i)
       then xmap round3 (xadd (xmul (P a i) (nth NaN ls.2 i)) (nth NaN ls.1 i))
       else at_ NaN (rows X) a i].
Proof.
move=> ep sh; have [nx [ls [corr [slopes [deshr [rs pa]]]]]] := predict_inv ep.
have [Y eY [h1 h2 h3]] := impute_intro round3 b pa ep sh.
exists Y, (fun a i => dpred (o_cutoff o) ls (ncol X) corr slopes deshr
            (map (@drop_inf T) (nth [::] (rows X) a)) i), ls, rs.
split=> //; rewrite ?(pa_ls pa) ?(pa_rs pa) // => a i ha hi; split; last exact: h3.
move: ep; rewrite (predict_intro pa nx) => -[<-] /=.
rewrite /at_ (nth_map [::]) ?size_map // nth_replace.
by rewrite srow_nth ?(pa_deshrs pa) ?(pa_rss pa) // zrow_score.
Qed.

(* ---- slopes ---- *)
Lemma slopes_cell cut mc corr p U s i j : get_slopes osm lstsq cut mc corr p U = Ok s ->
  (i < p)%N -> (j < p)%N ->
  (if i == j then Ok NaN
   else if xlt (xabs (cell corr i j)) mc then Ok NaN
   else robust_slope osm lstsq cut (complete_pairs U i j)) = Ok (cell s i j).
Proof.
move=> e ip jp; have := mapM_nth 0%N [::] e; move=> /(_ i); rewrite size_iota => /(_ ip).
rewrite nth_iota // add0n => e2; have := mapM_nth 0%N NaN e2; move=> /(_ j).
by rewrite size_iota nth_iota // add0n => /(_ jp).
Qed.

Lemma slopes_diag cut mc corr p U s i : get_slopes osm lstsq cut mc corr p U = Ok s ->
  is_nan (cell s i i).
Proof.
move=> e; case: (ltnP i p) => ip.
  by have := slopes_cell e ip ip; rewrite eqxx => -[<-].
by rewrite /cell (nth_default [::]) ?nth_nil // (mapM_size e) size_iota.
Qed.

Definition diag_nan o : Prop := forall s, o_slopes o = Some s -> forall i, is_nan (cell s i i).

Lemma fit_diag o X : diag_nan o -> diag_nan (fit o X).1.
Proof.
rewrite /DDC_Model.fit /step => h.
case: (check_data X) => [_|e|] //.
case: (fit_scaler _ _) => [ls [_|e|]] //=.
case: (robust_correlation _ _ _ _) => [corr|e|] //=.
case E: (get_slopes _ _ _ _ _ _ _) => [slopes|e|] //=.
have k (o' : ddc T) : o_slopes o' = Some slopes -> diag_nan o'.
  by move=> eo s; rewrite eo => -[<-] i; exact: slopes_diag E.
case: (mapM _ _) => [deshr|e|] /=; try exact: k.
case: (mapM _ _) => [rs|e|] /=; try exact: k.
by case: (osm _) => [t|e|] /=; exact: k.
Qed.

Lemma run_diag o hs : diag_nan o -> diag_nan (run o hs).
Proof. by elim: hs o => //= X hs IH o h; apply: IH; exact: fit_diag. Qed.

(* ---- C43 ---- *)
Lemma agree_drop i r r' : agree_off i r r' -> agree_off i (map (@drop_inf T) r) (map (@drop_inf T) r').
Proof.
have e s k : nth NaN (map (@drop_inf T) s) k = drop_inf (nth NaN s k).
  by case: (ltnP k (size s)) => hk; [rewrite (nth_map NaN)|rewrite !nth_default ?size_map].
by move=> h k ki; rewrite !e h.
Qed.

Lemma dpred_off cut ls p corr slopes deshr r r' i : is_nan (cell slopes i i) -> agree_off i r r' ->
  dpred cut ls p corr slopes deshr (map (@drop_inf T) r) i =
  dpred cut ls p corr slopes deshr (map (@drop_inf T) r') i.
Proof.
move=> sn h; rewrite /dpred (pred1_off _ _ sn (r' := urow cut (zrow ls p (map (@drop_inf T) r')))) //.
apply: urow_off; first by rewrite !size_zrow.
by apply: zrow_off; exact: agree_drop.
Qed.

Lemma local_lem o X X' fs fs' a a' i : diag_nan o ->
  predict o X = Ok fs -> predict o X' = Ok fs' ->
  (a < size (rows X))%N -> (a' < size (rows X'))%N -> (i < ncol X)%N ->
  agree_off i (nth [::] (rows X) a) (nth [::] (rows X') a') ->
  exists P ls rs, [/\ o_ls o = Some ls, o_rscale o = Some rs,
    at_ NaN fs.2 a i = xdiv (xsub (zscore ls (nth [::] (rows X) a) i) P) (nth NaN rs i) &
    at_ NaN fs'.2 a' i = xdiv (xsub (zscore ls (nth [::] (rows X') a') i) P) (nth NaN rs i)].
Proof.
move=> dn ep ep' ha ha' hi ag.
have [nx [ls [corr [slopes [deshr [rs pa]]]]]] := predict_inv ep.
have [nx' [ls' [corr' [slopes' [deshr' [rs' pa']]]]]] := predict_inv ep'.
have := pa_ls pa; rewrite (pa_ls pa') => -[E]; subst ls'.
have := pa_corr pa; rewrite (pa_corr pa') => -[E]; subst corr'.
have := pa_slopes pa; rewrite (pa_slopes pa') => -[E]; subst slopes'.
have := pa_deshr pa; rewrite (pa_deshr pa') => -[E]; subst deshr'.
have := pa_rs pa; rewrite (pa_rs pa') => -[E]; subst rs'.
have ecol : ncol X' = ncol X.
  by have [c e1 <-] := pa_cells pa; have [c' e2 <-] := pa_cells pa'; move: e2; rewrite e1 => -[->].
exists (dpred (o_cutoff o) ls (ncol X) corr slopes deshr (map (@drop_inf T) (nth [::] (rows X) a)) i).
exists ls, rs; split; rewrite ?(pa_ls pa) ?(pa_rs pa) //.
  move: ep; rewrite (predict_intro pa nx) => -[<-] /=.
  rewrite /at_ (nth_map [::]) ?size_map // nth_replace.
  by rewrite srow_nth ?(pa_deshrs pa) ?(pa_rss pa) // zrow_score.
rewrite (dpred_off _ _ _ _ _ (dn _ (pa_slopes pa) i) ag) -ecol.
move: ep'; rewrite (predict_intro pa' nx') => -[<-] /=.
rewrite /at_ (nth_map [::]) ?size_map // nth_replace.
by rewrite srow_nth ?(pa_deshrs pa') ?(pa_rss pa') ?ecol // zrow_score.
Qed.


(* C44, no usable column: the prediction is the location *)
Lemma no_weight_lem o X b fs c ls corr slopes deshr a i l s d :
  predict o X = Ok fs -> shaped (ncol X) (rows X) -> o_cutoff o = Fin c ->
  o_ls o = Some ls -> o_corr o = Some corr -> o_slopes o = Some slopes -> o_deshr o = Some deshr ->
  (forall k, (k < ncol X)%N -> is_fin (at_ NaN corr k i)) ->
  (forall k, (k < ncol X)%N -> fin_or_nan (at_ NaN slopes k i)) ->
  (a < size (rows X))%N -> (i < ncol X)%N ->
  nth NaN ls.1 i = Fin l -> nth NaN ls.2 i = Fin s -> nth NaN deshr i = Fin d ->
  missing (at_ NaN (rows X) a i) ->
  (forall k, (k < ncol X)%N -> k != i -> kept c (zscore ls (nth [::] (rows X) a) k) ->
     `|val0 (at_ NaN corr k i)| < 2%:R^-1) ->
  exists2 Y : seq (seq num), impute round3 o X b = Ok Y & at_ NaN Y a i = Fin (round3 l).
Proof.
move=> ep sh ec e1 e2 e3 e4 fc fs' ha hi el es ed hm hk.
have [nx [ls' [corr' [slopes' [deshr' [rs' pa]]]]]] := predict_inv ep.
have := pa_ls pa; rewrite e1 => -[E]; subst ls'.
have := pa_corr pa; rewrite e2 => -[E]; subst corr'.
have := pa_slopes pa; rewrite e3 => -[E]; subst slopes'.
have := pa_deshr pa; rewrite e4 => -[E]; subst deshr'.
have [Y eY [_ _ h]] := impute_intro round3 b pa ep sh.
exists Y => //; rewrite h // hm /= /imputed /dpred ec weighted_spec //.
have [_ h0 _ _] := weights_spec c ls (nth [::] (rows X) a) fc.
rewrite /weighted_prediction big1 => [|k _].
  by rewrite ed es el /= !mul0r add0r.
rewrite h0 ?mul0r //; case: (eqVneq (k : nat) i) => //= ki.
by case: (boolP (kept _ _)) => //= kk; apply: hk.
Qed.

(* C46, flags *)
Lemma flags_lem o X fs a i : predict o X = Ok fs -> (a < size (rows X))%N -> (i < ncol X)%N ->
  at_ false fs.1 a i = xlt (o_cutoff o) (xabs (at_ NaN fs.2 a i)) /\
  (missing (at_ NaN (rows X) a i) -> is_nan (at_ NaN fs.2 a i)).
Proof.
move=> ep ha hi; have [nx [ls [corr [slopes [deshr [rs pa]]]]]] := predict_inv ep.
move: ep; rewrite (predict_intro pa nx) => -[<-] /=; set S := map (srow _ _ _ _ _ _ _) _.
have sS : (a < size S)%N by rewrite !size_map.
have sSa : size (nth [::] S a) = ncol X.
  by rewrite (nth_map [::]) ?size_srow ?(pa_deshrs pa) ?(pa_rss pa) // size_map.
split.
  by rewrite /at_ /flag_cells [nth [::] (map _ S) a](nth_map [::]) // (nth_map NaN) ?sSa.
move=> hm; rewrite /S /at_ (nth_map [::]) ?size_map // nth_replace.
rewrite srow_nth ?(pa_deshrs pa) ?(pa_rss pa) // zrow_score // /zscore.
by move: hm; rewrite /missing /at_ => /negbTE ->.
Qed.

Lemma predict_size o X (fs : seq (seq bool) * seq (seq num)) : predict o X = Ok fs ->
  [/\ size fs.1 = size (rows X), size fs.2 = size (rows X), shaped (ncol X) fs.2 &
      all (fun r : seq bool => size r == ncol X) fs.1].
Proof.
move=> ep; have [nx [ls [corr [slopes [deshr [rs pa]]]]]] := predict_inv ep.
move: ep; rewrite (predict_intro pa nx) => -[<-] /=; rewrite !size_map.
have h : shaped (ncol X) (map (srow (o_cutoff o) ls (ncol X) corr slopes deshr rs) (replace_inf (rows X))).
  rewrite /shaped all_map; elim: (replace_inf _) => //= r R ->; rewrite andbT; apply/eqP.
  by apply: size_srow; [exact: pa_deshrs pa|exact: pa_rss pa].
split=> //; rewrite /flag_cells all_map; apply/(all_nthP [::]) => k hk /=.
by rewrite size_map; move/(all_nthP [::]): h; apply.
Qed.

(* ---- fit succeeds when its estimators do ---- *)
Lemma mapM_total (A B : Type) (f : A -> res B) l : (forall a, exists b, f a = Ok b) ->
  exists s, mapM f l = Ok s.
Proof.
move=> h; elim: l => [|a l [s IH]] /=; first by exists [::].
by have [b ->] := h a; rewrite /= IH; exists (b :: s).
Qed.

Lemma fit_total o X :
  (forall s, exists v, est s = Ok v) -> (forall s, exists v, osm s = Ok v) ->
  (forall x y, exists v, lstsq x y = Ok v) -> check_data X = Ok tt ->
  exists o', fit o X = (o', Ok tt).
Proof.
move=> he ho hl hc.
have hs cs : (fit_scaler est cs).2 = Ok tt.
  by elim: cs => //= c cs IH; have [v ->] := he (non_nan c).
have hr cut xy : exists v, robust_slope osm lstsq cut xy = Ok v.
  rewrite /robust_slope; case: ifP => _; first by exists (Fin 0).
  by case: (ho [seq xsub p.2 (xmul (np_median [seq xdiv q.2 q.1 | q <- xy & ~~ xis0 q.1]) p.1) | p <- xy]) => v -> /=.
rewrite /DDC_Model.fit hc hs /step.
set U := screen _ _; have [corr ->] : exists m, robust_correlation osm (o_cutoff o) (ncol X) U = Ok m.
  rewrite /robust_correlation; elim: (index_pairs _) (nseq _ _) => [|ij ps IH] m; first by exists m.
  rewrite corr_loopE /pair_value; case: (complete_pairs _ _ _) => [|q s]; first exact: IH.
  rewrite /pair_corr /init_corr.
  have [v1 ->] := ho [seq xadd p.1 p.2 | p <- q :: s].
  have [v2 E] := ho [seq xsub p.1 p.2 | p <- q :: s]; rewrite /bind E; exact: IH.
have [slopes ->] : exists s, get_slopes osm lstsq (o_cutoff o) (o_min o) corr (ncol X) U = Ok s.
  apply: mapM_total => i; apply: mapM_total => j; case: eqP => _; first by exists NaN.
  by case: ifP => _; [exists NaN|exact: hr].
set f := (fun i => robust_slope _ _ _ _); have [deshr ->] : exists s, mapM f (iota 0 (ncol X)) = Ok s.
  by apply: mapM_total => i; exact: hr.
set g := (fun i => bind _ _); have [rs ->] : exists s, mapM g (iota 0 (ncol X)) = Ok s.
  by apply: mapM_total => i; rewrite /g; set y := non_nan _; have [v ->] := ho y; exists v.2.
by set y := t_values _ _; have [v ->] := ho y; eexists.
Qed.

(* ---- C45 ---- *)
Hypothesis lstsq_fin : forall x y v, lstsq x y = Ok v -> is_fin v.

Lemma robust_slope_fin cut xy v : robust_slope osm lstsq cut xy = Ok v -> is_fin v.
Proof.
rewrite /robust_slope; case: ifP => _; first by case=> <-.
by case: (osm _) => //= ls; exact: lstsq_fin.
Qed.

Lemma slopes_fon cut mc corr p U s i j : get_slopes osm lstsq cut mc corr p U = Ok s ->
  (i < p)%N -> (j < p)%N -> fin_or_nan (cell s i j).
Proof.
move=> e ip jp; have := slopes_cell e ip jp; case: eqP => [_ [<-] //|_].
case: ifP => [_ [<-] //|_ /robust_slope_fin].
by case: (cell s i j).
Qed.

Lemma pred1_same corr s1 s2 p (c : T) r i : fin_col corr p i ->
  (forall j, (j < p)%N -> fin_or_nan (cell s1 j i)) ->
  (forall j, (j < p)%N -> fin_or_nan (cell s2 j i)) ->
  (forall j, (j < p)%N -> cell s1 j i = cell s2 j i \/ `|val0 (cell corr j i)| < 2%:R^-1) ->
  pred1 corr s1 p (urow (Fin c) r) i = pred1 corr s2 p (urow (Fin c) r) i.
Proof.
move=> fc f1 f2 h; rewrite !pred1_fin //; try by move=> j _; exact: urow_fon.
congr Fin; rewrite !big_iota [LHS]big_mkcond [RHS]big_mkcond /=; apply: eq_bigr => k _.
case: (h k (ltn_ord k)) => [->//|hc].
have -> : nwt corr p i (urow (Fin c) r) k = 0.
  have ef : cell corr k i = Fin (val0 (cell corr k i)) by have := fc k (ltn_ord k); case: (cell corr k i).
  by rewrite /nwt; case: eqP => // _; rewrite (wt_eq0 ef) ?mul0r // hc orbT.
by rewrite !mul0r; case: ifP; case: ifP.
Qed.

Lemma predicted_same corr s1 s2 p (c : T) V :
  (forall i, (i < p)%N -> fin_col corr p i) ->
  (forall i j, (i < p)%N -> (j < p)%N -> fin_or_nan (cell s1 i j)) ->
  (forall i j, (i < p)%N -> (j < p)%N -> fin_or_nan (cell s2 i j)) ->
  (forall i j, (i < p)%N -> (j < p)%N ->
    cell s1 i j = cell s2 i j \/ `|val0 (cell corr i j)| < 2%:R^-1) ->
  predicted_values corr s1 p (screen (Fin c) V) = predicted_values corr s2 p (screen (Fin c) V).
Proof.
move=> fc f1 f2 h; rewrite !predicted_valuesE screenE -!map_comp; apply: eq_map => r /=.
apply/eq_in_map => i; rewrite mem_iota add0n => /andP[_ ip].
by apply: pred1_same; [exact: fc|move=> j jp; exact: f1|move=> j jp; exact: f2|move=> j jp; exact: h].
Qed.

Lemma slopes_agree cut (m1 m2 : T) corr p U s1 s2 : m1 <= 2%:R^-1 -> m2 <= 2%:R^-1 ->
  (forall i j, (i < p)%N -> (j < p)%N -> is_fin (cell corr i j)) ->
  get_slopes osm lstsq cut (Fin m1) corr p U = Ok s1 ->
  get_slopes osm lstsq cut (Fin m2) corr p U = Ok s2 ->
  forall i j, (i < p)%N -> (j < p)%N ->
    cell s1 i j = cell s2 i j \/ `|val0 (cell corr i j)| < 2%:R^-1.
Proof.
move=> h1 h2 fc e1 e2 i j ip jp; have := slopes_cell e1 ip jp; have := slopes_cell e2 ip jp.
case: eqP => _; first by move=> [<-] [<-]; left.
have := fc i j ip jp; case: (cell corr i j) => //= x _.
case: (ltrP `|x| (2%:R^-1)) => hx; first by right.
rewrite !ltNge (le_trans h1 hx) (le_trans h2 hx) /= => -> [->]; by left.
Qed.

Lemma min_corr_lem o1 o2 o1' o2' X (c m1 m2 : T) :
  o_cutoff o1 = Fin c -> o_cutoff o2 = Fin c -> o_min o1 = Fin m1 -> o_min o2 = Fin m2 ->
  m1 <= 2%:R^-1 -> m2 <= 2%:R^-1 ->
  fit o1 X = (o1', Ok tt) -> fit o2 X = (o2', Ok tt) ->
  (forall corr, o_corr o1' = Some corr ->
     forall i j, (i < ncol X)%N -> (j < ncol X)%N -> is_fin (at_ NaN corr i j)) ->
  [/\ o_cells o1' = o_cells o2', o_rows o1' = o_rows o2' &
   forall Y b, [/\ predict o1' Y = predict o2' Y,
     predict_rowwise cdf1 o1' Y = predict_rowwise cdf1 o2' Y &
     impute round3 o1' Y b = impute round3 o2' Y b]].
Proof.
move=> c1 c2 d1 d2 h1 h2 /fit_inv[ls1 [k1 [s1 [de1 [rs1 [t1 f1]]]]]] /fit_inv[ls2 [k2 [s2 [de2 [rs2 [t2 f2]]]]]] fc.
have E := f_ls f1; rewrite (f_ls f2) in E; case: E => E; subst ls2.
have E := f_corr f1; rewrite c1 -c2 (f_corr f2) in E; case: E => E; subst k2.
have {}fc i j : (i < ncol X)%N -> (j < ncol X)%N -> is_fin (cell k1 i j).
  by apply: fc; rewrite (f_o f1).
have S1 := f_slopes f1; rewrite d1 c1 in S1; have S2 := f_slopes f2; rewrite d2 c2 in S2.
have PS V : predicted_values k1 s1 (ncol X) (screen (Fin c) V) = predicted_values k1 s2 (ncol X) (screen (Fin c) V).
  apply: predicted_same.
  - by move=> i ip k kp; exact: fc.
  - by move=> i j ip jp; exact: slopes_fon S1 ip jp.
  - by move=> i j ip jp; exact: slopes_fon S2 ip jp.
  - exact: slopes_agree S1 S2.
have E := f_deshr f1; rewrite c1 PS -c2 (f_deshr f2) in E; case: E => E; subst de2.
have E := f_rs f1; rewrite c1 PS -c2 (f_rs f2) in E; case: E => E; subst rs2.
have SR rs V : map (srow (Fin c) ls1 (ncol X) k1 s1 de1 rs) V = map (srow (Fin c) ls1 (ncol X) k1 s2 de1 rs) V.
  by rewrite -!residE PS.
have E := f_t f1; rewrite c1 SR -c2 (f_t f2) in E; case: E => E; subst t2.
have sk : size k1 = ncol X by have [[-> _] _ _ _ _] := robust_correlation_lem (f_corr f1).
have ss1 : size s1 = ncol X by rewrite (mapM_size S1) size_iota.
have ss2 : size s2 = ncol X by rewrite (mapM_size S2) size_iota.
have PP p V : p = ncol X -> predictions o1' p (screen (Fin c) V) = predictions o2' p (screen (Fin c) V).
  by move=> ->; rewrite /predictions (f_o f1) (f_o f2) /= sk ss1 ss2 PS.
have oc : o_cutoff o1' = Fin c by rewrite (f_o f1).
have oc2 : o_cutoff o2' = Fin c by rewrite (f_o f2).
have ocell : o_cells o1' = o_cells o2' by rewrite (f_o f1) (f_o f2) /= c1 c2 SR.
have ols : o_ls o1' = o_ls o2' by rewrite (f_o f1) (f_o f2).
have ors : o_rscale o1' = o_rscale o2' by rewrite (f_o f1) (f_o f2).
have ot : o_t o1' = o_t o2' by rewrite (f_o f1) (f_o f2).
have of1 : o_fitted o1' by rewrite (f_o f1).
have of2 : o_fitted o2' by rewrite (f_o f2).
have oco : exists c0, o_cells o2' = Some c0 /\ c0.1.1 = ncol X.
  by rewrite (f_o f2) /=; eexists; split.
have pr Y : predict o1' Y = predict o2' Y.
  rewrite /predict /guard of1 of2 ocell /=; have [c0 [-> e0]] := oco; rewrite /= e0.
  case: eqP => //= eY; case: ifP => // _; rewrite ols ors oc oc2.
  by case: (standardize_tab _ _) => //= Z; rewrite PP.
split=> //.
- by rewrite (f_o f1) (f_o f2) /= c1 c2 SR.
- move=> Y b; split=> //; first by rewrite /predict_rowwise pr ot oc oc2.
  rewrite /impute /guard of1 of2 ocell /=; have [c0 [-> e0]] := oco; rewrite /= e0.
  case: eqP => //= eY; rewrite ols oc oc2.
  by case: (standardize_tab _ _) => //= Z; rewrite PP // pr.
Qed.

(* above 1/2: the weights used sum to less than 1 *)
Lemma shrink_lem o o' X Y fs (c m : T) a i k :
  fit o X = (o', Ok tt) -> o_cutoff o = Fin c -> o_min o = Fin m -> predict o' Y = Ok fs ->
  (forall corr, o_corr o' = Some corr ->
     forall i j, (i < ncol X)%N -> (j < ncol X)%N -> is_fin (at_ NaN corr i j)) ->
  (a < size (rows Y))%N -> (i < ncol Y)%N -> (k < ncol Y)%N -> k != i ->
  (forall ls corr, o_ls o' = Some ls -> o_corr o' = Some corr ->
     kept c (zscore ls (nth [::] (rows Y) a) k) /\
     2%:R^-1 <= `|val0 (at_ NaN corr k i)| < m) ->
  exists ls corr slopes deshr rs w,
   [/\ [/\ o_ls o' = Some ls, o_corr o' = Some corr, o_slopes o' = Some slopes,
           o_deshr o' = Some deshr & o_rscale o' = Some rs],
       prediction_weights c ls corr (ncol Y) (nth [::] (rows Y) a) i w,
       at_ NaN fs.2 a i =
         xdiv (xsub (zscore ls (nth [::] (rows Y) a) i)
                    (xmul (Fin (weighted_prediction ls slopes (ncol Y) (nth [::] (rows Y) a) i w))
                          (nth NaN deshr i)))
              (nth NaN rs i),
       \sum_(j < ncol Y) w j = 1 &
       \sum_(j < ncol Y | ~~ is_nan (at_ NaN slopes j i)) w j < 1].
Proof.
move=> /fit_inv[ls [corr [slopes [deshr [rs [t fi]]]]]] ec em ep fc ha hi hk ki hh.
have eo := f_o fi.
have e1 : o_ls o' = Some ls by rewrite eo.
have e2 : o_corr o' = Some corr by rewrite eo.
have e3 : o_slopes o' = Some slopes by rewrite eo.
have e4 : o_deshr o' = Some deshr by rewrite eo.
have e5 : o_rscale o' = Some rs by rewrite eo.
have ec' : o_cutoff o' = Fin c by rewrite eo.
have eY : ncol Y = ncol X.
  have [nx [ls' [corr' [slopes' [deshr' [rs' pa]]]]]] := predict_inv ep.
  by have [c0] := pa_cells pa; rewrite eo => -[<-].
have {}fc j l : (j < ncol Y)%N -> (l < ncol Y)%N -> is_fin (at_ NaN corr j l).
  by rewrite eY; apply: fc.
have S := f_slopes fi; rewrite -eY in S.
have [w [pw er]] := convex_lem ep ec' e1 e2 e3 e4 e5 (fun k kp => fc k i kp hi)
   (fun k kp => slopes_fon S kp hi) ha hi.
have [kk /andP[c1 c2]] := hh _ _ e1 e2; have [w0 wz wp ws] := pw.
have wk : 0 < w k by apply: wp.
have w1 : \sum_(j < ncol Y) w j = 1.
  by case: ws => // wz'; move: wk; rewrite wz' // ltxx.
exists ls, corr, slopes, deshr, rs, w; split=> //.
rewrite -w1 [X in _ < X](bigID (fun j : 'I__ => is_nan (at_ NaN slopes j i))) /= ltr_addr.
rewrite (bigD1 (Ordinal hk)) /=; last first.
  have := slopes_cell S hk hi; rewrite (negbTE ki) em /at_ -/(cell corr k i) -/(cell slopes k i).
  have := fc k i hk hi; rewrite /at_ -/(cell corr k i); move: c2; rewrite /at_ -/(cell corr k i).
  by case: (cell corr k i) => //= x -> _ [<-].
by apply: ltr_paddr => //; apply: sumr_ge0 => j _; exact: w0.
Qed.

(* ---- C91: a NaN correlation ---- *)
Lemma one_joint_row cut p U corr i j : robust_correlation osm cut p U = Ok corr ->
  (i < p)%N -> (j < p)%N -> i != j -> size (complete_pairs U i j) = 1%N -> is_nan (cell corr i j).
Proof.
move=> e ip jp ij; have [_ _ sym _ pv] := robust_correlation_lem e.
have k a b : (a < b < p)%N -> size (complete_pairs U a b) = 1%N -> is_nan (cell corr a b).
  move=> h hs; have := pv a b h; rewrite /pair_value.
  case: (complete_pairs U a b) hs => [|q s] // hs; rewrite /pair_corr.
  case: (init_corr _ _) => [c0|e0|]; rewrite /bind // => -[<-]; rewrite /corrcoef ifT //.
  by case: s hs => //= _; case: ifP.
case: (ltngtP i j) ij => // h _ hs; first by apply: k => //; rewrite h.
by rewrite sym //; apply: k; rewrite ?h // -hs complete_pairs_sym size_map.
Qed.

Lemma pred1_nan corr slopes p r i j : (j < p)%N -> is_nan (cell corr j i) ->
  ~~ is_nan (cell slopes j i) -> pred1 corr slopes p r i = NaN.
Proof.
move=> jp hn hs; rewrite /pred1.
have wn k : (k < p)%N -> nth NaN (wrow corr p i r) k = NaN.
  move=> kp; rewrite /wrow /normalize_row (nth_map NaN) ?size_map ?size_iota //.
  rewrite xsum_nan ?xdiv_nan_r //; apply/(has_nthP NaN); exists j; first by rewrite size_map size_iota.
  rewrite (nth_map 0%N) ?size_iota // nth_iota // add0n.
  by move: hn; case: (cell corr j i).
have nn js : foldl (pstep corr slopes p i r) NaN js = NaN.
  by elim: js => //= k js IH; rewrite {2}/pstep; case: ifP.
have : j \in iota 0 p by rewrite mem_iota.
elim: (iota 0 p) (Fin 0) => //= k js IH x; rewrite inE => /orP[/eqP <-|/IH //].
by rewrite {2}/pstep (negbTE hs) wn // xadd_nan_r nn.
Qed.

Lemma slope_of_nan cut (m : num) corr p U s i j : get_slopes osm lstsq cut m corr p U = Ok s ->
  (i < p)%N -> (j < p)%N -> i != j -> is_nan (cell corr i j) -> is_fin (cell s i j).
Proof.
move=> e ip jp ij; have := slopes_cell e ip jp; rewrite (negbTE ij).
by case: (cell corr i j) => //= + _; exact: robust_slope_fin.
Qed.

Lemma blind_lem o o' X i j : fit o X = (o', Ok tt) ->
  (forall ls, o_ls o' = Some ls ->
     size (complete_pairs (screen (o_cutoff o) (standardize ls (ncol X) (replace_inf (rows X)))) i j) = 1%N) ->
  (i < ncol X)%N -> (j < ncol X)%N -> i != j ->
  forall Y fs a, predict o' Y = Ok fs -> (a < size (rows Y))%N ->
    [/\ is_nan (at_ NaN fs.2 a i), at_ false fs.1 a i = false &
     forall b, shaped (ncol Y) (rows Y) ->
       exists2 V : seq (seq num), impute round3 o' Y b = Ok V &
         at_ NaN V a i = if missing (at_ NaN (rows Y) a i) then NaN else at_ NaN (rows Y) a i].
Proof.
move=> /fit_inv[ls [corr [slopes [deshr [rs [t fi]]]]]] h1 ip jp ij Y fs a ep ha.
have eo := f_o fi; have pa := fitted_params fi.
have nx : numeric Y by have [] := predict_inv ep.
have eY : ncol X = ncol Y.
  have [_ [ls' [corr' [slopes' [deshr' [rs' pa']]]]]] := predict_inv ep.
  by have [c0] := pa_cells pa'; rewrite eo => -[<-].
have {}h1 := h1 ls (pa_ls pa).
have cn : is_nan (cell corr j i).
  have [_ _ sym _ _] := robust_correlation_lem (f_corr fi); rewrite sym //.
  exact: one_joint_row (f_corr fi) ip jp ij h1.
have sn : ~~ is_nan (cell slopes j i).
  have := slope_of_nan (f_slopes fi) jp ip; rewrite eq_sym => /(_ ij cn).
  by case: (cell slopes j i).
rewrite eY in pa ip jp.
have dn r : dpred (o_cutoff o') ls (ncol Y) corr slopes deshr r i = NaN.
  by rewrite /dpred (pred1_nan _ jp cn sn).
have ef := ep; rewrite (predict_intro pa nx) in ef; case: ef => ef.
have rn : is_nan (at_ NaN fs.2 a i).
  rewrite -ef /at_ /= (nth_map [::]) ?size_map // srow_nth ?(pa_deshrs pa) ?(pa_rss pa) // dn.
  by rewrite /xsub xadd_nan_r.
have fl : at_ false fs.1 a i = false.
  move: rn; rewrite -ef /at_ /= /flag_cells; set S := map (srow _ _ _ _ _ _ _) _.
  have sS : (a < size S)%N by rewrite !size_map.
  rewrite [nth [::] (map _ S) a](nth_map [::]) //.
  case: (ltnP i (size (nth [::] S a))) => hi; last by rewrite (nth_default false) ?size_map.
  by rewrite (nth_map NaN) //; case: (nth NaN _ i) => //= _; rewrite xlt_nan_r.
split=> // b sh; have [V eV [_ _ h]] := impute_intro round3 b pa ep sh.
exists V => //; rewrite h // fl andbF orbF /imputed dn /=.
by case: ifP.
Qed.

End More.
