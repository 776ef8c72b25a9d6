(* Proofs about the DDC model. *)
From mathcomp Require Import all_ssreflect all_algebra.
From mathcomp.zify Require Import zify.
From mathcomp.algebra_tactics Require Import ring.
From Verif Require Import RFieldLra Prelude Xnum Qn_Model DDC_Model DDC_Spec.

Set Implicit Arguments.
Unset Strict Implicit.
Unset Printing Implicit Defensive.

Import Order.TTheory GRing.Theory Num.Theory.
Local Open Scope ring_scope.

Section Rows.
Variable T : rcfType.
Notation num := (xnum T).
Implicit Types (r : seq num) (corr slopes U : seq (seq num)).

(* the computations of one row *)
Definition zrow (ls : seq num * seq num) (p : nat) r : seq num :=
  [seq xdiv (xsub (nth NaN r j) (nth NaN ls.1 j)) (nth NaN ls.2 j) | j <- iota 0 p].
Definition urow (cut : num) r : seq num := map (fun z => if xlt cut (xabs z) then NaN else z) r.
Definition rwrow corr (p i : nat) r : seq num :=
  [seq xmul (xmul (xmul (xabs (cell corr k i))
                        (b2x T (xle (Fin (2%:R^-1)) (xabs (cell corr k i)))))
                  (b2x T (k != i)))
            (b2x T (~~ is_nan (nth NaN r k)))
  | k <- iota 0 p].
Definition wrow corr p i r := normalize_row (rwrow corr p i r).
Definition pstep corr slopes p i r (acc : num) (j : nat) : num :=
  if is_nan (cell slopes j i) then acc
  else xadd acc (xmul (xmul (nth NaN (wrow corr p i r) j) (cell slopes j i))
                      (fillna0 (nth NaN r j))).
Definition pred1 corr slopes p r i : num := foldl (pstep corr slopes p i r) (Fin 0) (iota 0 p).
Definition predrow corr slopes p r := [seq pred1 corr slopes p r i | i <- iota 0 p].

Lemma size_col U j : size (col U j) = size U. Proof. exact: size_map. Qed.

Lemma pred_loop_size slopes i W U js acc : size W = size U -> size acc = size U ->
  size (pred_loop slopes i W U js acc) = size U.
Proof.
move=> sW; elim: js acc => //= j js IH acc sa; apply: IH.
case: ifP => // _; rewrite size_map size_zip size_map size_zip size_map !size_col sW sa; lia.
Qed.

Lemma pred_loop_nth corr slopes p i U js acc a : (a < size U)%N -> size acc = size U ->
  nth NaN (pred_loop slopes i (weights corr p i U) U js acc) a
  = foldl (pstep corr slopes p i (nth [::] U a)) (nth NaN acc a) js.
Proof.
move=> ha; elim: js acc => //= j js IH acc sa.
have sW : size (weights corr p i U) = size U by rewrite !size_map.
rewrite IH; last first.
  case: ifP => // _; rewrite size_map size_zip size_map size_zip size_map !size_col sW sa; lia.
congr foldl; rewrite /pstep; case: ifP => // _.
rewrite (nth_map (NaN, NaN)); last by rewrite size_zip size_map size_zip size_map !size_col sW sa; lia.
rewrite nth_zip /=; last by rewrite size_map size_zip size_map !size_col sW sa; lia.
congr xadd.
rewrite (nth_map (NaN, NaN)); last by rewrite size_zip size_map !size_col sW; lia.
rewrite nth_zip /=; last by rewrite size_map !size_col.
rewrite /col (nth_map [::]) ?sW // (nth_map NaN) ?size_map //.
rewrite [in fillna0 _](nth_map [::]) //.
by rewrite /weights (nth_map [::]) ?size_map // /raw_weights (nth_map [::]).
Qed.

Lemma predicted_valuesE corr slopes p U :
  predicted_values corr slopes p U = map (predrow corr slopes p) U.
Proof.
apply: (@eq_from_nth _ [::]); rewrite ?size_map ?size_iota // => a ha.
rewrite (nth_map 0%N) ?size_iota // nth_iota // add0n (nth_map [::]) //.
rewrite -map_comp /predrow; apply: eq_map => i /=.
rewrite (@pred_loop_nth corr) ?size_nseq // nth_nseq ha //.
Qed.

Lemma standardizeE ls p U : standardize ls p U = map (zrow ls p) U. Proof. by []. Qed.
Lemma screenE cut U : screen cut U = map (urow cut) U. Proof. by []. Qed.

(* residuals of one row *)
Definition srow (cut : num) ls p corr slopes (deshr rs : seq num) r : seq num :=
  let z := zrow ls p r in
  let P := [seq xmul q.1 q.2 | q <- zip (predrow corr slopes p (urow cut z)) deshr] in
  [seq xdiv q.1 q.2 | q <- zip [seq xsub q.1 q.2 | q <- zip z P] rs].

Lemma zip_mapd (A B C : Type) (f : A -> B) (g : A -> C) (s : seq A) :
  zip (map f s) (map g s) = [seq (f x, g x) | x <- s].
Proof. by elim: s => //= x s ->. Qed.

Lemma residE cut ls p corr slopes deshr rs X :
  std_residuals (raw_residuals (standardize ls p X)
    (scale_cols (predicted_values corr slopes p (screen cut (standardize ls p X))) deshr)) rs
  = map (srow cut ls p corr slopes deshr rs) X.
Proof.
rewrite predicted_valuesE screenE standardizeE /scale_cols /raw_residuals /std_residuals.
rewrite -!map_comp zip_mapd -!map_comp; exact: eq_map.
Qed.

(* ---- finite correlations: the weights are numbers ---- *)
Definition wt corr i r (k : nat) : T :=
  let c := val0 (cell corr k i) in
  `|c| * (2%:R^-1 <= `|c|)%R%:R * (k != i)%:R * (~~ is_nan (nth NaN r k))%:R.
Definition wsum corr p i r : T := \sum_(k <- iota 0 p) wt corr i r k.
Definition nwt corr p i r (k : nat) : T :=
  if wsum corr p i r == 0 then 0 else wt corr i r k / wsum corr p i r.
Definition fin_col corr (p i : nat) := forall k, (k < p)%N -> is_fin (cell corr k i).

Lemma rwrow_fin corr p i r : fin_col corr p i ->
  rwrow corr p i r = [seq Fin (wt corr i r k) | k <- iota 0 p].
Proof.
move=> fc; apply/eq_in_map => k; rewrite mem_iota add0n => /andP[_ kp].
by rewrite /wt; case: (cell corr k i) (fc k kp).
Qed.

Lemma wrow_fin corr p i r : fin_col corr p i ->
  wrow corr p i r = [seq Fin (nwt corr p i r k) | k <- iota 0 p].
Proof.
move=> fc; rewrite /wrow /normalize_row rwrow_fin //.
have -> : xsum [seq Fin (wt corr i r k) | k <- iota 0 p] = Fin (wsum corr p i r).
  by rewrite (map_comp (@Fin T)) xsum_fin fsumE big_map.
rewrite -map_comp; apply: eq_map => k /=; rewrite /nwt.
by case: ifP => //= ->.
Qed.

Lemma wt_ge0 corr i r k : 0 <= wt corr i r k.
Proof. by rewrite /wt !mulr_ge0 ?normr_ge0 ?ler0n. Qed.

Lemma wsum_ge0 corr p i r : 0 <= wsum corr p i r.
Proof. by apply: sumr_ge0 => k _; exact: wt_ge0. Qed.

Lemma nwt_ge0 corr p i r k : 0 <= nwt corr p i r k.
Proof. by rewrite /nwt; case: eqP => // _; rewrite divr_ge0 ?wt_ge0 ?wsum_ge0. Qed.

Lemma nwt_sum corr p i r : wsum corr p i r != 0 -> \sum_(k <- iota 0 p) nwt corr p i r k = 1.
Proof.
move=> h; transitivity ((\sum_(k <- iota 0 p) wt corr i r k) / wsum corr p i r).
  by rewrite mulr_suml; apply: eq_bigr => k _; rewrite /nwt (negbTE h).
by rewrite divff.
Qed.

Lemma wt_eq0 corr i r k : cell corr k i = Fin (val0 (cell corr k i)) ->
  (k == i) || is_nan (nth NaN r k) || (`|val0 (cell corr k i)| < 2%:R^-1) -> wt corr i r k = 0.
Proof.
move=> _ /orP[/orP[/eqP ->|h]|h]; rewrite /wt ?eqxx ?h ?mulr0 ?mul0r //.
by rewrite leNgt h mulr0 !mul0r.
Qed.

Lemma wt_gt0 corr i r k : k != i -> ~~ is_nan (nth NaN r k) ->
  2%:R^-1 <= `|val0 (cell corr k i)| -> 0 < wt corr i r k.
Proof.
move=> h1 h2 h3; rewrite /wt h1 h2 h3 !mulr1; apply: lt_le_trans h3.
by rewrite invr_gt0 ltr0n.
Qed.

Lemma foldl_fin corr slopes p i r js x : fin_col corr p i -> (forall j, (j < p)%N -> fin_or_nan (cell slopes j i)) ->
  (forall j, (j < p)%N -> fin_or_nan (nth NaN r j)) -> all (fun j => (j < p)%N) js ->
  foldl (pstep corr slopes p i r) (Fin x) js =
  Fin (x + \sum_(j <- js | ~~ is_nan (cell slopes j i))
        nwt corr p i r j * val0 (cell slopes j i) * val0 (nth NaN r j)).
Proof.
move=> fc fs fr; elim: js x => [|j js IH] x /=; first by rewrite big_nil addr0.
move=> /andP[jp ajs]; rewrite big_cons {2}/pstep.
have := fs j jp; case: (cell slopes j i) => //= [b _|_]; last exact: IH.
rewrite wrow_fin // (nth_map 0%N) ?size_iota // nth_iota // add0n /=.
have -> : fillna0 (nth NaN r j) = Fin (val0 (nth NaN r j)) by have := fr j jp; case: (nth NaN r j).
by rewrite /= IH // addrA.
Qed.

Lemma pred1_fin corr slopes p r i : fin_col corr p i ->
  (forall j, (j < p)%N -> fin_or_nan (cell slopes j i)) ->
  (forall j, (j < p)%N -> fin_or_nan (nth NaN r j)) ->
  pred1 corr slopes p r i =
  Fin (\sum_(j <- iota 0 p | ~~ is_nan (cell slopes j i))
        nwt corr p i r j * val0 (cell slopes j i) * val0 (nth NaN r j)).
Proof.
move=> fc fs fr; rewrite /pred1 foldl_fin ?add0r //.
by apply/allP => j; rewrite mem_iota add0n.
Qed.

Lemma urow_fon (c : T) r j : fin_or_nan (nth NaN (urow (Fin c) r) j).
Proof.
case: (ltnP j (size r)) => h; last by rewrite nth_default ?size_map.
by rewrite (nth_map NaN) //; case: (nth NaN r j) => //= x; case: ifP.
Qed.

(* ---- a prediction does not use the cell itself ---- *)
Lemma rwrow_off corr p i r r' : agree_off i r r' -> rwrow corr p i r = rwrow corr p i r'.
Proof.
move=> h; apply: eq_map => k; case: (eqVneq k i) => [->|/h -> //].
have k0 (u : num) (b b' : bool) : xmul (xmul u (b2x T false)) (b2x T b)
    = xmul (xmul u (b2x T false)) (b2x T b').
  by case: u => //= [x||]; rewrite /inf_sign ?oppr0 ?ltxx //= ?mulr0 ?mul0r.
exact: k0.
Qed.

Lemma pred1_off corr slopes p r r' i : is_nan (cell slopes i i) -> agree_off i r r' ->
  pred1 corr slopes p r i = pred1 corr slopes p r' i.
Proof.
move=> sn h; rewrite /pred1; elim: (iota 0 p) (Fin 0) => //= j js IH x.
rewrite -IH; congr foldl; rewrite /pstep; case: (eqVneq j i) => [->|ji]; first by rewrite sn.
by rewrite /wrow (rwrow_off _ _ h) h.
Qed.

Lemma urow_off c i r r' : size r = size r' -> agree_off i r r' -> agree_off i (urow c r) (urow c r').
Proof.
move=> sz h k ki; case: (ltnP k (size r)) => kr; last by rewrite !nth_default ?size_map // -sz.
by rewrite !(nth_map NaN) -?sz // h.
Qed.

Lemma zrow_off ls p i r r' : agree_off i r r' -> agree_off i (zrow ls p r) (zrow ls p r').
Proof.
move=> h k ki; case: (ltnP k p) => kp; last by rewrite !nth_default ?size_map ?size_iota.
by rewrite !(nth_map 0%N) ?size_iota // nth_iota // add0n h.
Qed.

Lemma size_zrow ls p r : size (zrow ls p r) = p. Proof. by rewrite size_map size_iota. Qed.
Lemma size_predrow corr slopes p r : size (predrow corr slopes p r) = p.
Proof. by rewrite size_map size_iota. Qed.

Lemma zrow_nth ls p r j : (j < p)%N ->
  nth NaN (zrow ls p r) j = xdiv (xsub (nth NaN r j) (nth NaN ls.1 j)) (nth NaN ls.2 j).
Proof. by move=> jp; rewrite (nth_map 0%N) ?size_iota // nth_iota // add0n. Qed.

Lemma predrow_nth corr slopes p r j : (j < p)%N ->
  nth NaN (predrow corr slopes p r) j = pred1 corr slopes p r j.
Proof. by move=> jp; rewrite (nth_map 0%N) ?size_iota // nth_iota // add0n. Qed.

(* the deshrunken prediction of cell j of a row *)
Definition dpred cut ls p corr slopes (deshr : seq num) r j : num :=
  xmul (pred1 corr slopes p (urow cut (zrow ls p r)) j) (nth NaN deshr j).

Lemma srow_nth cut ls p corr slopes deshr rs r j : (j < p)%N -> size deshr = p -> size rs = p ->
  nth NaN (srow cut ls p corr slopes deshr rs r) j =
  xdiv (xsub (nth NaN (zrow ls p r) j) (dpred cut ls p corr slopes deshr r j)) (nth NaN rs j).
Proof.
move=> jp sd sr; rewrite /srow.
rewrite (nth_map (NaN, NaN)); last first.
  by rewrite size_zip size_map size_zip size_map size_zip size_zrow size_predrow sd sr !minnn.
rewrite nth_zip /=; last first.
  by rewrite size_map size_zip size_map size_zip size_zrow size_predrow sd sr !minnn.
rewrite (nth_map (NaN, NaN)); last by rewrite size_zip size_map size_zip size_zrow size_predrow sd !minnn.
rewrite nth_zip /=; last by rewrite size_map size_zip size_zrow size_predrow sd !minnn.
rewrite (nth_map (NaN, NaN)); last by rewrite size_zip size_predrow sd !minnn.
by rewrite nth_zip /= ?size_predrow // predrow_nth.
Qed.

Lemma size_srow cut ls p corr slopes deshr rs r : size deshr = p -> size rs = p ->
  size (srow cut ls p corr slopes deshr rs r) = p.
Proof.
by move=> sd sr; rewrite size_map size_zip size_map size_zip size_map size_zip size_zrow size_predrow sd sr !minnn.
Qed.

(* ---- predict and impute ---- *)
(* the attributes predict needs, with matching shapes *)
Record params (o : ddc T) (p : nat) ls corr slopes (deshr rs : seq num) : Prop := Params {
  pa_fit : o_fitted o;
  pa_cells : exists2 c, o_cells o = Some c & c.1.1 = p;
  pa_ls : o_ls o = Some ls; pa_lss : size ls.1 = p; pa_lss2 : size ls.2 = p;
  pa_corr : o_corr o = Some corr; pa_corrs : size corr = p;
  pa_slopes : o_slopes o = Some slopes; pa_slopess : size slopes = p;
  pa_deshr : o_deshr o = Some deshr; pa_deshrs : size deshr = p;
  pa_rs : o_rscale o = Some rs; pa_rss : size rs = p
}.

Lemma predict_intro o X ls corr slopes deshr rs : params o (ncol X) ls corr slopes deshr rs ->
  numeric X ->
  let S := map (srow (o_cutoff o) ls (ncol X) corr slopes deshr rs) (replace_inf (rows X)) in
  predict o X = Ok (flag_cells (o_cutoff o) S, S).
Proof.
case=> f [c ec cp] e1 s1 s1' e2 s2 e3 s3 e4 s4 e5 s5 nx /=.
rewrite /predict /guard f ec /= cp eqxx /= nx /= /standardize_tab e1 /= s1 s1' eqxx /=.
by rewrite /predictions e2 e3 e4 /= s2 s3 s4 eqxx /= e5 /= s5 eqxx residE.
Qed.

Lemma predict_inv o X fs : predict o X = Ok fs ->
  numeric X /\ exists ls corr slopes deshr rs, params o (ncol X) ls corr slopes deshr rs.
Proof.
rewrite /predict /guard; case f: (o_fitted o) => //=.
case ec: (o_cells o) => [c|] //=; case: eqP => //= cp.
case nx: (numeric X) => //=; rewrite /standardize_tab /=.
case e1: (o_ls o) => [ls|] //=; case: eqP => //= s1; case: eqP => //= s1'.
rewrite /predictions; case e2: (o_corr o) => [corr|] //=.
case e3: (o_slopes o) => [slopes|] //=; case e4: (o_deshr o) => [deshr|] //=.
case: eqP => //= s2; case: eqP => //= s3; case: eqP => //= s4.
case e5: (o_rscale o) => [rs|] //=; case: eqP => //= s5 _.
by split => //; exists ls, corr, slopes, deshr, rs; split => //; exists c.
Qed.

Lemma predict_stack_lem (o : ddc T) p b (A B : seq (seq num)) : predict o (Table p b (A ++ B)) =
  (do x <- predict o (Table p b A); do y <- predict o (Table p b B);
   Ok (x.1 ++ y.1, x.2 ++ y.2)).
Proof.
rewrite /predict /guard /=; case f: (o_fitted o) => //=.
case ec: (o_cells o) => [c|] //=; case: eqP => //= cp.
case nx: b => //=; rewrite /standardize_tab /=.
case e1: (o_ls o) => [ls|] //=; case: eqP => //= s1; case: eqP => //= s1'.
rewrite /predictions; case e2: (o_corr o) => [corr|] //=.
case e3: (o_slopes o) => [slopes|] //=; case e4: (o_deshr o) => [deshr|] //=.
case: eqP => //= s2; case: eqP => //= s3; case: eqP => //= s4.
case e5: (o_rscale o) => [rs|] //=; case: eqP => //= s5.
by rewrite !residE /replace_inf /flag_cells !map_cat.
Qed.

Lemma drop_infE (u : num) : drop_inf u = if is_fin u then u else NaN. Proof. by case: u. Qed.
Lemma replace_inf_idem (X : seq (seq num)) : replace_inf (replace_inf X) = replace_inf X.
Proof.
by rewrite /replace_inf -map_comp; apply: eq_map => r /=; rewrite -map_comp; apply: eq_map => -[].
Qed.

Lemma nth_replace (X : seq (seq num)) a : nth [::] (replace_inf X) a = map (@drop_inf T) (nth [::] X a).
Proof.
by rewrite /replace_inf; case: (ltnP a (size X)) => ha; [rewrite (nth_map [::])|rewrite !nth_default ?size_map].
Qed.

Lemma at_replace (X : seq (seq num)) a i :
  at_ NaN (replace_inf X) a i = drop_inf (at_ NaN X a i).
Proof.
rewrite /at_ nth_replace; case: (ltnP i (size (nth [::] X a))) => hi.
  by rewrite (nth_map NaN).
by rewrite !(nth_default NaN) ?size_map.
Qed.

Lemma size_dprow corr slopes p r (deshr : seq num) : size deshr = p ->
  size [seq xmul q.1 q.2 | q <- zip (predrow corr slopes p r) deshr] = p.
Proof. by move=> sd; rewrite size_map size_zip size_predrow sd minnn. Qed.

Lemma predictionsE (o : ddc T) p ls corr slopes deshr rs U :
  params o p ls corr slopes deshr rs ->
  predictions o p U = Ok (scale_cols (map (predrow corr slopes p) U) deshr).
Proof.
case=> f _ e1 s1 s1' e2 s2 e3 s3 e4 s4 e5 s5.
by rewrite /predictions e2 e3 e4 /= s2 s3 s4 !eqxx predicted_valuesE.
Qed.

Lemma shaped_nth p (X : seq (seq num)) a : shaped p X -> (a < size X)%N ->
  size (nth [::] X a) = p.
Proof. by move=> /(@all_nthP _ _ _ [::]) h /h /eqP. Qed.

Lemma np_where_nth m (A B : seq (seq num)) n p a i : size m = n -> size A = n -> size B = n ->
  (a < n)%N -> (i < p)%N -> size (nth [::] m a) = p -> size (nth [::] A a) = p ->
  size (nth [::] B a) = p ->
  at_ NaN (np_where m A B) a i = if at_ false m a i then at_ NaN A a i else at_ NaN B a i.
Proof.
move=> sm sA sB an ip sm1 sA1 sB1; rewrite /np_where /at_.
rewrite (nth_map ([::], ([::], [::]))); last by rewrite !size_zip sm sA sB !minnn.
rewrite nth_zip /=; last by rewrite size_zip sm sA sB minnn.
rewrite nth_zip ?sA ?sB //=.
rewrite (nth_map (false, (NaN, NaN))); last by rewrite !size_zip sm1 sA1 sB1 !minnn.
rewrite nth_zip /=; last by rewrite size_zip sm1 sA1 sB1 minnn.
by rewrite nth_zip ?sA1 ?sB1.
Qed.

Lemma np_where_shape m (A B : seq (seq num)) n p : size m = n -> size A = n -> size B = n ->
  (forall a, (a < n)%N -> [/\ size (nth [::] m a) = p, size (nth [::] A a) = p &
     size (nth [::] B a) = p]) ->
  size (np_where m A B) = n /\ shaped p (np_where m A B).
Proof.
move=> sm sA sB h; have sz : size (np_where m A B) = n by rewrite size_map !size_zip sm sA sB !minnn.
split=> //; apply/(@all_nthP _ _ _ [::]) => a; rewrite sz => an; have [h1 h2 h3] := h a an.
rewrite (nth_map ([::], ([::], [::]))); last by rewrite !size_zip sm sA sB !minnn.
rewrite nth_zip /=; last by rewrite size_zip sm sA sB minnn.
by rewrite nth_zip ?sA ?sB //= size_map !size_zip h1 h2 h3 !minnn.
Qed.

Section Impute.
Variable round3 : T -> T.

Definition imputed cut (ls : seq num * seq num) p corr slopes (deshr : seq num) r i : num :=
  xround round3 (xadd (xmul (dpred cut ls p corr slopes deshr (map (@drop_inf T) r) i) (nth NaN ls.2 i))
              (nth NaN ls.1 i)).

Lemma impute_intro (o : ddc T) X b ls corr slopes deshr rs fs :
  params o (ncol X) ls corr slopes deshr rs -> predict o X = Ok fs ->
  shaped (ncol X) (rows X) ->
  exists2 Y, impute round3 o X b = Ok Y &
    [/\ size Y = size (rows X), shaped (ncol X) Y &
     forall a i, (a < size (rows X))%N -> (i < ncol X)%N ->
       at_ NaN Y a i =
       if missing (at_ NaN (rows X) a i) || (b && at_ false fs.1 a i)
       then imputed (o_cutoff o) ls (ncol X) corr slopes deshr (nth [::] (rows X) a) i
       else at_ NaN (rows X) a i].
Proof.
move=> pa ep sh; have [nx _] := predict_inv ep.
move: ep; rewrite (predict_intro pa nx) => -[efs].
set p := ncol X; set R := replace_inf (rows X).
have sR : size R = size (rows X) by rewrite size_map.
have sRa a : (a < size (rows X))%N -> size (nth [::] R a) = p.
  by move=> ha; rewrite nth_replace size_map; apply: shaped_nth.
set RP := rescale round3 ls (scale_cols (map (predrow corr slopes p) (screen (o_cutoff o) (standardize ls p R))) deshr).
have sd := pa_deshrs pa; have sl1 := pa_lss pa; have sl2 := pa_lss2 pa; have ss := pa_rss pa.
have sRP : size RP = size (rows X) by rewrite !size_map.
have RPa a : (a < size (rows X))%N -> nth [::] RP a =
    [seq xround round3 (xadd (xmul q.1 q.2.1) q.2.2)
    | q <- zip [seq xmul q.1 q.2 | q <- zip (predrow corr slopes p (urow (o_cutoff o) (zrow ls p (nth [::] R a)))) deshr]
               (zip ls.2 ls.1)].
  move=> ha; rewrite /RP /rescale (nth_map [::]) ?size_map // /scale_cols (nth_map [::]) ?size_map //.
  by rewrite (nth_map [::]) ?size_map // screenE standardizeE (nth_map [::]) ?size_map // (nth_map [::]) ?sR.
have sRPa a : (a < size (rows X))%N -> size (nth [::] RP a) = p.
  by move=> ha; rewrite RPa // size_map !size_zip size_dprow // sl1 sl2 !minnn.
have RPai a i : (a < size (rows X))%N -> (i < p)%N -> at_ NaN RP a i =
    imputed (o_cutoff o) ls p corr slopes deshr (nth [::] (rows X) a) i.
  move=> ha ip; rewrite /at_ RPa // (nth_map (NaN, (NaN, NaN))); last first.
    by rewrite !size_zip size_dprow // sl1 sl2 !minnn.
  rewrite nth_zip /=; last by rewrite size_zip size_dprow // sl1 sl2 !minnn.
  rewrite (nth_zip NaN NaN) ?sl1 ?sl2 //=.
  rewrite (nth_map (NaN, NaN)); last by rewrite size_zip size_predrow sd minnn.
  rewrite nth_zip /= ?size_predrow // predrow_nth //.
  by rewrite /imputed /dpred /R nth_replace.
set M := map (map (@is_nan T)) R.
have sM : size M = size (rows X) by rewrite size_map.
have sMa a : (a < size (rows X))%N -> size (nth [::] M a) = p.
  by move=> ha; rewrite (nth_map [::]) ?sR // size_map sRa.
have Mai a i : (a < size (rows X))%N -> (i < p)%N -> at_ false M a i = missing (at_ NaN (rows X) a i).
  move=> ha ip; rewrite {1}/at_ (nth_map [::]) ?sR // (nth_map NaN) ?sRa //.
  by rewrite -/(at_ NaN R a i) at_replace; case: (at_ NaN (rows X) a i).
have Rai a i : ~~ missing (at_ NaN (rows X) a i) -> at_ NaN R a i = at_ NaN (rows X) a i.
  by rewrite at_replace drop_infE /missing negbK => ->.
have e0 : impute round3 o X b = if b then
    (do fs <- predict o (Table p (numeric X) R);
     Ok (np_where [seq [seq q.1 || q.2 | q <- zip r.1 r.2] | r <- zip fs.1 M] RP R))
    else Ok (np_where M RP R).
  case: (pa) => f [c ec cp] e1 s1 s1' _ _ _ _ _ _ _ _.
  rewrite /impute /guard f ec /= cp eqxx /= /standardize_tab e1 /= nx /= s1 s1' eqxx /=.
  by rewrite (predictionsE _ pa) /=.
have e1 : predict o (Table p (numeric X) R) = Ok fs.
  have := @predict_intro o (Table p (numeric X) R) _ _ _ _ _ pa nx.
  by rewrite /= replace_inf_idem efs.
move: e0; rewrite e1; case: b => /=.
- set M' := [seq _ | r <- zip fs.1 M] => ->.
  have sf : size fs.1 = size (rows X) by rewrite -efs /= !size_map.
  have sfa a : (a < size (rows X))%N -> size (nth [::] fs.1 a) = p.
    move=> ha; rewrite -efs /= /flag_cells (nth_map [::]) ?size_map ?sR //.
    by rewrite (nth_map [::]) ?sR // size_srow.
  have sM' : size M' = size (rows X) by rewrite size_map size_zip sf sM minnn.
  have M'a a : (a < size (rows X))%N -> nth [::] M' a =
      [seq q.1 || q.2 | q <- zip (nth [::] fs.1 a) (nth [::] M a)].
    move=> ha; rewrite (nth_map ([::], [::])); last by rewrite size_zip sf sM minnn.
    by rewrite nth_zip ?sf ?sM.
  have sM'a a : (a < size (rows X))%N -> size (nth [::] M' a) = p.
    by move=> ha; rewrite M'a // size_map size_zip sfa // sMa // minnn.
  exists (np_where M' RP R) => //.
  have [h1 h2] : size (np_where M' RP R) = size (rows X) /\ shaped p (np_where M' RP R).
    by apply: np_where_shape => // a ha; rewrite sM'a // sRPa // sRa.
  split=> // a i ha ip.
  rewrite (@np_where_nth _ _ _ (size (rows X)) p) ?sM'a ?sRPa ?sRa //.
  have -> : at_ false M' a i = missing (at_ NaN (rows X) a i) || at_ false fs.1 a i.
    rewrite /at_ M'a // (nth_map (false, false)); last by rewrite size_zip sfa // sMa // minnn.
    rewrite nth_zip /= ?sfa ?sMa // orbC; congr orb; exact: Mai.
  by case: (boolP (missing _)) => [_|/Rai ->] /=; rewrite RPai.
- move=> ->; exists (np_where M RP R) => //.
  have [h1 h2] : size (np_where M RP R) = size (rows X) /\ shaped p (np_where M RP R).
    by apply: np_where_shape => // a ha; rewrite sMa // sRPa // sRa.
  split=> // a i ha ip.
  rewrite (@np_where_nth _ _ _ (size (rows X)) p) ?sMa ?sRPa ?sRa // Mai // orbF.
  by case: (boolP (missing _)) => [_|/Rai ->] /=; rewrite ?RPai.
Qed.

End Impute.

End Rows.
