(* Proofs about DataCleaner. *)
From mathcomp Require Import all_ssreflect all_algebra.
From mathcomp.zify Require Import zify.
From Verif Require Import RFieldLra Prelude Stats Xnum Cleaner_Model.

Set Implicit Arguments.
Unset Strict Implicit.
Unset Printing Implicit Defensive.

Import Order.TTheory GRing.Theory Num.Theory.
Local Open Scope ring_scope.

Section Proofs.
Variables (T : realFieldType) (S CL RL : eqType).
Notation cell := (cell T S).
Notation table := (table T S CL RL).
Notation state := (state CL RL).
Implicit Types (X Y : table) (st : state) (P : params T).

Lemma clean_inf_idem X : clean_inf (clean_inf X) = clean_inf X.
Proof.
rewrite /clean_inf /= -map_comp; congr Table; apply: eq_map => c /=; congr (_, _).
by rewrite -map_comp; apply: eq_map => x /=; case: x => [[| | |]|].
Qed.

Lemma index_clean_inf X : index (clean_inf X) = index X. Proof. by []. Qed.
Lemma size_columns_clean_inf X : size (columns (clean_inf X)) = size (columns X).
Proof. by rewrite /= size_map. Qed.

Lemma drop_columns_ok names X Y : drop_columns names X = Ok Y ->
  Y = Table (index X) [seq c <- columns X | c.1 \notin names].
Proof. by rewrite /drop_columns; case: ifP => // _ [<-]. Qed.

Lemma drop_rows_ok names X Y : drop_rows names X = Ok Y ->
  Y = Table [seq r <- index X | r \notin names]
        [seq (c.1, mask [seq r \notin names | r <- index X] c.2) | c <- columns X].
Proof. by rewrite /drop_rows; case: ifP => // _ [<-]; congr Table; rewrite filter_mask. Qed.

(* what one pass over columns / rows does *)
Lemma step_cols_ok P st X st' : step_cols P st X = (Ok tt, st') ->
  exists l, st' = set_cols_missings st l.
Proof. by rewrite /step_cols; case: (match _ with Some _ => _ | None => _ end) => // Y [<-]; eexists. Qed.

Lemma step_rows_ok P st X st' : step_rows P st X = (Ok tt, st') ->
  exists l, st' = set_rows_missings st l.
Proof. by rewrite /step_rows; case: (match _ with Some _ => _ | None => _ end) => // Y [<-]; eexists. Qed.

Lemma seq2_ok (f g : state -> res unit * state) st st' : seq2 f g st = (Ok tt, st') ->
  exists2 st1, f st = (Ok tt, st1) & g st1 = (Ok tt, st').
Proof.
by rewrite /seq2; case: (f st) => -[[]| |] st1 // h; exists st1.
Qed.

Lemma resolve_fit_lists st X : fit_lists (resolve st X) = fit_lists st.
Proof. by rewrite /resolve; case: st => -[]. Qed.

Lemma set_missing_ok P st X st' : set_missing P st X = (Ok tt, st') ->
  exists l a b, [/\ fit_lists st = Ok l, fit_lists st' = Ok l,
     cols_rownumbers st' = cols_rownumbers st, cols_missings st' = Some a
   & rows_missings st' = Some b].
Proof.
rewrite /set_missing resolve_fit_lists; case hl : (fit_lists st) => [l|//|//] /=.
case: (drop_columns _ _) => // Y.
have hr : fit_lists (resolve st X) = Ok l by rewrite resolve_fit_lists.
have hn : cols_rownumbers (resolve st X) = cols_rownumbers st by case: (st) => -[].
case: (clean_na_first (resolve st X)) => // /seq2_ok[st1].
  move=> /step_cols_ok[a ->] /step_rows_ok[b ->].
  by exists l, a, b.
move=> /step_rows_ok[b ->] /step_cols_ok[a ->].
by exists l, a, b.
Qed.

Lemma fit_lists_some st l : fit_lists st = Ok l -> exists a b c,
  [/\ non_numeric_cols st = Some a, cols_discrete st = Some b, cols_bad_scale st = Some c & l = a ++ b ++ c].
Proof.
rewrite /fit_lists; case: (non_numeric_cols st) => [a|//]; case: (cols_discrete st) => [b|//].
by case: (cols_bad_scale st) => [c|//] [<-]; exists a, b, c.
Qed.

(* the overall effect of a successful transform *)
Lemma transform_ok P st X Y st' : transform P st X = (Ok Y, st') ->
  exists cl rl, [/\ dropped_columns st' = Ok cl, dropped_rows st' = Ok rl
   & Y = Table [seq r <- index X | r \notin rl]
        [seq (c.1, mask [seq r \notin rl | r <- index X] (map (@inf_to_nan T S) c.2))
        | c <- columns X & c.1 \notin cl]].
Proof.
rewrite /transform; case: ifP => // _; case hm : (set_missing _ _ _) => [[[]|//|//] st2].
move: (set_missing_ok hm) => [l [a [b [_ hl hn hc hr]]]] [].
rewrite /all_dropped hl /= hn hc hr /=; case hd : (drop_columns _ _) => [Z|//|//] /= hrow e.
move: e hm hl hn hc hr => <- hm hl hn hc hr.
have [x [y [z [hx hy hz el]]]] := fit_lists_some hl.
set rn := names_of _ _ in hn hd.
exists (x ++ rn ++ y ++ z ++ a), b; split.
- by rewrite /dropped_columns hx hn hy hz hc.
- by rewrite /dropped_rows hr.
- rewrite (drop_rows_ok hrow) (drop_columns_ok hd) /=; congr Table.
  rewrite filter_map -map_comp /=; congr map; apply: eq_filter => c /=.
  rewrite el !mem_cat; congr (~~ _).
  by do ! case: (_ \in _).
Qed.

(* ---- missing-value guarantees *)

Lemma names_ofP (p : seq cell -> bool) (Z : table) : all (fun c => (c.1 \notin names_of p Z) ==> ~~ p c.2) (columns Z).
Proof.
rewrite /names_of; elim: (columns Z) => //= c s IH; apply/andP; split.
  by case hp : (p c.2); rewrite ?implybT //= mem_head.
apply: sub_all IH => d /= /implyP h; apply/implyP => hd; apply: h; apply: contra hd.
by case: (p c.2) => //=; rewrite in_cons => ->; rewrite orbT.
Qed.

Lemma transform_rows_first P st X Y st' :
  cols_missings st = None -> rows_missings st = None ->
  clean_na_first (resolve st X) = RowsFirst ->
  transform P st X = (Ok Y, st') ->
  all (fun c => ~~ mean_ge (map (@isna T S) c.2) (max_missing_frac_cols P)) (columns Y).
Proof.
move=> nc nr hrf ht; have [cl [rl [hcl hrl ->]]] := transform_ok ht.
move: ht; rewrite /transform; case: ifP => // _.
set st1 := set_rownumbers _ _; case hm : (set_missing _ _ _) => [[[]|//|//] st2] [_ e].
move: e hm hcl hrl => -> hm hcl hrl.
have [l [a [b [hl hl' hn hc hr]]]] := set_missing_ok hm.
move: hm; rewrite /set_missing resolve_fit_lists hl clean_inf_idem [bind _ _]/=.
case hd : (drop_columns _ _) => [Z|//|//].
have -> : clean_na_first (resolve st1 (clean_inf X)) = RowsFirst.
  move: hrf; rewrite /resolve /st1; case: (st) => -[] //=.
  by rewrite size_map; case: ifP.
move=> /seq2_ok[st3]; rewrite /step_rows.
have -> : cols_missings (resolve st1 (clean_inf X)) = None.
  by move: nc; rewrite /resolve /st1; case: (st) => -[].
move=> [<-] /=; set rws := mask _ _.
rewrite /step_cols /=; case hw : (drop_rows _ _) => [W|//|//] -[e2].
have ea : a = names_of (fun col => mean_ge [seq isna i | i <- col] (max_missing_frac_cols P)) W.
  by move: hc; rewrite -e2 /= => -[<-].
have eb : b = rws by move: hr; rewrite -e2 /= => -[<-].
have erl : rl = b by move: hrl; rewrite /dropped_rows hr => -[<-].
have [x [y [z [hx hy hz el]]]] := fit_lists_some hl'.
have ecl : cl = x ++ names_of (@is_rownumber T S) (clean_inf X) ++ y ++ z ++ a.
  by move: hcl; rewrite /dropped_columns hx hn hy hz hc => -[<-].
have := names_ofP (fun col => mean_ge [seq isna i | i <- col] (max_missing_frac_cols P)) W.
rewrite -ea (drop_rows_ok hw) (drop_columns_ok hd) /= filter_map -map_comp !all_map all_filter.
rewrite !all_filter; apply: sub_all => c /=; rewrite erl -eb.
move=> h; apply/implyP => hcl'; move: hcl'; rewrite ecl !mem_cat !negb_or => /and5P[h1 h2 h3 h4 h5].
move: h; rewrite el !mem_cat !negb_or h1 h3 h4 /= => /implyP; exact.
Qed.

Lemma transform_columns_first P st X Y st' :
  cols_missings st = None -> rows_missings st = None ->
  clean_na_first (resolve st X) = ColumnsFirst ->
  transform P st X = (Ok Y, st') ->
  exists l a rl, [/\ fit_lists st = Ok l, cols_missings st' = Some a, dropped_rows st' = Ok rl
   & forall i r0, (i < size (index X))%N -> nth r0 (index X) i \notin rl ->
     ~~ mean_ge [seq isna (nth (Num S NaN) (map (@inf_to_nan T S) c.2) i) | c <- columns X & c.1 \notin l ++ a]
        (max_missing_frac_rows P)].
Proof.
move=> nc nr hcf; rewrite /transform; case: ifP => // _.
set st1 := set_rownumbers _ _; case hm : (set_missing _ _ _) => [[[]|//|//] st2] [_ e].
move: e hm => -> hm.
have [l [a [b [hl hl' hn hc hr]]]] := set_missing_ok hm.
exists l, a, b; rewrite /dropped_rows hr; split=> // i r0 hi.
move: hm; rewrite /set_missing resolve_fit_lists hl clean_inf_idem [bind _ _]/=.
case hd : (drop_columns _ _) => [Z|//|//].
have -> : clean_na_first (resolve st1 (clean_inf X)) = ColumnsFirst.
  move: hcf; rewrite /resolve /st1; case: (st) => -[] //=.
  by rewrite size_map; case: ifP.
move=> /seq2_ok[st3]; rewrite /step_cols.
have -> : rows_missings (resolve st1 (clean_inf X)) = None.
  by move: nr; rewrite /resolve /st1; case: (st) => -[].
move=> [<-] /=; rewrite /step_rows /=; case hw : (drop_columns _ _) => [W|//|//] -[e2].
have -> : b = mask [seq mean_ge [seq isna i | i <- row W i] (max_missing_frac_rows P) | i <- iota 0 (size (index W))] (index W).
  by move: hr; rewrite -e2 /= => -[<-].
have ea : names_of (fun col => mean_ge [seq isna i | i <- col] (max_missing_frac_cols P)) Z = a.
  by move: hc; rewrite -e2 /= => -[<-].
have eW : W = Table (index X) [seq (c.1, map (@inf_to_nan T S) c.2) | c <- columns X & c.1 \notin l ++ a].
  rewrite (drop_columns_ok hw) ea (drop_columns_ok hd) /=; congr Table.
  rewrite !filter_map -filter_predI; congr map; apply: eq_filter => c /=.
  by rewrite mem_cat negb_or andbC.
rewrite eW /= => hn'; apply: contra hn' => hge.
have -> : [seq mean_ge [seq isna i0 | i0 <- row (Table (index X) [seq (c.1, map (@inf_to_nan T S) c.2) | c <- columns X & c.1 \notin l ++ a]) i] (max_missing_frac_rows P) | i <- iota 0 (size (index X))]
  = mkseq (fun i => mean_ge [seq isna (nth (Num S NaN) (map (@inf_to_nan T S) c.2) i) | c <- columns X & c.1 \notin l ++ a] (max_missing_frac_rows P)) (size (index X)).
  by rewrite /mkseq; apply: eq_map => j; rewrite /row /= -!map_comp.
set m := mkseq _ _.
have hm : (i < size m)%N by rewrite size_mkseq.
have mi : nth false m i by rewrite nth_mkseq.
move: hi hm mi; rewrite -(size_mkseq (fun i => mean_ge [seq isna (nth (Num S NaN) (map (@inf_to_nan T S) c.2) i) | c <- columns X & c.1 \notin l ++ a] (max_missing_frac_rows P)) (size (index X))) -/m => _.
have : size m = size (index X) by rewrite size_mkseq.
elim: m (index X) i {hge hw hc hd} => // q m IH [|r s] // i [sz].
case: i => [|i] /=; first by move=> _ ->; rewrite mem_head.
rewrite ltnS => h1 h2; have hx := IH s i sz h1 h2.
by case: q; rewrite // in_cons hx orbT.
Qed.

(* ---- history *)

Lemma clean_step_cols P st X : clean_na_first (step_cols P st X).2 = clean_na_first st.
Proof. by rewrite /step_cols; case: (match _ with Some _ => _ | None => _ end). Qed.
Lemma clean_step_rows P st X : clean_na_first (step_rows P st X).2 = clean_na_first st.
Proof. by rewrite /step_rows; case: (match _ with Some _ => _ | None => _ end). Qed.

Lemma clean_seq2 (f g : state -> res unit * state) st :
  (forall s, clean_na_first (f s).2 = clean_na_first s) ->
  (forall s, clean_na_first (g s).2 = clean_na_first s) ->
  clean_na_first (seq2 f g st).2 = clean_na_first st.
Proof.
move=> hf hg; rewrite /seq2; have := hf st; case: (f st) => -[u|e|] st1 //= <-.
exact: hg.
Qed.

Lemma clean_set_missing P st X :
  clean_na_first (set_missing P st X).2 = clean_na_first (resolve st X).
Proof.
rewrite /set_missing; case: (bind _ _) => //= Y.
case e : (clean_na_first (resolve st X)) => //; rewrite clean_seq2 ?e // => s;
  by rewrite ?clean_step_cols ?clean_step_rows.
Qed.

Lemma clean_transform P st X : (min_n_rows P <= size (index X))%N ->
  clean_na_first (transform P st X).2 = clean_na_first (resolve st X).
Proof.
move=> h; rewrite /transform ltnNge h /=.
have := clean_set_missing P (set_rownumbers st (names_of (@is_rownumber T S) (clean_inf X))) (clean_inf X).
case: (set_missing _ _ _) => -[[]|e|] st2 /= ->; rewrite /resolve /= size_map.
all: by case: (clean_na_first st).
Qed.

Lemma clean_transform_short P st X : (size (index X) < min_n_rows P)%N ->
  transform P st X = (Err ValueError, st).
Proof. by rewrite /transform => ->. Qed.

Lemma clean_transforms P st (Xs : seq table) : clean_na_first st <> Automatic ->
  clean_na_first (transforms P st Xs) = clean_na_first st.
Proof.
rewrite /transforms; elim: Xs st => //= X Xs IH st h.
have e : clean_na_first (transform P st X).2 = clean_na_first st.
  case: (ltnP (size (index X)) (min_n_rows P)) => hn; first by rewrite clean_transform_short.
  by rewrite clean_transform // /resolve; case e : (clean_na_first st) h => // h; rewrite e.
by rewrite IH e.
Qed.

End Proofs.
