(* Proofs about DDC.fit and the objects it produces. *)
From mathcomp Require Import all_ssreflect all_algebra.
From mathcomp.zify Require Import zify.
From mathcomp.algebra_tactics Require Import ring.
From Verif Require Import RFieldLra Prelude Xnum Qn_Model DDC_Model DDC_Spec DDC_Proofs.

Set Implicit Arguments.
Unset Strict Implicit.
Unset Printing Implicit Defensive.

Import Order.TTheory GRing.Theory Num.Theory.
Local Open Scope ring_scope.

Lemma mapM_size (A B : Type) (f : A -> res B) l s : mapM f l = Ok s -> size s = size l.
Proof.
elim: l s => [|a l IH] s /=; first by case=> <-.
case: (f a) => //= b; case: (mapM f l) IH => //= r IH [<-] /=.
by rewrite (IH r).
Qed.

Lemma mapM_nth (A B : Type) (f : A -> res B) l s x0 y0 k : mapM f l = Ok s -> (k < size l)%N ->
  f (nth x0 l k) = Ok (nth y0 s k).
Proof.
elim: l s k => [|a l IH] s k //=.
case fa: (f a) => [b| |] //=; case: (mapM f l) IH => //= r IH [<-].
by case: k => [|k] //= kl; exact: IH.
Qed.

Section Fit.
Variable T : rcfType.
Notation num := (xnum T).
Variable est osm : seq num -> res (num * num).
Variable lstsq : seq num -> seq num -> res num.
Variable cdf1 : num -> num.
Implicit Types (o : ddc T) (X : table T).

Notation fit := (fit est osm lstsq cdf1).

Lemma fit_scaler_sizes cols : size (fit_scaler est cols).1.1 = size (fit_scaler est cols).1.2.
Proof. by elim: cols => //= c cols IH; case: (est _) => //= ls; rewrite IH. Qed.

Lemma fit_scaler_size cols : (fit_scaler est cols).2 = Ok tt ->
  size (fit_scaler est cols).1.1 = size cols.
Proof. by elim: cols => //= c cols IH; case: (est _) => //= ls h; rewrite IH. Qed.

(* ---- the correlation matrix ---- *)
Lemma cell_set (m : seq (seq num)) i j v a b :
  cell (set_cell m i j v) a b = if (a == i) && (b == j) then v else cell m a b.
Proof.
rewrite /cell /set_cell nth_set_nth /=; case: eqP => [->|] //=.
by rewrite nth_set_nth.
Qed.

Lemma cell_set_both (m : seq (seq num)) i j v a b :
  cell (set_both m i j v) a b =
  if ((a == i) && (b == j)) || ((a == j) && (b == i)) then v else cell m a b.
Proof.
rewrite /set_both !cell_set; case: ((a == j) && (b == i)); by rewrite ?orbT ?orbF.
Qed.

Definition square (p : nat) (m : seq (seq num)) : Prop :=
  size m = p /\ forall i, (i < p)%N -> size (nth [::] m i) = p.

Lemma square_set p m i j v : square p m -> (i < p)%N -> (j < p)%N -> square p (set_cell m i j v).
Proof.
case=> sm h ip jp; split; first by rewrite size_set_nth sm; lia.
move=> a ap; rewrite nth_set_nth /=; case: eqP => [_|_]; last exact: h.
by rewrite size_set_nth h //; lia.
Qed.

Definition pair_value (cut : num) U i j : res num :=
  if complete_pairs U i j is [::] then Ok (Fin 0) else pair_corr osm cut (complete_pairs U i j).

Lemma corr_loopE cut U ij ps m : corr_loop osm cut U (ij :: ps) m =
  (do c <- pair_value cut U ij.1 ij.2; corr_loop osm cut U ps (set_both m ij.1 ij.2 c)).
Proof. by rewrite /= /pair_value; case: (complete_pairs _ _ _). Qed.

Lemma corr_loop_square cut U ps m m' p : corr_loop osm cut U ps m = Ok m' ->
  all (fun ij => (ij.1 < p)%N && (ij.2 < p)%N) ps -> square p m -> square p m'.
Proof.
elim: ps m => [|ij ps IH] m; first by case=> <-.
rewrite corr_loopE; case: (pair_value _ _ _ _) => //= c e /andP[/andP[h1 h2] h3] sq.
by apply: IH e h3 _; do 2 apply: square_set => //.
Qed.

Lemma corr_loop_cell cut U ps m m' a b : corr_loop osm cut U ps m = Ok m' ->
  ((cell m' a b = cell m a b) /\ (a, b) \notin ps /\ (b, a) \notin ps) \/
  (exists i j, [/\ (i, j) \in ps, (a, b) = (i, j) \/ (a, b) = (j, i) &
     pair_value cut U i j = Ok (cell m' a b)]).
Proof.
elim: ps m => [|[i j] ps IH] m; first by case=> <-; left.
rewrite corr_loopE; case ev: (pair_value _ _ _ _) => [c||] //= e.
case: (IH _ e) => [[ec [n1 n2]]|[i' [j' [h1 h2 h3]]]]; last first.
  by right; exists i', j'; split => //; rewrite inE h1 orbT.
move: ec; rewrite cell_set_both; case: ifP => h ec.
  right; exists i, j; split; rewrite ?mem_head ?ec //.
  by case/orP: h => /andP[/eqP -> /eqP ->]; [left | right].
left; split => //; rewrite !inE !negb_or n1 n2 !andbT.
split; apply/negP => /eqP[ha hb]; move: h; rewrite ha hb !eqxx ?orbT //.
Qed.

Lemma mem_index_pairs p i j : ((i, j) \in index_pairs p) = (i < j < p)%N.
Proof.
apply/flattenP/idP => [[s /mapP[k]]|/andP[ij jp]].
  rewrite mem_iota add0n => /andP[_ kp] -> /mapP[l]; rewrite mem_iota => h [-> ->]; lia.
exists [seq (i, l) | l <- iota i.+1 (p - i.+1)].
  by apply/mapP; exists i => //; rewrite mem_iota add0n; lia.
by apply/mapP; exists j => //; rewrite mem_iota; lia.
Qed.

Lemma corrcoef_range (xy : seq (num * num)) :
  is_nan (corrcoef xy) \/ exists2 r, corrcoef xy = Fin r & `|r| <= 1.
Proof.
rewrite /corrcoef; case: ifP => _; first by left.
set u := xdiv _ _; case: u => [a|||] /=; [right|right|right|by left].
- exists (if a < -1 then -1 else if 1 < a then 1 else a) => //.
  by case: (ltrP a (-1)) => h1; [|case: (ltrP 1 a) => h2]; rewrite ler_norml; apply/andP; split; flra.
- by exists 1; rewrite ?normr1.
- by exists (-1); rewrite ?normrN ?normr1.
Qed.

Lemma pair_value_range cut U i j v : pair_value cut U i j = Ok v ->
  is_nan v \/ exists2 r, v = Fin r & `|r| <= 1.
Proof.
rewrite /pair_value; case: (complete_pairs _ _ _) => [[<-]|q s].
  by right; exists 0; rewrite ?normr0 ?ler01.
rewrite /pair_corr; case: (init_corr _ _) => //= c [<-]; exact: corrcoef_range.
Qed.

Lemma complete_pairs_sym U i j :
  complete_pairs U i j = [seq (q.2, q.1) | q <- complete_pairs (T:=T) U j i].
Proof.
rewrite /complete_pairs; elim: U => //= r U ->; case: (is_nan (nth NaN r i)); case: (is_nan (nth NaN r j)) => //=.
Qed.

Lemma robust_correlation_lem cut p U m : robust_correlation osm cut p U = Ok m ->
  [/\ square p m,
      forall i, (i < p)%N -> cell m i i = Fin 1,
      forall i j, (i < p)%N -> (j < p)%N -> cell m i j = cell m j i,
      forall i j, (i < p)%N -> (j < p)%N ->
        is_nan (cell m i j) \/ exists2 r, cell m i j = Fin r & `|r| <= 1 &
      forall i j, (i < j < p)%N -> pair_value cut U i j = Ok (cell m i j)].
Proof.
rewrite /robust_correlation => e.
have c1 i j : (i < p)%N -> (j < p)%N -> cell (nseq p (nseq p (Fin (1 : T)))) i j = Fin 1.
  by move=> ip jp; rewrite /cell nth_nseq ip nth_nseq jp.
have val i j : (i < j < p)%N -> pair_value cut U i j = Ok (cell m i j) /\ cell m j i = cell m i j.
  move=> h; have hin : (i, j) \in index_pairs p by rewrite mem_index_pairs.
  have E1 : pair_value cut U i j = Ok (cell m i j).
    case: (corr_loop_cell i j e) => [[_ [/negP]]|[i' [j' [h1 [[-> ->]|[ei ej]] h3]]]] //.
    by move: h1; rewrite mem_index_pairs -ei -ej; lia.
  have E2 : pair_value cut U i j = Ok (cell m j i).
    case: (corr_loop_cell j i e) => [[_ [_ /negP]]|[i' [j' [h1 [[ei ej]|[ei ej]] h3]]]] //.
      by move: h1; rewrite mem_index_pairs -ei -ej; lia.
    by rewrite ei ej in h3 *.
  by split=> //; move: E2; rewrite E1 => -[->].
have diag i : (i < p)%N -> cell m i i = Fin 1.
  move=> ip; case: (corr_loop_cell i i e) => [[-> _]|[i' [j' [h1 h2 h3]]]]; first exact: c1.
  by move: h1; rewrite mem_index_pairs; case: h2 => -[-> ->]; lia.
have sym i j : (i < p)%N -> (j < p)%N -> cell m i j = cell m j i.
  move=> ip jp; case: (ltngtP i j) => [h|h|->] //.
    by have [_ ->] := val i j (introT andP (conj h jp)).
  by have [_ ->] := val j i (introT andP (conj h ip)).
split=> //.
- apply: corr_loop_square e _ _.
    by apply/allP => -[i j]; rewrite mem_index_pairs /=; lia.
  by split; rewrite ?size_nseq // => i ip; rewrite nth_nseq ip size_nseq.
- move=> i j ip jp; case: (ltngtP i j) => [h|h|->].
  + by have [h1 _] := val i j (introT andP (conj h jp)); exact: pair_value_range h1.
  + by rewrite sym //; have [h1 _] := val j i (introT andP (conj h ip)); exact: pair_value_range h1.
  + by right; exists 1; rewrite ?diag ?normr1.
- by move=> i j h; have [] := val i j h.
Qed.

(* ---- inversion of fit ---- *)
Record fitted o o' X ls corr slopes deshr rs t : Prop := Fitted {
  f_check : check_data X = Ok tt;
  f_ls : fit_scaler est [seq col (replace_inf (rows X)) j | j <- iota 0 (ncol X)] = (ls, Ok tt);
  f_corr : robust_correlation osm (o_cutoff o) (ncol X)
     (screen (o_cutoff o) (standardize ls (ncol X) (replace_inf (rows X)))) = Ok corr;
  f_slopes : get_slopes osm lstsq (o_cutoff o) (o_min o) corr (ncol X)
     (screen (o_cutoff o) (standardize ls (ncol X) (replace_inf (rows X)))) = Ok slopes;
  f_deshr : mapM (fun i => robust_slope osm lstsq (o_cutoff o)
       (deshrink_pairs (predicted_values corr slopes (ncol X)
          (screen (o_cutoff o) (standardize ls (ncol X) (replace_inf (rows X)))))
          (standardize ls (ncol X) (replace_inf (rows X))) i)) (iota 0 (ncol X)) = Ok deshr;
  f_rs : mapM (fun i => do l <- osm (non_nan (col (raw_residuals
           (standardize ls (ncol X) (replace_inf (rows X)))
           (scale_cols (predicted_values corr slopes (ncol X)
             (screen (o_cutoff o) (standardize ls (ncol X) (replace_inf (rows X))))) deshr)) i)); Ok l.2)
       (iota 0 (ncol X)) = Ok rs;
  f_t : osm (t_values cdf1 (map (srow (o_cutoff o) ls (ncol X) corr slopes deshr rs)
           (replace_inf (rows X)))) = Ok t;
  f_o : o' = DDC (o_cutoff o) (o_min o) (Some ls) (Some corr) (Some slopes) (Some deshr) (Some rs)
    (Some (ncol X, flag_cells (o_cutoff o) (map (srow (o_cutoff o) ls (ncol X) corr slopes deshr rs)
           (replace_inf (rows X))), map (srow (o_cutoff o) ls (ncol X) corr slopes deshr rs)
           (replace_inf (rows X)))) (Some t)
    (Some (flag_rows (o_cutoff o) t (t_values cdf1 (map (srow (o_cutoff o) ls (ncol X) corr slopes deshr rs)
           (replace_inf (rows X)))))) true
}.

Lemma fit_inv o o' X : fit o X = (o', Ok tt) ->
  exists ls corr slopes deshr rs t, fitted o o' X ls corr slopes deshr rs t.
Proof.
rewrite /DDC_Model.fit /step.
case e1: (check_data X) => [[]||] //.
case e2: (fit_scaler _ _) => [ls [[]||]] //; rewrite [(ls, _).1]/= [(ls, _).2]/=.
case e3: (robust_correlation _ _ _ _) => [corr||] //.
case e4: (get_slopes _ _ _ _ _ _ _) => [slopes||] //.
case e5: (mapM _ _) => [deshr||] //.
case e6: (mapM _ _) => [rs||] //.
rewrite residE; case e7: (osm _) => [t||] // [eo].
by exists ls, corr, slopes, deshr, rs, t; split.
Qed.

Lemma fitted_params o o' X ls corr slopes deshr rs t :
  fitted o o' X ls corr slopes deshr rs t -> params o' (ncol X) ls corr slopes deshr rs.
Proof.
case=> e1 e2 e3 e4 e5 e6 e7 ->; split => //=.
- by eexists; first by [].
- by have := @fit_scaler_size [seq col (replace_inf (rows X)) j | j <- iota 0 (ncol X)]; rewrite e2 /= => ->; rewrite ?size_map ?size_iota.
- have := fit_scaler_sizes [seq col (replace_inf (rows X)) j | j <- iota 0 (ncol X)].
  by have := @fit_scaler_size [seq col (replace_inf (rows X)) j | j <- iota 0 (ncol X)]; rewrite e2 /= => -> // <-; rewrite size_map size_iota.
- by have [[-> _] _ _ _ _] := robust_correlation_lem e3.
- by rewrite (mapM_size e4) size_iota.
- by rewrite (mapM_size e5) size_iota.
- by rewrite (mapM_size e6) size_iota.
Qed.

(* C46 *)
Lemma predict_agrees_lem o o' X : fit o X = (o', Ok tt) ->
  exists flags S rf,
  [/\ o_cells o' = Some (ncol X, flags, S), predict o' X = Ok (flags, S),
      o_rows o' = Some rf & predict_rowwise cdf1 o' X = Ok rf].
Proof.
move=> /fit_inv[ls [corr [slopes [deshr [rs [t fi]]]]]]; have pa := fitted_params fi.
have nx : numeric X by have := f_check fi; rewrite /check_data; case: (numeric X).
have e : predict o' X = _ := predict_intro pa nx.
have eo := f_o fi; rewrite {}eo in e pa *; do 3 eexists; split; try by [].
by rewrite /predict_rowwise e.
Qed.

(* ---- C47 ---- *)
Definition complete o : Prop := o_fitted o ->
  [/\ o_ls o <> None, o_corr o <> None, o_slopes o <> None, o_deshr o <> None &
   [/\ o_rscale o <> None, o_cells o <> None & o_t o <> None]].

Lemma fit_complete o X : complete o -> complete (fit o X).1.
Proof.
rewrite /complete /DDC_Model.fit /step => h.
case: (check_data X) => [_|e|] //.
case: (fit_scaler _ _) => [ls [_|e|]] /=; try by move=> /h[? ? ? ? ?]; split.
case: (robust_correlation _ _ _ _) => [corr|e|] /=; try by move=> /h[? ? ? ? ?]; split.
case: (get_slopes _ _ _ _ _ _ _) => [slopes|e|] /=; try by move=> /h[? ? ? ? ?]; split.
case: (mapM _ _) => [deshr|e|] /=; try by move=> /h[? ? ? ? ?]; split.
case: (mapM _ _) => [rs|e|] /=; try by move=> /h[_ _ _ _ ?]; split.
by case: (osm _) => [t|e|] //=; move=> /h[_ _ _ _ [_ _ ?]].
Qed.

Lemma run_complete o hs : complete o -> complete (run est osm lstsq cdf1 o hs).
Proof. by elim: hs o => //= X hs IH o h; apply: IH; exact: fit_complete. Qed.

Lemma fit_fitted o X : o_fitted (fit o X).1 = o_fitted o || is_ok (fit o X).2.
Proof.
rewrite /DDC_Model.fit /step.
case: (check_data X) => [_||] //=; rewrite ?orbF //.
case: (fit_scaler _ _) => [ls [_||]] /=; rewrite ?orbF //.
case: (robust_correlation _ _ _ _) => [corr||] /=; rewrite ?orbF //.
case: (get_slopes _ _ _ _ _ _ _) => [slopes||] /=; rewrite ?orbF //.
case: (mapM _ _) => [deshr||] /=; rewrite ?orbF //.
case: (mapM _ _) => [rs||] /=; rewrite ?orbF //.
by case: (osm _) => [t||] //=; rewrite ?orbF ?orbT.
Qed.

Lemma run_fitted o hs : o_fitted o -> o_fitted (run est osm lstsq cdf1 o hs).
Proof. by elim: hs o => //= X hs IH o h; apply: IH; rewrite fit_fitted h. Qed.

Lemma unfitted_lem round3 o X b sr rz cz : ~~ o_fitted o ->
  [/\ predict o X = Err AttributeError, predict_rowwise cdf1 o X = Err AttributeError,
      impute round3 o X b = Err AttributeError & cellmap o X sr rz cz = Err AttributeError].
Proof. by move=> /negbTE h; rewrite /predict_rowwise /predict /impute /guard /cellmap h. Qed.

Lemma fitted_no_attr_lem round3 o X b sr rz cz : complete o -> o_fitted o ->
  [/\ predict o X <> Err AttributeError, predict_rowwise cdf1 o X <> Err AttributeError,
      impute round3 o X b <> Err AttributeError & cellmap o X sr rz cz <> Err AttributeError].
Proof.
move=> /[swap] f /(_ f)[]; case e1: (o_ls o) => [ls|] // _.
case e2: (o_corr o) => [corr|] // _; case e3: (o_slopes o) => [slopes|] // _.
case e4: (o_deshr o) => [deshr|] // _ [].
case e5: (o_rscale o) => [rs|] // _; case e6: (o_cells o) => [c|] // _; case e7: (o_t o) => [t|] // _.
have hp Y : predict o Y <> Err AttributeError.
  rewrite /predict /guard f e6 /=; case: ifP => //= _; case: ifP => //= nx.
  rewrite /standardize_tab e1 /= nx; case: ifP => //= _.
  by rewrite /predictions e2 e3 e4 /=; case: ifP => //= _; rewrite e5 /=; case: ifP.
split=> //.
- by rewrite /predict_rowwise e7; have := hp X; case: (predict o X) => // e h [] E; apply: h; rewrite E.
- rewrite /impute /guard f e6 /=; case: ifP => //= _; rewrite /standardize_tab e1 /=.
  case: ifP => //= nx; case: ifP => //= _.
  rewrite /predictions e2 e3 e4 /=; case: ifP => //= _; case: b => //.
  by have := hp (Table (ncol X) (numeric X) (replace_inf (rows X))); case: (predict o _) => // e h [] E; apply: h; rewrite E.
- by rewrite /cellmap f e6 /=; case: ifP.
Qed.

End Fit.
