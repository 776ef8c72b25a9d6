(* Properties of CellMCD.cell_MCD_plot: failures, contents of the figures, role of the quantiles. *)
From mathcomp Require Import all_ssreflect all_algebra.
From mathcomp.zify Require Import zify.
From mathcomp.algebra_tactics Require Import ring.
From Verif Require Import RFieldLra Prelude Xnum Vec Qn_Model LinAlg_Model LinAlg_Proofs.
From Verif Require Import Fit_Model Eig2_Proofs Cov_Spec Cov_Props Plot_Model Plot_Spec Plot_Proofs Plot_Props.

Set Implicit Arguments.
Unset Strict Implicit.
Unset Printing Implicit Defensive.

Import Order.TTheory GRing.Theory Num.Theory.
Local Open Scope ring_scope.

Section Figure.
Variables (T : rcfType) (name : Type) (chi2_ppf : T -> nat -> T).
Variable eigh : 'M[T]_2 -> 'rV[T]_2 * 'M[T]_2.
Variable wrap_calc : seq (xnum T) -> res (xnum T * xnum T).
Variables (n p : nat).
Notation num := (xnum T).
Notation plot := (@cell_MCD_plot T name chi2_ppf eigh wrap_calc n p).

(* C120: indices count from 0, negative ones from the end; anything else raises IndexError *)
Theorem np_index_spec (v : int) (i : 'I_p) :
  np_index p v = Ok i <-> v = (i : nat)%:Z \/ v = (i : nat)%:Z - p%:Z.
Proof.
split.
  rewrite /np_index; case: v => k; first by case: insubP => // u _ e [<-]; left; rewrite e.
  case: ltnP => // kp; case: insubP => // u _ e [<-]; right; rewrite e; lia.
case=> ->; rewrite /np_index /=.
  by case: insubP => [u _ e|]; rewrite ?ltn_ord //; congr Ok; exact: val_inj.
have ip := ltn_ord i.
have -> : (i : nat)%:Z - p%:Z = Negz (p - i).-1 by lia.
have -> : ((p - i).-1 < p)%N by lia.
have -> : (p - (p - i).-1.+1)%N = i by lia.
by case: insubP => [u _ e|]; rewrite ?ltn_ord //; congr Ok; exact: val_inj.
Qed.

Theorem np_index_error (v : int) : (forall i : 'I_p, v != (i : nat)%:Z /\ v != (i : nat)%:Z - p%:Z) ->
  np_index p v = Err IndexError.
Proof.
move=> h; case e: (np_index p v) => [i|x|].
- by have /np_index_spec[/eqP ev|/eqP ev] := e; case: (h i); rewrite ev.
- by move: e; rewrite /np_index; case: (match v with Posz _ => _ | Negz _ => _ end) => // [[<-]].
- by move: e; rewrite /np_index; case: (match v with Posz _ => _ | Negz _ => _ end).
Qed.

(* C120: an unfitted object has no figure *)
Theorem plot_not_fitted angles q qa pt j w names : plot angles q qa None pt j w names = Err NotFittedError.
Proof. by []. Qed.

(* C120: the bivariate plot needs a second variable *)
Theorem plot_needs_second angles q qa f j names : plot angles q qa (Some f) Bivariate j None names = Err ValueError.
Proof. by []. Qed.

(* C120: an unknown plot type is not rejected: the function fails on the unbound x *)
Theorem plot_unknown_type angles q qa f j w names : plot angles q qa (Some f) OtherPlot j w names = Err UnboundLocalError.
Proof. by []. Qed.

(* C120: an index out of range raises IndexError for every valid plot type *)
Theorem plot_bad_variable angles q qa f pt j w names :
  pt <> OtherPlot -> (pt = Bivariate -> w <> None) -> np_index p j = Err IndexError ->
  plot angles q qa (Some f) pt j w names = Err IndexError.
Proof.
move=> h1 h2 e; rewrite /cell_MCD_plot /make_panel e.
by case: pt h1 h2 => //= _ h2; case: w h2 => // /(_ erefl).
Qed.

(* C121: annotation_quantile changes the texts only *)
Theorem annotation_quantile_only_texts angles q qa qb f pt j w names figA figB :
  plot angles q qa (Some f) pt j w names = Ok figA -> plot angles q qb (Some f) pt j w names = Ok figB ->
  [seq t <- figA | ~~ is_text t] = [seq t <- figB | ~~ is_text t].
Proof.
rewrite /cell_MCD_plot => /(@bind_okP _ _ _ _ _)[pa ha /(@bind_okP _ _ _ _ _)[ta hta eA]].
move=> /(@bind_okP _ _ _ _ _)[pb hb /(@bind_okP _ _ _ _ _)[tb htb eB]].
have [e1 e2 e3 e4 e5] := make_panel_cutoff ha hb.
have texts (o : option (seq name)) qq pn ts :
  (if o is Some ns then annotate chi2_ppf ns qq f pt j w pn else Ok [::]) = Ok ts ->
  [seq t <- ts | ~~ is_text t] = [::].
  have e0 (l : seq (item T name)) : all (@is_text T name) l -> [seq t <- l | ~~ is_text t] = [::].
    by elim: l => //= t l IH /andP[-> /IH].
  by case: o => [ns /all_annotate /e0|[<-]].
have {}hta := texts _ _ _ _ hta; have {}htb := texts _ _ _ _ htb.
move: eA eB e1 e2 e3 e4 e5; move: pa pb {ha hb} => [[[[[xa ya] ta1] va] aa] prea] [[[[[xb yb] tb1] vb] ab] preb] /=.
move=> [<-] [<-] -> -> -> -> ->; by rewrite !filter_cat /= !filter_cat hta htb.
Qed.

(* C121: without row names there are no texts *)
Theorem no_names_no_texts angles q qa f pt j w fig :
  plot angles q qa (Some f) pt j w None = Ok fig -> ~~ has (@is_text T name) fig.
Proof.
rewrite /cell_MCD_plot => /(@bind_okP _ _ _ _ _)[pn h [e]]; move: h e.
case: pn => [[[[[x y] hh] v] a] pre] h [<-]; rewrite has_cat negb_or; apply/andP; split; last by case: v {h}.
move: h; rewrite /make_panel; case: pt.
- by move=> /(@bind_okP _ _ _ _ _)[i _ [_ _ _ _ _ <-]].
- by move=> /(@bind_okP _ _ _ _ _)[i _ /(@bind_okP _ _ _ _ _)[u _ /(@bind_okP _ _ _ _ _)[u2 _ [_ _ _ _ _ <-]]]].
- by move=> /(@bind_okP _ _ _ _ _)[i _ /(@bind_okP _ _ _ _ _)[u _ /(@bind_okP _ _ _ _ _)[u2 _ [_ _ _ _ _ <-]]]].
- move=> /(@bind_okP _ _ _ _ _)[i _ /(@bind_okP _ _ _ _ _)[u _ /(@bind_okP _ _ _ _ _)[u2 _ /(@bind_okP _ _ _ _ _)[u3 _ /(@bind_okP _ _ _ _ _)[u4 _]]]]].
  by case: (column _ _) => // x0 xs [_ _ _ _ _ <-].
- case: w => // w /(@bind_okP _ _ _ _ _)[i _ /(@bind_okP _ _ _ _ _)[i2 _ /(@bind_okP _ _ _ _ _)[u _ /(@bind_okP _ _ _ _ _)[u2 _ [_ _ _ _ _ <-]]]]].
  by [].
- by [].
Qed.

(* C121: the index plot: residuals against case numbers, lines at -/+ sqrt(chi2 quantile), and the
   texts of the cases whose residual exceeds the annotation cutoff *)
Theorem indexplot_figure angles q qa f j w (a0 : name) names (i : 'I_p) :
  np_index p j = Ok i -> (n <= size names)%N ->
  exists I, exactly n (fun k => exists2 o : 'I_n, k = o :> nat
      & let ca := Num.sqrt (chi2_ppf (odflt q qa) 1) in beyond (- ca) ca (f_residuals f o i)) I
  /\ plot angles q qa (Some f) IndexPlot j w (Some names)
     = Ok ([:: Scatter name (zip [seq Fin k%:R | k <- iota 0 n] (column (f_residuals f) i))]
           ++ [seq Text (Fin k%:R) (nth NaN (column (f_residuals f) i) k) (nth a0 names k) | k <- I]
           ++ [:: HLine name (Fin (- Num.sqrt (chi2_ppf q 1))); HLine name (Fin (Num.sqrt (chi2_ppf q 1)))]).
Proof.
move=> ei nn; pose ca := Num.sqrt (chi2_ppf (odflt q qa) 1).
have sx : size [seq Fin (k%:R : T) | k <- iota 0 n] = n by rewrite size_map size_iota.
have sy := column_size (f_residuals f) i.
have [I [[sI hI] eI]] := @annotated_iff_outside T name names a0 [seq Fin k%:R | k <- iota 0 n]
  (column (f_residuals f) i) (- ca, ca) None (etrans sx (esym sy)) (leq_trans (eq_leq sx) nn).
have nthc (o : 'I_n) : nth NaN (column (f_residuals f) i) o = f_residuals f o i.
  by rewrite (nth_map o) ?size_enum_ord // nth_ord_enum.
exists I; split.
  split=> // k; split.
    move/hI => [+ +]; rewrite sx => kn [|//] hb; split=> //; exists (Ordinal kn) => //.
    by rewrite -nthc; exact: hb.
  by case=> kn [o e hb]; apply/hI; rewrite sx kn; split=> //; left; rewrite e nthc.
rewrite /cell_MCD_plot /make_panel ei /= /annotate.
have -> : (if qa is Some qq then Num.sqrt (chi2_ppf qq 1) else Num.sqrt (chi2_ppf q 1)) = ca.
  by rewrite /ca; case: (qa).
rewrite /sym_pair; move: eI; rewrite /fins /= => -> /=; congr (Ok (_ :: _ ++ _)).
apply/eq_in_map => k kI; congr Text; move/hI: kI => [+ _]; rewrite sx => kn.
by rewrite (nth_map 0%N) ?size_iota // nth_iota // add0n.
Qed.

(* C121: the bivariate figure: the ellipse of the fitted quantile, the points, the texts of the
   points outside the ellipse of the annotation quantile, the four lines *)
Theorem bivariate_figure (eighP : correct_eigh eigh) angles q qa f j w (a0 : name) names (i k : 'I_p) (lx sx ly sy : T) :
  np_index p j = Ok i -> np_index p w = Ok k -> (n <= size names)%N ->
  posdef2 (block2 (f_covariance f) i k) -> 0 <= chi2_ppf (odflt q qa) 2 ->
  (forall o : 'I_n, (f_X f o i = NaN \/ exists u, f_X f o i = Fin u) /\ (f_X f o k = NaN \/ exists u, f_X f o k = Fin u)) ->
  wrap_calc [seq z <- column (f_X f) i | ~~ is_nan z] = Ok (Fin lx, Fin sx) ->
  wrap_calc [seq z <- column (f_X f) k | ~~ is_nan z] = Ok (Fin ly, Fin sy) ->
  let c := Num.sqrt (chi2_ppf q 1) in
  let S := block2 (f_covariance f) i k in let m := sub2 (f_location f) i k in
  exists I, exactly n (fun r => exists o : 'I_n, r = o :> nat /\ exists u v, [/\ f_X f o i = Fin u, f_X f o k = Fin v
      & out_ellipse S m (chi2_ppf (odflt q qa) 2) u v]) I
  /\ plot angles q qa (Some f) Bivariate j (Some w) (Some names)
     = Ok ([:: Curve name (draw_ellipse chi2_ppf eigh angles S m q);
               Scatter name (zip (column (f_X f) i) (column (f_X f) k))]
           ++ [seq Text (nth NaN (column (f_X f) i) r) (nth NaN (column (f_X f) k) r) (nth a0 names r) | r <- I]
           ++ [:: HLine name (Fin (ly - c * sy)); HLine name (Fin (ly + c * sy));
                  VLine name (Fin (lx - c * sx)); VLine name (Fin (lx + c * sx))]).
Proof.
move=> ei ek nn pS r0 fin hx hy c S m.
have s1 := column_size (f_X f) i; have s2 := column_size (f_X f) k.
have nthc l (o : 'I_n) : nth NaN (column (f_X f) l) o = f_X f o l.
  by rewrite (nth_map o) ?size_enum_ord // nth_ord_enum.
have fin' r : (r < size (column (f_X f) i))%N ->
  (nth NaN (column (f_X f) i) r = NaN \/ exists u, nth NaN (column (f_X f) i) r = Fin u)
  /\ (nth NaN (column (f_X f) k) r = NaN \/ exists u, nth NaN (column (f_X f) k) r = Fin u).
  by rewrite s1 => rn; have := fin (Ordinal rn); rewrite -!nthc.
have [I [[sI hI] eI]] := annotated_iff_outside_ellipse a0 m pS r0 (etrans s1 (esym s2)) (leq_trans (eq_leq s1) nn) fin'.
exists I; split.
  split=> // r; split.
    move/hI => [+ [u [v [hu hv ho]]]]; rewrite s1 => rn; split=> //; exists (Ordinal rn); split=> //.
    by exists u, v; rewrite -!nthc.
  by case=> rn [o [e [u [v [hu hv ho]]]]]; apply/hI; rewrite s1 rn; split=> //; exists u, v; rewrite e !nthc.
rewrite /cell_MCD_plot /make_panel ei ek /= -/c -/S -/m.
have th l s x : wrap_calc [seq z <- x | ~~ is_nan z] = Ok (Fin l, Fin s) ->
  get_thresholds wrap_calc c x = Ok (Fin (l - c * s), Fin (l + c * s)).
  move=> h; rewrite thresholds_ignore_nan (@thresholdsE _ _ _ _ (Fin l) (Fin s)) //.
  by rewrite -all_predC; exact: filter_all.
by rewrite (th _ _ _ hx) (th _ _ _ hy) /= ei ek /= eI.
Qed.

(* C122: more extreme annotation quantiles annotate fewer points.  The scale estimates may be NaN
   but not negative or infinite. *)
Definition proper_estimate (r : res (num * num)) : Prop :=
  match r with
  | Ok (Fin _, Fin s) => 0 <= s
  | Ok (NaN, _) | Ok (_, NaN) => True
  | Ok _ => False
  | _ => True
  end.

Definition tighter (a b : num * num) : Prop := forall z, outside b z -> outside a z.

Lemma sym_tighter (ca cb : T) : ca <= cb -> tighter (sym_pair ca) (sym_pair cb).
Proof.
move=> h [z| | |] //; rewrite /outside /= => /orP[|] hz; apply/orP; [left|right]; last exact: le_lt_trans hz.
by apply: lt_le_trans hz _; rewrite ler_opp2.
Qed.

Lemma thresholds_tighter (ca cb : T) x ta tb : ca <= cb -> (forall s, proper_estimate (wrap_calc s)) ->
  get_thresholds wrap_calc ca x = Ok ta -> get_thresholds wrap_calc cb x = Ok tb -> tighter ta tb.
Proof.
move=> h pw; rewrite ![get_thresholds _ _ x]thresholds_ignore_nan.
have hn : ~~ has (@is_nan T) [seq z <- x | ~~ is_nan z] by rewrite -all_predC; exact: filter_all.
move: hn; move: [seq z <- x | ~~ is_nan z] => s hn; have := pw s.
case e: (wrap_calc s) => [[l sc]|er|]; last 2 first.
- by rewrite /get_thresholds /rs_fit /= (negbTE hn) e.
- by rewrite /get_thresholds /rs_fit /= (negbTE hn) e.
rewrite !(thresholdsE _ hn e) => pr [<-] [<-] z.
case: l pr e => [l| | |] /=; case: sc => [sc| | |] //= pr e; rewrite /outside /=; case: z => [z| | |] //=.
move=> /orP[|] hz; apply/orP; [left|right]; apply: (lt_le_trans hz) || apply: (le_lt_trans _ hz).
  by rewrite ler_add2l ler_opp2 ler_wpmul2r.
by rewrite ler_add2l ler_wpmul2r.
Qed.

Lemma annote_loop_incl (names : seq name) tha thb va vb i qs A B :
  tighter tha thb -> (match va, vb with Some a, Some b => tighter a b | None, None => True | _, _ => False end) ->
  annote_loop names (Some tha) va i qs = Ok A -> annote_loop names (Some thb) vb i qs = Ok B ->
  forall t, List.In t B -> List.In t A.
Proof.
move=> th tv; elim: qs i A B => [|q qs IH] i A B /=; first by move=> [<-] [<-].
move=> /(@bind_okP _ _ _ _ _)[oa ha /(@bind_okP _ _ _ _ _)[ra hra [<-]]].
move=> /(@bind_okP _ _ _ _ _)[ob hb /(@bind_okP _ _ _ _ _)[rb hrb [<-]]] t.
have sub : ob = None \/ oa = ob.
  move: ha hb; rewrite /annote_one; set cb := _ || _; set ca' := _ || _ => ha; case eb: ca' => hb; last by left; case: hb.
  have ea : cb.
    rewrite /cb; move: eb; rewrite /ca' => /orP[/th ->//|]; move: tv; case: (va) (vb) => [a|] [b|] //= tab /tab ->.
    by rewrite orbT.
  by right; move: ha hb; rewrite ea; case: (drop i names) => // a l [<-] [<-].
case: sub => [->|->]; first by case: oa {ha hb} => [t0|]; [right|]; exact: (IH _ _ _ hra hrb).
by case: ob {ha hb} => [t0|] //=; [case=> [->|ht]; [left|right; exact: (IH _ _ _ hra hrb)]|exact: (IH _ _ _ hra hrb)].
Qed.

Lemma ellipse_incl (names : seq name) m (S : 'M[T]_2) x y qa qb A B :
  chi2_ppf qa 2 <= chi2_ppf qb 2 ->
  annote_outliers_ellipse chi2_ppf names m S x y qa = Ok A -> annote_outliers_ellipse chi2_ppf names m S x y qb = Ok B ->
  forall t, List.In t B -> List.In t A.
Proof.
move=> hq; case uS: (S \in unitmx); last by rewrite /annote_outliers_ellipse /ellipse_mask /np_inv uS.
pose b q z := xlt (Fin (Num.sqrt (chi2_ppf q 2))) (maha2 (invmx S) m z).
have long q C : annote_outliers_ellipse chi2_ppf names m S x y q = Ok C ->
  forall k, k \in [seq k <- iota 0 (size (zip x y)) | b q (nth (NaN, NaN) (zip x y) k)] -> (k < size names)%N.
  move=> e k; rewrite mem_filter mem_iota add0n => /andP[bk /andP[_ ks]]; rewrite ltnNge; apply/negP => nk.
  by rewrite (ellipse_texts_short uS ks bk nk) in e.
case en: names => [|a0 ns].
  rewrite -en => eA eB t.
  case eI: [seq k <- iota 0 (size (zip x y)) | b qb (nth (NaN, NaN) (zip x y) k)] => [|k I]; last first.
    by have := long _ _ eB k; rewrite eI mem_head en => /(_ isT).
  move: eB; rewrite /annote_outliers_ellipse /ellipse_mask (np_inv_ok uS) [bind _ _]/= -/(b qb).
  have -> : [seq xlt (Fin (Num.sqrt (chi2_ppf qb 2))) (maha2 (invmx S) m q) | q <- zip x y] = [seq b qb q | q <- zip x y] by [].
  by rewrite /masked_names (filter_map_size (NaN, NaN)) eI /= (mask_map_nth (NaN, NaN)) eI /= => -[<-].
rewrite -en => eA eB t.
have := eA; rewrite (ellipse_textsE a0 uS (long _ _ eA)) => -[<-].
have := eB; rewrite (ellipse_textsE a0 uS (long _ _ eB)) => -[<-].
move=> /List.in_map_iff[k [et hk]]; apply/List.in_map_iff; exists k; split=> //.
have inb (s : seq nat) : List.In k s <-> k \in s.
  elim: s => //= a s [h1 h2]; rewrite inE; split=> [[->|/h1 ->]|/orP[/eqP ->|/h2]]; rewrite ?eqxx ?orbT //; by [left|right].
apply/inb; move/inb: hk; rewrite !mem_filter => /andP[hb ->]; rewrite andbT.
move: hb; rewrite /b; case: (maha2 _ _ _) => [z| | |] //=; apply: le_lt_trans; exact: ler_wsqrtr.
Qed.

Theorem annotation_monotone angles q qa qb f pt j w names figA figB :
  chi2_ppf qa 1 <= chi2_ppf qb 1 -> chi2_ppf qa 2 <= chi2_ppf qb 2 ->
  (forall s, proper_estimate (wrap_calc s)) ->
  plot angles q (Some qa) (Some f) pt j w (Some names) = Ok figA ->
  plot angles q (Some qb) (Some f) pt j w (Some names) = Ok figB ->
  forall t, is_text t -> List.In t figB -> List.In t figA.
Proof.
move=> h1 h2 pw; rewrite /cell_MCD_plot.
move=> /(@bind_okP _ _ _ _ _)[pa ha /(@bind_okP _ _ _ _ _)[ta hta eA]].
move=> /(@bind_okP _ _ _ _ _)[pb hb /(@bind_okP _ _ _ _ _)[tb htb eB]] t tt.
have hc : Num.sqrt (chi2_ppf qa 1) <= Num.sqrt (chi2_ppf qb 1) by exact: ler_wsqrtr.
have [e1 e2 e3 e4 e5] := make_panel_cutoff ha hb.
have incl : forall u, List.In u tb -> List.In u ta.
  move: ha hb hta htb; rewrite /make_panel /annotate; case: pt.
  - move=> /(@bind_okP _ _ _ _ _)[i -> /= [<-]] [<-] /=; apply: annote_loop_incl => //; exact: sym_tighter.
  - move=> /(@bind_okP _ _ _ _ _)[i -> /= /(@bind_okP _ _ _ _ _)[v -> /= /(@bind_okP _ _ _ _ _)[va hva [<-]]]].
    move=> /(@bind_okP _ _ _ _ _)[vb hvb [<-]] /=; apply: annote_loop_incl; [exact: sym_tighter|exact: thresholds_tighter hva hvb].
  - move=> /(@bind_okP _ _ _ _ _)[i -> /= /(@bind_okP _ _ _ _ _)[v -> /= /(@bind_okP _ _ _ _ _)[va hva [<-]]]].
    move=> /(@bind_okP _ _ _ _ _)[vb hvb [<-]] /=; apply: annote_loop_incl; [exact: sym_tighter|exact: thresholds_tighter hva hvb].
  - move=> /(@bind_okP _ _ _ _ _)[i -> /= /(@bind_okP _ _ _ _ _)[hh -> /= /(@bind_okP _ _ _ _ _)[v -> /= /(@bind_okP _ _ _ _ _)[hha hhha /(@bind_okP _ _ _ _ _)[va hva]]]]].
    move=> k1 /(@bind_okP _ _ _ _ _)[hhb hhhb /(@bind_okP _ _ _ _ _)[vb hvb k2]].
    move: k1 k2 hva hvb; case: (column (f_predictions f) i) => [//|x0 xs] [<-] [<-] hva hvb /=.
    apply: annote_loop_incl; [exact: thresholds_tighter hhha hhhb|exact: thresholds_tighter hva hvb].
  - case: w => [w|//] /(@bind_okP _ _ _ _ _)[i -> /= /(@bind_okP _ _ _ _ _)[k -> /= /(@bind_okP _ _ _ _ _)[u -> /= /(@bind_okP _ _ _ _ _)[v -> /= [<-]]]]] [<-] /=.
    exact: ellipse_incl.
  - by [].
move: eA eB e1 e2 e3 e4 e5; move: pa pb {ha hb hta htb} => [[[[[xa ya] ta1] va] aa] prea] [[[[[xb yb] tb1] vb] ab] preb] /=.
move=> [<-] [<-] _ _ e3 e4 e5; rewrite -e3 -e4 -e5.
have nolines : ~ List.In t (draw_threshold_lines name ta1 va).
  by move=> hi; move: tt; move: hi; case: (va) => [v|] /=; repeat (case=> [<- //|]).
move=> /List.in_app_iff[hp|/= [e|/List.in_app_iff[/incl hi|//]]].
- by apply/List.in_app_iff; left.
- by rewrite -e in tt.
- by apply/List.in_app_iff; right; right; apply/List.in_app_iff; left.
Qed.

End Figure.

Section Cases.
Variable T : rcfType.

(* two cases and two variables, centre (1, 0), variances 4 and 1; the second residual of the first
   variable is 5, the first one is missing *)
Definition fit2 : fitted T 2 2 :=
  {| f_X := \matrix_(i, j) (if i == 0 then (if j == 0 then Fin 2%:R else Fin (1 / 2%:R))
                            else (if j == 0 then Fin 3%:R else Fin 1));
     f_residuals := \matrix_(i, j) (if i == 0 then NaN else Fin 5%:R);
     f_predictions := \matrix_(i, j) Fin 0;
     f_location := \row_j (j == 0)%:R;
     f_covariance := @s41 T |}.

Definition wrap01 : seq (xnum T) -> res (xnum T * xnum T) := fun _ => Ok (Fin 0, Fin 1).

Lemma idx0 : np_index 2 0 = Ok (0 : 'I_2).
Proof. by apply/np_index_spec; left. Qed.

Lemma idxm1 : np_index 2 (- 1) = Ok (1 : 'I_2).
Proof. by apply/np_index_spec; right. Qed.

Example np_index_case : np_index 2 2 = Err IndexError /\ np_index 2 (- 3) = Err IndexError.
Proof. by split; apply: np_index_error => i; case: (ord2 i) => ->. Qed.

Example indexplot_case : exists I, exactly 2 (fun k => k = 1%N) I /\
  cell_MCD_plot (fun q _ => q) (@eigh2 T) wrap01 [::] 4%:R None (Some fit2) IndexPlot 0 None (Some [:: 7; 8]%N)
  = Ok ([:: Scatter nat (zip [:: Fin 0; Fin 1] (column (f_residuals fit2) 0))]
        ++ [seq Text (Fin k%:R) (nth NaN (column (f_residuals fit2) 0) k) (nth 0%N [:: 7; 8]%N k) | k <- I]
        ++ [:: HLine nat (Fin (- 2%:R)); HLine nat (Fin 2%:R)]).
Proof.
have s2 : Num.sqrt (4%:R : T) = 2%:R.
  have -> : 4%:R = 2%:R ^+ 2 :> T by ring.
  by rewrite sqrtr_sqr ger0_norm // ler0n.
have [I [[sI hI] ->]] := @indexplot_figure T nat (fun q _ => q) (@eigh2 T) wrap01 2 2 [::] 4%:R None fit2 0 None 0%N [:: 7; 8]%N 0 idx0 erefl.
exists I; split; last by rewrite s2.
split=> // k; split.
  case/hI => k2 [o -> ]; rewrite mxE /=; case: (ord2 o) => ->; rewrite ?eqxx /= => h //; by inversion h.
case=> k2 ->; apply/hI; split=> //; exists 1; rewrite // mxE /= s2; apply: AboveHi; rewrite ltr_nat; exact: isT.
Qed.

Lemma fit2_block : block2 (f_covariance fit2) 0 1 = @s41 T.
Proof. by apply: mx2P; rewrite !mxE. Qed.

Lemma fit2_center : sub2 (f_location fit2) 0 1 = \row_j (j == 0)%:R :> 'rV[T]_2.
Proof. by apply/rowP => j; rewrite !mxE; case: (ord2 j) => ->. Qed.

(* the bivariate plot of variables 0 and -1 (the last) with quantile value 1 *)
Definition bivariate2 (qa : option T) : res (seq (item T nat)) :=
  cell_MCD_plot (fun q _ => q) (@eigh2 T) wrap01 [:: (1, 0)] 1 qa (Some fit2) Bivariate 0 (Some (- 1)) (Some [:: 7; 8]%N).

Lemma bivariate2E qa : 0 <= odflt 1 qa -> exists I,
  exactly 2 (fun k => k = 1%N /\ out_ellipse (@s41 T) (\row_j (j == 0)%:R) (odflt 1 qa) 3%:R 1
                   \/ k = 0%N /\ out_ellipse (@s41 T) (\row_j (j == 0)%:R) (odflt 1 qa) 2%:R (1 / 2%:R)) I
  /\ exists fig, bivariate2 qa = Ok fig /\ [seq t <- fig | is_text t]
     = [seq Text (nth NaN (column (f_X fit2) 0) r) (nth NaN (column (f_X fit2) 1) r) (nth 0%N [:: 7; 8]%N r) | r <- I].
Proof.
move=> q0.
have fin (o : 'I_2) : (f_X fit2 o 0 = NaN \/ exists u, f_X fit2 o 0 = Fin u) /\ (f_X fit2 o 1 = NaN \/ exists u, f_X fit2 o 1 = Fin u).
  by rewrite !mxE /=; case: (ord2 o) => ->; split; right; eexists.
have pS : posdef2 (block2 (f_covariance fit2) 0 1) by rewrite fit2_block; exact: s41_pos.
have [I [[sI hI] e]] := @bivariate_figure T nat (fun q _ => q) (@eigh2 T) wrap01 2 2 (@eigh2_correct T) [:: (1, 0)] 1 qa fit2
  0 (- 1) 0%N [:: 7; 8]%N 0 1 0 1 0 1 idx0 idxm1 erefl pS q0 fin erefl erefl.
exists I; split.
  split=> // k; split.
    case/hI => k2 [o [e2 [u [v [hu hv ho]]]]]; rewrite fit2_block fit2_center in ho.
    rewrite !mxE /= in hu hv; split=> //; rewrite e2.
    by case: (ord2 o) hu hv => -> /= [eu] [ev]; [right|left]; rewrite -eu -ev in ho.
  case=> k2 h; apply/hI; split=> //; rewrite fit2_block fit2_center; case: h => [[-> ho]|[-> ho]].
    by exists 1; split=> //; exists 3%:R, 1; rewrite !mxE.
  by exists 0; split=> //; exists 2%:R, (1 / 2%:R); rewrite !mxE.
eexists; split; first exact: e.
rewrite !filter_cat /= cats0; apply/all_filterP; rewrite all_map; exact/allP.
Qed.

(* C87: with the default annotation quantile the annotated points are those outside the drawn ellipse *)
Example bivariate_case : exists fig t, bivariate2 None = Ok fig /\ [seq t <- fig | is_text t] = [:: t].
Proof.
have [|I [[sI hI] [fig [e et]]]] := @bivariate2E None; first exact: ler01.
have [_ _ o1 o2] := ellipse_case T.
have eI : I = [:: 1]%N.
  have m1 : 1%N \in I by apply/hI; split=> //; left.
  have m0 k : k \in I -> k = 1%N by case/hI => _ [[]|[_]].
  case: I sI m1 m0 {hI e et} => [//|a [|b I]] sI _ m0; first by rewrite (m0 a) ?mem_head.
  by have /= := sI; rewrite (m0 a) ?mem_head // (m0 b) // !inE eqxx orbT.
by exists fig; rewrite et eI; eexists.
Qed.

(* C87, refuted part: with an annotation quantile a point outside the drawn ellipse may have no text *)
Theorem drawn_ellipse_annotation_refuted :
  exists fig, [/\ bivariate2 (Some 100%:R) = Ok fig, ~~ has (@is_text T nat) fig,
    out_ellipse (block2 (f_covariance fit2) 0 1) (sub2 (f_location fit2) 0 1) 1 3%:R 1
    & f_X fit2 1 0 = Fin 3%:R /\ f_X fit2 1 1 = Fin 1].
Proof.
have [|I [[sI hI] [fig [e et]]]] := @bivariate2E (Some 100%:R); first exact: ler0n.
have [_ _ o1 _] := ellipse_case T.
exists fig; split; [exact: e| |by rewrite fit2_block fit2_center|by rewrite !mxE].
rewrite has_count -size_filter et size_map; case: I hI {sI e et} => // k I hI.
have [_ [[_ h]|[_ h]]] := (hI k).1 (mem_head _ _); exfalso; move: h;
  rewrite /out_ellipse /ell !mxE /= !(mulr0, mul0r, subr0, addr0, mulr1, expr0n, mul1r) /=.
- have -> : (3%:R - 1) ^+ 2 + 4%:R * 1 ^+ 2 = 8%:R :> T by ring.
  by rewrite -natrM ltr_nat.
- have -> : (2%:R - 1) ^+ 2 + 4%:R * (2%:R^-1) ^+ 2 = 2%:R :> T by field.
  by rewrite -natrM ltr_nat.
Qed.

Example annotation_monotone_case figA figB t :
  bivariate2 (Some 1) = Ok figA -> bivariate2 (Some 100%:R) = Ok figB -> is_text t -> List.In t figB -> List.In t figA.
Proof.
move=> hA hB; apply: (annotation_monotone _ _ _ hA hB) => [||s] /=; rewrite ?ler01 // ler1n //.
Qed.

Example only_texts_case figA figB : bivariate2 None = Ok figA -> bivariate2 (Some 100%:R) = Ok figB ->
  [seq t <- figA | ~~ is_text t] = [seq t <- figB | ~~ is_text t].
Proof. exact: annotation_quantile_only_texts. Qed.

End Cases.

Print Assumptions np_index_spec.
Print Assumptions np_index_error.
Print Assumptions plot_not_fitted.
Print Assumptions plot_needs_second.
Print Assumptions plot_unknown_type.
Print Assumptions plot_bad_variable.
Print Assumptions annotation_quantile_only_texts.
Print Assumptions no_names_no_texts.
Print Assumptions indexplot_figure.
Print Assumptions bivariate_figure.
Print Assumptions annotation_monotone.
Print Assumptions drawn_ellipse_annotation_refuted.
