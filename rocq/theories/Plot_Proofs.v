(* Proofs about the plot helpers. *)
From mathcomp Require Import all_ssreflect all_algebra.
From mathcomp.zify Require Import zify.
From mathcomp.algebra_tactics Require Import ring.
From Verif Require Import RFieldLra Prelude Xnum Vec Qn_Model LinAlg_Model LinAlg_Proofs Fit_Model Eig2_Proofs.
From Verif Require Import Cov_Spec Plot_Model Plot_Spec.

Set Implicit Arguments.
Unset Strict Implicit.
Unset Printing Implicit Defensive.

Import Order.TTheory GRing.Theory Num.Theory.
Local Open Scope ring_scope.

Section Proofs.
Variable T : rcfType.
Notation num := (xnum T).
Variable name : Type.
Implicit Types (names : seq name) (qs : seq (num * num)) (h v : option (num * num)).

Lemma outsideP (lo hi : T) (z : num) : outside (Fin lo, Fin hi) z <-> beyond lo hi z.
Proof.
split; rewrite /outside /=.
  case: z => [x| | |] //= => [/orP[]|_|_]; [exact: BelowLo|exact: AboveHi|exact: BeyondPInf|exact: BeyondNInf].
by case=> //= x -> //; rewrite orbT.
Qed.

Lemma drop_nth_eq (A : Type) (a0 : A) s i : (i < size s)%N -> drop i s = nth a0 s i :: drop i.+1 s.
Proof. exact: drop_nth. Qed.

Definition hit (th : num * num) v (q : num * num) : bool :=
  outside th q.2 || (if v is Some tv then outside tv q.1 else false).

Lemma annote_loopE names th v d a0 qs i :
  (forall k, (k < size qs)%N -> hit th v (nth d qs k) -> (i + k < size names)%N) ->
  annote_loop names (Some th) v i qs
  = Ok [seq Text (nth d qs k).1 (nth d qs k).2 (nth a0 names (i + k)) | k <- iota 0 (size qs) & hit th v (nth d qs k)].
Proof.
elim: qs i => [//|q qs IH] i hs /=.
have IH' := IH i.+1; rewrite {}IH' => [|k ks hk]; last first.
  by have := hs k.+1; rewrite /= addnS addSn; apply.
rewrite /annote_one -/(hit th v q) -[1%N]/(0 + 1)%N [(0 + 1)%N]addnC iotaDl filter_map.
have e : [seq Text (nth d qs k).1 (nth d qs k).2 (nth a0 names (i.+1 + k))
            | k <- iota 0 (size qs) & hit th v (nth d qs k)]
       = [seq Text (nth d (q :: qs) k).1 (nth d (q :: qs) k).2 (nth a0 names (i + k))
            | k <- [seq (1 + k)%N | k <- iota 0 (size qs) & preim (addn 1) (fun k => hit th v (nth d (q :: qs) k)) k]].
  by rewrite -map_comp; apply: eq_map => k /=; rewrite addnS.
case hq: (hit th v q) => /=.
  have i0 : (i < size names)%N by have := hs 0%N isT hq; rewrite addn0.
  by rewrite (drop_nth a0 i0) /= addn0 e.
by rewrite e.
Qed.

Lemma annote_loop_short names th v d qs i k :
  (k < size qs)%N -> hit th v (nth d qs k) -> (size names <= i + k)%N ->
  annote_loop names (Some th) v i qs = Err IndexError.
Proof.
elim: qs i k => [//|q qs IH] i [|k] /= ks hk hn; rewrite /annote_one -/(hit th v q).
  by rewrite hk drop_oversize //; move: hn; rewrite addn0.
have r : annote_loop names (Some th) v i.+1 qs = Err IndexError.
  by apply: (IH _ k) => //; rewrite addSn -addnS.
case: (hit th v q) => /=; last by rewrite r.
by case: (drop i names) => [|a l] //=; rewrite r.
Qed.

(* the filtered positions are exactly the positions with the property *)
Lemma exactly_filter m (P : nat -> Prop) (b : nat -> bool) :
  (forall k, (k < m)%N -> b k <-> P k) -> exactly m P [seq k <- iota 0 m | b k].
Proof.
move=> bP; split; first by apply: sorted_filter; [exact: ltn_trans|exact: iota_ltn_sorted].
move=> k; rewrite mem_filter mem_iota add0n leq0n /=; split=> [/andP[bk km]|[km pk]].
  by split=> //; apply/bP.
by rewrite km andbT; apply/bP.
Qed.

Lemma mask_map_nth (A : Type) (d : A) (b : A -> bool) (s : seq A) :
  mask (map b s) s = [seq nth d s k | k <- iota 0 (size s) & b (nth d s k)].
Proof.
rewrite -filter_mask -{1}(mkseq_nth d s) /mkseq filter_map; congr map; exact: eq_filter.
Qed.

Lemma mapM_names names a0 (I : seq nat) : (forall k, k \in I -> (k < size names)%N) ->
  mapM (fun i => if drop i names is a :: _ then Ok a else Err IndexError) I = Ok [seq nth a0 names k | k <- I].
Proof.
elim: I => [//|k I IH] h /=; rewrite (drop_nth a0 (h k (mem_head _ _))) /= IH // => j jI.
by apply: h; rewrite inE jI orbT.
Qed.

Lemma mapM_names_short names (I : seq nat) k : k \in I -> (size names <= k)%N ->
  mapM (fun i => if drop i names is a :: _ then Ok a else Err IndexError) I = Err IndexError.
Proof.
elim: I => [//|j I IH] /=; rewrite inE => /orP[/eqP <-|kI] h; first by rewrite drop_oversize.
by case: (drop j names) => [|a l] //=; rewrite IH.
Qed.

Lemma filter_map_size (A : Type) (d : A) (b : A -> bool) s :
  [seq i <- iota 0 (size [seq b x | x <- s]) | nth false [seq b x | x <- s] i]
  = [seq k <- iota 0 (size s) | b (nth d s k)].
Proof.
rewrite size_map; apply: eq_in_filter => k; rewrite mem_iota add0n => /andP[_ ks].
by rewrite (nth_map d).
Qed.

(* the ellipse *)
Lemma inv2 (S : 'M[T]_2) : posdef2 S ->
  let det := S 0 0 * S 1 1 - S 0 1 ^+ 2 in
  S \in unitmx /\ invmx S = mx2 (S 1 1 / det) (- (S 0 1) / det) (- (S 0 1) / det) (S 0 0 / det).
Proof.
move=> [s a0 d0] det.
have dn : det != 0 by rewrite gt_eqF.
pose B := mx2 (S 1 1 / det) (- (S 0 1) / det) (- (S 0 1) / det) (S 0 0 / det).
have h : S *m B = 1%:M.
  rewrite (mx2E S) s /B mx2M -mx2_1; move: dn; rewrite /det.
  move: (S 0 0) (S 0 1) (S 1 1) => a b d dn; by apply: mx2P; rewrite !mxE /=; field.
by have [h1 h2] := invmx_unique h; split; [exact: h1|rewrite -h2].
Qed.

Lemma maha2_fin (S : 'M[T]_2) (c : 'rV[T]_2) (x y : T) : posdef2 S ->
  maha2 (invmx S) c (Fin x, Fin y) = Fin (Num.sqrt (ell S c x y / (S 0 0 * S 1 1 - S 0 1 ^+ 2)))
  /\ 0 <= ell S c x y.
Proof.
move=> pS; have [_ ->] := inv2 pS; case: pS => s a0 d0.
have e0 : 0 <= ell S c x y.
  rewrite -(pmulr_rge0 _ a0) /ell.
  have -> : S 0 0 * (S 1 1 * (x - c 0 0) ^+ 2 - 2%:R * S 0 1 * (x - c 0 0) * (y - c 0 1) + S 0 0 * (y - c 0 1) ^+ 2)
     = (S 0 0 * (y - c 0 1) - S 0 1 * (x - c 0 0)) ^+ 2 + (S 0 0 * S 1 1 - S 0 1 ^+ 2) * (x - c 0 0) ^+ 2 by ring.
  by rewrite addr_ge0 ?sqr_ge0 // mulr_ge0 ?sqr_ge0 // ltW.
split=> //; rewrite /maha2 /=.
set q := (X in np_sqrt X).
have -> : q = ell S c x y / (S 0 0 * S 1 1 - S 0 1 ^+ 2).
  rewrite /q !mxE /= /ell; move: d0 {e0 q}; rewrite lt0r => /andP[d0 _]; move: d0.
  move: (S 0 0) (S 0 1) (S 1 1) (c 0 0) (c 0 1) => a b d l m d0; field; exact: d0.
by rewrite /np_sqrt (divr_ge0 e0 (ltW d0)).
Qed.

Lemma maha2_out (S : 'M[T]_2) (c : 'rV[T]_2) (r2 x y : T) : posdef2 S -> 0 <= r2 ->
  xlt (Fin (Num.sqrt r2)) (maha2 (invmx S) c (Fin x, Fin y)) <-> out_ellipse S c r2 x y.
Proof.
move=> pS r0; have [-> e0] := maha2_fin c x y pS; case: pS => s a0 d0; rewrite /= /out_ellipse.
set det := _ - _ in d0 *; set e := ell _ _ _ _ in e0 *.
have <- : (r2 < e / det) = (r2 * det < e) by rewrite ltr_pdivl_mulr.
have q0 : 0 <= e / det by rewrite divr_ge0 // ltW.
case: (ltrP 0 (e / det)) => [q1|q1]; first by rewrite ltr_sqrt.
have -> : e / det = 0 by apply/eqP; rewrite eq_le q1 q0.
by rewrite sqrtr0 !ltNge sqrtr_ge0 r0.
Qed.

Lemma maha2_nan R (c : 'rV[T]_2) (q : num * num) : is_nan q.1 || is_nan q.2 -> maha2 R c q = NaN.
Proof.
by case: q => u w; rewrite /maha2 /=; case: u => [x| | |] //; case: w => [y| | |] //= _;
  rewrite ?xadd_nan_r ?xadd_nan_l ?xmul_nan_r ?xmul_nan_l ?xadd_nan_r.
Qed.

Variable chi2_ppf : T -> nat -> T.

Lemma ellipse_textsE names (a0 : name) (d : num * num) (loc : 'rV[T]_2) (S : 'M[T]_2) (x y : seq num) (quantile : T) :
  S \in unitmx -> let b q := xlt (Fin (Num.sqrt (chi2_ppf quantile 2))) (maha2 (invmx S) loc q) in
  let I := [seq k <- iota 0 (size (zip x y)) | b (nth d (zip x y) k)] in
  (forall k, k \in I -> (k < size names)%N) ->
  annote_outliers_ellipse chi2_ppf names loc S x y quantile
  = Ok [seq Text (nth d (zip x y) k).1 (nth d (zip x y) k).2 (nth a0 names k) | k <- I].
Proof.
move=> uS b I hI; rewrite /annote_outliers_ellipse /ellipse_mask (np_inv_ok uS) [bind _ _]/= -/b.
set m := [seq _ | q <- _].
have -> : m = [seq b q | q <- zip x y] by [].
rewrite /masked_names (filter_map_size d) -/I (mapM_names a0 hI) /= (mask_map_nth d) -/I.
congr Ok; rewrite zip_map -map_comp; exact: eq_map.
Qed.

Lemma ellipse_texts_short names (d : num * num) (loc : 'rV[T]_2) (S : 'M[T]_2) (x y : seq num) (quantile : T) k :
  S \in unitmx -> let b q := xlt (Fin (Num.sqrt (chi2_ppf quantile 2))) (maha2 (invmx S) loc q) in
  (k < size (zip x y))%N -> b (nth d (zip x y) k) -> (size names <= k)%N ->
  annote_outliers_ellipse chi2_ppf names loc S x y quantile = Err IndexError.
Proof.
move=> uS b ks bk nk; rewrite /annote_outliers_ellipse /ellipse_mask (np_inv_ok uS) [bind _ _]/= -/b.
set m := [seq _ | q <- _].
have -> : m = [seq b q | q <- zip x y] by [].
by rewrite /masked_names (filter_map_size d) (@mapM_names_short _ _ k) // mem_filter bk mem_iota.
Qed.

Variable eigh : 'M[T]_2 -> 'rV[T]_2 * 'M[T]_2.
Hypothesis eighP : correct_eigh eigh.

Lemma posdef2_quad (S : 'M[T]_2) (w : 'rV[T]_2) : posdef2 S -> 0 <= (w *m S *m w^T) 0 0.
Proof.
move=> [s a0 d0]; rewrite -(pmulr_rge0 _ a0) !mxE !big_ord_recl big_ord0 !mxE !big_ord_recl !big_ord0.
have -> : lift ord0 ord0 = 1 :> 'I_2 by exact: val_inj.
rewrite (_ : ord0 = 0) // s !addr0.
have -> : S 0 0 * ((w 0 0 * S 0 0 + w 0 1 * S 0 1) * w 0 0 + (w 0 0 * S 0 1 + w 0 1 * S 1 1) * w 0 1)
  = (S 0 0 * w 0 0 + S 0 1 * w 0 1) ^+ 2 + (S 0 0 * S 1 1 - S 0 1 ^+ 2) * w 0 1 ^+ 2 by ring.
by rewrite addr_ge0 ?sqr_ge0 // mulr_ge0 ?sqr_ge0 // ltW.
Qed.

Lemma posdef2_sym (S : 'M[T]_2) : posdef2 S -> S^T = S.
Proof. by case=> s _ _; apply: mx2P; rewrite !mxE. Qed.

Lemma eigenvalues_ge0 (S : 'M[T]_2) : posdef2 S -> [forall k, 0 <= (eigh S).1 0 k].
Proof.
move=> pS; have [o e] := eighP (posdef2_sym pS); apply/forallP => k.
have := posdef2_quad (row k (eigh S).2^T) pS; set V := (eigh S).2 in o e *.
have -> : (row k V^T *m S *m (row k V^T)^T) 0 0 = (V^T *m S *m V) k k.
  by rewrite -row_mul [LHS]mxE [RHS]mxE; apply: eq_bigr => j _; rewrite mxE [in RHS]mxE !mxE.
by rewrite {1}e !mulmxA o mul1mx -mulmxA o mulmx1 mxE eqxx.
Qed.

Lemma shape_sq (S : 'M[T]_2) : posdef2 S ->
  (ellipse_shape eigh S)^T = ellipse_shape eigh S /\ ellipse_shape eigh S *m ellipse_shape eigh S = S.
Proof.
move=> pS; have [o e] := eighP (posdef2_sym pS); have /forallP p0 := eigenvalues_ge0 pS.
rewrite /ellipse_shape; set V := (eigh S).2 in o e *; set D := (eigh S).1 in e p0 *; split.
  by rewrite !trmx_mul trmxK tr_diag_mx mulmxA.
rewrite [RHS]e -!mulmxA; congr (V *m _); rewrite [V^T *m (V *m _)]mulmxA o mul1mx mulmxA; congr (_ *m V^T).
rewrite mulmx_diag; congr diag_mx; apply/rowP => k; rewrite !mxE -expr2 sqr_sqrtr //; exact: p0.
Qed.

Lemma shape_entries (S : 'M[T]_2) : posdef2 S -> exists s t u : T,
  [/\ ellipse_shape eigh S = mx2 s t t u, S 0 0 = s ^+ 2 + t ^+ 2, S 0 1 = t * (s + u),
      S 1 1 = t ^+ 2 + u ^+ 2 & s * u - t ^+ 2 != 0].
Proof.
move=> pS; have [sy sq] := shape_sq pS; case: pS => s10 a0 d0.
have [s [t [u e]]] : exists s t u, ellipse_shape eigh S = mx2 s t t u.
  exists (ellipse_shape eigh S 0 0), (ellipse_shape eigh S 0 1), (ellipse_shape eigh S 1 1).
  rewrite [LHS]mx2E; congr mx2; by rewrite -{1}sy mxE.
exists s, t, u; move: sq; rewrite e.
rewrite mx2M => sq; have h00 : S 0 0 = s ^+ 2 + t ^+ 2 by rewrite -sq mxE /= !expr2.
have h01 : S 0 1 = t * (s + u) by rewrite -sq mxE /=; ring.
have h11 : S 1 1 = t ^+ 2 + u ^+ 2 by rewrite -sq mxE /= !expr2.
split=> //; apply/negP => /eqP z; move: d0; rewrite h00 h01 h11.
have -> : (s ^+ 2 + t ^+ 2) * (t ^+ 2 + u ^+ 2) - (t * (s + u)) ^+ 2 = (s * u - t ^+ 2) ^+ 2 by ring.
by rewrite z expr0n ltxx.
Qed.

Definition vertex (S : 'M[T]_2) (c : 'rV[T]_2) (quantile : T) (a : T * T) : T * T :=
  let radius := Num.sqrt (chi2_ppf quantile 2) in let shape := ellipse_shape eigh S in
  ((radius * a.1) * shape 0 0 + (radius * a.2) * shape 1 0 + c 0 0,
   (radius * a.1) * shape 0 1 + (radius * a.2) * shape 1 1 + c 0 1).

Lemma draw_ellipseE angles (S : 'M[T]_2) c quantile : posdef2 S ->
  draw_ellipse chi2_ppf eigh angles S c quantile
  = [seq (Fin (vertex S c quantile a).1, Fin (vertex S c quantile a).2) | a : T * T <- angles].
Proof. by move=> pS; rewrite /draw_ellipse eigenvalues_ge0. Qed.

Lemma vertex_on (S : 'M[T]_2) c quantile (a : T * T) : posdef2 S -> 0 <= chi2_ppf quantile 2 ->
  a.1 ^+ 2 + a.2 ^+ 2 = 1 ->
  on_ellipse S c (chi2_ppf quantile 2) (vertex S c quantile a).1 (vertex S c quantile a).2.
Proof.
move=> pS r0 a1; have [s [t [u [e h00 h01 h11 _]]]] := shape_entries pS.
set r := Num.sqrt (chi2_ppf quantile 2).
have rr : chi2_ppf quantile 2 = r ^+ 2 * (a.1 ^+ 2 + a.2 ^+ 2) by rewrite a1 mulr1 sqr_sqrtr.
rewrite /on_ellipse /ell /vertex -/r rr e !mxE /= h00 h01 h11 !addrK; clearbody r; ring.
Qed.

Lemma vertex_onto (S : 'M[T]_2) c quantile (x y : T) : posdef2 S -> 0 < chi2_ppf quantile 2 ->
  on_ellipse S c (chi2_ppf quantile 2) x y ->
  exists a : T * T, a.1 ^+ 2 + a.2 ^+ 2 = 1 /\ vertex S c quantile a = (x, y).
Proof.
move=> pS r0 on; have [s [t [u [e h00 h01 h11 d0]]]] := shape_entries pS.
set r := Num.sqrt (chi2_ppf quantile 2); have rp : 0 < r by rewrite sqrtr_gt0.
have rn : r != 0 by rewrite gt_eqF.
have rr : chi2_ppf quantile 2 = r ^+ 2 by rewrite sqr_sqrtr // ltW.
move: on; rewrite /on_ellipse /ell h00 h01 h11 rr; set X := x - c 0 0; set Y := y - c 0 1 => on.
exists (((X * u - Y * t) / ((s * u - t ^+ 2) * r)), ((Y * s - X * t) / ((s * u - t ^+ 2) * r))).
have dn : (s * u - t ^+ 2) * r != 0 by rewrite mulf_neq0.
split=> /=.
  rewrite !expr_div_n -mulrDl.
  have -> : (X * u - Y * t) ^+ 2 + (Y * s - X * t) ^+ 2 = ((s * u - t ^+ 2) * r) ^+ 2.
    transitivity ((t ^+ 2 + u ^+ 2) * X ^+ 2 - 2%:R * (t * (s + u)) * X * Y + (s ^+ 2 + t ^+ 2) * Y ^+ 2); first by ring.
    rewrite on; ring.
  by rewrite divff // expf_neq0.
rewrite /vertex -/r e !mxE /=; congr pair.
  transitivity (X + c 0 0); last by rewrite subrK.
  congr (_ + _); clear on; clearbody X Y r; field; by rewrite rn d0.
transitivity (Y + c 0 1); last by rewrite subrK.
congr (_ + _); clear on; clearbody X Y r; field; by rewrite rn d0.
Qed.

End Proofs.

Section Figure.
Variables (T : rcfType) (name : Type) (chi2_ppf : T -> nat -> T).
Variable eigh : 'M[T]_2 -> 'rV[T]_2 * 'M[T]_2.
Variable wrap_calc : seq (xnum T) -> res (xnum T * xnum T).
Variables (n p : nat).
Notation num := (xnum T).

Definition is_text (t : item T name) : bool := if t is Text _ _ _ then true else false.

Lemma bind_okP A B (x : res A) (f : A -> res B) b : bind x f = Ok b -> exists2 a, x = Ok a & f a = Ok b.
Proof. by case: x => //= a h; exists a. Qed.

Lemma column_size (A : 'M[num]_(n, p)) j : size (column A j) = n.
Proof. by rewrite size_map size_enum_ord. Qed.

(* the panels for two annotation cutoffs differ in the annotation thresholds only *)
Lemma make_panel_cutoff angles q c ca cb (f : fitted T n p) pt j w pa pb :
  make_panel name chi2_ppf eigh wrap_calc angles q c ca f pt j w = Ok pa ->
  make_panel name chi2_ppf eigh wrap_calc angles q c cb f pt j w = Ok pb ->
  [/\ pa.1.1.1.1.1 = pb.1.1.1.1.1, pa.1.1.1.1.2 = pb.1.1.1.1.2, pa.1.1.1.2 = pb.1.1.1.2,
      pa.1.1.2 = pb.1.1.2 & pa.2 = pb.2].
Proof.
rewrite /make_panel; case: pt.
- move=> /(@bind_okP _ _ _ _ _)[i -> /=].
  move=> [<-].
  move=> [<-]; split; exact: erefl.
- by move=> /(@bind_okP _ _ _ _ _)[i -> /= /(@bind_okP _ _ _ _ _)[v -> /= /(@bind_okP _ _ _ _ _)[va _ /= [<-]]]] /(@bind_okP _ _ _ _ _)[vb _ /= [<-]].
- by move=> /(@bind_okP _ _ _ _ _)[i -> /= /(@bind_okP _ _ _ _ _)[v -> /= /(@bind_okP _ _ _ _ _)[va _ /= [<-]]]] /(@bind_okP _ _ _ _ _)[vb _ /= [<-]].
- move=> /(@bind_okP _ _ _ _ _)[i -> /= /(@bind_okP _ _ _ _ _)[h -> /= /(@bind_okP _ _ _ _ _)[v -> /= /(@bind_okP _ _ _ _ _)[ha _ /= /(@bind_okP _ _ _ _ _)[va _ /=]]]]].
  case: (column _ _) => [//|x0 xs] [<-] /= /(@bind_okP _ _ _ _ _)[hb _ /= /(@bind_okP _ _ _ _ _)[vb _ /= [<-]]]; split; exact: erefl.
- by case: w => [w|//] /(@bind_okP _ _ _ _ _)[i -> /= /(@bind_okP _ _ _ _ _)[k -> /= /(@bind_okP _ _ _ _ _)[h -> /= /(@bind_okP _ _ _ _ _)[v -> /= [<-]]]]] [<-].
- by [].
Qed.

Lemma all_annote_loop (names : seq name) h v i qs ts : annote_loop names h v i qs = Ok ts -> all is_text ts.
Proof.
elim: qs i ts => [|q qs IH] i ts /=; first by case=> <-.
move=> /(@bind_okP _ _ _ _ _)[o ho /(@bind_okP _ _ _ _ _)[r /IH hr [<-]]].
case: o ho => [t|//] ho; rewrite /= hr andbT; move: ho.
rewrite /annote_one; clear; case: h => [th|//] /=; case: (_ || _) => //; by case: (drop _ _) => // a l [<-].
Qed.

Lemma all_annotate (names : seq name) qa (f : fitted T n p) pt j w (pn : panel T name) ts :
  annotate chi2_ppf names qa f pt j w pn = Ok ts -> all is_text ts.
Proof.
case: pn => [[[[[x y] h] v] ann] pre]; rewrite /annotate; case: pt.
1-4,6: by case: ann => [t|//]; exact: all_annote_loop.
case: w => [w|//] /(@bind_okP _ _ _ _ _)[i _ /(@bind_okP _ _ _ _ _)[k _ /(@bind_okP _ _ _ _ _)[m _ /(@bind_okP _ _ _ _ _)[ns _ [<-]]]]].
by elim: (zip _ _).
Qed.

End Figure.
