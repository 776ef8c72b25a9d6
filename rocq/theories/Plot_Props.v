(* Properties of the cellwise MCD plots. *)
From mathcomp Require Import all_ssreflect all_algebra.
From mathcomp.zify Require Import zify.
From mathcomp.algebra_tactics Require Import ring.
From Verif Require Import RFieldLra Prelude Stats Xnum Vec Qn_Model UMcd_Model UMcd_Props Tau_Model Tau_Props LinAlg_Model LinAlg_Proofs.
From Verif Require Import Fit_Model Eig2_Proofs Cov_Spec Cov_Props Plot_Model Plot_Spec Plot_Proofs.

Set Implicit Arguments.
Unset Strict Implicit.
Unset Printing Implicit Defensive.

Import Order.TTheory GRing.Theory Num.Theory.
Local Open Scope ring_scope.

Section Annotation.
Variables (T : rcfType) (name : Type).
Notation num := (xnum T).
Implicit Types (names : seq name) (x y : seq num).

Definition fins (t : T * T) : num * num := (Fin t.1, Fin t.2).

(* C88: the texts are those of the points whose y is outside the horizontal thresholds or whose x
   is outside the vertical ones (when given), at the points and with their names, in data order *)
Theorem annotated_iff_outside names (a0 : name) x y (h : T * T) (v : option (T * T)) :
  size x = size y -> (size x <= size names)%N ->
  exists I, exactly (size x) (fun k => beyond h.1 h.2 (nth NaN y k)
      \/ (if v is Some t then beyond t.1 t.2 (nth NaN x k) else False)) I
  /\ annote_outliers names x y (Some (fins h)) (omap fins v)
     = Ok [seq Text (nth NaN x k) (nth NaN y k) (nth a0 names k) | k <- I].
Proof.
move=> sxy sn; have sz : size (zip x y) = size x by rewrite size_zip -sxy minnn.
have e k : nth (NaN, NaN) (zip x y) k = (nth NaN x k, nth NaN y k) by rewrite nth_zip.
exists [seq k <- iota 0 (size x) | hit (fins h) (omap fins v) (nth (NaN, NaN) (zip x y) k)]; split.
  apply: exactly_filter => k _; rewrite e /hit /=; split=> [/orP[]|[]].
  - by move/outsideP; left.
  - by case: v => //= t /outsideP; right.
  - by move/outsideP => ->.
  - by case: v => //= t /outsideP ->; rewrite orbT.
rewrite /annote_outliers (@annote_loopE _ _ _ _ _ (NaN, NaN) a0) ?sz => [|k ks _]; last first.
  by rewrite add0n; exact: leq_trans sn.
by congr Ok; apply: eq_map => k; rewrite e add0n.
Qed.

(* a point is never annotated through a coordinate that is NaN, hence not when both are *)
Theorem annote_nan_coordinates (h : T * T) (v : option (T * T)) names x y I (a0 : name) :
  size x = size y -> (size x <= size names)%N ->
  annote_outliers names x y (Some (fins h)) (omap fins v)
    = Ok [seq Text (nth NaN x k) (nth NaN y k) (nth a0 names k) | k <- I] ->
  all (fun t => if t is Text a b _ then ~~ (is_nan a && is_nan b) else false)
      [seq Text (nth NaN x k) (nth NaN y k) (nth a0 names k) | k <- I].
Proof.
move=> sxy sn; have [J [[_ hJ] ->]] := annotated_iff_outside a0 h v sxy sn => [[<-]].
rewrite all_map; apply/allP => k /hJ[_]; case=> [|] /=.
  by case: (nth NaN y k) / => *; rewrite andbF.
by case: v {hJ} => // t; case: (nth NaN x k) /.
Qed.

(* C88, refuted part: a missing coordinate does not prevent the annotation; here y is missing and
   x is outside the vertical thresholds *)
Theorem annote_nan_refuted (a : name) : exists names x y (h v : num * num) t,
  annote_outliers names x y (Some h) (Some v) = Ok [:: t] /\ (if t is Text _ b _ then is_nan b else false).
Proof.
exists [:: a; a], [:: Fin 0; Fin 9%:R], [:: Fin 0; NaN], (Fin (- 3%:R), Fin 3%:R), (Fin (- 3%:R), Fin 3%:R).
exists (Text (Fin 9%:R) NaN a); split=> //; rewrite /annote_outliers /= /annote_one /outside /=.
have -> : ((0 : T) < - 3%:R) = false by apply/negP => h0; flra.
have -> : ((3%:R : T) < 0) = false by apply/negP => h0; flra.
have -> : ((9%:R : T) < - 3%:R) = false by apply/negP => h0; flra.
by have -> : ((3%:R : T) < 9%:R) by flra.
Qed.

(* the horizontal thresholds are declared optional, but leaving them out raises TypeError *)
Theorem annote_default_thresholds names x y v : (0 < size x)%N -> (0 < size y)%N ->
  annote_outliers names x y None v = Err TypeError.
Proof. by case: x => // a x; case: y. Qed.

(* a list of names that ends before an outlying point raises IndexError *)
Theorem annote_short_names names x y (h : T * T) (v : option (T * T)) k :
  size x = size y -> (k < size x)%N -> (size names <= k)%N ->
  beyond h.1 h.2 (nth NaN y k) \/ (if v is Some t then beyond t.1 t.2 (nth NaN x k) else False) ->
  annote_outliers names x y (Some (fins h)) (omap fins v) = Err IndexError.
Proof.
move=> sxy ks nk hb; apply: (@annote_loop_short _ _ _ _ _ (NaN, NaN) _ _ k) => //.
  by rewrite size_zip -sxy minnn.
rewrite nth_zip //= /hit /=; case: hb => [/outsideP -> //|].
by case: v => //= t /outsideP ->; rewrite orbT.
Qed.

End Annotation.

Example annote_case (T : rcfType) :
  annote_outliers [:: 10; 11; 12; 13]%N [:: Fin 1; Fin 2%:R; Fin 3%:R; PInf] [:: Fin (5%:R : T); Fin 0; Fin (- 4%:R); NaN]
    (Some (fins (- 3%:R, 3%:R))) (Some (fins (0, 4%:R)))
  = Ok [:: Text (Fin 1) (Fin 5%:R) 10%N; Text (Fin 3%:R) (Fin (- 4%:R)) 12%N; Text PInf NaN 13%N].
Proof.
rewrite /annote_outliers /= /annote_one /outside /=.
have -> : ((5%:R : T) < - 3%:R) = false by apply/negP => h0; flra.
have -> : ((3%:R : T) < 5%:R) by flra.
have -> : ((0 : T) < - 3%:R) = false by apply/negP => h0; flra.
have -> : ((3%:R : T) < 0) = false by apply/negP => h0; flra.
have -> : ((2%:R : T) < 0) = false by apply/negP => h0; flra.
have -> : ((4%:R : T) < 2%:R) = false by apply/negP => h0; flra.
by have -> : ((- 4%:R : T) < - 3%:R) by flra.
Qed.

Print Assumptions annotated_iff_outside.
Print Assumptions annote_nan_coordinates.
Print Assumptions annote_nan_refuted.
Print Assumptions annote_default_thresholds.
Print Assumptions annote_short_names.

Section Thresholds.
Variable T : rcfType.
Notation num := (xnum T).
Variable wrap_calc : seq num -> res (num * num).

(* C88: the thresholds are location -/+ cutoff * scale of the observed values, so their midpoint is
   the robust location *)
Theorem thresholds_symmetric (c : T) (x : seq num) (l s : T) :
  wrap_calc [seq z <- x | ~~ is_nan z] = Ok (Fin l, Fin s) ->
  exists lo hi, [/\ get_thresholds wrap_calc c x = Ok (Fin lo, Fin hi), (lo + hi) / 2%:R = l
                  & hi - lo = 2%:R * (c * s)].
Proof.
move=> h; exists (l - c * s), (l + c * s); split; last by ring.
  rewrite /get_thresholds /rs_fit /=; case: ifP => hn; first by rewrite h.
  suff -> : x = [seq z <- x | ~~ is_nan z] by rewrite h.
  by symmetry; apply/all_filterP; rewrite all_predC hn.
by field.
Qed.

(* missing cells do not matter *)
Theorem thresholds_ignore_nan (c : T) (x : seq num) :
  get_thresholds wrap_calc c x = get_thresholds wrap_calc c [seq z <- x | ~~ is_nan z].
Proof.
rewrite /get_thresholds /rs_fit /=.
have -> : has (@is_nan T) [seq z <- x | ~~ is_nan z] = false.
  by apply/negbTE; rewrite -all_predC; exact: filter_all.
case: ifP => // hn; suff -> : [seq z <- x | ~~ is_nan z] = x by [].
by apply/all_filterP; rewrite all_predC hn.
Qed.

Lemma thresholdsE (c : T) (x : seq num) l s : ~~ has (@is_nan T) x -> wrap_calc x = Ok (l, s) ->
  get_thresholds wrap_calc c x = Ok (xsub l (xmul (Fin c) s), xadd l (xmul (Fin c) s)).
Proof. by move=> /negbTE hn e; rewrite /get_thresholds /rs_fit /= hn e. Qed.

(* a scale estimate that fails makes the plot fail in the same way *)
Theorem thresholds_error (c : T) (x : seq num) e :
  wrap_calc [seq z <- x | ~~ is_nan z] = Err e -> get_thresholds wrap_calc c x = Err e.
Proof.
by move=> h; rewrite thresholds_ignore_nan /get_thresholds /rs_fit /=; case: ifP => _; rewrite ?filter_id h.
Qed.

End Thresholds.

Section RealThresholds.
Variables (T : rcfType) (tanh : T -> T) (craw crew : nat -> nat -> T) (q : T).

(* OneStepWrapping on finite values *)
Definition wrapping (xs : seq (xnum T)) : res (xnum T * xnum T) :=
  Ok (onestep_wrapping tanh craw crew q (pmap (fun z => if z is Fin v then Some v else None) xs)).

(* when more than half of the observed values coincide, both thresholds are NaN and no value is
   outside them *)
Theorem thresholds_exact_fit_nan (c : T) (s : seq T) v (k : nat) z :
  (2 < size s)%N -> (size s %/ 2 < count_mem v s)%N ->
  get_thresholds wrapping c ([seq Fin x | x <- s] ++ nseq k NaN) = Ok (NaN, NaN)
  /\ outside ((NaN, NaN) : xnum T * xnum T) z = false.
Proof.
move=> h2 hc; split; last by rewrite /outside; case: z.
rewrite thresholds_ignore_nan filter_cat.
have -> : [seq z <- [seq Fin x | x <- s] | ~~ is_nan z] = [seq Fin x | x <- s].
  by apply/all_filterP; rewrite all_map; apply/allP.
have -> : [seq z <- nseq k (NaN : xnum T) | ~~ is_nan z] = [::] by elim: k.
rewrite cats0 (@thresholdsE _ _ _ _ NaN NaN) //; first by elim: s {h2 hc}.
rewrite /wrapping.
have -> : pmap (fun z => if z is Fin v then Some v else None) [seq Fin x | x <- s] = s.
  by elim: s {h2 hc} => //= a s ->.
by rewrite (wrapping_exact_fit_nan tanh craw crew q h2 hc).
Qed.

End RealThresholds.

Example thresholds_case (T : rcfType) :
  get_thresholds (fun s => Ok (Fin (5%:R : T), Fin (size s)%:R)) 3%:R [:: Fin 4%:R; NaN; Fin 6%:R]
  = Ok (Fin (- 1), Fin 11%:R).
Proof. by rewrite /get_thresholds /=; congr (Ok (Fin _, Fin _)); ring. Qed.

Print Assumptions thresholds_symmetric.
Print Assumptions thresholds_ignore_nan.
Print Assumptions thresholds_error.
Print Assumptions thresholds_exact_fit_nan.

Section Ellipse.
Variables (T : rcfType) (name : Type) (chi2_ppf : T -> nat -> T).
Variable eigh : 'M[T]_2 -> 'rV[T]_2 * 'M[T]_2.
Hypothesis eighP : correct_eigh eigh.
Notation num := (xnum T).

(* C87: every vertex of the drawn curve is on the tolerance ellipse *)
Theorem drawn_on_ellipse angles (S : 'M[T]_2) (c : 'rV[T]_2) quantile :
  posdef2 S -> 0 <= chi2_ppf quantile 2 -> {in angles, forall a : T * T, a.1 ^+ 2 + a.2 ^+ 2 = 1} ->
  exists pts : seq (T * T),
    [/\ draw_ellipse chi2_ppf eigh angles S c quantile = [seq (Fin z.1, Fin z.2) | z : T * T <- pts],
        size pts = size angles
      & {in pts, forall z : T * T, on_ellipse S c (chi2_ppf quantile 2) z.1 z.2}].
Proof.
move=> pS r0 ha; exists [seq vertex chi2_ppf eigh S c quantile a | a <- angles]; split.
- by rewrite draw_ellipseE // -map_comp.
- by rewrite size_map.
by move=> z /mapP[a /ha a1 ->]; exact: vertex_on.
Qed.

(* C87: every point of the tolerance ellipse is the vertex of some direction *)
Theorem ellipse_is_drawn (S : 'M[T]_2) (c : 'rV[T]_2) quantile (x y : T) :
  posdef2 S -> 0 < chi2_ppf quantile 2 -> on_ellipse S c (chi2_ppf quantile 2) x y ->
  exists a : T * T, a.1 ^+ 2 + a.2 ^+ 2 = 1
    /\ draw_ellipse chi2_ppf eigh [:: a] S c quantile = [:: (Fin x, Fin y)].
Proof.
move=> pS r0 on; have [a [a1 e]] := vertex_onto eighP pS r0 on.
by exists a; split=> //; rewrite draw_ellipseE // [LHS]/map e.
Qed.

(* C87: the texts are those of the points strictly outside the ellipse of the given quantile; a
   point with a missing coordinate has none *)
Theorem annotated_iff_outside_ellipse (names : seq name) (a0 : name) (x y : seq num) (S : 'M[T]_2) (c : 'rV[T]_2) quantile :
  posdef2 S -> 0 <= chi2_ppf quantile 2 -> size x = size y -> (size x <= size names)%N ->
  (forall k, (k < size x)%N -> (nth NaN x k = NaN \/ exists u, nth NaN x k = Fin u)
                          /\ (nth NaN y k = NaN \/ exists u, nth NaN y k = Fin u)) ->
  exists I, exactly (size x) (fun k => exists u v, [/\ nth NaN x k = Fin u, nth NaN y k = Fin v
                                    & out_ellipse S c (chi2_ppf quantile 2) u v]) I
  /\ annote_outliers_ellipse chi2_ppf names c S x y quantile
     = Ok [seq Text (nth NaN x k) (nth NaN y k) (nth a0 names k) | k <- I].
Proof.
move=> pS r0 sxy sn fin; have sz : size (zip x y) = size x by rewrite size_zip -sxy minnn.
have [uS _] := inv2 pS.
pose b k := xlt (Fin (Num.sqrt (chi2_ppf quantile 2))) (maha2 (invmx S) c (nth (NaN, NaN) (zip x y) k)).
exists [seq k <- iota 0 (size x) | b k]; split.
  apply: exactly_filter => k ks; rewrite /b nth_zip //=; case: (fin k ks) => [[->|[u ->]] [->|[v ->]]].
  - by rewrite maha2_nan //; split=> // -[? [? []]].
  - by rewrite maha2_nan //; split=> // -[? [? []]].
  - by rewrite maha2_nan //; split=> // -[? [? []]].
  rewrite maha2_out //; split=> [h|[? [? [[<-] [<-]]]] //]; by exists u, v.
rewrite (@ellipse_textsE _ _ _ _ a0 (NaN, NaN)) //; last first.
  by move=> k; rewrite mem_filter mem_iota sz add0n => /andP[_ /andP[_ ks]]; exact: leq_trans sn.
by congr Ok; rewrite sz; apply: eq_map => k; rewrite nth_zip.
Qed.

(* a singular covariance block cannot be annotated *)
Theorem ellipse_singular (names : seq name) (x y : seq num) (S : 'M[T]_2) (c : 'rV[T]_2) quantile :
  \det S = 0 -> annote_outliers_ellipse chi2_ppf names c S x y quantile = Err LinAlgError.
Proof.
by move=> d0; rewrite /annote_outliers_ellipse /ellipse_mask /np_inv unitmxE d0 unitr0.
Qed.

End Ellipse.

Section EllipseCases.
Variable T : rcfType.

(* variances 4 and 1, squared radius 1: the four extreme points of the ellipse around (1, 0) *)
Definition s41 : 'M[T]_2 := mx2 4%:R 0 0 1.

Lemma s41_pos : posdef2 s41.
Proof. by split; rewrite !mxE //= ?ltr0n // expr0n subr0 mulr1 ltr0n. Qed.

Example ellipse_case : let c : 'rV[T]_2 := \row_j (j == 0)%:R in
  [/\ on_ellipse s41 c 1 3%:R 0, on_ellipse s41 c 1 1 1, out_ellipse s41 c 1 3%:R 1
    & ~ out_ellipse s41 c 1 2%:R (1 / 2%:R)].
Proof.
move=> c; rewrite /on_ellipse /out_ellipse /ell !mxE /= !(mulr0, mul0r, subr0, addr0, mulr1, expr0n) /=.
split; rewrite ?subrr; try ring; last (move=> h; have h2 : (4%:R : T) < (2%:R - 1) ^+ 2 + 4%:R * (1 / 2%:R) ^+ 2 by move: h; rewrite ?subr0 ?mul1r).
  have -> : (1 * (3%:R - 1) ^+ 2 + 4%:R * 1 ^+ 2 : T) = 8%:R by ring.
  by rewrite mul1r ltr_nat.
have e : (2%:R - 1) ^+ 2 + 4%:R * (1 / 2%:R) ^+ 2 = 2%:R :> T by field.
by move: h2; rewrite e ltr_nat.
Qed.

Example ellipse_drawn_case : exists a : T * T, a.1 ^+ 2 + a.2 ^+ 2 = 1
  /\ draw_ellipse (fun _ _ => 1) (@eigh2 T) [:: a] s41 (\row_j (j == 0)%:R) 0 = [:: (Fin 3%:R, Fin 0)].
Proof.
apply: (ellipse_is_drawn (@eigh2_correct T) s41_pos); first exact: ltr01.
by have [h _ _ _] := ellipse_case.
Qed.

Example ellipse_annotated_case : exists I,
  exactly 3 (fun k => k = 1%N) I /\
  annote_outliers_ellipse (fun _ _ => 1) [:: 5; 6; 7]%N (\row_j (j == 0)%:R) s41
    [:: Fin 2%:R; Fin (3%:R : T); NaN] [:: Fin (1 / 2%:R); Fin 1; Fin 9%:R] 0
  = Ok [seq Text (nth NaN [:: Fin 2%:R; Fin (3%:R : T); NaN] k) (nth NaN [:: Fin (1 / 2%:R); Fin 1; Fin 9%:R] k)
             (nth 0%N [:: 5; 6; 7]%N k) | k <- I].
Proof.
have := @annotated_iff_outside_ellipse T nat (fun _ _ => 1) [:: 5; 6; 7]%N 0%N
  [:: Fin 2%:R; Fin (3%:R : T); NaN] [:: Fin (1 / 2%:R); Fin 1; Fin 9%:R] s41 (\row_j (j == 0)%:R) 0 s41_pos ler01 erefl erefl.
case=> [[|[|[|//]]] _|I [[sI hI] ->]].
- by split; right; eexists.
- by split; right; eexists.
- by split; [left|right; eexists].
exists I; split=> //; split=> // k; have [_ _ o1 o2] := ellipse_case; split.
  case/hI => k3 [u [v [eu ev ho]]]; split=> //; case: k k3 eu ev ho => [|[|[|//]]] _ //= [<-] [<-] //.
by case=> _ ->; apply/hI; split=> //; exists 3%:R, 1.
Qed.

End EllipseCases.

Print Assumptions drawn_on_ellipse.
Print Assumptions ellipse_is_drawn.
Print Assumptions annotated_iff_outside_ellipse.
Print Assumptions ellipse_singular.
