(* Property theorems: the outlier map of a robust regression (C131-C137). *)
From mathcomp Require Import all_ssreflect all_algebra.
From mathcomp.zify Require Import zify.
From mathcomp.algebra_tactics Require Import ring.
From Verif Require Import RFieldLra Prelude Stats Xnum Regr Vec PSD LinAlg_Model LinAlg_Proofs LinAlg_Props
  MCD_Model MCD_Spec MCD_Proofs MCDRun_Proofs MCDEquiv_Proofs MCD_Props MCDCase_Proofs OGK_Proofs Cov_Model SPCA_Proofs
  RegMap_Model RegMap_Proofs.

Set Implicit Arguments.
Unset Strict Implicit.
Unset Printing Implicit Defensive.

Import Order.TTheory GRing.Theory Num.Theory.
Local Open Scope ring_scope.

Section Props.
Variables (T : rcfType) (p : nat) (q75 : T).
Variable argsort : seq (xnum T) -> seq nat.
Variables (chi2_ppf : T -> nat -> T) (gamma_cdf : T -> T -> T).
Variables (G : Type) (choice : G -> nat -> nat -> seq nat * G) (choice1 : G -> seq nat -> nat * G).
Variable pinvh : 'M[T]_p -> 'M[T]_p.
Implicit Types (X : seq 'rV[T]_p) (y r f : seq T).

Let omap predict :=
  @outlier_map T p q75 argsort chi2_ppf gamma_cdf G choice choice1 pinvh predict.

(* C131: the standardised residuals are multiples of the residuals, with normalised MAD (standard
   deviation) one *)
Theorem standardized_unit_scale r : 0 < q75 ->
  (fmad r != 0 -> exists2 sigma, 0 < sigma & standardized q75 true r = [seq Fin (e / sigma) | e <- r] /\
     fmad [seq e / sigma | e <- r] = q75) /\
  (~ (exists v, forall e, e \in r -> e = v) ->
     exists2 sigma, 0 < sigma & standardized q75 false r = [seq Fin (e / sigma) | e <- r] /\
     \sum_(e <- r) (e / sigma - (\sum_(u <- r) u / sigma) / (size r)%:R) ^+ 2 = (size r)%:R).
Proof.
move=> q0.
have std b : 0 < residual_scale q75 b r ->
    standardized q75 b r = [seq Fin (e / residual_scale q75 b r) | e <- r].
  by move=> h; apply: eq_map => e /=; rewrite gt_eqF.
have mulE (c : T) : [seq e / c | e <- r] = [seq c^-1 * e + 0 | e <- r].
  by apply: eq_map => e; rewrite addr0 mulrC.
split=> [m0|nc].
  have mp : 0 < fmad r by rewrite lt_def m0 fmad_ge0.
  have sp : 0 < residual_scale q75 true r by rewrite divr_gt0.
  have h0 : (0 < size r)%N by case: (r) m0 => //; rewrite /fmad /fmed /fsort /= addr0 mul0r eqxx.
  exists (residual_scale q75 true r) => //; split; first exact: std.
  by rewrite mulE fmad_affine // gtr0_norm ?invr_gt0 // /= invf_div mulfVK // gt_eqF.
have h0 : (0 < size r)%N by case: (r) nc => // -[]; exists 0.
have vp : 0 < fvar r.
  rewrite lt_def fvar_ge0 andbT fvar_eq0 //; apply/allP => h; apply: nc; exists (fmean r) => e /h /eqP //.
have sp : 0 < residual_scale q75 false r by rewrite sqrtr_gt0.
exists (residual_scale q75 false r) => //; split; first exact: std.
set c := residual_scale q75 false r; have hs : (0 < size [seq e / c | e <- r])%N by rewrite size_map.
have := fvarM hs; rewrite fsumE big_map big_map /fmean fsumE big_map size_map => <-.
rewrite mulE fvar_affine exprVn sqr_sqrtr ?fvar_ge0 // mulVf ?mul1r // gt_eqF //.
Qed.

(* C132: a zero scale *)
Theorem standardized_exact_fit r v :
  ((size r < 2 * count_mem v r)%N -> standardized q75 true r =
     [seq if 0 < e then PInf else if e < 0 then NInf else NaN | e <- r]) /\
  ((forall e, e \in r -> e = v) -> standardized q75 false r =
     [seq if 0 < e then PInf else if e < 0 then NInf else NaN | e <- r]).
Proof.
split=> h; apply: eq_map => e /=.
  have h0 : (0 < size r)%N by case: (r) h.
  have -> : fmad r = 0.
    apply/eqP; rewrite eq_le fmad_ge0 andbT.
    have := @fmad_majority T r v v h0; rewrite subrr; apply.
    by rewrite (eq_count (a2 := pred1 v)) // => x /=; rewrite eq_le andbC.
  by rewrite mul0r eqxx.
suff -> : fvar r = 0 by rewrite sqrtr0 eqxx.
case: (posnP (size r)) => [/size0nil ->|h0]; first by rewrite /fvar /fmean /= mul0r.
apply/eqP; rewrite fvar_eq0 //; apply/allP => x xr; rewrite (h x xr).
have hl z : z \in r -> v <= z <= v by move=> /h ->; rewrite lexx.
have /andP[h1 h2] := fmean_between h0 hl.
by rewrite eq_le h1 h2.
Qed.

(* C133: without robust scaling and robust distances small samples show no outliers *)
Theorem classical_map_masks r X :
  (\sum_(e <- r) e = 0 -> forall v, 0 <= v -> (size r)%:R - 1 <= v ^+ 2 ->
     forall i, ~~ xlt (Fin v) (xabs (nth NaN (standardized q75 false r) i))) /\
  (forall d, classical_distances X (vmean X) = Ok d ->
     forall q, ((size X)%:R - 1) ^+ 2 <= q * (size X)%:R -> forall i, ~~ xlt (np_sqrt q) (nth NaN d i)).
Proof.
have xn w : ~~ xlt w (@NaN T) by case: w.
split=> [s0 v v0 hv i|d].
  have [hi|hi] := leqP (size r) i; first by rewrite nth_default ?size_map // xn.
  rewrite (nth_map 0) //; set e := nth 0 r i; have er : e \in r := mem_nth 0 hi; rewrite /=.
  have h0 : (0 < size r)%N by case: (r) er.
  have m0 : fmean r = 0 by rewrite /fmean fsumE s0 mul0r.
  case: ifP => [/eqP z|/negbT nz].
    have : fvar r == 0 by rewrite eq_le fvar_ge0 andbT -sqrtr_eq0 z.
    by rewrite fvar_eq0 // => /allP/(_ e er)/eqP; rewrite m0 => ->; rewrite /inf_sign ltxx.
  rewrite /= -leNgt.
  have sp : 0 < Num.sqrt (fvar r) by rewrite lt_def nz sqrtr_ge0.
  rewrite normrM normfV (gtr0_norm sp) ler_pdivr_mulr // -(@ler_pexpn2r _ 2) ?nnegrE ?mulr_ge0 ?sqrtr_ge0 //.
  rewrite exprMn sqr_sqrtr ?fvar_ge0 // -normrX ger0_norm ?sqr_ge0 //.
  have := zscore_bound er; rewrite m0 subr0 => /le_trans -> //.
  by rewrite ler_wpmul2r // fvar_ge0.
rewrite /classical_distances; case: ifP => // _; case: leqP => [_ [<-] q _ i|h1].
  have [hi|hi] := leqP (size X) i; first by rewrite nth_default ?size_map // xn.
  by rewrite (nth_map 0) // xn.
rewrite /mahalanobis_distance /np_inv; case: ifP => // uC [<-] q hq i.
have [hi|hi] := leqP (size X) i; first by rewrite nth_default ?size_map // xn.
rewrite (nth_map 0) //; have xX := mem_nth 0 hi; set x := nth 0 X i in xX *.
have := classical_distance_bound h1 uC xX; set w := maha_sq _ _ _ => hw.
have n0 : 0 < (size X)%:R :> T by rewrite ltr0n; lia.
have wq : w <= q by rewrite -(ler_pmul2r n0) (le_trans hw).
rewrite /np_sqrt; case: ifP => q0; case: ifP => w0 //=.
by rewrite -leNgt ler_wsqrtr.
Qed.

(* C134: with robust scaling large residuals are shown, if the majority of the residuals is small *)
Theorem robust_map_shows r (lo hi v : T) i : 0 < q75 -> 0 <= v ->
  (size r < 2 * count (fun x => (lo <= x <= hi)%R) r)%N -> (i < size r)%N ->
  v * (hi - lo) < q75 * `|nth 0 r i| ->
  xlt (Fin v) (xabs (nth NaN (standardized q75 true r) i)).
Proof.
move=> q0 v0 hm ii; have h0 : (0 < size r)%N by lia.
rewrite (nth_map 0) //; set e := nth 0 r i => he.
have hM := fmad_majority h0 hm.
have sl : v * (fmad r / q75) < `|e|.
  rewrite mulrA ltr_pdivr_mulr // [X in _ < X]mulrC; apply: le_lt_trans he.
  by rewrite ler_wpmul2l.
rewrite /=; case: ifP => [/eqP z|nz].
  have : 0 < `|e| by rewrite (le_lt_trans _ sl) // z mulr0.
  rewrite normr_gt0 /inf_sign; by case: ltgtP.
have sp : 0 < fmad r / q75 by rewrite lt_def nz divr_ge0 ?fmad_ge0 // ltW.
by rewrite /= normrM normfV (gtr0_norm sp) ltr_pdivl_mulr.
Qed.

(* C136: shifts, rescaling of y and affine transformations of the regressors *)
Theorem outlier_map_equivariant predict predict' fuel g X y (A : 'M[T]_p) (b : 'rV[T]_p) (c : T) rs rd v pct v0 :
  is_xargsort argsort -> is_choice choice -> is_choice1 choice1 ->
  A \in unitmx -> X != [::] -> (0 < p)%N -> 0 < c ->
  let X' := [seq x *m A^T + b | x <- X] in
  (forall f, predict X = Ok f -> predict' X' = Ok [seq c * e | e <- f]) ->
  omap predict Array rs rd v pct true fuel.+1 g X y = Ok v0 ->
  exists d, v0.2 = Some d /\
    omap predict' Array rs rd v pct true fuel.+1 g X' [seq c * e | e <- y]
    = Ok (v0.1, Some (MapData [seq c * e | e <- d_residuals d] (d_standardized d) (d_distances d)
                        (d_vertical d) (d_leverage d))).
Proof.
move=> Has Hc Hc1 uA X0 p0 c0 X' hp; rewrite /omap /outlier_map.
case ef: (predict X) => [f|e|] //=; rewrite (hp _ ef) /= sub_columns_mul.
case er: (sub_columns y f) => [r|e|] //=; rewrite standardized_mul //.
case ed: (map_distances _ _ _ _ _ _ _ _ _ X) => [d|e|] //=.
have -> : map_distances argsort chi2_ppf gamma_cdf choice choice1 pinvh rd fuel.+1 g X' = Ok d.
  move: ed; rewrite /map_distances; case: rd.
    case em: (fit_mcd _ _ _ _ _ _ _ _ _) => [[l S0]|e|] //= hd.
    by rewrite (fit_mcd_t b uA Has Hc Hc1 p0 X0 em) /= maha_t.
  by rewrite /X' (vmean_t A b X0) classical_t.
rewrite /=; case: ifP => // _ [<-]; by eexists.
Qed.

(* C137: what is drawn and returned *)
Theorem outlier_map_contents predict rs rd v pct ret fuel g X y f d :
  predict X = Ok f -> size f = size y -> size X = size y ->
  map_distances argsort chi2_ppf gamma_cdf choice choice1 pinvh rd fuel g X = Ok d ->
  let r := [seq q.1 - q.2 | q <- zip y f] in
  let st := standardized q75 rs r in
  let lev := np_sqrt (chi2_ppf pct p) in
  omap predict Array rs rd v pct ret fuel g X y
  = Ok ([:: Points (zip d st); HLine v; HLine (- v); VLine lev],
        if ret then Some (MapData r st d v lev) else None).
Proof.
move=> ef sf sX ed; rewrite /omap /outlier_map ef /= /sub_columns sf eqxx /= ed /=.
suff -> : size d = size (standardized q75 rs [seq q.1 - q.2 | q <- zip y f]) by rewrite eqxx.
rewrite /standardized !size_map size_zip sf minnn -sX.
move: ed; rewrite /map_distances; case: rd => /=.
  case: (fit_mcd _ _ _ _ _ _ _ _ _) => [m|e|] //=; rewrite /mahalanobis_distance.
  by case: (np_inv _) => //= ? [<-]; rewrite size_map.
rewrite /classical_distances; case: ifP => // _; case: ifP => _; first by move=> [<-]; rewrite size_map.
by rewrite /mahalanobis_distance; case: (np_inv _) => //= ? [<-]; rewrite size_map.
Qed.

Theorem outlier_map_failures predict rs rd v pct ret fuel g X y :
  omap predict Series rs rd v pct ret fuel g X y = Err AttributeError /\
  forall e, predict X = Err e -> omap predict Array rs rd v pct ret fuel g X y = Err e.
Proof. by split=> // e he; rewrite /omap /outlier_map he. Qed.

End Props.

(* C135: no outlier map with a single regressor *)
Section Single.
Variables (T : rcfType) (q75 : T).
Variable argsort : seq (xnum T) -> seq nat.
Variables (chi2_ppf : T -> nat -> T) (gamma_cdf : T -> T -> T).
Variables (G : Type) (choice : G -> nat -> nat -> seq nat * G) (choice1 : G -> seq nat -> nat * G).
Variable pinvh : 'M[T]_1 -> 'M[T]_1.

Theorem outlier_map_single_regressor_fails predict t rs rd v pct ret fuel g (X : seq 'rV[T]_1) (y : seq T) f :
  predict X = Ok f ->
  exists e, outlier_map q75 argsort chi2_ppf gamma_cdf choice choice1 pinvh predict t rs rd v pct ret fuel g X y = Err e.
Proof.
move=> ef; rewrite /outlier_map; case: t => /=; last by eexists.
have nf : sub_columns y f <> NoFuel.
  by rewrite /sub_columns; case: ifP => // _; case: (y) (f) => [|? [|? ?]] [|? [|? ?]].
rewrite ef /=; case: (sub_columns y f) nf => [r|e|] //= _; last by eexists.
have [e ->] : exists e, map_distances argsort chi2_ppf gamma_cdf choice choice1 pinvh rd fuel g X = Err e.
  rewrite /map_distances; case: rd; last by exists LinAlgError.
  have [[e he] _] := @fast_mcd_univariate_fails T argsort chi2_ppf gamma_cdf G choice choice1 fuel ANone 500 2 10 None
    (tol8 T) true true g X isT.
  by exists e; rewrite /fit_mcd /cov_fit /calc_fast_mcd he.
by eexists.
Qed.

End Single.

(* ---------- concrete cases ---------- *)
Section Cases.
Variable T : rcfType.

Lemma fvar_nonconst (s : seq T) x y : x \in s -> y \in s -> x != y ->
  ~ exists v, forall e, e \in s -> e = v.
Proof. by move=> hx hy /eqP n [v h]; apply: n; rewrite (h x hx) (h y hy). Qed.

(* C131 *)
Definition res5 : seq T := [:: 0; 1; 2%:R; 9%:R; 5%:R].

Example standardized_unit_scale_case :
  (exists2 sigma : T, 0 < sigma & standardized 1 true res5 = [seq Fin (e / sigma) | e <- res5] /\
     fmad [seq e / sigma | e <- res5] = 1) /\
  exists2 sigma : T, 0 < sigma & standardized 1 false res5 = [seq Fin (e / sigma) | e <- res5] /\
     \sum_(e <- res5) (e / sigma - (\sum_(u <- res5) u / sigma) / 5%:R) ^+ 2 = 5%:R.
Proof.
have [h1 h2] := standardized_unit_scale res5 (@ltr01 T); split; [apply: h1|apply: h2].
  apply/eqP => h; have := fmed_half_le [seq `|x - fmed res5| | x : T <- res5].
  rewrite -/(fmad _) h count_map size_map.
  have -> : count (preim (fun x => `|x - fmed res5|) (fun x => x <= 0)) res5 = count_mem (fmed res5) res5.
    by apply: eq_count => x /=; rewrite normr_le0 subr_eq0.
  have uq : uniq res5.
    by rewrite /res5 -[0]/(0%:R) -[1]/(1%:R) /= !inE !eqr_nat.
  by rewrite count_uniq_mem //; case: (_ \in _).
by apply: (fvar_nonconst (x := 0) (y := 2%:R)); rewrite ?inE ?eqxx ?orbT // eq_sym pnatr_eq0.
Qed.

(* C132 *)
Example standardized_exact_fit_case :
  standardized 1 true [:: 0; 0; 0; 4%:R; -1 : T] = [:: NaN; NaN; NaN; PInf; NInf].
Proof.
rewrite (proj1 (standardized_exact_fit 1 [:: 0; 0; 0; 4%:R; -1 : T] 0)) /=.
  by rewrite ltxx ltr0n /= oppr_gt0 ltr10 oppr_lt0 ltr01.
by rewrite !eqxx /= ?mul0n //; case: eqP; case: eqP.
Qed.

(* C133: one residual of 600 among seven is not beyond 2.5 standard deviations *)
Example classical_map_masks_case i :
  ~~ xlt (Fin (5%:R / 2%:R)) (xabs (nth NaN (standardized 1 false
       [:: 600%:R; -100%:R; -100%:R; -100%:R; -100%:R; -100%:R; -100%:R : T]) i)).
Proof.
apply: (proj1 (classical_map_masks 1 _ ([::] : seq 'rV[T]_2))).
- by rewrite !big_cons big_nil; flra.
- by rewrite divr_ge0 ?ler0n.
- by rewrite /=; flra.
Qed.

(* C134: six residuals in [0, 1], one of 100 *)
Example robust_map_shows_case :
  xlt (Fin (5%:R / 2%:R)) (xabs (nth NaN (standardized (2%:R / 3%:R) true [:: 0; 1; 0; 1; 1; 0; 100%:R : T]) 6)).
Proof.
apply: (@robust_map_shows _ _ _ 0 1) => //; rewrite ?divr_gt0 ?divr_ge0 ?ltr0n ?ler0n //.
  by rewrite /= ?lexx ?ler01 /= ?lexx ?ler01; case: (_ && _).
by rewrite /= ger0_norm ?ler0n //; flra.
Qed.

(* C135 *)
Example outlier_map_single_regressor_case (argsort : seq (xnum T) -> seq nat) chi2_ppf gamma_cdf
    (choice : unit -> nat -> nat -> seq nat * unit) choice1 rs rd :
  exists e, outlier_map 1 argsort chi2_ppf gamma_cdf choice choice1 id (fun X => Ok [seq x 0 0 | x : 'rV[T]_1 <- X])
    Array rs rd 2%:R 1 true 5 tt [:: const_mx 1; const_mx 2%:R; const_mx 4%:R] [:: 1; 1; 7%:R] = Err e.
Proof. exact: outlier_map_single_regressor_fails. Qed.

(* C136, C137: three observations, prediction by the first regressor *)
Definition xs : seq 'rV[T]_2 := [:: row2 0 0; row2 1 0; row2 0 1].
Definition first_reg (X : seq 'rV[T]_2) : res (seq T) := Ok [seq x 0 0 | x : 'rV[T]_2 <- X].

Lemma cov_xs : cov xs \in unitmx.
Proof.
have m j : vmean xs 0 j = 1 / 3%:R.
  rewrite /vmean mxE summxE !big_cons big_nil !mxE /=; by case: ifP => _; flra.
have c i j : cov xs i j = if i == j then 1 / 3%:R else - (1 / 6%:R).
  rewrite /cov; move: (vmean xs) m => v m.
  rewrite mxE summxE !big_cons big_nil !mxE !big_ord1 !mxE !m.
  case: i => [[|[|//]] hi]; case: j => [[|[|//]] hj] //=; flra.
move: (cov xs) c => C c.
rewrite unitmxE det2 !c /= unitfE mulrNN; apply/eqP => h.
have h9 : 1 / 3%:R * (1 / 3%:R) = 1 / 9%:R :> T by rewrite mulf_div mulr1 -natrM.
have h36 : 1 / 6%:R * (1 / 6%:R) = 1 / 36%:R :> T by rewrite mulf_div mulr1 -natrM.
by move: h; rewrite h9 h36; flra.
Qed.

Lemma distances_xs : exists2 d, classical_distances xs (vmean xs) = Ok d & size d = 3%N.
Proof.
rewrite /classical_distances /= /mahalanobis_distance /np_inv cov_xs /=.
by eexists.
Qed.

(* C133: the squared distances of three observations are at most 4/3 *)
Example classical_distances_mask_case : exists d, classical_distances xs (vmean xs) = Ok d /\
  forall i, ~~ xlt (np_sqrt (4%:R / 3%:R)) (nth NaN d i).
Proof.
have [d hd _] := distances_xs; exists d; split=> // i.
by apply: (proj2 (classical_map_masks 1 [::] xs) d hd); rewrite /=; flra.
Qed.

Section Map.
Variable argsort : seq (xnum T) -> seq nat.
Variables (chi2_ppf : T -> nat -> T) (gamma_cdf : T -> T -> T).
Variables (choice : unit -> nat -> nat -> seq nat * unit) (choice1 : unit -> seq nat -> nat * unit).
Let omap := outlier_map 1 argsort chi2_ppf gamma_cdf choice choice1 (@id 'M[T]_2) first_reg.

Example outlier_map_contents_case ret : exists2 d, size d = 3%N &
  omap Array true false 2%:R 1 ret 1 tt xs [:: 1; 1; 7%:R]
  = Ok ([:: Points (zip d (standardized 1 true [:: 1 - 0; 1 - 1; 7%:R - 0])); HLine 2%:R; HLine (- 2%:R);
            VLine (np_sqrt (chi2_ppf 1 2))],
        if ret then Some (MapData [:: 1 - 0; 1 - 1; 7%:R - 0] (standardized 1 true [:: 1 - 0; 1 - 1; 7%:R - 0]) d 2%:R
                            (np_sqrt (chi2_ppf 1 2))) else None).
Proof.
have [d hd sd] := distances_xs; exists d => //; rewrite /omap.
rewrite (@outlier_map_contents _ _ _ _ _ _ _ _ _ _ first_reg true false 2%:R 1 ret 1 tt xs [:: 1; 1; 7%:R]
  [:: 0; 1; 0] d) //.
by rewrite /first_reg /= !mxE.
Qed.

Example outlier_map_equivariant_case :
  is_xargsort argsort -> is_choice choice -> is_choice1 choice1 -> exists v0 d, [/\
    omap Array true false 2%:R 1 true 1 tt xs [:: 1; 1; 7%:R] = Ok v0, v0.2 = Some d
    & omap Array true false 2%:R 1 true 1 tt [seq x *m (2%:R)%:M^T + 0 | x <- xs] [seq 2%:R * e | e <- [:: 1; 1; 7%:R]]
      = Ok (v0.1, Some (MapData [seq 2%:R * e | e <- d_residuals d] (d_standardized d) (d_distances d) 2%:R
                          (d_leverage d)))].
Proof.
move=> Has Hc Hc1; have [d0 _ e0] := outlier_map_contents_case true.
have u2 : ((2%:R)%:M : 'M[T]_2) \in unitmx by rewrite unitmxE det_scalar unitfE expf_neq0 // pnatr_eq0.
have hp f : first_reg xs = Ok f ->
    first_reg [seq x *m (2%:R)%:M^T + 0 | x <- xs] = Ok [seq 2%:R * e | e <- f].
  have e (x : 'rV[T]_2) : (x *m (2%:R)%:M^T + 0) 0 0 = 2%:R * x 0 0.
    by rewrite addr0 tr_scalar_mx mul_mx_scalar mxE.
  by move=> [<-]; rewrite /first_reg /= !e.
have [d [ed h]] := outlier_map_equivariant Has Hc Hc1 u2 (isT : xs != [::]) isT (ltr0Sn T 1) hp e0.
eexists; exists d; split; [exact: e0|exact: ed|].
by rewrite /omap h; case: ed => <-.
Qed.

End Map.
End Cases.

Print Assumptions standardized_unit_scale.
Print Assumptions standardized_exact_fit.
Print Assumptions classical_map_masks.
Print Assumptions robust_map_shows.
Print Assumptions outlier_map_single_regressor_fails.
Print Assumptions outlier_map_equivariant.
Print Assumptions outlier_map_contents.
Print Assumptions outlier_map_failures.
