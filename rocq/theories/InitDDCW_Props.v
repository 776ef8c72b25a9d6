(* Properties of InitialDDCW. *)
From mathcomp Require Import all_ssreflect all_algebra.
From mathcomp.zify Require Import zify.
From mathcomp.algebra_tactics Require Import ring.
From Verif Require Import RFieldLra Prelude Stats Xnum Vec PSD LinAlg_Model LinAlg_Proofs MCDCase_Proofs.
From Verif Require Import OGK_Proofs Eig2_Proofs Cov_Model Cov_Spec Cov_Proofs Cov_Props Gauss_Proofs.
From Verif Require Import CellMCD_Model CellMCD_Spec CellMCD_Step_Proofs CellMCD_Loop_Proofs CellMCD_Props.
From Verif Require Import InitDDCW_Model InitDDCW_Spec InitDDCW_Proofs.

Set Implicit Arguments.
Unset Strict Implicit.
Unset Printing Implicit Defensive.

Import Order.TTheory GRing.Theory Num.Theory.
Local Open Scope ring_scope.

Section Cap.
Variables (T : rcfType) (n : nat).
Implicit Types (resid x predv : 'I_n -> option T) (alpha : rat).

(* C81: a column with at most (1 - alpha) n flagged cells is left alone; otherwise n %/ 4 cells
   with the largest absolute residuals are flagged, whatever alpha; NaN counts as largest *)
Theorem initddcw_cap alpha cutoff resid ordering : is_argsort resid ordering ->
  let flags := [set i | if resid i is Some r then cutoff < `|r| else false] in
  let W := [set i | cap_flags alpha cutoff resid ordering i] in
  [/\ #|flags|%:R <= (1 - alpha) * n%:R -> W = flags,
      (1 - alpha) * n%:R < #|flags|%:R ->
        #|W| = (n %/ 4)%N /\ forall i j, i \in W -> j \notin W -> abs_le (resid j) (resid i)
    & alpha <= 3%:R / 4%:R -> #|W|%:R <= (1 - alpha) * n%:R].
Proof.
move=> ho flags W.
have few : #|flags|%:R <= (1 - alpha) * n%:R -> W = flags.
  move=> h; apply/setP => i; rewrite !inE /cap_flags (_ : (_ < _) = false) //.
  apply/negbTE; rewrite -leNgt; have n0 := ord_gt0 i.
  by rewrite ler_pdivr_mulr ?ltr0n.
have many : (1 - alpha) * n%:R < #|flags|%:R -> W = [set i | i \in take (n %/ 4) (rev ordering)].
  move=> h; apply/setP => i; have n0 : (0 < n)%N by exact: ord_gt0 i.
  by rewrite !inE /cap_flags ltr_pdivl_mulr ?ltr0n // h.
have k4 : (n %/ 4 <= n)%N by exact: leq_div.
split=> // [h|ha].
  rewrite many //; split; first exact: (size_take_L ho k4).
  by move=> i j; rewrite !inE; exact: (take_largest ho).
have [h|h] := leP (#|flags|%:R : rat) ((1 - alpha) * n%:R); first by rewrite few.
rewrite many // (size_take_L ho k4).
have : (4 * (n %/ 4) <= n)%N by rewrite mulnC leq_trunc_div.
rewrite -(ler_nat rat_numDomainType) natrM.
move: ((n %/ 4)%:R : rat) (n%:R : rat) (ler0n rat_numDomainType n) => k N N0 hk.
exact: (@cap_bound rat_realFieldType alpha N k).
Qed.


(* C81: what the flags are used for; a cell flagged by the cap but not by DDC keeps its value, and
   the missing cells use up the cap *)
Theorem initddcw_imputed alpha cutoff resid ordering predv x : is_argsort resid ordering ->
  (forall i, x i = None -> resid i = None) ->
  let flags := [set i | if resid i is Some r then cutoff < `|r| else false] in
  let Z := zimp alpha cutoff resid ordering predv x in
  exists R : {set 'I_n},
  [/\ R \subset flags,
      forall i, Z i = if (i \in R) || ~~ isSome (x i) then predv i else x i,
      #|flags|%:R <= (1 - alpha) * n%:R -> R = flags
    & (1 - alpha) * n%:R < #|flags|%:R ->
      #|R| = minn (n %/ 4 - #|[set i | ~~ isSome (resid i)]|) #|flags|].
Proof.
move=> ho hx flags Z; have [few many _] := initddcw_cap alpha cutoff ho.
exists [set i | ddc_flags cutoff resid i && cap_flags alpha cutoff resid ordering i]; split.
- by apply/subsetP => i; rewrite !inE => /andP[].
- move=> i; rewrite /Z /zimp /ddc_impute inE /=; case: (x i) => [v|] /=; last by rewrite !orbT.
  by rewrite !orbF; case: cap_flags; rewrite ?andbT ?andbF.
- move=> h; apply/setP => i; have := few h => /setP/(_ i); rewrite !inE => ->; by rewrite /ddc_flags andbb.
- move=> h; rewrite -/flags in h.
  rewrite -(@flagged_in_take T n resid ordering cutoff ho); apply: eq_card => i; rewrite !inE; congr (_ && _).
  have n0 : (0 < n)%N by exact: ord_gt0 i.
  by rewrite /cap_flags ltr_pdivl_mulr ?ltr0n // h.
Qed.

End Cap.

Section Cases.
Variables (T : rcfType) (n p : nat).
Implicit Types (Z : 'M[option T]_(n, p)) (S : 'M[T]_p).

(* C107: one missing cell anywhere switches the deletion of outlying cases off *)
Theorem initddcw_missing_keeps_all c50 c99 S Z i k : S \in unitmx -> Z i k = None ->
  exists2 out, outlying_cases c50 c99 S Z = Ok out & forall j, out j = false.
Proof.
move=> uS hz; rewrite /outlying_cases np_inv_ok //=; eexists; first reflexivity.
move=> j; rewrite (@x_median_nan _ _ _ i); first by rewrite xdiv_nan_r.
by rewrite /case_rd (_ : [forall _, _] = false) //; apply/forallP => /(_ k); rewrite hz.
Qed.

(* C107: without missing cells a case is outlying iff its squared distance is more than c99 / c50
   times the median; at least half of the cases are kept *)
Theorem initddcw_complete_cases c50 c99 S (Z : 'M[T]_(n, p)) : pos_def S -> 0 < c50 -> c50 <= c99 ->
  let u i : 'rV[T]_p := \row_k Num.min (Num.max (Z i k) (- 2%:R)) 2%:R in
  let rd i := (u i *m invmx S *m (u i)^T) 0 0 in
  let med := fmed [seq rd i | i <- enum 'I_n] in
  exists2 out, outlying_cases c50 c99 S (map_mx Some Z) = Ok out
  & (forall i, out i = (c99 * med < c50 * rd i)) /\ (n <= 2 * #|[set i | ~~ out i]|)%N.
Proof.
move=> pS c0 c5 u rd med; have uS := spd_unit pS; have piS := spd_psd (spd_inv pS).
have rdE i : case_rd (invmx S) (map_mx Some Z) i = Fin (rd i).
  rewrite case_rdE //; last by move=> k; rewrite mxE.
  rewrite (_ : \row_k _ = u i); first by rewrite /maha_sq subr0 dotvE.
  by apply/rowP => k; rewrite !mxE.
have rd0 i : 0 <= rd i by have [_] := piS; apply.
have med0 : 0 <= med by apply: fmed_ge0 => v /mapP[i _ ->].
rewrite /outlying_cases np_inv_ok //; eexists; first reflexivity.
have oE i : xlt (Fin c99) (xmul (xdiv (case_rd (invmx S) (map_mx Some Z) i)
    (x_median [seq case_rd (invmx S) (map_mx Some Z) i | i <- enum 'I_n])) (Fin c50)) = (c99 * med < c50 * rd i).
  have -> : [seq case_rd (invmx S) (map_mx Some Z) i | i <- enum 'I_n] = [seq Fin v | v <- [seq rd i | i <- enum 'I_n]].
    by rewrite -map_comp; apply: eq_map => j; exact: rdE.
  rewrite x_median_fin rdE -/med /=; have [m0|m0] := eqVneq med 0.
    rewrite m0 mulr0 pmulr_rgt0 //; move: (rd0 i); rewrite le_eqVlt => /orP[/eqP <-|r0].
      by rewrite /inf_sign !ltxx.
    by rewrite /inf_sign r0 /= /inf_sign c0.
  have mp : 0 < med by rewrite lt_neqAle eq_sym m0.
  by rewrite /= mulrAC ltr_pdivl_mulr // [rd i * _]mulrC.
split=> //; have := fmed_half_le [seq rd i | i <- enum 'I_n].
rewrite size_map size_enum_ord => h; apply: leq_trans h _; rewrite leq_mul2l; apply/orP; right.
rewrite count_map -size_filter; set F := filter _ _; have uF : uniq F by rewrite filter_uniq ?enum_uniq.
rewrite -(card_uniqP uF).
apply: subset_leq_card; apply/subsetP => i; rewrite mem_filter !inE => /andP[hi _]; rewrite /= in hi.
rewrite oE -leNgt; apply: le_trans (_ : c50 * med <= _); first by rewrite ler_pmul2l.
by rewrite ler_wpmul2r.
Qed.

Variables (eigh : 'M[T]_p -> 'rV[T]_p * 'M[T]_p) (as_ : 'rV[T]_p -> 'I_p -> 'I_p).
Hypothesis He : correct_eigh eigh.
Hypothesis Ha : forall w, injective (as_ w).

(* C108: the covariance is symmetric and positive definite; its eigenvalues are at least
   min_eigenvalue when the scales of DDC are at least 1 *)
Theorem initddcw_covariance a (scale : 'rV[T]_p) (R : 'M[T]_p) : 0 < a -> (forall k, 0 < scale 0 k) ->
  let S := init_cov eigh as_ a scale R in
  [/\ pos_def S,
      forall x : 'rV[T]_p, a * (\sum_k (scale 0 k * x 0 k) ^+ 2) <= (x *m S *m x^T) 0 0
    & (forall k, 1 <= scale 0 k) -> forall x : 'rV[T]_p, a * (x *m x^T) 0 0 <= (x *m S *m x^T) 0 0].
Proof.
move=> a0 s0 S; pose A := truncated_covariance eigh as_ R a.
have sA : A^T = A by exact: trunc_sym.
have SE : S = diag_mx scale *m A *m diag_mx scale.
  apply/matrixP => i j; rewrite dsd /S /init_cov; rewrite [LHS]mxE; congr (_ * _).
  rewrite [LHS]mxE [LHS]mxE -/A mulrC; congr (_ * _); by rewrite -{1}sA mxE.
have lo (x : 'rV[T]_p) : a * (\sum_k (scale 0 k * x 0 k) ^+ 2) <= (x *m S *m x^T) 0 0.
  pose y := x *m diag_mx scale; have := trunc_geI He Ha R a y.
  have -> : (y *m y^T) 0 0 = \sum_k (scale 0 k * x 0 k) ^+ 2.
    by rewrite mxE; apply: eq_bigr => k _; rewrite [y^T _ _]mxE /y mul_mx_diag mxE -expr2 mulrC.
  by rewrite -/A /y trmx_mul tr_diag_mx SE !mulmxA.
have sS : S^T = S by rewrite SE trmx_mul [(_ *m A)^T]trmx_mul tr_diag_mx sA mulmxA.
split=> //; last first.
  move=> s1 x; apply: le_trans (lo x); rewrite ler_pmul2l // mxE; apply: ler_sum => k _.
  by rewrite mxE -expr2 exprMn ler_pemull ?sqr_ge0 // -[X in X <= _](expr1n _ 2) ler_expn2r ?nnegrE ?ler01 // ltW.
split=> // x x0; apply: lt_le_trans (lo x); apply: mulr_gt0 => //.
have [k xk] : exists k, x 0 k != 0.
  apply/existsP; rewrite -negb_forall; apply: contra x0 => /forallP h; apply/eqP/rowP => k.
  by rewrite mxE; apply/eqP; exact: h.
rewrite (bigD1 k) //=; apply: ltr_paddr; first by apply: sumr_ge0 => l _; exact: sqr_ge0.
by rewrite exprn_even_gt0 //= mulf_neq0 // gt_eqF.
Qed.

(* C108 for the cellwise MCD: with DDC scales of at least 1 no C-step is rejected, so the results
   belong together *)
Theorem initddcw_no_rejection (ln : T -> T) log2pi (X : 'M[option T]_(n, p)) alpha (chi99 crit a : T) max_c_steps mu (scale : 'rV[T]_p) R :
  is_log ln -> 0 < a -> (1 < n)%N -> (forall k, 1 <= scale 0 k) ->
  let S := init_cov eigh as_ a scale R in
  let e0 := Est mu S (invmx S) in
  let h := py_round (alpha * n%:R) in
  let q := q_vec ln log2pi chi99 (e_inv e0) in
  (forall j, h <= #|[set i | isSome (X i j)]|)%N -> (0 < max_c_steps)%N -> crit < 1 ->
  exists e (W : 'M[bool]_(n, p)) objs,
  [/\ C_steps_until_convergence ln log2pi eigh as_ X alpha chi99 crit a max_c_steps e0 = Ok (e, W, objs),
      observed X W, forall j, (h <= #|[set i | W i j]|)%N, pos_def (e_sigma e)
    & head NaN objs = Fin (penalised ln log2pi q X W (e_mu e) (e_sigma e))].
Proof.
move=> L a0 n1 s1 S e0 h q hc m0 c1.
have s0 k : 0 < scale 0 k by apply: lt_le_trans (s1 k); exact: ltr01.
have [pS _ /(_ s1) g] := initddcw_covariance R a0 s0.
have eS : S *m invmx S = 1%:M by rewrite mulmxV // (spd_unit pS).
have [e [W [objs [h1 h2 h3 h4 h5]]]] := cellmcd_c_steps log2pi L He Ha chi99 a0 n1 (e0 := e0) pS eS hc m0 c1.
exists e, W, objs; split=> //; by case: h5 => [[]|[_ _ []]].
Qed.

End Cases.

Section Witnesses.
Variable T : rcfType.

(* twelve residuals, two of them large *)
Definition res12 (i : 'I_12) : option T := Some (if (10 <= i)%N then 5%:R else 0).

Lemma res12_sorted : is_argsort res12 (enum 'I_12).
Proof.
split=> //; have e : sorted leq [seq val i | i <- enum 'I_12] by rewrite val_enum_ord; exact: iota_sorted.
rewrite sorted_map in e; apply: sub_sorted e => i j /=; rewrite /res12.
have five : (0 : T) <= `|5%:R| by exact: normr_ge0.
by case: (leqP 10 i) => hi; case: (leqP 10 j) => hj //=; rewrite ?normr0 ?normr_ge0 // => hij; lia.
Qed.

Lemma res12_flags : #|[set i | if res12 i is Some r then 2%:R < `|r| else false]| = 2%N.
Proof.
rewrite (_ : [set i | _] = [set inord 10; inord 11]).
  by rewrite cards2 (_ : _ != _) //; apply/eqP => /(congr1 val) /=; rewrite !inordK.
apply/setP => i; rewrite !inE /res12 -!val_eqE /= !inordK //.
case: (leqP 10 i) => hi /=; last by rewrite normr0 ltNge ler0n; symmetry; apply/negbTE; lia.
rewrite normr_nat ltr_nat; symmetry; have := ltn_ord i; lia.
Qed.

(* C81: alpha = 11/12 allows one flagged cell; two are flagged, the cap makes them three *)
Theorem initddcw_cap_refuted : exists (n : nat) (alpha : rat) (cutoff : T) (resid : 'I_n -> option T) ordering,
  let flags := [set i | if resid i is Some r then cutoff < `|r| else false] in
  let W := [set i | cap_flags alpha cutoff resid ordering i] in
  [/\ is_argsort resid ordering, 1 / 2%:R <= alpha <= 1, (#|flags| < #|W|)%N & (1 - alpha) * n%:R < #|W|%:R].
Proof.
exists 12%N, (11%:R / 12%:R), 2%:R, res12, (enum 'I_12) => flags W.
have [_ many _] := initddcw_cap (11%:R / 12%:R) 2%:R res12_sorted.
have [|h _] := many; first by rewrite res12_flags.
by split; rewrite ?res12_flags ?h //; exact: res12_sorted.
Qed.

(* C81: with alpha = 1/2 and the same residuals nothing changes *)
Example initddcw_cap_case : [set i | cap_flags (1 / 2%:R) 2%:R res12 (enum 'I_12) i]
  = [set i | if res12 i is Some r then 2%:R < `|r| else false].
Proof.
have [few _ _] := initddcw_cap (1 / 2%:R) 2%:R res12_sorted; apply: few.
by rewrite res12_flags.
Qed.

Lemma clip_sq_big (F : realFieldType) : Num.min (Num.max (2%:R : F) (- 2%:R)) 2%:R * Num.min (Num.max (2%:R : F) (- 2%:R)) 2%:R = 4%:R.
Proof.
have h : - 2%:R <= 2%:R :> F by flra.
by rewrite (max_idPl h) minxx; ring.
Qed.

Lemma clip_sq_small (F : realFieldType) : let c : F := Num.min (Num.max (1 / 10%:R) (- 2%:R)) 2%:R in c * c = 1 / 100%:R.
Proof.
have h : - 2%:R <= 1 / 10%:R :> F by flra.
have h' : 1 / 10%:R <= 2%:R :> F by flra.
by rewrite /= (max_idPl h) (min_idPl h'); field.
Qed.

Lemma cmp_big (F : realFieldType) : 15%:R * (1 / 100%:R) < 1 * 4%:R :> F.
Proof. by flra. Qed.

Lemma cmp_small (F : realFieldType) : (15%:R * (1 / 100%:R) < 1 * (1 / 100%:R) :> F) = false.
Proof. by apply/negbTE; rewrite -leNgt; flra. Qed.

Lemma cmp_med (F : realFieldType) : (4%:R <= 1 / 100%:R :> F) = false.
Proof. by apply/negbTE; rewrite -ltNge; flra. Qed.

(* C107: two small values and a large one: the large one is outlying; with a missing value in
   another row it is not *)
Example initddcw_cases_case :
  let Z : 'M[T]_(3, 1) := \matrix_(i, j) (if i == 2%:R then 2%:R else 1 / 10%:R) in
  let Z' := \matrix_(i, j) (if i == 0 then None else Some (Z i j)) in
  exists out out', [/\ outlying_cases 1 15%:R 1%:M (map_mx Some Z) = Ok out,
    outlying_cases 1 15%:R 1%:M Z' = Ok out', out 2%:R, out 0 = false & out' 2%:R = false].
Proof.
move=> Z Z'; have u1 := @unitmx1 T 1; have z0 : Z' 0 0 = None by rewrite mxE eqxx.
have pS : pos_def (1%:M : 'M[T]_1).
  split=> [|x x0]; rewrite ?trmx1 // mulmx1 mxE big_ord1 mxE -expr2 exprn_even_gt0 //=.
  by apply: contra x0 => /eqP e0; apply/eqP/rowP => k; rewrite (ord1 k) mxE e0.
have c1 : (1 : T) <= 15%:R by rewrite ler1n.
have [out' e' h'] := initddcw_missing_keeps_all 1 15%:R u1 z0.
have [out e [h _]] := initddcw_complete_cases Z pS ltr01 c1.
have r2 (i : 'I_3) : let u : 'rV[T]_1 := \row_k Num.min (Num.max (Z i k) (- 2%:R)) 2%:R in
    (u *m invmx 1%:M *m u^T) 0 0 = if i == 2%:R then 4%:R else 1 / 100%:R.
  rewrite /= invmx1 mulmx1 !mxE big_ord1 !mxE; case: ifP => _; [exact: clip_sq_big|exact: clip_sq_small].
have two i : (i == 2%:R :> 'I_3) = (i == 2%N :> nat) by rewrite -val_eqE.
have mE : fmed [seq (if i == 2%:R :> 'I_3 then 4%:R else 1 / 100%:R : T) | i <- enum 'I_3] = 1 / 100%:R.
  apply: le_anti; rewrite andbC; apply: fmed_majority; first by rewrite size_map size_enum_ord.
  rewrite size_map size_enum_ord count_map (eq_count (a2 := fun i : 'I_3 => (i < 2)%N)).
    by rewrite -(count_map val (fun i => i < 2)%N) val_enum_ord.
  move=> i /=; rewrite two; have := ltn_ord i; case: eqP => [-> _|hi hn].
    by have := cmp_med T; rewrite ltnn => ->; rewrite andbF.
  rewrite !lexx; lia.
exists out, out'; split=> //; rewrite h {h h' e e'} /= (eq_map r2) r2 mE /=.
  exact: cmp_big.
exact: cmp_small.
Qed.

(* C81: the cap of alpha = 11/12 flags three cells, the two outlying ones are imputed *)
Example initddcw_imputed_case (predv : 'I_12 -> option T) :
  let x i := if i == 0 then Some 7%:R else res12 i in
  let Z := zimp (11%:R / 12%:R) 2%:R res12 (enum 'I_12) predv x in
  #|[set i | cap_flags (11%:R / 12%:R) 2%:R res12 (enum 'I_12) i]| = 3%N /\
  forall i, Z i = if (10 <= i)%N then predv i else x i.
Proof.
move=> x Z; have [_ many _] := initddcw_cap (11%:R / 12%:R) 2%:R res12_sorted; split.
  by have [|-> //] := many; rewrite res12_flags.
have xs i : isSome (x i) by rewrite /x; case: eqP.
have hx i : x i = None -> res12 i = None by move=> e; have := xs i; rewrite e.
have [R [sR hZ _ hR]] := initddcw_imputed (11%:R / 12%:R) 2%:R predv res12_sorted hx.
rewrite res12_flags in hR.
have cR : #|R| = 2%N.
  rewrite hR // (_ : [set i | _] = set0) ?cards0 //; apply/setP => i; by rewrite !inE.
have RE : R = [set i | if res12 i is Some r then 2%:R < `|r| else false].
  by apply/eqP; rewrite eqEcard sR cR res12_flags.
move=> i; rewrite /Z hZ xs orbF RE inE /res12; case: (leqP 10 i) => hi.
  by rewrite normr_nat ltr_nat.
by rewrite normr0 ltNge ler0n.
Qed.

(* C108: the correlation matrix with ones everywhere is singular, the covariance is not *)
Example initddcw_covariance_case :
  let scale : 'rV[T]_2 := \row_k (if k == 0 then 1 else 3%:R) in
  let S := init_cov (@eigh2 T) (fun _ j => j) (1 / 100%:R) scale (const_mx 1) in
  ((const_mx 1 : 'M[T]_2) \in unitmx) = false /\ pos_def S.
Proof.
move=> scale S; split.
  apply/negP => u; pose v : 'rV[T]_2 := \row_k (if k == 0 then 1 else - 1).
  have v0 : v *m const_mx 1 = 0 :> 'rV[T]_2.
    by apply/rowP => j; rewrite !mxE !big_ord_recl big_ord0 !mxE /= !mulr1 addr0 subrr.
  have := mulmxK u v; rewrite v0 mul0mx => /rowP/(_ 0); rewrite !mxE /= => /eqP.
  by rewrite eq_sym oner_eq0.
have s0 k : 0 < scale 0 k by rewrite mxE; case: ifP; rewrite ?ltr01 ?ltr0n.
have a0 : 0 < 1 / 100%:R :> T by rewrite divr_gt0 ?ltr01 ?ltr0n.
by have [] := initddcw_covariance (@eigh2_correct T) (fun _ => @inj_id _) (const_mx 1) a0 s0.
Qed.

(* C108: a cellwise MCD of complete data from this covariance *)
Example initddcw_no_rejection_case (ln : T -> T) log2pi (X : 'M[T]_(4, 2)) mu : is_log ln ->
  let S := init_cov (@eigh2 T) (fun _ j => j) (1 / 100%:R) (const_mx 2%:R) (const_mx 1) in
  exists e (W : 'M[bool]_(4, 2)) objs,
  C_steps_until_convergence ln log2pi (@eigh2 T) (fun _ j => j) (map_mx Some X) (3%:R / 4%:R) 6%:R 0 (1 / 100%:R) 10
    (Est mu S (invmx S)) = Ok (e, W, objs) /\
  (forall j, (3 <= #|[set i | W i j]|)%N) /\ pos_def (e_sigma e).
Proof.
move=> L S; have s1 k : 1 <= (const_mx 2%:R : 'rV[T]_2) 0 k by rewrite mxE ler1n.
have a0 : 0 < 1 / 100%:R :> T by rewrite divr_gt0 ?ltr01 ?ltr0n.
have h3 : py_round (3%:R / 4%:R * 4%:R) = 3%N by [].
have hc j : (py_round (3%:R / 4%:R * 4%:R) <= #|[set i | isSome ((map_mx Some X) i j)]|)%N.
  rewrite h3 (_ : [set i | _] = setT) ?cardsT ?card_ord //; apply/setP => i; by rewrite !inE mxE.
have [e [W [objs [h1 _ h2 hp _]]]] := initddcw_no_rejection (@eigh2_correct T) (fun _ => @inj_id _) log2pi
  (X := map_mx Some X) 6%:R mu (const_mx 1) L a0 (isT : (1 < 4)%N) s1 hc (isT : (0 < 10)%N) (ltr01 : 0 < 1 :> T).
rewrite h3 in h2; clear hc; exists e, W, objs; split; first exact: h1.
by split; [exact: h2|exact: hp].
Qed.

End Witnesses.

Print Assumptions initddcw_cap.
Print Assumptions initddcw_cap_refuted.
Print Assumptions initddcw_imputed.
Print Assumptions initddcw_missing_keeps_all.
Print Assumptions initddcw_complete_cases.
Print Assumptions initddcw_covariance.
Print Assumptions initddcw_no_rejection.
