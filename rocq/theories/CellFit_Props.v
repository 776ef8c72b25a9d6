(* Properties of a whole fit of the cellwise MCD. *)
From mathcomp Require Import all_ssreflect all_algebra perm.
From mathcomp.zify Require Import zify.
From mathcomp.algebra_tactics Require Import ring.
From Verif Require Import RFieldLra Prelude Stats Xnum RatFloor Vec PSD LinAlg_Model LinAlg_Proofs.
From Verif Require Import MCD_Model MCD_Spec MCD_Proofs MCDCase_Proofs OGK_Model OGK_Proofs Eig2_Proofs.
From Verif Require Import Cov_Model Cov_Spec Cov_Proofs Cov_Props.
From Verif Require Import Gauss_Proofs CellMCD_Model CellMCD_Spec CellMCD_Proofs CellMCD_Step_Proofs.
From Verif Require Import CellMCD_Loop_Proofs CellMCD_More_Proofs CellMCD_Props CellFit_Model.

Set Implicit Arguments.
Unset Strict Implicit.
Unset Printing Implicit Defensive.

Import Order.TTheory GRing.Theory Num.Theory.
Local Open Scope ring_scope.

(* a conditional variance is positive *)
Lemma cond_cov_gt0 (T : rcfType) p (A : {set 'I_p}) (S : 'M[T]_p) k v :
  pos_def S -> k \notin A -> cond_cov A S k k v -> 0 < v.
Proof.
move=> [sS pS] kA [b hb ->].
have sym i j : S i j = S j i by rewrite -[in LHS]sS mxE.
pose x : 'rV[T]_p := \row_l (if l == k then 1 else if l \in A then - b l else 0).
have xk : x 0 k = 1 by rewrite mxE eqxx.
have split_sum (F : 'I_p -> T) : \sum_l x 0 l * F l = F k - \sum_(m in A) b m * F m.
  rewrite (bigD1 k) //= xk mul1r; congr (_ + _).
  rewrite [in RHS]big_mkcond -sumrN [in RHS](bigD1 k) //= (negbTE kA) oppr0 add0r.
  apply: eq_bigr => l lk; rewrite mxE (negbTE lk); case: (l \in A); by rewrite ?mulNr ?mul0r ?oppr0.
have xS l : (x *m S) 0 l = S l k - \sum_(m in A) S l m * b m.
  rewrite [LHS]mxE split_sum sym; congr (_ - _); apply: eq_bigr => m _; by rewrite mulrC (sym m l).
have <- : (x *m S *m x^T) 0 0 = S k k - \sum_(m in A) S k m * b m.
  rewrite [LHS]mxE (eq_bigr (fun l => x 0 l * (x *m S) 0 l)); last first.
    by move=> l _; rewrite mulrC; congr (_ * _); rewrite mxE.
  rewrite split_sum xS [X in _ - X]big1 ?subr0 // => m mA; by rewrite xS hb // subrr mulr0.
apply: pS; apply/eqP => x0; move: xk; rewrite x0 mxE => /eqP; by rewrite eq_sym oner_eq0.
Qed.

(* the diagonal of the inverse of a positive definite matrix is positive *)
Lemma inv_diag_gt0 (T : rcfType) p (S R : 'M[T]_p) k : pos_def S -> S *m R = 1%:M -> 0 < R k k.
Proof.
move=> [sS pS] e; pose x : 'rV[T]_p := (col k R)^T.
have xS : S *m x^T = col k 1%:M by rewrite trmxK !colE mulmxA e.
have xE : (x *m S *m x^T) 0 0 = R k k.
  rewrite -mulmxA xS [LHS]mxE (bigD1 k) //= big1 => [|l lk]; rewrite !mxE ?eqxx ?mulr1 ?addr0 //.
  by rewrite (negbTE lk) mulr0.
rewrite -xE; apply: pS; apply/eqP => x0.
have /matrixP /(_ k 0) := xS; rewrite x0 trmx0 mulmx0 !mxE eqxx => /eqP; by rewrite eq_sym oner_eq0.
Qed.

Lemma back_covE (T : rcfType) p (sc : 'rV[T]_p) S j k : back_cov sc S j k = sc 0 j * S j k * sc 0 k.
Proof. by rewrite /back_cov mul_diag_mx mul_mx_diag [LHS]mxE; congr (_ * _); rewrite mxE. Qed.

Section Fit.
Variables (T : rcfType) (n p : nat) (ln : T -> T) (log2pi : T).
Variables (eigh : 'M[T]_p -> 'rV[T]_p * 'M[T]_p) (as_ : 'rV[T]_p -> 'I_p -> 'I_p).
Variables (estimator : seq T -> T * T) (estimator_inf : seq (xnum T) -> xnum T).
Variable initial : 'M[option T]_(n, p) -> rat -> res (est T p).
Implicit Types (X : 'M[option T]_(n, p)) (a b : 'rV[T]_p).

Let fit := cell_fit ln log2pi eigh as_ estimator estimator_inf initial.

(* other units for the variables *)
Definition change_units a b X : 'M[option T]_(n, p) :=
  \matrix_(i, k) omap (fun x => a 0 k * x + b 0 k) (X i k).

Lemma observed_col_units a b X k :
  observed_col (change_units a b X) k = [seq a 0 k * x + b 0 k | x <- observed_col X k].
Proof.
rewrite /observed_col; elim: (enum 'I_n) => //= i s ->; rewrite mxE; by case: (X i k).
Qed.

(* what a location and scale estimator does under a change of units *)
Definition equivariant (f : seq T -> T * T) : Prop :=
  forall (c d : T) s, 0 < c -> (0 < size s)%N ->
  f [seq c * x + d | x <- s] = (c * (f s).1 + d, c * (f s).2).

Lemma scale_data_units a b X : equivariant estimator -> (forall k, 0 < a 0 k) ->
  (forall k, 0 < size (observed_col X k))%N ->
  [/\ forall k, locations estimator (change_units a b X) 0 k = a 0 k * locations estimator X 0 k + b 0 k,
      forall k, scales estimator (change_units a b X) 0 k = a 0 k * scales estimator X 0 k
    & scale_data estimator (change_units a b X) = scale_data estimator X].
Proof.
move=> he ha hs.
have e1 k : locations estimator (change_units a b X) 0 k = a 0 k * locations estimator X 0 k + b 0 k.
  by rewrite mxE observed_col_units he // mxE.
have e2 k : scales estimator (change_units a b X) 0 k = a 0 k * scales estimator X 0 k.
  by rewrite mxE observed_col_units he // mxE.
split=> //; apply/matrixP => i k; rewrite [LHS]mxE [RHS]mxE e1 e2 [change_units a b X i k]mxE.
case: (X i k) => //= x; congr Some; have a0 := lt0r_neq0 (ha k).
have -> : a 0 k * x + b 0 k - (a 0 k * locations estimator X 0 k + b 0 k) = a 0 k * (x - locations estimator X 0 k) by ring.
by rewrite -mulf_div divff // mul1r.
Qed.

Lemma small_mad_units a b X k : 0 < a 0 k -> (0 < size (observed_col X k))%N ->
  fmad (observed_col (change_units a b X) k) = a 0 k * fmad (observed_col X k).
Proof. by move=> ha hs; rewrite observed_col_units fmad_affine // gtr0_norm. Qed.

Lemma xdiv_scale (c d : T) (v : xnum T) : 0 < c ->
  xdiv (Fin (c * d)) (xmul v (Fin c)) = xdiv (Fin d) v.
Proof.
move=> c0; case: v => [v| | |] //=; rewrite /inf_sign ?c0 //=; last first.
  by rewrite oppr_gt0 (lt_gtF c0) oppr_lt0 c0.
rewrite mulf_eq0 (gt_eqF c0) orbF; case: eqP => [_|/eqP v0].
  by rewrite (pmulr_rgt0 _ c0) (pmulr_rlt0 _ c0).
by congr Fin; rewrite [c * d]mulrC -mulf_div divff ?mulr1 // gt_eqF.
Qed.

(* C144: a fit in other units: either the MAD check fails, or W, the residuals and alpha are the same
   and everything else is converted *)
Theorem cellmcd_fit_units a b X alpha cutoff chi99 crit min_eig max_c_steps :
  equivariant estimator -> (forall k, 0 < a 0 k) -> (forall k, 0 < size (observed_col X k))%N ->
  (forall k, (10%:R ^+ 8)^-1 <= fmad (observed_col X k)) ->
  (forall k, (10%:R ^+ 8)^-1 <= a 0 k * fmad (observed_col X k)) ->
  let r := fit alpha cutoff chi99 crit min_eig max_c_steps X in
  let r' := fit alpha cutoff chi99 crit min_eig max_c_steps (change_units a b X) in
  r'.1 = r.1 /\
  match r.2, r'.2 with
  | Ok o, Ok o' =>
    [/\ f_W o' = f_W o, f_residuals o' = f_residuals o,
        forall k, f_location o' 0 k = a 0 k * f_location o 0 k + b 0 k
      & forall j k, f_covariance o' j k = a 0 j * a 0 k * f_covariance o j k] /\
    [/\ f_predictions o' = change_units a b (f_predictions o),
        f_imputed o' = change_units a b (f_imputed o)
      & forall i k, f_stds o' i k = xmul (f_stds o i k) (Fin (a 0 k))]
  | Err e, Err e' => e = e'
  | NoFuel, NoFuel => True
  | _, _ => False
  end.
Proof.
move=> he ha hs h1 h2 r r'; rewrite {}/r {}/r' /fit /cell_fit.
have s1 : small_mad X = false by apply/existsP => -[k]; rewrite ltNge h1.
have s2 : small_mad (change_units a b X) = false.
  by apply/existsP => -[k]; rewrite small_mad_units // ltNge h2.
have [eL eS eD] := scale_data_units b he ha hs.
rewrite s1 s2 eD; move: (fit_core _ _ _ _ _ _ _ _ _ _ _ _) => core.
move: (predict_all (blank_outliers (scale_data estimator X))) => PA.
case: (new_alpha alpha n) => [al|er|]; [|by split|by split]; split; first by [].
case: core => core1 [[[e W] objs]|er|]; [|by []|by []].
rewrite /=; case: (PA W e) => [[P V]|er|]; [|by []|by []].
rewrite /=.
set loc := locations estimator X; set sc := scales estimator X.
set loc' := locations estimator _; set sc' := scales estimator _.
have eP : back_predictions loc' sc' P = change_units a b (back_predictions loc sc P).
  apply/matrixP => i k; rewrite [LHS]mxE [RHS]mxE.
  have -> : back_predictions loc sc P i k = omap (fun x => loc 0 k + x * sc 0 k) (P i k) by rewrite mxE.
  case: (P i k) => //= x; congr Some; rewrite /loc' /sc' eL eS -/loc -/sc; ring.
have eT i k : back_stds sc' V i k = xmul (back_stds sc V i k) (Fin (a 0 k)).
  have -> : back_stds sc V i k = xmul (np_sqrt (V i k)) (Fin (sc 0 k)) by rewrite mxE.
  rewrite [LHS]mxE.
  rewrite /sc' eS -/sc /np_sqrt; case: ifP => //= _; congr Fin; ring.
have eR : raw_residuals (change_units a b X) (back_predictions loc' sc' P) (back_stds sc' V)
        = raw_residuals X (back_predictions loc sc P) (back_stds sc V).
  apply/matrixP => i k; rewrite [LHS]mxE [RHS]mxE eT eP.
  move: (back_predictions loc sc P) (back_stds sc V) => P1 V1.
  rewrite [change_units a b X i k]mxE [change_units a b P1 i k]mxE.
  case: (X i k) => [x|]; case: (P1 i k) => [q|] //; rewrite /omap /obind /oapp.
  rewrite -(xdiv_scale (x - q) (V1 i k) (ha k)); congr (xdiv (Fin _) _); ring.
split; split.
- by [].
- by rewrite eR.
- by move=> k; rewrite [LHS]mxE eL eS [in RHS]mxE -/loc -/sc; ring.
- by move=> j k; rewrite !back_covE eS (eS k) -/sc; ring.
- exact: eP.
- apply/matrixP => i k; rewrite /impute_cells eP [LHS]mxE [RHS]mxE [X in _ = omap _ X]mxE.
  by case: (W i k); rewrite mxE.
- exact: eT.
Qed.

(* C145: the threshold on the MAD is absolute: in large enough units (small numbers) every data set
   is refused *)
Theorem cellmcd_small_units X alpha cutoff chi99 crit min_eig max_c_steps (k : 'I_p) :
  1 / 2%:R <= alpha <= 1 -> (forall k, 0 < size (observed_col X k))%N ->
  exists2 c : T, 0 < c &
  forall d, 0 < d -> d <= c ->
  (fit alpha cutoff chi99 crit min_eig max_c_steps (change_units (const_mx d) 0 X)).2 = Err ValueError.
Proof.
move=> hal hs; set m := fmad (observed_col X k).
have m0 : 0 <= m by exact: fmad_ge0.
have e0 : 0 < (10%:R ^+ 8)^-1 :> T by rewrite invr_gt0 exprn_gt0 // ltr0n.
have m1 : 0 < m + 1 by apply: ltr_paddl => //; exact: ltr01.
exists ((10%:R ^+ 8)^-1 / (m + 1)); first by rewrite divr_gt0.
move=> d d0 hd; rewrite /fit /cell_fit /new_alpha hal.
suff -> : small_mad (change_units (const_mx d) 0 X) by [].
apply/existsP; exists k; rewrite small_mad_units ?mxE // -/m.
apply: le_lt_trans (_ : (10%:R ^+ 8)^-1 / (m + 1) * m < _).
  by apply: ler_wpmul2r.
rewrite -mulrA -[X in _ < X]mulr1 ltr_pmul2l // mulrC ltr_pdivr_mulr // mul1r.
by rewrite ltr_addl ltr01.
Qed.

Hypothesis L : is_log ln.
Hypothesis He : correct_eigh eigh.
Hypothesis Ha : forall w, injective (as_ w).

Section Success.
Variables (X : 'M[option T]_(n, p)) (alpha : rat) (cutoff chi99 crit a : T) (max_c_steps : nat) (al : rat).
Hypotheses (n1 : (1 < n)%N) (ia : cellmcd_init a = Ok tt) (c3 : cutoff <= 3%:R).
Hypotheses (m0 : (0 < max_c_steps)%N) (c1 : crit < 1) (hsc : forall k, 0 < scales estimator X 0 k).
Hypothesis hin : forall Y al, exists2 e0, initial Y al = Ok e0 & pos_def (e_sigma e0) /\ e_sigma e0 *m e_inv e0 = 1%:M.
Hypotheses (eal : new_alpha alpha n = Ok al) (hm : ~~ small_mad X).
Hypothesis hc : check_data al cutoff (scale_data estimator X) = Ok tt.

Let loc := locations estimator X.
Let sc := scales estimator X.

Lemma fit_okE : exists (e : est T p) (W : 'M[bool]_(n, p)) (PV : 'M[option T]_(n, p) * 'M[T]_(n, p)),
  let Y := blank_outliers (scale_data estimator X) in
  [/\ fit alpha cutoff chi99 crit a max_c_steps X
       = (al, Ok (back_transform estimator estimator_inf X e W PV)),
      pos_def (e_sigma e), observed Y W, forall k, (py_round (al * n%:R) <= #|[set i | W i k]|)%N
    & forall i k, exists v c, [/\ PV.1 i k = Some v, PV.2 i k = c, 0 < c &
      clean W i != set0 -> cond_mean (clean W i :\ k) (e_sigma e) (e_mu e) (vals Y i) k v
                        /\ cond_cov (clean W i :\ k) (e_sigma e) k k c]].
Proof.
have a0 : 0 < a.
  move: ia; rewrite /cellmcd_init; case: ltP => // ha _; apply: lt_le_trans ha.
  by rewrite invr_gt0 exprn_gt0 // ltr0n.
have n0 : (0 < n)%N by lia.
rewrite /fit /cell_fit eal (negbTE hm) /fit_core eal hc /=.
have [e0 -> [pS eS]] := hin (scale_data estimator X) al => /=.
have [/andP[h1 _] hal _] := new_alphaE n0 eal.
have al0 : 0 <= al by rewrite hal le_maxr (half_ge0 h1).
have hobs j := @check_data_cols T n p al cutoff (scale_data estimator X) j n0 al0 c3 hc.
have [e [W [objs [hC [oW hW] _ _ h6]]]] := C_stepsE log2pi (proj1 L) (proj2 L) He Ha chi99 a0 n1 pS eS hobs m0 c1.
have [pE eE] : pos_def (e_sigma e) /\ e_sigma e *m e_inv e = 1%:M.
  by case: h6 => [[[]]|[->]].
rewrite hC /=; set Y := blank_outliers _ in hC oW *.
have hP i k : exists v c, [/\ make_prediction Y W (e_mu e) (e_sigma e) (e_inv e) i k = Ok (Some v, c), 0 < c &
   clean W i != set0 -> cond_mean (clean W i :\ k) (e_sigma e) (e_mu e) (vals Y i) k v
                        /\ cond_cov (clean W i :\ k) (e_sigma e) k k c].
  have [v [c [h2 h3]]] := make_predictionE (e_mu e) pE eE oW i k; exists v, c.
  move: h3; case: ifP => // ne [h3 h4]; split=> //; first by rewrite h4 (inv_diag_gt0 k pE eE).
  by apply: cond_cov_gt0 pE _ h4; rewrite !inE eqxx.
rewrite /predict_all ifT; last first.
  by apply/forallP => i; apply/forallP => k; have [v [c [-> _ _]]] := hP i k.
eexists; eexists; eexists; split; [reflexivity|exact: pE|exact: oW|exact: hW|].
by move=> i k; have [v [c [ev c0 h]]] := hP i k; exists v, c; split=> //=; rewrite mxE ev.
Qed.

(* C146: a fit succeeds when the checks pass; what it returns *)
Theorem cellmcd_fit_succeeds :
  exists2 o, fit alpha cutoff chi99 crit a max_c_steps X = (al, Ok o) &
  [/\ pos_def (f_covariance o) /\ (forall k, py_round (al * n%:R) <= #|[set i | f_W o i k]|)%N,
      forall i k, isSome (f_predictions o i k) /\ isSome (f_imputed o i k),
      forall i k, f_W o i k -> exists2 x, X i k = Some x & f_imputed o i k = Some x /\ `|x - loc 0 k| <= 3%:R * sc 0 k,
      forall i k, ~~ f_W o i k -> f_imputed o i k = f_predictions o i k
    & forall i k, exists2 d, f_stds o i k = Fin d & 0 < d].
Proof.
have [e [W [PV [-> pE oW hW hP]]]] := fit_okE; eexists; first reflexivity.
have hpred i k : isSome (back_predictions loc sc PV.1 i k).
  by rewrite mxE; have [v [c [-> _ _ _]]] := hP i k.
have oX i k : W i k -> exists2 x, X i k = Some x & `|x - loc 0 k| <= 3%:R * sc 0 k.
  move=> /oW; rewrite [blank_outliers _ _ _]mxE [scale_data _ _ _ _]mxE; case: (X i k) => //= x.
  case: ltP => // hx _; exists x => //.
  by rewrite -ler_pdivr_mulr // -{1}(gtr0_norm (hsc k)) -normf_div.
split=> /=.
- split; last exact: hW.
  rewrite /back_cov; have [sE qE] := pE; split.
    by rewrite !trmx_mul tr_diag_mx sE mulmxA.
  move=> x x0; set D := diag_mx _.
  have -> : x *m (D *m e_sigma e *m D) *m x^T = (x *m D) *m e_sigma e *m (x *m D)^T.
    by rewrite trmx_mul tr_diag_mx !mulmxA.
  apply: qE; apply/eqP => z; move/eqP: x0; apply; apply/matrixP => i k; rewrite (ord1 i) [RHS]mxE.
  have /matrixP /(_ 0 k) := z; rewrite mul_mx_diag [LHS]mxE [RHS]mxE => /eqP.
  by rewrite mulf_eq0 (gt_eqF (hsc k)) orbF => /eqP.
- move=> i k; split; first exact: hpred.
  by rewrite /impute_cells [X in isSome X]mxE; case: ifP => [/oX [x ->]|_] //; exact: hpred.
- by move=> i k w; have [x ex hx] := oX i k w; exists x => //; rewrite /impute_cells mxE w.
- by move=> i k /negbTE w; rewrite /impute_cells [LHS]mxE w.
- move=> i k; have [v [c [_ ev c0 _]]] := hP i k; exists (Num.sqrt c * sc 0 k); last first.
    by rewrite mulr_gt0 ?sqrtr_gt0.
  by rewrite [LHS]mxE ev /np_sqrt ltW.
Qed.

(* C147: for the fitted location and covariance, in the original units, the prediction of a cell
   is its conditional expectation given the other clean cells of the row, and the reported standard
   deviation the conditional one *)
Theorem cellmcd_fit_predictions o i k :
  fit alpha cutoff chi99 crit a max_c_steps X = (al, Ok o) -> clean (f_W o) i != set0 ->
  let A := clean (f_W o) i :\ k in
  exists v d, [/\ f_predictions o i k = Some v, f_stds o i k = Fin d, 0 < d,
    cond_mean A (f_covariance o) (f_location o) (vals X i) k v & cond_cov A (f_covariance o) k k (d ^+ 2)].
Proof.
have [e [W [PV [-> pE oW hW hP]]]] := fit_okE => -[<-] /= ne.
have [v [c [e1 e2 c0 /(_ ne) [[b hb ev] [b2 hb2 ec]]]]] := hP i k.
have s0 m : sc 0 m != 0 by rewrite gt_eqF.
have reg (f : 'I_p -> T) : regression_on (clean W i :\ k) (e_sigma e) k f ->
    regression_on (clean W i :\ k) (back_cov sc (e_sigma e)) k (fun m => f m * (sc 0 k / sc 0 m)).
  move=> hf l lA; rewrite back_covE -(hf l lA) mulr_sumr mulr_suml; apply: eq_bigr => m _.
  by rewrite back_covE; field; exact: s0.
exists (loc 0 k + v * sc 0 k), (Num.sqrt c * sc 0 k); split.
- by rewrite mxE e1.
- by rewrite mxE e2 /np_sqrt ltW.
- by rewrite mulr_gt0 ?sqrtr_gt0.
- eexists; first exact: reg hb.
  rewrite [back_location _ _ _ _ _]mxE -addrA; congr (_ + _); rewrite ev mulrDl; congr (_ + _).
  rewrite mulr_suml; apply: eq_bigr => m; rewrite !inE => /andP[_ wm].
  have := oW i m wm; rewrite [vals X i 0 m]mxE [vals _ i 0 m]mxE [blank_outliers _ _ _]mxE [scale_data _ _ _ _]mxE.
  case: (X i m) => //= x; case: ifP => //= _ _; rewrite [back_location _ _ _ _ _]mxE -/loc -/sc.
  by field; exact: s0.
- eexists; first exact: reg hb2.
  rewrite exprMn sqr_sqrtr ?ltW // ec back_covE mulrBl; congr (_ - _).
    by rewrite -/sc expr2; move: (e_sigma e k k) (sc 0 k) => u w; ring.
  rewrite mulr_suml; apply: eq_bigr => m _; rewrite back_covE -/sc; field; exact: s0.
Qed.

End Success.

End Fit.

Section Cases.
Variables (T : rcfType) (ln : T -> T) (log2pi : T).
Hypothesis L : is_log ln.

(* median and MAD *)
Definition med_mad (s : seq T) : T * T := (fmed s, fmad s).

Lemma med_mad_equivariant : equivariant med_mad.
Proof. by move=> c d s c0 hs; rewrite /med_mad fmed_affine // fmad_affine // gtr0_norm. Qed.

(* ten rows: a missing cell, an outlier *)
Definition x_cell (i k : nat) : option T :=
  if k == 0%N then Some (if (i < 5)%N then 0 else 1)
  else if i == 0%N then None else Some (if (i < 5)%N then 0 else if (i < 9)%N then 1 else 50%:R).
Definition x102 : 'M[option T]_(10, 2) := \matrix_(i, k) x_cell i k.

Lemma x102_col (k : 'I_2) : observed_col x102 k = pmap (fun i => x_cell i k) (iota 0 10).
Proof.
rewrite /observed_col -val_enum_ord; elim: (enum 'I_10) => //= i s ->; by rewrite mxE.
Qed.

Lemma fsort_sorted (s : seq T) : sorted <=%R s -> fsort s = s.
Proof. by move=> h; apply: sorted_sort => //; exact: le_trans. Qed.

Lemma x102_col0 : med_mad (observed_col x102 0) = (1 / 2%:R, 1 / 2%:R).
Proof.
have t0 : 2%:R != 0 :> T by rewrite pnatr_eq0.
have h2 : (0 : T) <= 1 / 2%:R by rewrite divr_ge0 ?ler01 ?ler0n.
have m : fmed (observed_col x102 0) = 1 / 2%:R.
  rewrite x102_col /= /fmed fsort_sorted /=; first by rewrite add0r.
  by rewrite !lexx ler01.
rewrite /med_mad m /fmad m x102_col /=.
have e0 : `|0 - 1 / 2%:R| = 1 / 2%:R :> T by rewrite sub0r normrN ger0_norm.
have e1 : `|1 - 1 / 2%:R| = 1 / 2%:R :> T.
  by rewrite (_ : 1 - 1 / 2%:R = 1 / 2%:R) ?ger0_norm //; field.
rewrite e0 e1; congr pair; rewrite /fmed fsort_sorted /=; last by rewrite !lexx.
by field.
Qed.

Lemma x102_col1 : med_mad (observed_col x102 1) = (1, 1).
Proof.
have t0 : 2%:R != 0 :> T by rewrite pnatr_eq0.
have b1 : (1 : T) <= 50%:R by rewrite ler1n.
have m : fmed (observed_col x102 1) = 1.
  rewrite x102_col /= /fmed fsort_sorted /=; first by field.
  by rewrite !lexx ler01 b1.
rewrite /med_mad m /fmad m x102_col /=.
have -> : `|50%:R - 1| = 49%:R :> T by rewrite -(natrB T (isT : (1 <= 50)%N)) normr_nat.
rewrite sub0r subrr normr0 normrN normr1; congr pair.
have b2 : (1 : T) <= 49%:R by rewrite ler1n.
have hp : perm_eq [:: 1; 1; 1; 1; 0; 0; 0; 0; 49%:R] [:: 0; 0; 0; 0; 1; 1; 1; 1; 49%:R : T].
  exact: (introT permPl (perm_catCA [:: 1; 1; 1; 1] [:: 0; 0; 0; 0] [:: 49%:R : T])).
rewrite (fmed_perm hp) /fmed fsort_sorted /=; first by field.
by rewrite !lexx ler01 b2.
Qed.

Lemma x102_obs k : (0 < size (observed_col x102 k))%N.
Proof. by rewrite x102_col; case: (ord2 k) => ->. Qed.

Lemma x102_scaled i k : scale_data med_mad x102 i k =
  if k == 0 then Some (if (i < 5)%N then -1 else 1)
  else if i == 0 then None else Some (if (i < 5)%N then -1 else if (i < 9)%N then 0 else 49%:R).
Proof.
have t0 : 2%:R != 0 :> T by rewrite pnatr_eq0.
rewrite [LHS]mxE [x102 i k]mxE [locations _ _ _ _]mxE [scales _ _ _ _]mxE.
case: (ord2 k) => ->; rewrite ?x102_col0 ?x102_col1 /x_cell /=.
  by case: (i < 5)%N; congr Some; field.
rewrite (_ : (i == 0%N :> nat) = (i == 0)) //; case: (i == 0) => //=; congr Some; rewrite divr1.
case: (i < 5)%N; first by rewrite sub0r.
by case: (i < 9)%N; rewrite ?subrr // -(natrB T (isT : (1 <= 50)%N)).
Qed.

Lemma x102_check : check_data (3%:R / 4%:R) (5%:R / 2%:R : T) (scale_data med_mad x102) = Ok tt.
Proof.
have big : (5%:R / 2%:R < `|1 : T|) = false.
  by apply/negbTE; rewrite -leNgt normr1 ler_pdivl_mulr ?ltr0n // mul1r ler_nat.
have bigN : (5%:R / 2%:R < `|-1 : T|) = false by rewrite normrN.
have big0 : (5%:R / 2%:R < `|0 : T|) = false.
  by apply/negbTE; rewrite -leNgt normr0 divr_ge0 ?ler0n.
have hb b (j : 'I_2) : (#|[set i | if scale_data med_mad x102 i j is Some x then (5%:R / 2%:R < `|x|)%R else b]| <= 2)%N.
  apply: (@leq_trans #|[set (0 : 'I_10); inord 9]|); last by rewrite cards2; case: (_ != _).
  apply: subset_leq_card; apply/subsetP => i; rewrite !inE x102_scaled.
  case: (ord2 j) => -> /=; first by case: (i < 5)%N; rewrite ?bigN ?big.
  case: eqP => //= _; case: (i < 5)%N; first by rewrite bigN.
  case: ltnP => hi; first by rewrite big0.
  by move=> _; apply/eqP/val_inj; rewrite /= inordK //; have := ltn_ord i; lia.
have hr m : (m <= 2)%N -> (1 - 3%:R / 4%:R < m%:R / 10%:R :> rat) = false by case: m => [|[|[|]]].
rewrite /check_data (_ : [exists j, _] = false); last by apply/existsP => -[j]; rewrite hr.
by rewrite (_ : [exists j, _] = false) //; apply/existsP => -[j]; rewrite hr.
Qed.

Lemma x102_alpha : new_alpha (3%:R / 4%:R) 10 = Ok (3%:R / 4%:R).
Proof. by []. Qed.

Let as2 : 'rV[T]_2 -> 'I_2 -> 'I_2 := fun _ j => j.

(* the identity as initial estimate *)
Definition init1 (X : 'M[option T]_(10, 2)) (al : rat) : res (est T 2) := Ok (Est 0 1%:M 1%:M).

Let fit := cell_fit ln log2pi (@eigh2 T) as2 med_mad (fun _ => NaN) init1
  (3%:R / 4%:R) (5%:R / 2%:R) 6%:R (1 / 10%:R) 1 100.

Lemma small8 : (10%:R ^+ 8)^-1 <= 1 / 2%:R :> T.
Proof.
rewrite div1r lef_pinv ?qualifE ?exprn_gt0 ?ltr0n // exprS.
have h : 1 <= 10%:R ^+ 7 :> T by apply: exprn_ege1; rewrite ler1n.
apply: le_trans (_ : 10%:R * 1 <= _); first by rewrite mulr1 ler_nat.
by rewrite ler_pmul2l ?ltr0n.
Qed.

Lemma x102_mad k : 1 / 2%:R <= fmad (observed_col x102 k).
Proof.
have := congr1 snd x102_col0; have := congr1 snd x102_col1; rewrite /med_mad /= => e1 e0.
case: (ord2 k) => ->; rewrite ?e0 ?e1 //.
by rewrite ler_pdivr_mulr ?ltr0n // mul1r ler1n.
Qed.

(* C146: the fit of the ten rows succeeds *)
Example cellmcd_fit_case : exists2 o, fit x102 = (3%:R / 4%:R, Ok o) &
  pos_def (f_covariance o) /\ ((0 < #|[set i | f_W o i 0%R]|)%N /\
  (isSome (f_imputed o 0 1) /\ f_imputed o 0 1 = f_predictions o 0 1)).
Proof.
have init_ok : cellmcd_init (1 : T) = Ok tt.
  rewrite /cellmcd_init ltNge (_ : _ <= _) // invf_le1 ?exprn_gt0 ?ltr0n //; by apply: exprn_ege1; rewrite ler1n.
have c3 : 5%:R / 2%:R <= 3%:R :> T by rewrite ler_pdivr_mulr ?ltr0n // -natrM ler_nat.
have c1 : 1 / 10%:R < 1 :> T by rewrite ltr_pdivr_mulr ?ltr0n // mul1r ltr1n.
have sc k : 0 < scales med_mad x102 0 k.
  rewrite mxE /=; apply: lt_le_trans (x102_mad k); by rewrite divr_gt0 ?ltr01 ?ltr0n.
have hin (Y : 'M[option T]_(10, 2)) al : exists2 e0, init1 Y al = Ok e0 & pos_def (e_sigma e0) /\ e_sigma e0 *m e_inv e0 = 1%:M.
  eexists; first reflexivity; split=> /=; [exact: scalar_spd ltr01|exact: mulmx1].
have hm : ~~ small_mad x102.
  apply/existsP => -[k]; rewrite ltNge => /negP; apply; exact: le_trans small8 (x102_mad k).
have [o eo [[h1 hW] h2 h3 h4 _]] := @cellmcd_fit_succeeds T 10 2 ln log2pi (@eigh2 T) as2 med_mad (fun _ => NaN) init1 L
  (@eigh2_correct T) (fun _ => @inj_id _) x102 (3%:R / 4%:R) _ 6%:R _ 1 100%N _ isT init_ok c3 isT c1 sc hin x102_alpha hm x102_check.
exists o; first exact: eo.
have [_ h5] := h2 0 1; split; first exact: h1.
split; first exact: leq_trans (isT : (0 < 8)%N) (hW 0).
split; first exact: h5.
by apply: h4; apply/negP => /h3 [x]; rewrite mxE.
Qed.

(* C147: a row with a clean cell *)
Example cellmcd_fit_predictions_case : exists o i, fit x102 = (3%:R / 4%:R, Ok o) /\ clean (f_W o) i != set0.
Proof.
have [o eo [_ [/card_gt0P [i hi] _]]] := cellmcd_fit_case; exists o, i; split; first exact: eo.
by apply/set0Pn; exists (0%R : 'I_2); move: hi; rewrite !inE.
Qed.

(* C144: in other units *)
Example cellmcd_fit_units_case : exists o o', [/\ (fit x102).2 = Ok o,
  (fit (change_units (\row_k (if k == 0 then 2%:R else 3%:R)) (const_mx 7%:R) x102)).2 = Ok o', f_W o' = f_W o, f_residuals o' = f_residuals o
  & f_covariance o' 0 1 = 6%:R * f_covariance o 0 1].
Proof.
have [o eo _] := cellmcd_fit_case.
pose a : 'rV[T]_2 := \row_k (if k == 0 then 2%:R else 3%:R).
have aE k : a 0 k = if k == 0 then 2%:R else 3%:R by rewrite mxE.
have a1 k : 1 <= a 0 k by rewrite aE; case: (k == 0); rewrite ler1n.
have a0 k : 0 < a 0 k by apply: lt_le_trans ltr01 (a1 k).
have h1 k : (10%:R ^+ 8)^-1 <= fmad (observed_col x102 k) by exact: le_trans small8 (x102_mad k).
have h2 k : (10%:R ^+ 8)^-1 <= a 0 k * fmad (observed_col x102 k).
  apply: le_trans (h1 k) _; apply: ler_pemull => //; exact: fmad_ge0.
have e2 : (fit x102).2 = Ok o by rewrite eo.
have [_] := @cellmcd_fit_units T 10 2 ln log2pi (@eigh2 T) as2 med_mad (fun _ => NaN) init1 a (const_mx 7%:R) x102
  (3%:R / 4%:R) (5%:R / 2%:R) 6%:R (1 / 10%:R) 1 100%N med_mad_equivariant a0 x102_obs h1 h2.
rewrite -/fit e2; case: (fit _).2 => [o'|er|]; [|by []|by []]; move=> [[h3 h4 _ h5] _].
exists o, o'; split; [by []|by []|exact: h3|exact: h4|].
by rewrite h5 !aE /= -natrM.
Qed.

(* C145: a successful fit and its failure in other units *)
Theorem cellmcd_units_refuted : exists (X : 'M[option T]_(10, 2)) (d : T), [/\ 0 < d, exists o, (fit X).2 = Ok o
  & (fit (change_units (const_mx d) 0 X)).2 = Err ValueError].
Proof.
have [o eo _] := cellmcd_fit_case.
have hal : (1 / 2%:R <= 3%:R / 4%:R :> rat) && (3%:R / 4%:R <= 1 :> rat) by [].

have [c c0 h] := @cellmcd_small_units T 10 2 ln log2pi (@eigh2 T) as2 med_mad (fun _ => NaN) init1 x102 _
  (5%:R / 2%:R) 6%:R (1 / 10%:R) 1 100 ord0 hal x102_obs.
exists x102, c; split; [exact: c0|by exists o; rewrite eo|exact: (h c c0 (lexx c))].
Qed.

End Cases.

Print Assumptions cellmcd_fit_units.
Print Assumptions cellmcd_small_units.
Print Assumptions cellmcd_units_refuted.
Print Assumptions cellmcd_fit_succeeds.
Print Assumptions cellmcd_fit_predictions.
