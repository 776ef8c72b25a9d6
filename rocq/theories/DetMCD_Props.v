(* Properties of the preliminary estimates of DetMCD and of its complete run. *)
From mathcomp Require Import all_ssreflect all_algebra.
From mathcomp.zify Require Import zify.
From mathcomp.algebra_tactics Require Import ring.
From Verif Require Import RFieldLra Prelude Stats Xnum Qn_Model Qn_Spec Qn_Proofs Tau_Model Tau_Proofs Regr Vec
  LinAlg_Model LinAlg_Proofs PSD MCD_Model MCD_Spec MCD_Proofs MCDRun_Proofs MCDEquiv_Proofs MCDCase_Proofs
  OGK_Model OGK_Spec OGK_Proofs Cov_Model Cov_Spec Cov_Proofs Spectral_Proofs SPCA_Proofs
  DetMCD_Model DetMCD_Spec DetMCD_Proofs DetMCDRun_Proofs.

Set Implicit Arguments.
Unset Strict Implicit.
Unset Printing Implicit Defensive.

Import Order.TTheory GRing.Theory Num.Theory.
Local Open Scope ring_scope.

Section Props.
Variables (T : rcfType) (p : nat) (tau_corr : T) (enan : err) (tanh ppf : T -> T).
Variable argsort : seq (xnum T) -> seq nat.
Variables eigvecs sqrtm : 'M[T]_p -> 'M[T]_p.
Variables (chi2_ppf : T -> nat -> T) (gamma_cdf : T -> T -> T).
Implicit Types (X Y Z : seq 'rV[T]_p).

Let run := det_mcd_run tau_corr enan tanh ppf argsort eigvecs sqrtm chi2_ppf gamma_cdf.

(* C123: the preliminary correlation matrices are finite, and are correlation matrices, whenever
   the data can be standardised *)
Theorem det_preliminary_correlations X Z : injective tanh -> increasing01 ppf ->
  standardize tau_corr enan X = Ok Z ->
  exists A1 A2 A3, [/\ S1 tanh Z = Some A1, S2 Z = Some A2, S3 ppf Z = Some A3
    & [/\ correlation_matrix A1, correlation_matrix A2 & correlation_matrix A3]].
Proof.
move=> ti pi hz; have hv j : varies Z j by exact: stdz_nonconst hz.
have [A1 e1 c1] := S1_matrix ti hv; have [A2 e2 c2] := S2_matrix hv.
by have [A3 e3 c3] := S3_matrix pi hv; exists A1, A2, A3.
Qed.

(* the ranks are the average places, and the normal scores have their arguments in (0, 1) *)
Theorem det_ranks Z (x : 'rV[T]_p) j : x \in Z ->
  average_place (coln Z j) (x 0 j) (avg_rank (coln Z j) (x 0 j)) /\
  0 < (avg_rank (coln Z j) (x 0 j) - 1 / 3%:R) / ((size Z)%:R + 1 / 3%:R) < 1.
Proof.
move=> xZ; split; first exact: avg_rank_place.
apply: score_arg_range; first by case: Z xZ.
by have := avg_rank_range (mem_coln j xZ); rewrite size_map.
Qed.

(* C124: the spatial sign, central half and OGK estimates *)
Theorem det_preliminary_scatters X Z : is_xargsort argsort ->
  standardize tau_corr enan X = Ok Z ->
  [/\ (S4 Z = None <-> exists2 x, x \in X & forall j, middle_value (coln X j) (x 0 j)),
      (forall A, S4 Z = Some A -> psd A /\ \sum_j A j j = 1),
      (forall A, S5 argsort Z = Some A -> exists2 idx,
         row_set Z (uphalf (size Z)) idx & is_cov (sel 0 Z idx) A /\
         forall i k, i \in idx -> (k < size Z)%N -> k \notin idx ->
           \sum_j nth 0 Z i 0 j ^+ 2 <= \sum_j nth 0 Z k 0 j ^+ 2)
    & forall A, S6 enan eigvecs Z = Ok A -> psd A].
Proof.
move=> Has hz; have /standardize_ok[h1 hp eZ] := hz.
have sZ : size Z = size X by rewrite eZ size_stdz.
have me s (v : T) : middle_value s v <-> v = fmed s.
  rewrite /middle_value /fmed /fsort !divn2; split=> [e|->]; last first.
    by rewrite mulrC mulfVK // pnatr_eq0.
  by rewrite -e mulrC mulKf // pnatr_eq0.
have vn (z : 'rV[T]_p) : vnorm z ^+ 2 = \sum_j z 0 j ^+ 2.
  by rewrite vnormK; apply: eq_bigr => j _; rewrite expr2.
split.
- rewrite S4_none eZ; split=> [[_ /mapP[x xX ->] /rowP e0]|[x xX hx]].
    exists x => // j; apply/me; have := e0 j; rewrite [LHS]mxE [RHS]mxE => /eqP.
    by rewrite mulf_eq0 invr_eq0 (gt_eqF (hp j)) orbF subr_eq0 => /eqP.
  eexists; first exact: (map_f (fun x : 'rV[T]_p => \row_j ((x 0 j - fmed (coln X j)) / det_scales tau_corr X 0 j)) xX).
  by apply/rowP => j; rewrite [LHS]mxE [RHS]mxE ((proj1 (me _ _)) (hx j)) subrr mul0r.
- by move=> A e; apply: S4_trace e; rewrite sZ; lia.
- move=> A e; have [rs cl] := half_idxP Has Z; exists (half_idx argsort Z) => //; split.
    exact: (S5_cov Has e).
  move=> i k hi hk nk; rewrite -!vn; have := cl i k hi hk nk.
  by move=> h; rewrite ler_sqr ?nnegrE ?vnorm_ge0.
- by move=> A; exact: S6_psd.
Qed.

(* C125: the rank-based estimates are the same for all data ordered alike *)
Theorem det_rank_estimates_invariant X Y ZX ZY : same_order X Y ->
  standardize tau_corr enan X = Ok ZX -> standardize tau_corr enan Y = Ok ZY ->
  S2 ZX = S2 ZY /\ S3 ppf ZX = S3 ppf ZY.
Proof.
move=> hxy hx hy.
have h : same_order ZX ZY.
  apply: (same_order_trans (same_order_sym (stdz_order hx))).
  exact: (same_order_trans hxy (stdz_order hy)).
by split; [exact: S2_order|exact: S3_order].
Qed.

(* C126: the initial scatter has the axes of the preliminary estimate and the squared Qn scales of
   the data along those axes; the location is the median of the sphered data, mapped back *)
Theorem det_initial_estimate Z (S : 'M[T]_p) : correct_eigvecs eigvecs -> is_sqrtm sqrtm ->
  p != 1%N -> S^T = S ->
  exists E : 'M[T]_p, [/\ E^T *m E = 1%:M, exists d : 'rV[T]_p, E^T *m S *m E = diag_mx d
    & let spread j := qn_of [seq \sum_k z 0 k * E k j | z : 'rV[T]_p <- Z] in
      ((exists j, spread j = 0) /\ det_estimate enan eigvecs sqrtm Z (Some S) = Err LinAlgError) \/
      (forall j, 0 < spread j) /\ exists mu C, [/\ det_estimate enan eigvecs sqrtm Z (Some S) = Ok (mu, C),
        psd C, posdef C, (forall j, C *m col j E = spread j ^+ 2 *: col j E)
        & exists R, [/\ psd R, R *m R = C, R \in unitmx
            & forall j, middle_value [seq (z *m invmx R) 0 j | z <- Z] ((mu *m invmx R) 0 j)]]].
Proof.
move=> He Hs p1 sS; exists (axes eigvecs S); split; [exact: (axes_orth He sS)|exact: (axes_diag He sS)|].
move=> spread.
have es j : spread j = qn_of (coln [seq z *m axes eigvecs S | z <- Z] j).
  by rewrite /spread /coln -map_comp; congr qn_of; apply: eq_map => z /=; rewrite mxE.
rewrite (det_estimate_ok enan He Hs) //; case: forallP => [h|/forallP/forallPn[j]]; last first.
  rewrite -es -leNgt => hj; left; split=> //; exists j; apply/eqP.
  by rewrite eq_le hj /spread qn_of_ge0.
right; split=> [j|]; first by rewrite es.
have hf : [forall j, 0 < qn_of (coln [seq z *m axes eigvecs S | z <- Z] j)] by apply/forallP.
have pC := det_sigma_psd eigvecs Z S.
have uC : det_sigma eigvecs Z S \in unitmx by rewrite (det_sigma_unit He).
do 2 eexists; split; [by []|exact: pC|exact: psd_unit_posdef| |].
  by move=> j; rewrite es; exact: (det_sigma_axis He).
have [pR eR] := Hs _ pC; have uR : sqrtm (det_sigma eigvecs Z S) \in unitmx by rewrite (sqrtm_unit Hs).
exists (sqrtm (det_sigma eigvecs Z S)); split=> // j.
have sR := proj1 pR; rewrite sR -mulmxA mulmxV // mulmx1 /middle_value mxE /coln -map_comp /fmed /fsort !divn2.
by rewrite mulrC mulfVK // pnatr_eq0.
Qed.

(* C127: DetMCD follows shifts and positive rescalings of the variables *)
Theorem det_mcd_rescaling (c b : 'rV[T]_p) fuel a tol cor rew X : is_xargsort argsort ->
  X != [::] -> 0 < tol -> (forall j, 0 < c 0 j) ->
  (forall e, run fuel.+1 a tol cor rew X = Err e -> run fuel.+1 a tol cor rew (rescaled c b X) = Err e) /\
  (forall o, run fuel.+1 a tol cor rew X = Ok o -> (forall m, o_mask o = Some m -> has id m) ->
     exists o', [/\ run fuel.+1 a tol cor rew (rescaled c b X) = Ok o',
       (o_location o', o_scale o') = rescaled_est c b (o_location o, o_scale o), o_mask o' = o_mask o
       & omap (@indices T p) (o_best o') = omap (@indices T p) (o_best o)]).
Proof.
move=> Has X0 t0 hc; rewrite rescaledE.
have [h1 h2] := run_aff tau_corr enan tanh ppf Has eigvecs sqrtm chi2_ppf gamma_cdf b fuel a cor rew X0 t0 hc.
split=> // o ho hm; exists (to (diag_mx c) b o); split; [exact: h2 ho hm| |by []|by rewrite [to _ _ _]/to [o_best (McdOut _ _ _ _)]/=; case: (o_best o)].
by rewrite rescaled_estE /to /tx /tm tr_diag_mx.
Qed.

(* C128: data on which DetMCD cannot be fitted *)
Theorem det_mcd_median_observation_fails fuel a tol cor rew X x :
  ~~ (alpha_eq a 1 || alpha_eq a (size X)) ->
  x \in X -> (forall j, x 0 j = fmed (coln X j)) -> exists e, run fuel a tol cor rew X = Err e.
Proof.
move=> na xX hx.
have [e he] := at_median_fails tau_corr enan tanh ppf argsort eigvecs sqrtm chi2_ppf gamma_cdf xX hx.
by exists e; exact: run_est_err he.
Qed.

Theorem det_mcd_tied_variable_fails fuel a tol cor rew X j v :
  ~~ (alpha_eq a 1 || alpha_eq a (size X)) -> (1 < size X)%N ->
  (size X < 2 * count (fun x : 'rV[T]_p => (x 0%R j == v)%R) X)%N -> run fuel a tol cor rew X = Err enan.
Proof.
move=> na h1 ht; apply: run_est_err => //; rewrite /det_estimates.
suff -> : standardize tau_corr enan X = Err enan by [].
rewrite /standardize ltnNge h1 /=; case: existsP => // hn; case: hn; exists j.
have sc : size (coln X j) = size X by rewrite size_map.
have cc : count (fun x => (v <= x <= v + 0)%R) (coln X j) = count (fun x : 'rV[T]_p => x 0 j == v) X.
  by rewrite count_map; apply: eq_count => x /=; rewrite addr0 eq_sym eq_le.
rewrite mxE; case: ifP => _.
  have h2 : (1 < size (coln X j))%N by rewrite sc.
  have [q hq _] := qn_raw_correct h2.
  have q0 : q <= 0.
    by apply: (qn_raw_breakdown (lo := v) h2 _ hq); rewrite cc sc; move: ht; move: (count _ _) (size X) => c n; lia.
  have := qn_of_ge0 (coln X j); rewrite /qn_of (qn_scale_factor true true h2 hq) => h3.
  rewrite eq_le h3 andbT; apply: mulr_ge0_le0 => //; exact: ltW (qn_factor_gt0 _ true true h2).
have m0 : fmad (coln X j) = 0.
  apply/eqP; rewrite eq_le fmad_ge0 andbT.
  have := @fmad_majority T (coln X j) v (v + 0); rewrite cc sc addr0 subrr; apply=> //; lia.
by have [_ e] := tau_mad0 (9%:R / 2%:R) 3%:R m0; rewrite /tau_of /tau /= e mul0r.
Qed.

(* C129: with at most 2p observations the fit always fails *)
Theorem det_mcd_small_sample_fails fuel a tol cor rew X : (1 < p)%N ->
  (size X <= 2 * p)%N -> ~~ (alpha_eq a 1 || alpha_eq a (size X)) ->
  exists e, run fuel a tol cor rew X = Err e.
Proof.
move=> p1 hs na; apply: small_sample_fails => //.
by move: (size X) hs => n hs; rewrite uphalf_half; lia.
Qed.

(* C130: if no hyperplane contains more than a quarter of the observations and no observation is
   the coordinatewise median, DetMCD returns, with a positive definite covariance of its subset *)
Theorem det_mcd_succeeds fuel a h tol cor rew X :
  is_xargsort argsort -> correct_eigvecs eigvecs -> is_sqrtm sqrtm ->
  0 < tau_corr -> injective tanh -> increasing01 ppf -> 0 < chi2_ppf (1 / 2%:R) p -> 0 < tol ->
  (1 < p)%N -> X != [::] -> hyperplanes_hold_a_quarter X ->
  (forall x, x \in X -> exists j, x 0 j != fmed (coln X j)) ->
  ~~ (alpha_eq a 1 || alpha_eq a (size X)) -> get_h a (size X) p = Ok h ->
  exists o s, [/\ run fuel.+1 a tol cor rew X = Ok o, o_best o = Some s & posdef (scale s)].
Proof.
by move=> Has He Hs tc ti pi hq t0 p1 X0 g hm na eh; exact: (gen_run enan Has He Hs p1 gamma_cdf cor rew fuel tc ti pi hq t0 X0 g hm na eh).
Qed.

End Props.

(* ---------- concrete cases ---------- *)
Section Cases.
Variable T : rcfType.

(* correct external routines *)
Definition eigvecs_of p (S : 'M[T]_p) : 'M[T]_p := (eigh_of S).2.
Lemma eigvecs_of_correct p : correct_eigvecs (@eigvecs_of p).
Proof.
move=> U sU; have [o e] := eigh_of_correct sU; split=> //; exists (eigh_of U).1.
rewrite /eigvecs_of; set V := (eigh_of U).2 in o e *; set w := (eigh_of U).1 in e *.
by rewrite e !mulmxA o mul1mx -mulmxA o mulmx1.
Qed.

Definition sqrtm_of p (C : 'M[T]_p) : 'M[T]_p :=
  (eigh_of C).2 *m diag_mx (map_mx Num.sqrt (eigh_of C).1) *m (eigh_of C).2^T.
Lemma sqrtm_of_correct p : is_sqrtm (@sqrtm_of p).
Proof.
move=> C pC; have [o e] := eigh_of_correct (proj1 pC); rewrite /sqrtm_of.
set V := (eigh_of C).2 in o e *; set w := (eigh_of C).1 in e *.
have w0 j : 0 <= w 0 j.
  have h : diag_mx w = V^T *m C *m V^T^T by rewrite trmxK [in RHS]e !mulmxA o mul1mx -mulmxA o mulmx1.
  have := psd_diag j (psd_congr V^T pC); rewrite -h mxE eqxx; by rewrite mulr1n.
split.
  apply: psd_congr; have -> : diag_mx (map_mx Num.sqrt w)
    = (diag_mx (map_mx (fun t => Num.sqrt (Num.sqrt t)) w))^T *m diag_mx (map_mx (fun t => Num.sqrt (Num.sqrt t)) w).
    rewrite tr_diag_mx mulmx_diag; congr diag_mx; apply/rowP => j.
    by rewrite ![in RHS]mxE [LHS]mxE -expr2 sqr_sqrtr ?sqrtr_ge0.
  exact: psd_gram.
rewrite -!mulmxA [V^T *m (V *m _)]mulmxA o mul1mx [diag_mx _ *m (diag_mx _ *m _)]mulmxA mulmx_diag.
rewrite [RHS]e -mulmxA; congr (_ *m (diag_mx _ *m _)); apply/rowP => j.
by rewrite ![in LHS]mxE -expr2 sqr_sqrtr.
Qed.

(* points of a plane curve *)
Definition curve (F G : nat -> T) n : seq 'rV[T]_2 := [seq row2 (F i) (G i) | i <- iota 0 n].

(* the points (i, i^2) of a parabola, and the points (i^2, i^2 + i), ordered alike *)
Definition par : nat -> seq 'rV[T]_2 := curve (fun i => i%:R) (fun i => (i * i)%:R).
Definition par' : nat -> seq 'rV[T]_2 := curve (fun i => (i * i)%:R) (fun i => (i * i + i)%:R).

Lemma curve_gen F G n : (8 <= n)%N ->
  (forall (u : 'rV[T]_2) c, u != 0 -> exists2 q : {poly T}, q != 0 & (size q <= 3)%N /\
     forall i, q.[i%:R] = F i * u 0 0 + G i * u 0 1 - c) ->
  hyperplanes_hold_a_quarter (curve F G n).
Proof.
move=> n8 hq u c u0; have [q q0 [sq eq]] := hq u c u0.
rewrite size_map size_iota /curve count_map.
set P := preim _ _; suff : (count P (iota 0 n) <= 2)%N by lia.
rewrite -ltnS; apply: leq_trans sq.
pose rs := [seq (i%:R : T) | i <- filter P (iota 0 n)].
have -> : count P (iota 0 n) = size rs by rewrite size_map size_filter.
apply: max_poly_roots => //.
  apply/allP => _ /mapP[i hi ->]; move: hi; rewrite mem_filter => /andP[Pi _].
  have e1 : lift ord0 ord0 = 1 :> 'I_2 by apply/val_inj.
  move: Pi; rewrite /P /= big_ord_recl big_ord_recl big_ord0 !mxE /= addr0 e1 => /eqP e.
  by rewrite /root eq e subrr.
by rewrite map_inj_uniq ?filter_uniq ?iota_uniq //; exact: (mulrIn (oner_neq0 T)).
Qed.

Lemma row2_0 (u : 'rV[T]_2) : u != 0 -> (u 0 0 != 0) || (u 0 1 != 0).
Proof.
apply: contraNT; rewrite negb_or !negbK => /andP[/eqP h0 /eqP h1].
apply/eqP/rowP => j; rewrite [RHS]mxE; case: j => [[|[|k]] hk] //.
  by rewrite -h0; congr (u 0 _); apply/val_inj.
by rewrite -h1; congr (u 0 _); apply/val_inj.
Qed.

Lemma poly3 (a b c : T) : (b != 0) || (c != 0) -> Poly [:: a; b; c] != 0.
Proof.
apply: contraL => /eqP e.
have h k : (Poly [:: a; b; c])`_k = 0 by rewrite e coef0.
by rewrite negb_or !negbK; move: (h 1%N) (h 2%N); rewrite !coef_Poly /= => -> ->; rewrite eqxx.
Qed.

Lemma par_gen n : (8 <= n)%N -> hyperplanes_hold_a_quarter (par n).
Proof.
move=> n8; apply: curve_gen => // u c u0; exists (Poly [:: - c; u 0 0; u 0 1]).
  exact/poly3/row2_0.
split; first exact: size_Poly.
move=> i; rewrite horner_Poly /= natrM mul0r add0r.
by move: (u 0 0) (u 0 1) (i%:R : T) => a b x; ring.
Qed.

Lemma par'_gen n : (8 <= n)%N -> hyperplanes_hold_a_quarter (par' n).
Proof.
move=> n8; apply: curve_gen => // u c u0; exists (Poly [:: - c; u 0 1; u 0 0 + u 0 1]).
  by apply: poly3; have := row2_0 u0; have [->|//] := eqVneq (u 0 1) 0; rewrite addr0 orbF.
split; first exact: size_Poly.
move=> i; rewrite horner_Poly /= natrD natrM mul0r add0r.
by move: (u 0 0) (u 0 1) (i%:R : T) => a b x; ring.
Qed.

Lemma par_median n j : fmed (coln (par n) j) =
  ((if j == 0 then (n.-1./2)%:R else (n.-1./2 * n.-1./2)%:R) + (if j == 0 then (n./2)%:R else (n./2 * n./2)%:R)) / 2%:R :> T.
Proof.
case: n => [|n]; first by rewrite /fmed /fsort /= !if_same ?addr0 //; case: ifP.
have e : coln (par n.+1) j = [seq (if j == 0 then i%:R else (i * i)%:R : T) | i <- iota 0 n.+1].
  by rewrite /coln /par /curve -map_comp; apply: eq_map => i /=; rewrite mxE.
rewrite /fmed /fsort e sorted_sort; last 2 first.
- exact: le_trans.
- apply: (@homo_sorted _ _ _ leq); last exact: iota_sorted.
  by move=> a b h; case: ifP => _; rewrite ler_nat //; exact: leq_mul.
by rewrite size_map size_iota !divn2 !(nth_map 0%N) ?size_iota ?nth_iota ?add0n //; lia.
Qed.

Lemma par8_off (x : 'rV[T]_2) : x \in par 8 -> exists j, x 0 j != fmed (coln (par 8) j).
Proof.
move=> /mapP[i _ ->]; exists 0; rewrite par_median mxE /=.
rewrite -natrD eq_sym; apply/eqP => h.
have : (2 * i)%:R = (3 + 4)%:R :> T.
  by rewrite natrM -h mulrC mulfVK // pnatr_eq0.
by move/eqP; rewrite eqr_nat; lia.
Qed.


(* the routines and constants of the cases *)
Let run8 := det_mcd_run 1 ValueError id id (@xargsort T) (@eigvecs_of 2) (@sqrtm_of 2)
  (fun _ _ => 1 : T) (fun _ _ => 1 : T).

Lemma inj_id : injective (@id T). Proof. by []. Qed.
Lemma inc_id : increasing01 (@id T). Proof. by []. Qed.

(* C130 *)
Example det_mcd_succeeds_case fuel tol cor rew : 0 < tol ->
  exists o s, [/\ run8 fuel.+1 ANone tol cor rew (par 8) = Ok o, o_best o = Some s & posdef (scale s)].
Proof.
move=> t0; apply: (@det_mcd_succeeds _ _ _ _ _ _ _ _ _ _ _ _ _ 5) => //.
- exact: xargsortP.
- exact: eigvecs_of_correct.
- exact: sqrtm_of_correct.
- exact: ltr01.
- exact: ltr01.
- exact: par_gen.
- exact: par8_off.
Qed.

(* C123, C124 *)
Example det_preliminary_case : exists Z A1 A2 A3 A4, [/\ standardize 1 ValueError (par 8) = Ok Z,
  [/\ S1 id Z = Some A1, S2 Z = Some A2 & S3 id Z = Some A3],
  [/\ correlation_matrix A1, correlation_matrix A2 & correlation_matrix A3],
  S4 Z = Some A4 & \sum_j A4 j j = 1].
Proof.
have [//|||Z hz _] := @gen_standardize T 2 1 ValueError isT (par 8); [exact: ltr01|by []|exact: par_gen|].
have [A1 [A2 [A3 [e1 e2 e3 c]]]] := det_preliminary_correlations inj_id inc_id hz.
have [h4 t4 _ _] := det_preliminary_scatters (@eigvecs_of 2) (@xargsortP T) hz.
case e4: (S4 Z) => [A4|].
  by exists Z, A1, A2, A3, A4; split=> //; have [] := t4 _ e4.
have [x xX hx] := proj1 h4 e4; have [j] := par8_off xX.
have := hx j; rewrite /middle_value => hm; case/eqP.
by rewrite /fmed /fsort !divn2 -hm mulrC mulKf // pnatr_eq0.
Qed.

(* C125 *)
Lemma par_order : same_order (par 8) (par' 8).
Proof.
split=> // i k j; rewrite size_map size_iota => hi hk.
rewrite !(nth_map 0%N) ?size_iota // !mxE !nth_iota // !add0n.
by case: ifP => _; rewrite !ler_nat; apply/idP/idP; nia.
Qed.

Example det_rank_estimates_case : exists Z Z', [/\ standardize 1 ValueError (par 8) = Ok Z,
  standardize 1 ValueError (par' 8) = Ok Z', S2 Z = S2 Z' & S3 id Z = S3 id Z'].
Proof.
have [//|||Z hz _] := @gen_standardize T 2 1 ValueError isT (par 8); [exact: ltr01|by []|exact: par_gen|].
have [//|||Z' hz' _] := @gen_standardize T 2 1 ValueError isT (par' 8); [exact: ltr01|by []|exact: par'_gen|].
by exists Z, Z'; have [] := det_rank_estimates_invariant id par_order hz hz'.
Qed.

(* C126 *)
Example det_initial_estimate_case : exists mu C,
  det_estimate ValueError (@eigvecs_of 2) (@sqrtm_of 2) (par 8) (Some 1%:M) = Ok (mu, C) /\ posdef C.
Proof.
have [E [oE _]] := det_initial_estimate ValueError (par 8) (@eigvecs_of_correct 2) (@sqrtm_of_correct 2)
  isT (trmx1 _ _).
case=> [[[j h0] _]|[_ [mu [C [e _ pC _ _]]]]]; last by exists mu, C.
have h := @gen_few T 2 (par 8) (col j E)^T (par_gen (leqnn _)).
have nz : (col j E)^T != 0.
  apply/eqP => e0; have := congr1 (fun A : 'M[T]_2 => A j j) oE; rewrite !mxE eqxx.
  rewrite big1 => [/eqP|k _]; first by rewrite eq_sym oner_eq0.
  by move/rowP: e0 => /(_ k); rewrite !mxE => ->; rewrite mulr0.
have := few_qn _ (h nz); rewrite size_map => /(_ isT); rewrite lt_def => /andP[/eqP[]].
rewrite -[RHS]h0; congr qn_of; apply: eq_map => z; rewrite /dotv; by apply: eq_bigr => k _; rewrite !mxE.
Qed.

(* C127 *)
Example det_mcd_rescaling_case fuel tol : 0 < tol ->
  exists o o', [/\ run8 fuel.+1 ANone tol true false (par 8) = Ok o,
    run8 fuel.+1 ANone tol true false (rescaled (row2 2%:R 3%:R) (row2 1 (-1)) (par 8)) = Ok o'
    & (o_location o', o_scale o') = rescaled_est (row2 2%:R 3%:R) (row2 1 (-1)) (o_location o, o_scale o)].
Proof.
move=> t0; have [o [s [ho _ _]]] := det_mcd_succeeds_case fuel true false t0.
have hc (j : 'I_2) : 0 < row2 (2%:R : T) 3%:R 0 j by rewrite mxE; case: ifP; rewrite ltr0n.
have [_ h] := det_mcd_rescaling 1 ValueError id id (@eigvecs_of 2) (@sqrtm_of 2) (fun _ _ => 1) (fun _ _ => 1)
  (row2 1 (-1)) fuel ANone true false (@xargsortP T) (isT : par 8 != [::]) t0 hc.
have [|o' [ho' e _ _]] := h o ho; last by exists o, o'.
move: ho; rewrite /run8 /det_mcd_run /det_mcd [alpha_eq _ _ || _]/=.
case: (det_estimates _ _ _ _ _ _ _ _) => // ze; rewrite [bind (Ok _) _]/=.
case: (mapM _ _) => // cs; rewrite [bind (Ok _) _]/=; case: (select _ _ _ _ _ _) => // s'; rewrite [bind (Ok _) _]/=.
by rewrite /post; case: (correct_covariance _ (par 8) s') => // S [<-].
Qed.

(* C128 *)
Example det_mcd_median_observation_case fuel tol cor rew : exists e, run8 fuel ANone tol cor rew (par 9) = Err e.
Proof.
apply: (@det_mcd_median_observation_fails _ _ _ _ _ _ _ _ _ _ _ _ _ _ _ _ _ (row2 4%:R 16%:R)) => //.
  by apply/mapP; exists 4%N.
have dbl (x : T) : x = (x + x) / 2%:R by flra.
by move=> j; rewrite par_median mxE /=; case: ifP => _; exact: dbl.
Qed.

Example det_mcd_tied_variable_case fuel tol cor rew :
  run8 fuel ANone tol cor rew [:: row2 0 0; row2 0 1; row2 1 3%:R] = Err ValueError.
Proof.
apply: (@det_mcd_tied_variable_fails _ _ _ _ _ _ _ _ _ _ _ _ _ _ _ _ _ 0 0) => //.
by rewrite /= !mxE /= !eqxx; case: eqP.
Qed.

(* C129 *)
Example det_mcd_small_sample_case fuel tol cor rew : exists e, run8 fuel ANone tol cor rew (par 4) = Err e.
Proof. exact: det_mcd_small_sample_fails. Qed.

End Cases.

Print Assumptions det_preliminary_correlations.
Print Assumptions det_ranks.
Print Assumptions det_preliminary_scatters.
Print Assumptions det_rank_estimates_invariant.
Print Assumptions det_initial_estimate.
Print Assumptions det_mcd_rescaling.
Print Assumptions det_mcd_median_observation_fails.
Print Assumptions det_mcd_tied_variable_fails.
Print Assumptions det_mcd_small_sample_fails.
Print Assumptions det_mcd_succeeds.
