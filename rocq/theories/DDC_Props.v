(* Property theorems: the DDC outlier detector (C42-C48, C91, C95). *)
From mathcomp Require Import all_ssreflect all_algebra.
From mathcomp.zify Require Import zify.
From mathcomp.algebra_tactics Require Import ring.
From Verif Require Import RFieldLra Prelude Xnum Qn_Model DDC_Model DDC_Spec DDC_Proofs.
From Verif Require Import DDCFit_Proofs DDCMore_Proofs DDCCheck_Proofs.

Set Implicit Arguments.
Unset Strict Implicit.
Unset Printing Implicit Defensive.

Import Order.TTheory GRing.Theory Num.Theory.
Local Open Scope ring_scope.

Section Props.
Variable T : rcfType.
Notation num := (xnum T).
Notation matrix_of := (seq (seq num)).
Variable est osm : seq num -> res (num * num).
Variable lstsq : seq num -> seq num -> res num.
Variable cdf1 : num -> num.
Variable round3 : T -> T.
Implicit Types (o : ddc T) (X Y : table T).

Notation fit := (fit est osm lstsq cdf1).
Notation run := (run est osm lstsq cdf1).

(* C42: impute keeps the shape and changes only missing cells and, when asked,
   flagged cells; those get the prediction on the original scale, rounded.  The
   prediction P is the one that enters the residuals returned by predict *)
Theorem ddc_impute_frame o X b fs : predict o X = Ok fs -> shaped (ncol X) (rows X) ->
  exists (V : matrix_of) (P : nat -> nat -> num) ls rs,
    [/\ impute round3 o X b = Ok V, o_ls o = Some ls, o_rscale o = Some rs,
        size V = size (rows X) /\ shaped (ncol X) V &
     forall a i, (a < size (rows X))%N -> (i < ncol X)%N ->
       at_ NaN fs.2 a i = xdiv (xsub (zscore ls (nth [::] (rows X) a) i) (P a i)) (nth NaN rs i) /\
       at_ NaN V a i =
       if missing (at_ NaN (rows X) a i) || (b && at_ false fs.1 a i)
       then xmap round3 (xadd (xmul (P a i) (nth NaN ls.2 i)) (nth NaN ls.1 i))
       else at_ NaN (rows X) a i].
Proof. exact: impute_cells_lem. Qed.

(* C42: with finite fitted parameters nothing stays missing *)
Theorem ddc_impute_complete o X b fs c ls corr slopes deshr :
  predict o X = Ok fs -> shaped (ncol X) (rows X) -> o_cutoff o = Fin c ->
  o_ls o = Some ls -> o_corr o = Some corr -> o_slopes o = Some slopes -> o_deshr o = Some deshr ->
  all (@is_fin T) ls.1 -> all (@is_fin T) ls.2 -> all (@is_fin T) deshr ->
  (forall k i, (k < ncol X)%N -> (i < ncol X)%N -> is_fin (at_ NaN corr k i)) ->
  (forall k i, (k < ncol X)%N -> (i < ncol X)%N -> fin_or_nan (at_ NaN slopes k i)) ->
  exists2 V : matrix_of, impute round3 o X b = Ok V &
    forall a i, (a < size (rows X))%N -> (i < ncol X)%N -> is_fin (at_ NaN V a i).
Proof. exact: impute_complete_lem. Qed.

(* C43: predict works row by row *)
Theorem ddc_predict_stack o p b (A B : matrix_of) : predict o (Table p b (A ++ B)) =
  (do x <- predict o (Table p b A); do y <- predict o (Table p b B);
   Ok (x.1 ++ y.1, x.2 ++ y.2)).
Proof. exact: predict_stack_lem. Qed.

(* C43: whatever an object went through, two rows (of any two tables) that agree
   off column i have the same prediction for the cell in column i *)
Theorem ddc_prediction_local cut mc hs X X' fs fs' a a' i :
  let o := run (new_ddc cut mc) hs in
  predict o X = Ok fs -> predict o X' = Ok fs' ->
  (a < size (rows X))%N -> (a' < size (rows X'))%N -> (i < ncol X)%N ->
  agree_off i (nth [::] (rows X) a) (nth [::] (rows X') a') ->
  exists P ls rs, [/\ o_ls o = Some ls, o_rscale o = Some rs,
    at_ NaN fs.2 a i = xdiv (xsub (zscore ls (nth [::] (rows X) a) i) P) (nth NaN rs i) &
    at_ NaN fs'.2 a' i = xdiv (xsub (zscore ls (nth [::] (rows X') a') i) P) (nth NaN rs i)].
Proof. by move=> o; apply: local_lem; apply: run_diag. Qed.

(* C44: the prediction is a convex combination of slope * value *)
Theorem ddc_prediction_convex o Y fs c ls corr slopes deshr rs a i :
  predict o Y = Ok fs -> o_cutoff o = Fin c ->
  o_ls o = Some ls -> o_corr o = Some corr -> o_slopes o = Some slopes ->
  o_deshr o = Some deshr -> o_rscale o = Some rs ->
  (forall k, (k < ncol Y)%N -> is_fin (at_ NaN corr k i)) ->
  (forall k, (k < ncol Y)%N -> fin_or_nan (at_ NaN slopes k i)) ->
  (a < size (rows Y))%N -> (i < ncol Y)%N ->
  exists w, prediction_weights c ls corr (ncol Y) (nth [::] (rows Y) a) i w /\
    at_ NaN fs.2 a i =
    xdiv (xsub (zscore ls (nth [::] (rows Y) a) i)
               (xmul (Fin (weighted_prediction ls slopes (ncol Y) (nth [::] (rows Y) a) i w))
                     (nth NaN deshr i)))
         (nth NaN rs i).
Proof. exact: convex_lem. Qed.

(* C44: a row without usable columns is predicted by the location *)
Theorem ddc_prediction_location o X b fs c ls corr slopes deshr a i l s d :
  predict o X = Ok fs -> shaped (ncol X) (rows X) -> o_cutoff o = Fin c ->
  o_ls o = Some ls -> o_corr o = Some corr -> o_slopes o = Some slopes -> o_deshr o = Some deshr ->
  (forall k, (k < ncol X)%N -> is_fin (at_ NaN corr k i)) ->
  (forall k, (k < ncol X)%N -> fin_or_nan (at_ NaN slopes k i)) ->
  (a < size (rows X))%N -> (i < ncol X)%N ->
  nth NaN ls.1 i = Fin l -> nth NaN ls.2 i = Fin s -> nth NaN deshr i = Fin d ->
  missing (at_ NaN (rows X) a i) ->
  (forall k, (k < ncol X)%N -> k != i -> kept c (zscore ls (nth [::] (rows X) a) k) ->
     `|val0 (at_ NaN corr k i)| < 2%:R^-1) ->
  exists2 V : matrix_of, impute round3 o X b = Ok V & at_ NaN V a i = Fin (round3 l).
Proof. exact: no_weight_lem. Qed.

(* C45: min_correlation values up to 1/2 are all equivalent *)
Theorem ddc_min_correlation_inert o1 o2 o1' o2' X (c m1 m2 : T) :
  (forall x y v, lstsq x y = Ok v -> is_fin v) ->
  o_cutoff o1 = Fin c -> o_cutoff o2 = Fin c -> o_min o1 = Fin m1 -> o_min o2 = Fin m2 ->
  m1 <= 2%:R^-1 -> m2 <= 2%:R^-1 ->
  fit o1 X = (o1', Ok tt) -> fit o2 X = (o2', Ok tt) ->
  (forall corr, o_corr o1' = Some corr ->
     forall i j, (i < ncol X)%N -> (j < ncol X)%N -> is_fin (at_ NaN corr i j)) ->
  [/\ o_cells o1' = o_cells o2', o_rows o1' = o_rows o2' &
   forall Y b, [/\ predict o1' Y = predict o2' Y,
     predict_rowwise cdf1 o1' Y = predict_rowwise cdf1 o2' Y &
     impute round3 o1' Y b = impute round3 o2' Y b]].
Proof. by move=> h; exact: min_corr_lem. Qed.

(* C45: above 1/2, a usable column whose correlation lies in [1/2, min_correlation)
   keeps its weight but has no slope: the weights that are used sum to less than 1 *)
Theorem ddc_min_correlation_shrinks o o' X Y fs (c m : T) a i k :
  (forall x y v, lstsq x y = Ok v -> is_fin v) ->
  fit o X = (o', Ok tt) -> o_cutoff o = Fin c -> o_min o = Fin m -> predict o' Y = Ok fs ->
  (forall corr, o_corr o' = Some corr ->
     forall i j, (i < ncol X)%N -> (j < ncol X)%N -> is_fin (at_ NaN corr i j)) ->
  (a < size (rows Y))%N -> (i < ncol Y)%N -> (k < ncol Y)%N -> k != i ->
  (forall ls corr, o_ls o' = Some ls -> o_corr o' = Some corr ->
     kept c (zscore ls (nth [::] (rows Y) a) k) /\
     2%:R^-1 <= `|val0 (at_ NaN corr k i)| < m) ->
  exists ls corr slopes deshr rs w,
   [/\ [/\ o_ls o' = Some ls, o_corr o' = Some corr, o_slopes o' = Some slopes,
           o_deshr o' = Some deshr & o_rscale o' = Some rs],
       prediction_weights c ls corr (ncol Y) (nth [::] (rows Y) a) i w,
       at_ NaN fs.2 a i =
         xdiv (xsub (zscore ls (nth [::] (rows Y) a) i)
                    (xmul (Fin (weighted_prediction ls slopes (ncol Y) (nth [::] (rows Y) a) i w))
                          (nth NaN deshr i)))
              (nth NaN rs i),
       \sum_(j < ncol Y) w j = 1 &
       \sum_(j < ncol Y | ~~ is_nan (at_ NaN slopes j i)) w j < 1].
Proof. by move=> h; exact: shrink_lem. Qed.

(* C46: predict on the training table returns what fit stored *)
Theorem ddc_predict_agrees_with_fit o o' X : fit o X = (o', Ok tt) ->
  exists flags S rf,
  [/\ o_cells o' = Some (ncol X, flags, S), predict o' X = Ok (flags, S),
      o_rows o' = Some rf & predict_rowwise cdf1 o' X = Ok rf].
Proof. exact: predict_agrees_lem. Qed.

(* C46: a cell is flagged iff its residual is beyond the cutoff; missing cells are not *)
Theorem ddc_flags o X fs c : predict o X = Ok fs -> o_cutoff o = Fin c ->
  forall a i, (a < size (rows X))%N -> (i < ncol X)%N ->
  at_ false fs.1 a i = (match at_ NaN fs.2 a i with
                        | Fin u => c < `|u| | NaN => false | _ => true end) /\
  (missing (at_ NaN (rows X) a i) -> at_ false fs.1 a i = false).
Proof.
move=> ep ec a i ha hi; have [-> h] := flags_lem ep ha hi; rewrite ec; split.
  by case: (at_ NaN fs.2 a i).
by move=> /h; case: (at_ NaN fs.2 a i).
Qed.

(* C47: before a successful fit everything raises AttributeError *)
Theorem ddc_unfitted cut mc hs X b sr rz cz :
  let o := run (new_ddc cut mc) hs in
  (forall k, (k < size hs)%N ->
     forall o', (fit (run (new_ddc cut mc) (take k hs)) (nth X hs k)) <> (o', Ok tt)) ->
  [/\ predict o X = Err AttributeError, predict_rowwise cdf1 o X = Err AttributeError,
      impute round3 o X b = Err AttributeError & cellmap o X sr rz cz = Err AttributeError].
Proof.
move=> o h; apply: unfitted_lem; rewrite {}/o.
elim/last_ind: hs h => [//|hs Y IH] h; rewrite /DDC_Model.run foldl_rcons -/(run _ hs) fit_fitted negb_or.
apply/andP; split.
  apply: IH => k hk o'; have := h k; rewrite size_rcons ltnS (ltnW hk) => /(_ isT o').
  by rewrite -cats1 takel_cat 1?ltnW // nth_cat hk.
have := h (size hs); rewrite size_rcons ltnSn => /(_ isT).
rewrite nth_rcons ltnn eqxx -cats1 take_size_cat //.
by case: (fit _ Y) => o1 [[]|e|] //= /(_ o1).
Qed.

(* C47: after one successful fit nothing raises it any more, whatever follows *)
Theorem ddc_fitted_no_attribute_error cut mc hs X0 hs' o0 X b sr rz cz :
  fit (run (new_ddc cut mc) hs) X0 = (o0, Ok tt) ->
  let o := run o0 hs' in
  [/\ predict o X <> Err AttributeError, predict_rowwise cdf1 o X <> Err AttributeError,
      impute round3 o X b <> Err AttributeError & cellmap o X sr rz cz <> Err AttributeError].
Proof.
move=> e o; have e0 : o0 = (fit (run (new_ddc cut mc) hs) X0).1 by rewrite e.
apply: fitted_no_attr_lem; rewrite /o.
  by rewrite e0; apply: run_complete; apply: fit_complete; apply: run_complete.
by apply: run_fitted; rewrite e0 fit_fitted e orbT.
Qed.

(* C48: the robust correlation matrix is square and symmetric, has a unit diagonal
   and entries that are NaN or in [-1, 1] *)
Theorem ddc_correlation_matrix o o' X : fit o X = (o', Ok tt) ->
  exists corr, [/\ o_corr o' = Some corr,
    size corr = ncol X /\ (forall i, (i < ncol X)%N -> size (nth [::] corr i) = ncol X),
    forall i, (i < ncol X)%N -> at_ NaN corr i i = Fin 1,
    forall i j, (i < ncol X)%N -> (j < ncol X)%N -> at_ NaN corr i j = at_ NaN corr j i &
    forall i j, (i < ncol X)%N -> (j < ncol X)%N ->
      is_nan (at_ NaN corr i j) \/ exists2 r, at_ NaN corr i j = Fin r & `|r| <= 1].
Proof.
move=> /fit_inv[ls [corr [slopes [deshr [rs [t fi]]]]]]; exists corr.
have [h1 h2 h3 h4 _] := robust_correlation_lem (f_corr fi).
by split=> //; rewrite (f_o fi).
Qed.

(* C91: when exactly one row is usable in both columns i and j, column i is blind:
   its predictions are NaN for every row of every table, no cell of it is ever
   flagged and its missing cells stay missing after impute *)
Theorem ddc_one_joint_row_blinds o o' X i j :
  (forall x y v, lstsq x y = Ok v -> is_fin v) ->
  fit o X = (o', Ok tt) ->
  (forall ls, o_ls o' = Some ls ->
     count (fun r => let z k := zscore ls r k in
       ~~ is_nan (z i) && ~~ is_nan (z j) &&
       ~~ xlt (o_cutoff o) (xabs (z i)) && ~~ xlt (o_cutoff o) (xabs (z j))) (rows X) = 1%N) ->
  (i < ncol X)%N -> (j < ncol X)%N -> i != j ->
  forall Y fs a, predict o' Y = Ok fs -> (a < size (rows Y))%N ->
    [/\ is_nan (at_ NaN fs.2 a i), at_ false fs.1 a i = false &
     forall b, shaped (ncol Y) (rows Y) ->
       exists2 V : matrix_of, impute round3 o' Y b = Ok V &
         at_ NaN V a i = if missing (at_ NaN (rows Y) a i) then NaN else at_ NaN (rows Y) a i].
Proof.
move=> lf ef h ip jp ij Y fs a; apply: (blind_lem round3 lf ef _ ip jp ij).
move=> ls /h <-; rewrite /complete_pairs size_filter count_map screenE standardizeE !count_map.
apply: eq_count => r; rewrite /preim /=.
have E k : (k < ncol X)%N ->
   nth NaN (urow (o_cutoff o) (zrow ls (ncol X) (map (@drop_inf T) r))) k =
   if xlt (o_cutoff o) (xabs (zscore ls r k)) then NaN else zscore ls r k.
  by move=> kp; rewrite (nth_map NaN) ?size_zrow // zrow_score.
rewrite !E //; case: (zscore ls r i) => [u|||]; case: (zscore ls r j) => [v|||] //=;
 by case: (xlt _ _) => //=; case: (xlt _ _).
Qed.

(* a column with at most three different values other than NaN, infinities included *)
Definition few_values X (j : nat) : Prop := exists a b c : num, forall r, (r < size (rows X))%N ->
  let u := at_ NaN (rows X) r j in [\/ u = NaN, u = a, u = b | u = c].

(* C95: fit rejects non-numeric tables and tables with such a column, leaving the object as it
   was, and a fit that succeeds had neither; the check itself rejects nothing else *)
Theorem ddc_rejects_few_values o X :
  (~ numeric X \/ (exists2 j, (j < ncol X)%N & few_values X j) -> fit o X = (o, Err ValueError)) /\
  (numeric X -> (forall j, (j < ncol X)%N -> ~ few_values X j) -> check_data X = Ok tt) /\
  (forall o', fit o X = (o', Ok tt) -> numeric X /\ forall j, (j < ncol X)%N -> ~ few_values X j).
Proof.
have few j : few_values X j <-> (nunique (col (rows X) j) <= 3)%N.
  rewrite nunique_cover; split => [[a [b [c h]]]|[L [sL h]]].
    exists [:: a; b; c]; split => // i; rewrite size_map => hi; rewrite (nth_map [::]) //.
    by have := h i hi; rewrite /at_ => -[] -> //; [exists 0%N|exists 1%N|exists 2%N].
  exists (nth NaN L 0), (nth NaN L 1), (nth NaN L 2) => r hr u.
  have := h r; rewrite size_map (nth_map [::]) // -/(at_ NaN (rows X) r j) -/u => {}h.
  case hu: (is_nan u); first by constructor 1; case: (u) hu.
  have [|[|[|[|i]]] // _ ->] := h hr; rewrite ?hu //; [constructor 2|constructor 3|constructor 4]; by [].
have bad : ~ check_data X = Ok tt -> fit o X = (o, Err ValueError).
  by move=> h; rewrite /DDC_Model.fit; case: (check_data_cases X) => [//|->].
split; [|split].
- case=> [h|[j hj /few h]]; apply: bad => /check_data_ok [h1 h2] //.
  by have := h2 j hj; rewrite ltnNge h.
- by move=> h1 h2; apply/check_data_ok; split => // j hj; rewrite ltnNge; apply/negP => /few; exact: h2.
move=> o' e; have : check_data X = Ok tt.
  by case: (check_data_cases X) e => // e; rewrite /DDC_Model.fit e.
move=> /check_data_ok [h1 h2]; split => // j hj /few h; by have := h2 j hj; rewrite ltnNge h.
Qed.

End Props.

(* ---- concrete cases ---- *)
Section Example.
Variable T : rcfType.
Notation num := (xnum T).

(* simple but legal estimators *)
Let ex_est (s : seq num) : res (num * num) := Ok (Fin 0, Fin 1).
Let ex_lstsq (x y : seq num) : res num := Ok (Fin 1).
Let n (k : nat) : num := Fin k%:R.
Let m (k : nat) : num := Fin (- k%:R).

(* correlation 0.6 *)
Let ex_X : table T := Table 2 true [:: [:: m 2; m 2]; [:: m 1; n 1]; [:: n 1; m 1]; [:: n 2; n 2]].
(* columns 0 and 1 observed together in one row only *)
Let ex_B : table T := Table 2 true
  [:: [:: n 1; NaN]; [:: n 2; NaN]; [:: m 1; NaN]; [:: m 2; n 1]; [:: NaN; n 2]; [:: NaN; m 1]; [:: NaN; m 2]].
(* new data: a missing cell, an infinite one, an outlier *)
Let ex_Y : table T := Table 2 true [:: [:: n 1; NaN]; [:: PInf; n 2]; [:: n 5; n 1]].

Notation exfit c := (fit ex_est ex_est ex_lstsq id c).

Lemma ex_nat_opp (a b : nat) : (a%:R == - (b%:R) :> T) = (a == 0)%N && (b == 0)%N.
Proof.
rewrite -addr_eq0 -natrD pnatr_eq0; by case: a => //=.
Qed.
Lemma ex_opp_nat (a b : nat) : (- (a%:R) == (b%:R) :> T) = (a == 0)%N && (b == 0)%N.
Proof. by rewrite eq_sym ex_nat_opp andbC. Qed.

Lemma ex_X_check : check_data ex_X = Ok tt.
Proof. by rewrite /check_data /= /m /n /= !eqr_opp ?eqr_nat ?ex_nat_opp ?ex_opp_nat /=. Qed.

Lemma ex_B_check : check_data ex_B = Ok tt.
Proof. by rewrite /check_data /= /m /n /= ?eqr_opp ?eqr_nat ?ex_nat_opp ?ex_opp_nat /=. Qed.

Lemma ex_fit c X : check_data X = Ok tt -> exists o', exfit c X = (o', Ok tt).
Proof. by apply: fit_total => *; eexists. Qed.

Let ex_ls : seq num * seq num := ([:: Fin 0; Fin 0], [:: Fin 1; Fin 1]).

Lemma ex_U : screen (Fin (3%:R : T)) (standardize ex_ls 2 (replace_inf (rows ex_X))) = rows ex_X.
Proof.
rewrite /standardize /replace_inf /m /n /= oner_eq0 !subr0 !divr1 /xabs !normrN !normr_nat.
by rewrite !(ltr_nat T 3) /=.
Qed.

Lemma ex_corrcoef : corrcoef [:: (m 2, m 2); (m 1, n 1); (n 1, m 1); (n 2, n 2)] = Fin (3%:R / 5%:R).
Proof.
have e4 : (4%:R == 0 :> T) = false by rewrite pnatr_eq0.
have e3 : (3%:R == 0 :> T) = false by rewrite pnatr_eq0.
rewrite /corrcoef /= e4 /= e3 /=.
rewrite (_ : (- 2%:R + (- 1%:R + (1%:R + (2%:R + 0)))) / 4%:R = 0 :> T); last by flra.
rewrite (_ : (- 2%:R + (1%:R + (- 1%:R + (2%:R + 0)))) / 4%:R = 0 :> T); last by flra.
rewrite !subr0.
rewrite (_ : - 2%:R * - 2%:R + (- 1%:R * - 1%:R + (1%:R * 1%:R + (2%:R * 2%:R + 0))) = 10%:R :> T); last by ring.
rewrite (_ : - 2%:R * - 2%:R + (1%:R * 1%:R + (- 1%:R * - 1%:R + (2%:R * 2%:R + 0))) = 10%:R :> T); last by ring.
rewrite (_ : - 2%:R * - 2%:R + (- 1%:R * 1%:R + (1%:R * - 1%:R + (2%:R * 2%:R + 0))) = 6%:R :> T); last by ring.
have p10 : 0 < 10%:R / 3%:R :> T by flra.
rewrite ltNge (ltW p10) /= gt_eqF ?sqrtr_gt0 //=.
set q := Num.sqrt _; have eq : q * q = 10%:R / 3%:R by rewrite -expr2 sqr_sqrtr ?ltW.
rewrite -[_ / q / q]mulrA -invfM eq.
rewrite (_ : 6%:R / 3%:R / (10%:R / 3%:R) = 3%:R / 5%:R); last by field; rewrite ?pnatr_eq0.
have h1 : - 1 <= 3%:R / 5%:R :> T by flra.
have h2 : 3%:R / 5%:R <= 1 :> T by flra.
have -> : (q == 0) = false by rewrite gt_eqF ?sqrtr_gt0.
by rewrite /xclip ltNge h1 ltNge h2.
Qed.

Lemma ex_dist (x y : T) : `|x| <= 2%:R -> `|y| <= 2%:R ->
  xlt (pair_dist (Fin (0 : T)) (Fin x, Fin y)) (Fin 3%:R).
Proof.
move=> hx hy; rewrite /pair_dist /= !mulr0 mul0r !subr0 oner_eq0 divr1 /xsqrt.
have h0 : 0 <= x * x + y * y by rewrite -!expr2 addr_ge0 // sqr_ge0.
have -> : (x * x + y * y < 0) = false by rewrite ltNge h0.
have hh : x * x + y * y < 3%:R ^+ 2.
  have e (z : T) : `|z| <= 2%:R -> z * z <= 4%:R.
    move=> hz; rewrite -expr2 -sqr_normr (_ : 4%:R = 2%:R ^+ 2); last by ring.
    by rewrite ler_expn2r ?nnegrE ?normr_ge0 ?ler0n.
  have := e x hx; have := e y hy => h1 h2; rewrite (_ : 3%:R ^+ 2 = 9%:R :> T); [flra|ring].
have : Num.sqrt (x * x + y * y) < Num.sqrt (3%:R ^+ 2) by rewrite ltr_sqrt // (le_lt_trans h0).
by rewrite sqrtr_sqr normr_nat.
Qed.

Lemma ex_pair : pair_value ex_est (Fin 3%:R) (rows ex_X) 0 1 = Ok (Fin (3%:R / 5%:R)).
Proof.
rewrite /pair_value /complete_pairs [map _ _]/= [filter _ _]/= /pair_corr.
rewrite /init_corr /ex_est [bind _ _]/= /xsq /= mulr1 subrr.
have -> : (4%:R == 0 :> T) = false by rewrite pnatr_eq0.
rewrite mul0r /xclip /=.
have d0 : 0 < dec T 99 2 by rewrite divr_gt0 ?ltr0n ?expn_gt0.
have -> : (0 < - dec T 99 2) = false by rewrite oppr_gt0 ltNge ltW.
have -> : (dec T 99 2 < 0) = false by rewrite ltNge ltW.
have d x y : `|x| <= 2%:R -> `|y| <= 2%:R -> xlt (pair_dist (Fin (0 : T)) (Fin x, Fin y)) (Fin 3%:R) = true.
  exact: ex_dist.
by rewrite !d ?normrN ?normr_nat ?ler_nat // ex_corrcoef.
Qed.

(* a DDC object fitted on ex_X, with any min_correlation *)
Lemma ex_fitted mc : exists o', [/\ exfit (new_ddc (Fin 3%:R) mc) ex_X = (o', Ok tt),
  o_ls o' = Some ex_ls &
  exists corr, [/\ o_corr o' = Some corr, at_ NaN corr 0 1 = Fin (3%:R / 5%:R),
    at_ NaN corr 1 0 = Fin (3%:R / 5%:R) &
    forall i j, (i < 2)%N -> (j < 2)%N -> is_fin (at_ NaN corr i j)]].
Proof.
have [o' e] := ex_fit (new_ddc (Fin 3%:R) mc) ex_X_check; exists o'.
have [ls [corr [slopes [deshr [rs [t fi]]]]]] := fit_inv e.
have els : ls = ex_ls by have := f_ls fi; rewrite /= => -[<-].
subst ls; split=> //; first by rewrite (f_o fi).
exists corr.
have ec := f_corr fi; rewrite [o_cutoff _]/= ex_U in ec.
have [_ dg sym _ pv] := robust_correlation_lem ec.
have e01 : cell corr 0 1 = Fin (3%:R / 5%:R) by have := pv 0%N 1%N isT; rewrite ex_pair => -[<-].
have e10 : cell corr 1 0 = Fin (3%:R / 5%:R) by rewrite sym.
split=> //; first by rewrite (f_o fi).
move=> i j; rewrite /at_ -/(cell corr i j).
by case: i => [|[|i]] //; case: j => [|[|j]] // _ _; rewrite ?dg ?e01 ?e10.
Qed.

Lemma ex_predict mc o' (Y : table T) : exfit (new_ddc (Fin 3%:R) mc) ex_X = (o', Ok tt) ->
  ncol Y = 2%N -> numeric Y -> exists fs, predict o' Y = Ok fs.
Proof.
move=> /fit_inv[ls [corr [slopes [deshr [rs [t fi]]]]]] e nx; have pa := fitted_params fi.
have e2 : ncol ex_X = ncol Y by rewrite e.
by rewrite e2 in pa; eexists; apply: predict_intro pa nx.
Qed.

Lemma ex_lstsq_fin x y v : ex_lstsq x y = Ok v -> is_fin v. Proof. by case=> <-. Qed.

(* the hypotheses of the prediction theorems hold for the fitted object and ex_Y *)
Example ddc_predict_ex mc : exists o' fs ls corr slopes deshr rs,
  [/\ exfit (new_ddc (Fin 3%:R) mc) ex_X = (o', Ok tt) /\ predict o' ex_Y = Ok fs,
      o_cutoff o' = Fin 3%:R,
      [/\ o_ls o' = Some ls, o_corr o' = Some corr, o_slopes o' = Some slopes,
          o_deshr o' = Some deshr & o_rscale o' = Some rs],
      [/\ all (@is_fin T) ls.1, all (@is_fin T) ls.2 & all (@is_fin T) deshr] &
      [/\ forall k i, (k < 2)%N -> (i < 2)%N -> is_fin (at_ NaN corr k i),
          forall k i, (k < 2)%N -> (i < 2)%N -> fin_or_nan (at_ NaN slopes k i),
          shaped 2 (rows ex_Y), missing (at_ NaN (rows ex_Y) 0 1) &
          missing (at_ NaN (rows ex_Y) 1 0)]].
Proof.
have [o' [e els [corr [ec _ _ fc]]]] := ex_fitted mc.
have [fs ep] := ex_predict e (erefl : ncol ex_Y = 2%N) isT.
have [ls [corr' [slopes [deshr [rs [t fi]]]]]] := fit_inv e.
exists o', fs, ex_ls, corr, slopes, deshr, rs; have eo := f_o fi; split=> //.
- by rewrite eo.
- by split=> //; rewrite eo.
- split=> //; have := f_deshr fi; set f := (fun i => robust_slope _ _ _ _) => ed.
  have hf i v : f i = Ok v -> is_fin v by apply: (robust_slope_fin ex_lstsq_fin).
  by move: ed => /=; case e0: (f 0%N) => [v0||] //=; case e1: (f 1%N) => [v1||] //= [<-] /=; rewrite (hf _ _ e0) (hf _ _ e1).
split=> //; move=> k i kp ip; exact: (slopes_fon ex_lstsq_fin (f_slopes fi) kp ip).
Qed.

(* rows 0 and 2 of this table and row 0 of ex_Y agree off column 1 *)
Example ddc_local_ex : agree_off 1 (nth [::] (rows ex_Y) 0) [:: n 1; n 7 : num].
Proof. by case=> [|[|k]] //= _; rewrite !nth_nil. Qed.

(* a row of which the only other cell is missing *)
Example ddc_location_ex k : (k < 2)%N -> k != 1%N ->
  ~~ kept 3%:R (zscore ex_ls [:: NaN; NaN] k).
Proof. by case: k => [|[|k]]. Qed.

Example ddc_min_correlation_inert_ex : exists o1' o2' corr,
  [/\ exfit (new_ddc (Fin 3%:R) (Fin 0)) ex_X = (o1', Ok tt),
      exfit (new_ddc (Fin 3%:R) (Fin (2%:R^-1))) ex_X = (o2', Ok tt),
      o_corr o1' = Some corr &
      forall i j, (i < 2)%N -> (j < 2)%N -> is_fin (at_ NaN corr i j)].
Proof.
have [o1 [e1 _ [corr [ec _ _ fc]]]] := ex_fitted (Fin 0).
have [o2 [e2 _ _]] := ex_fitted (Fin 2%:R^-1).
by exists o1, o2, corr; split.
Qed.

(* with min_correlation = 0.9 and correlation 0.6 the weights used sum to 0 < 1 *)
Example ddc_min_correlation_shrinks_ex : exists o' fs,
  [/\ exfit (new_ddc (Fin 3%:R) (Fin (9%:R / 10%:R))) ex_X = (o', Ok tt),
      predict o' ex_Y = Ok fs &
   forall ls corr, o_ls o' = Some ls -> o_corr o' = Some corr ->
     kept 3%:R (zscore ls (nth [::] (rows ex_Y) 0) 0) /\
     2%:R^-1 <= `|val0 (at_ NaN corr 0 1)| < 9%:R / 10%:R].
Proof.
have [o' [e els [corr [ec c01 _ fc]]]] := ex_fitted (Fin (9%:R / 10%:R)).
have [fs ep] := ex_predict e (erefl : ncol ex_Y = 2%N) isT.
exists o', fs; split=> // ls c; rewrite els ec => -[<-] [<-]; split.
  by rewrite /zscore /= /n oner_eq0 subr0 divr1 /= normr_nat ler_nat.
rewrite c01 /= ger0_norm; last by rewrite divr_ge0 ?ler0n.
by apply/andP; split; flra.
Qed.

Example ddc_fit_ex mc : exists o', exfit (new_ddc (Fin 3%:R) mc) ex_X = (o', Ok tt).
Proof. by have [o' [e _ _]] := ex_fitted mc; exists o'. Qed.

(* a history without a successful fit: non-numeric data *)
Example ddc_unfitted_ex c mc : exists o' e,
  exfit (new_ddc c mc) (Table 1 false [:: [:: n 1]]) = (o', Err e).
Proof. by exists (new_ddc c mc), ValueError. Qed.

(* columns observed together in one row *)
Example ddc_blind_ex mc : exists o', exfit (new_ddc (Fin 3%:R) mc) ex_B = (o', Ok tt) /\
  forall ls, o_ls o' = Some ls ->
     count (fun r => let z k := zscore ls r k in
       ~~ is_nan (z 0%N) && ~~ is_nan (z 1%N) &&
       ~~ xlt (Fin 3%:R) (xabs (z 0%N)) && ~~ xlt (Fin 3%:R) (xabs (z 1%N))) (rows ex_B) = 1%N.
Proof.
have [o' e] := ex_fit (new_ddc (Fin 3%:R) mc) ex_B_check; exists o'; split=> // ls els.
have [ls' [corr [slopes [deshr [rs [t fi]]]]]] := fit_inv e.
have E : ls' = ex_ls by have := f_ls fi; rewrite /= => -[<-].
have : ls = ex_ls by move: els; rewrite (f_o fi) /= => -[<-].
move=> -> {els}; rewrite /ex_B /= /zscore /= /m /n /= oner_eq0 !subr0 !divr1 /xabs /= ?normrN !normr_nat.
by rewrite !(ltr_nat T 3).
Qed.

(* three values and a missing one are rejected, four values are not *)
Example ddc_rejects_few_values_ex c mc :
  few_values (Table 1 true [:: [:: n 1]; [:: n 2]; [:: PInf]; [:: NaN]; [:: n 1]]) 0 /\
  (exists o', exfit (new_ddc c mc) ex_X = (o', Ok tt)).
Proof.
split; first by exists (n 1), (n 2), PInf => -[|[|[|[|[|r]]]]] //= _;
  [constructor 2|constructor 3|constructor 4|constructor 1|constructor 2].
by have [o' e] := ex_fit (new_ddc c mc) ex_X_check; exists o'.
Qed.

End Example.

Print Assumptions ddc_impute_frame.
Print Assumptions ddc_impute_complete.
Print Assumptions ddc_predict_stack.
Print Assumptions ddc_prediction_local.
Print Assumptions ddc_prediction_convex.
Print Assumptions ddc_prediction_location.
Print Assumptions ddc_min_correlation_inert.
Print Assumptions ddc_min_correlation_shrinks.
Print Assumptions ddc_predict_agrees_with_fit.
Print Assumptions ddc_flags.
Print Assumptions ddc_unfitted.
Print Assumptions ddc_fitted_no_attribute_error.
Print Assumptions ddc_correlation_matrix.
Print Assumptions ddc_one_joint_row_blinds.
Print Assumptions ddc_rejects_few_values.
