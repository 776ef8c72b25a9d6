(* C32-C38, C89, C90: RobustPowerTransformer. *)
From Coq Require Import Reals Lra.
From mathcomp Require Import all_ssreflect.
From Verif Require Import Prelude XR Transfo_Model Transfo_Spec Transfo_Proofs.
From Verif Require Import TransfoRect_Proofs TransfoFit_Proofs.

Set Implicit Arguments.
Unset Strict Implicit.
Unset Printing Implicit Defensive.

Local Open Scope R_scope.

(* ---- C32 ---- *)
Theorem boxcox_round_trip t lam d x : fitted_bc t lam -> x <> [::] -> all posnan x ->
  (do y <- transform t d x; inverse_transform t F64 y) = Ok x.
Proof. exact: boxcox_round_trip_lem. Qed.

Theorem boxcox_rejects_nonpositive t lam d x : fitted_bc t lam -> ~~ has xisnan x ->
  has (fun u => xleb u (XF 0)) x -> transform t d x = Err ValueError.
Proof. exact: bc_reject_lem. Qed.

(* Box-Cox with lambda = 2, pre-scale 2, post-location 1, post-scale 3 *)
Definition ex_bc (lam : R) : transformer :=
  Tr Boxcox true (PyList (-4) 6) (99/100) 2 (Some (XF 2)) None (Some (XF 1)) (Some (XF 3))
     (Some lam).

Lemma ex_bc_fitted lam : fitted_bc (ex_bc lam) lam.
Proof. by split => //; split => // _; exists 2, 1, 3; split => //; lra. Qed.

Lemma ex_bc_scales lam : pos_scales (ex_bc lam).
Proof. by move=> _; exists 2, 3; split => //; lra. Qed.

Example boxcox_round_trip_ex :
  transform (ex_bc 2) F64 [:: XF 2; XF 4] = Ok [:: XF (-1/3); XF (1/6)] /\
  inverse_transform (ex_bc 2) F64 [:: XF (-1/3); XF (1/6)] = Ok [:: XF 2; XF 4] /\
  transform (ex_bc 2) F64 [:: XF 2; XF (-1)] = Err ValueError.
Proof.
have e : transform (ex_bc 2) F64 [:: XF 2; XF 4] = Ok [:: XF (-1/3); XF (1/6)].
  rewrite (@bc_transformE _ 2 F64 [:: 2; 4] (ex_bc_fitted 2)) //=; last by rewrite !Rltb_t //; lra.
  rewrite /post_std /bc_pre /bcR /= Reqb_f; last lra.
  rewrite !Rpower_2; try lra.
  by congr (Ok [:: XF _; XF _]); field.
split=> //; split.
  have := @boxcox_round_trip _ 2 F64 [:: XF 2; XF 4] (ex_bc_fitted 2).
  by rewrite e; apply => //=; rewrite !Rltb_t //; lra.
apply: (boxcox_rejects_nonpositive _ (ex_bc_fitted 2)) => //=.
by rewrite (_ : Rleb (-1) 0 = true) ?orbT //; apply: Rleb_t; lra.
Qed.

(* ---- C33 ---- *)
Theorem yeojohnson_round_trip t lam x : fitted_yj t lam -> x <> [::] -> all finnan x ->
  (do y <- transform t F64 x; inverse_transform t F64 y) = Ok x.
Proof. exact: yeojohnson_round_trip_lem. Qed.

Definition ex_yj (lam : R) : transformer :=
  Tr Yeojohnson true (PyList (-4) 6) (99/100) 2 (Some (XF 2)) (Some (XF 5)) (Some (XF 1))
     (Some (XF 3)) (Some lam).

Lemma ex_yj_fitted lam : fitted_yj (ex_yj lam) lam.
Proof. by split => //; split => // _; exists 5, 2, 1, 3; split => //; lra. Qed.

Lemma ex_yj_scales lam : pos_scales (ex_yj lam).
Proof. by move=> _; exists 2, 3; split => //; lra. Qed.

(* values on both sides of the location, and a missing value *)
Example yeojohnson_round_trip_ex lam :
  (do y <- transform (ex_yj lam) F64 [:: XF (-7); XF 5; XNaN; XF 100];
   inverse_transform (ex_yj lam) F64 y) = Ok [:: XF (-7); XF 5; XNaN; XF 100].
Proof. by apply: (yeojohnson_round_trip (ex_yj_fitted lam)). Qed.

(* ---- C34 ---- *)
Theorem boxcox_transform_order t lam d xs : fitted_bc t lam -> pos_scales t ->
  xs <> [::] -> all (Rltb 0) xs ->
  exists ys, [/\ transform t d (map XF xs) = Ok (map XF ys), size ys = size xs &
    forall i j, (i < size xs)%N -> (j < size xs)%N ->
      nth 0 xs i < nth 0 xs j -> nth 0 ys i < nth 0 ys j].
Proof. exact: bc_order_lem. Qed.

Theorem yeojohnson_transform_order t lam xs : fitted_yj t lam -> pos_scales t ->
  exists ys, [/\ transform t F64 (map XF xs) = Ok (map XF ys), size ys = size xs &
    forall i j, (i < size xs)%N -> (j < size xs)%N ->
      nth 0 xs i < nth 0 xs j -> nth 0 ys i < nth 0 ys j].
Proof. exact: yj_order_lem. Qed.

Example transform_order_ex lam : exists y0 y1 y2,
  transform (ex_yj lam) F64 [:: XF 9; XF (-3); XF 5] = Ok [:: XF y0; XF y1; XF y2] /\
  y1 < y2 < y0.
Proof.
have [ys [e sz h]] := @yeojohnson_transform_order _ lam [:: 9; -3; 5] (ex_yj_fitted lam) (@ex_yj_scales lam).
case: ys sz e h => [|y0 [|y1 [|y2 [|]]]] // _ e h; exists y0, y1, y2; split => //.
have := h 1%N 2%N isT isT; have := h 2%N 0%N isT isT; rewrite /=; lra.
Qed.

(* ---- C35 ---- *)
(* off the bound, inverse_transform returns numbers whose transform is the
   clamped value: the value itself inside the range, 0.95 times the bound
   outside *)
Theorem boxcox_inverse_clamps t lam d ys : fitted_bc t lam -> ys <> [::] ->
  all (fun y => bc_off_bound lam (pre_inv t y)) ys ->
  exists vs, [/\ inverse_transform t d (map XF ys) = Ok (map XF vs), all (Rltb 0) vs &
    transform t F64 (map XF vs) =
      Ok (map XF [seq post_std t (bc_clamp lam (pre_inv t y)) | y <- ys])].
Proof. exact: bc_clamp_lem. Qed.

Theorem yeojohnson_inverse_clamps t lam ys : fitted_yj t lam -> ys <> [::] ->
  all (fun y => yj_off_bound lam (pre_inv t y)) ys ->
  exists vs, inverse_transform t F64 (map XF ys) = Ok (map XF vs) /\
    transform t F64 (map XF vs) =
      Ok (map XF [seq post_std t (yj_clamp lam (pre_inv t y)) | y <- ys]).
Proof. exact: yj_clamp_lem. Qed.

Theorem boxcox_inverse_at_bound t lam d : fitted_bc t lam -> ~~ tr_standardize t -> lam <> 0 ->
  inverse_transform t d [:: XF (- 1 / lam)] = Ok [:: if Rltb 0 lam then XF 0 else XP].
Proof. exact: bc_at_bound_lem. Qed.

Theorem boxcox_inverse_not_monotone t lam : fitted_bc t lam -> pos_scales t -> lam <> 0 ->
  exists y1 y2 v1 v2, [/\ y1 < y2, v2 < v1 &
    inverse_transform t F64 [:: XF y1; XF y2] = Ok [:: XF v1; XF v2]].
Proof. exact: bc_not_monotone_lem. Qed.

Theorem yeojohnson_inverse_not_monotone t lam : fitted_yj t lam -> pos_scales t ->
  lam < 0 \/ 2 < lam ->
  exists y1 y2 v1 v2, [/\ y1 < y2, v2 < v1 &
    inverse_transform t F64 [:: XF y1; XF y2] = Ok [:: XF v1; XF v2]].
Proof. exact: yj_not_monotone_lem. Qed.

Lemma one_of_inverse (r : res (seq xr)) (u : R) (vs : seq R) :
  r = Ok (map XF [:: u]) -> r = Ok (map XF vs) -> exists v, vs = [:: v].
Proof. by move=> ->; case: vs => [|v [|]] //; exists v. Qed.

(* lambda = 2, standardised value -3: handed on as -8, below the bound -1/2 *)
Example boxcox_inverse_clamps_ex : exists v,
  [/\ inverse_transform (ex_bc 2) F64 [:: XF (-3)] = Ok [:: XF v], 0 < v &
      transform (ex_bc 2) F64 [:: XF v] = Ok [:: XF (- (59 / 120))]].
Proof.
have [vs [e p h]] : exists vs, [/\ inverse_transform (ex_bc 2) F64 (map XF [:: -3]) = Ok (map XF vs),
    all (Rltb 0) vs & transform (ex_bc 2) F64 (map XF vs) =
      Ok (map XF [seq post_std (ex_bc 2) (bc_clamp 2 (pre_inv (ex_bc 2) y)) | y <- [:: -3]])].
  apply: (boxcox_inverse_clamps F64 (ex_bc_fitted 2)) => //=.
  by rewrite /bc_off_bound /pre_inv /= Reqb_f //; lra.
have off : all (fun y => bc_off_bound 2 (pre_inv (ex_bc 2) y)) [:: -3].
  by rewrite /= /bc_off_bound /pre_inv /= Reqb_f //; lra.
have n0 : [:: -3] <> [::] by [].
have [v ev] := one_of_inverse (bc_inverseE F64 (ex_bc_fitted 2) n0 off) e.
rewrite {}ev in e p h; exists v; split => //.
  by move: p; rewrite /= andbT => /RltbP.
rewrite h /= /post_std /pre_inv /bc_clamp /= Rltb_t; last lra.
by congr (Ok [:: XF _]); field.
Qed.

Example yeojohnson_inverse_clamps_ex : exists v,
  inverse_transform (ex_yj (-1)) F64 [:: XF 1] = Ok [:: XF v] /\
  transform (ex_yj (-1)) F64 [:: XF v] = Ok [:: XF (- (1 / 60))].
Proof.
have [vs [e h]] : exists vs, inverse_transform (ex_yj (-1)) F64 (map XF [:: 1]) = Ok (map XF vs) /\
    transform (ex_yj (-1)) F64 (map XF vs) =
      Ok (map XF [seq post_std (ex_yj (-1)) (yj_clamp (-1) (pre_inv (ex_yj (-1)) y)) | y <- [:: 1]]).
  apply: (yeojohnson_inverse_clamps (ex_yj_fitted (-1))) => //=.
  by rewrite /yj_off_bound /pre_inv /= Rleb_t ?Reqb_f //; lra.
have off : all (fun y => yj_off_bound (-1) (pre_inv (ex_yj (-1)) y)) [:: 1].
  by rewrite /= /yj_off_bound /pre_inv /= Rleb_t ?Reqb_f //; lra.
have n0 : [:: 1] <> [::] by [].
have [v ev] := one_of_inverse (yj_inverseE (ex_yj_fitted (-1)) n0 off) e.
rewrite {}ev in e h; exists v; split => //.
rewrite h /= /post_std /pre_inv /yj_clamp /= Rleb_t; last lra.
rewrite Rltb_t; last lra.
by congr (Ok [:: XF _]); field.
Qed.

Example boxcox_inverse_at_bound_ex :
  inverse_transform (Tr Boxcox false (PyList (-4) 6) (99/100) 2 None None None None (Some (-1)))
    F64 [:: XF (- 1 / -1)] = Ok [:: XP].
Proof.
rewrite (@boxcox_inverse_at_bound _ (-1)) //; last lra.
by rewrite Rltb_f //; lra.
Qed.

Example boxcox_inverse_not_monotone_ex : exists y1 y2 v1 v2, [/\ y1 < y2, v2 < v1 &
    inverse_transform (ex_bc 2) F64 [:: XF y1; XF y2] = Ok [:: XF v1; XF v2]].
Proof. by apply: (boxcox_inverse_not_monotone (ex_bc_fitted 2) (@ex_bc_scales 2)); lra. Qed.

Example yeojohnson_inverse_not_monotone_ex : exists y1 y2 v1 v2, [/\ y1 < y2, v2 < v1 &
    inverse_transform (ex_yj 3) F64 [:: XF y1; XF y2] = Ok [:: XF v1; XF v2]].
Proof. by apply: (yeojohnson_inverse_not_monotone (ex_yj_fitted 3) (@ex_yj_scales 3)); lra. Qed.

(* ---- C36 ---- *)
(* on sorted positive data the rectified Box-Cox transform is one function f,
   equal to Box-Cox on the central side of the changepoint, differentiable with
   positive derivative everywhere (hence continuous), strictly increasing *)
Theorem boxcox_rectified_smooth xs lam : xs <> [::] -> all (Rltb 0) xs -> sorted Rleb xs ->
  lam <> 1 ->
  exists c f,
    [/\ 0 < c /\ nth 0 xs 0 <= c <= nth 0 xs (size xs).-1,
        boxcox_rectified F64 (map XF xs) lam = Ok (map XF (map f xs)),
        forall x, 0 < x -> (if Rltb 1 lam then c <= x else x <= c) -> bc1 lam (XF x) = XF (f x),
        forall x, 0 < x -> exists2 d, 0 < d & derivable_pt_lim f x d &
        forall x y, 0 < x -> x < y -> f x < f y].
Proof. exact: bc_rectified_lem. Qed.

(* the same for Yeo-Johnson when the first (third) quartile is not positive
   (negative) *)
Theorem yeojohnson_rectified_smooth xs lam : xs <> [::] -> sorted Rleb xs -> lam <> 1 ->
  Rabs lam <= 100000 ->
  (1 < lam -> nth 0 xs (q1_idx (size xs)) <= 0) ->
  (lam < 1 -> 0 <= nth 0 xs (q3_idx (size xs))) ->
  exists c f,
    [/\ cp_side lam c /\ nth 0 xs 0 <= c <= nth 0 xs (size xs).-1,
        yeojohnson_rectified F64 (map XF xs) lam = Ok (map XF (map f xs)),
        forall x, (if Rltb 1 lam then c <= x else x <= c) -> yj1 lam (XF x) = XF (f x),
        forall x, exists2 d, 0 < d & derivable_pt_lim f x d &
        forall x y, x < y -> f x < f y].
Proof. exact: yj_rectified_lem. Qed.

(* data centred at their median, as with standardize=True *)
Theorem yeojohnson_rectified_smooth_centred xs lam : xs <> [::] -> sorted Rleb xs ->
  np_median (map XF xs) = XF 0 -> lam <> 1 -> Rabs lam <= 100000 ->
  exists c f,
    [/\ cp_side lam c /\ nth 0 xs 0 <= c <= nth 0 xs (size xs).-1,
        yeojohnson_rectified F64 (map XF xs) lam = Ok (map XF (map f xs)),
        forall x, (if Rltb 1 lam then c <= x else x <= c) -> yj1 lam (XF x) = XF (f x),
        forall x, exists2 d, 0 < d & derivable_pt_lim f x d &
        forall x y, x < y -> f x < f y].
Proof.
move=> x0 st em l1 lb; have [h1 h3] := median_quartiles x0 st em.
exact: yj_rectified_lem.
Qed.

(* lambda = 2 and a changepoint strictly between 0 and 1: a jump downwards *)
Theorem yeojohnson_rectified_jump_refuted c : 0 < c < 1 ->
  exists f, [/\ forall x, yj_rect1 2 F64 (XF c) (XF x) = XF (f x),
    ~ continuity_pt f c & exists2 x, x < c & f c < f x].
Proof. exact: yj_rect_lambda2_lem. Qed.

(* and on actual data: 13/23 < 14/23 are mapped in reverse order *)
Theorem yeojohnson_rectified_order_refuted : exists y0 y1 y2 y3,
  yeojohnson_rectified F64 [:: XF (10/23); XF (13/23); XF (14/23); XF 1] 2
    = Ok [:: XF y0; XF y1; XF y2; XF y3] /\ y2 < y1.
Proof. exact: yj_reversal_lem. Qed.

Example boxcox_rectified_smooth_ex : exists y0 y1 y2 : R,
  boxcox_rectified F64 [:: XF 1; XF 2; XF 3] (1/2) = Ok [:: XF y0; XF y1; XF y2] /\
  y0 < y1 < y2.
Proof.
have [||||c [f [_ e _ _ h]]] := @boxcox_rectified_smooth [:: 1; 2; 3] (1/2) => //=.
- by rewrite !Rltb_t //; lra.
- by rewrite !Rleb_t //; lra.
- by lra.
exists (f 1), (f 2), (f 3); split; first exact: e.
by split; apply: h; lra.
Qed.

Example yeojohnson_rectified_smooth_ex : exists y0 y1 y2 : R,
  yeojohnson_rectified F64 [:: XF (-1); XF 0; XF 3] (1/2) = Ok [:: XF y0; XF y1; XF y2] /\
  y0 < y1 < y2.
Proof.
have st : sorted Rleb [:: -1; 0; 3] by rewrite /= !Rleb_t //; lra.
have [||||||c [f [_ e _ _ h]]] := @yeojohnson_rectified_smooth [:: -1; 0; 3] (1/2) => //=.
- by lra.
- by rewrite Rabs_right; lra.
- by lra.
- by rewrite /q3_idx /=; lra.
exists (f (-1)), (f 0), (f 3); split; first exact: e.
by split; apply: h; lra.
Qed.

Example yeojohnson_rectified_smooth_centred_ex :
  sorted Rleb [:: -1; 0; 3] /\ np_median (map XF [:: -1; 0; 3]) = XF 0.
Proof.
have st : sorted Rleb [:: -1; 0; 3] by rewrite /= !Rleb_t //; lra.
split => //; rewrite /np_median /=.
by rewrite -[[:: XF (-1); XF 0; XF 3]]/(map XF [:: -1; 0; 3]) np_sort_sorted.
Qed.

(* ---- C37 ---- *)
(* whatever the numerical routines return: the loop runs once, *)
Theorem power_fit_single_round ms hb rho ppf chi k d std lo hi q ns x :
  fit_boxcox ms hb rho ppf chi k.+1 d std (PyList lo hi) q ns x
    = fit_boxcox ms hb rho ppf chi 1 d std (PyList lo hi) q ns x /\
  fit_yeojohnson ms hb rho ppf chi k.+1 d std (PyList lo hi) q ns x
    = fit_yeojohnson ms hb rho ppf chi 1 d std (PyList lo hi) q ns x.
Proof. by split; [exact: fit_boxcox_once | exact: fit_yeojohnson_once]. Qed.

(* a successful fit of an object with any history has lambda well inside the
   range, *)
Theorem power_fit_margin ms hb rho ppf chi k m std lo hi q ns hs d x
    (t := run ms hb rho ppf chi k (new_transformer m std lo hi q ns) hs) :
  (fit ms hb rho ppf chi k t d x).2 = Ok tt ->
  exists2 l, tr_lambda (fit ms hb rho ppf chi k t d x).1 = Some l & margin l lo hi.
Proof. exact: fit_margin. Qed.

(* and an estimate near an end raises TypeError *)
Theorem boxcox_fit_type_error ms hb rho ppf chi k d std lo hi q ns x lr l mu sd :
  calculate_lambda_0 ms hb rho ppf (fit_dtype std d) (bc_data std x) TBoxcoxRect (PyList lo hi)
    = Ok lr ->
  reweighted_ml ms hb chi (fit_dtype std d) (bc_data std x) lr true (PyList lo hi) q ns
    = Ok (l, mu, sd) ->
  ~ margin l lo hi ->
  fit_boxcox ms hb rho ppf chi k.+1 d std (PyList lo hi) q ns x = Err TypeError.
Proof. exact: fit_boxcox_type_error. Qed.

Theorem yeojohnson_fit_type_error ms hb rho ppf chi k d std lo hi q ns x lr l mu sd :
  calculate_lambda_0 ms hb rho ppf (fit_dtype std d) (yj_data ppf std x) TYeojohnsonRect
    (PyList lo hi) = Ok lr ->
  reweighted_ml ms hb chi (fit_dtype std d) (yj_data ppf std x) lr false (PyList lo hi) q ns
    = Ok (l, mu, sd) ->
  ~ margin l lo hi ->
  fit_yeojohnson ms hb rho ppf chi k.+1 d std (PyList lo hi) q ns x = Err TypeError.
Proof. exact: fit_yeojohnson_type_error. Qed.

(* numerical routines for the examples: the optimiser answers lam *)
Section Toy.
Variable lam : R.
Definition toy_ms (f : R -> res xr) (a b : R) : res R := Ok lam.
Definition toy_huber (x : seq xr) : res (xr * xr) := Ok (XF 0, XF 1).
Definition toy_rho (u : xr) : xr := u.
Definition toy_ppf (p : R) : R := 0.
Definition toy_fit := fit toy_ms toy_huber toy_rho toy_ppf toy_ppf 1.
End Toy.

Lemma toy_margin : margin 1 (-4) 6.
Proof. by split; rewrite ?(Rabs_right (1 - -4)) ?(Rabs_left (1 - 6)); lra. Qed.

Lemma toy_range : range_ok 1 (PyList (-4) 6).
Proof. exact/range_okP/toy_margin. Qed.

Example power_fit_margin_ex :
  (toy_fit 1 (new_transformer Yeojohnson false (-4) 6 (99/100) 2) F64 [:: XF 1]).2 = Ok tt.
Proof.
rewrite /toy_fit /fit /= /reweighted_ml /yeojohnson_rectified Reqb_t /=.
by rewrite toy_range.
Qed.

Example boxcox_fit_type_error_ex :
  fit_boxcox (toy_ms 6) toy_huber toy_rho toy_ppf toy_ppf 1 F64 false (PyList (-4) 6) (99/100) 2
    [:: XF 1] = Err TypeError.
Proof.
have p : check_positive [:: XF 1] = Ok tt by apply: check_positive_ok => //=; rewrite Rltb_t //; lra.
have [||||c [f [_ e _ _ _]]] := @boxcox_rectified_smooth [:: 1] 6; rewrite //= ?Rltb_t //; try lra.
have [mu [sd em]] : exists mu sd,
    reweighted_ml (toy_ms 6) toy_huber toy_ppf F64 [:: XF 1] 6 true (PyList (-4) 6) (99/100) 2
    = Ok (6, mu, sd).
  by rewrite /reweighted_ml e /= /transf_boxcox p /=; eexists; eexists.
have h := @boxcox_fit_type_error (toy_ms 6) toy_huber toy_rho toy_ppf toy_ppf 0 F64 false (-4) 6
  (99/100) 2 [:: XF 1] 6 6 mu sd.
apply: h => //.
by case=> _; rewrite (Rminus_diag_eq 6 6) // Rabs_R0; lra.
Qed.

Example yeojohnson_fit_type_error_ex :
  fit_yeojohnson (toy_ms 6) toy_huber toy_rho toy_ppf toy_ppf 1 F64 false (PyList (-4) 6) (99/100)
    2 [:: XF 0] = Err TypeError.
Proof.
have [||||||c [f [_ e _ _ _]]] := @yeojohnson_rectified_smooth [:: 0] 6; rewrite //= /q1_idx /q3_idx /=; try lra.
  by rewrite Rabs_right; lra.
have [mu [sd em]] : exists mu sd,
    reweighted_ml (toy_ms 6) toy_huber toy_ppf F64 [:: XF 0] 6 false (PyList (-4) 6) (99/100) 2
    = Ok (6, mu, sd).
  by rewrite /reweighted_ml e /=; eexists; eexists.
have h := @yeojohnson_fit_type_error (toy_ms 6) toy_huber toy_rho toy_ppf toy_ppf 0 F64 false (-4)
  6 (99/100) 2 [:: XF 0] 6 6 mu sd.
apply: h => //.
by case=> _; rewrite (Rminus_diag_eq 6 6) // Rabs_R0; lra.
Qed.

(* ---- C38 ---- *)
(* a fit with method auto that chose Box-Cox makes a later fit on data with a
   non-positive value raise ValueError, although a fresh object fits such data
   with Yeo-Johnson *)
Theorem auto_fit_history ms hb rho ppf chi k std lo hi q ns d1 x1 d2 x2
    (F := fit ms hb rho ppf chi k)
    (t1 := (F (new_transformer Auto std lo hi q ns) d1 x1).1) :
  tr_method t1 = Boxcox -> ~~ has xisnan x2 -> has (fun u => xleb u (XF 0)) x2 ->
  F t1 d2 x2 = (t1, Err ValueError) /\
  F (new_transformer Auto std lo hi q ns) d2 x2 = F (new_transformer Yeojohnson std lo hi q ns) d2 x2.
Proof.
by move=> em nn hp; split; [exact: auto_nonpositive_lem | exact: auto_fresh_lem].
Qed.

(* once a fit succeeded the method never changes again *)
Theorem auto_method_final ms hb rho ppf chi k lo hi std q ns hs1 d x hs2
    (F := fit ms hb rho ppf chi k) (U := run ms hb rho ppf chi k)
    (t := U (new_transformer Auto std lo hi q ns) hs1) :
  (F t d x).2 = Ok tt -> tr_method (U (F t d x).1 hs2) = tr_method (F t d x).1.
Proof. exact: auto_sticks. Qed.

(* even a failing fit on data with a non-positive value turns auto into
   yeojohnson for good *)
Theorem auto_failed_fit_switches ms hb rho ppf chi k t d x : tr_method t = Auto ->
  ~~ has xisnan x -> has (fun u => xleb u (XF 0)) x ->
  tr_method (fit ms hb rho ppf chi k t d x).1 = Yeojohnson.
Proof. exact: auto_failed_fit_lem. Qed.

(* with an explicit method the history is irrelevant *)
Theorem explicit_refit_fresh ms hb rho ppf chi k m std lo hi q ns hs d x
    (F := fit ms hb rho ppf chi k) (t0 := new_transformer m std lo hi q ns)
    (t := run ms hb rho ppf chi k t0 hs) : explicit m ->
  (F t d x).2 = (F t0 d x).2 /\ ((F t d x).2 = Ok tt -> (F t d x).1 = (F t0 d x).1).
Proof. exact: refit_lem. Qed.

(* auto chooses Box-Cox for the data (1) with the toy routines *)
Example auto_fit_history_ex :
  tr_method (toy_fit 1 (new_transformer Auto false (-4) 6 (99/100) 2) F64 [:: XF 1]).1 = Boxcox.
Proof.
rewrite /toy_fit /fit /=.
rewrite Rleb_f; last lra.
have p : check_positive [:: XF 1] = Ok tt by apply: check_positive_ok => //=; rewrite Rltb_t //; lra.
have s : np_sort [:: XF 1] = [:: XF 1] by [].
have [fb [eb lb]] : exists f, fit_boxcox (toy_ms 1) toy_huber toy_rho toy_ppf toy_ppf 1 F64 false
    (PyList (-4) 6) (99/100) 2 [:: XF 1] = Ok f /\ fit_lambda f = 1.
  eexists; rewrite /fit_boxcox /= /reweighted_ml /boxcox_rectified p Reqb_t /=.
  by rewrite /transf_boxcox p [bind _ _]/= toy_range.
have [fy [ey ly]] : exists f, fit_yeojohnson (toy_ms 1) toy_huber toy_rho toy_ppf toy_ppf 1 F64
    false (PyList (-4) 6) (99/100) 2 [:: XF 1] = Ok f /\ fit_lambda f = 1.
  eexists; rewrite /fit_yeojohnson /= /reweighted_ml /yeojohnson_rectified Reqb_t /=.
  by rewrite toy_range.
have ib : is_sorted [:: XF 1] by [].
have rb : robnormality toy_huber toy_rho toy_ppf F64 [:: XF 1] TBoxcox 1 = Ok (XF 0).
  rewrite /robnormality ib /= /transf_boxcox p /= bc1_fin ?Rpower_1 /bcR; try lra.
  rewrite !Reqb_f /= ?Reqb_f; try lra.
  by rewrite Rpower_1 /toy_rho /toy_ppf /=; last lra; congr (Ok (XF _)); field.
have ry : robnormality toy_huber toy_rho toy_ppf F64 [:: XF 1] TYeojohnson 1 = Ok (XF 1).
  rewrite /robnormality ib /= yj1_fin /yjR Rleb_t /bcR; try lra.
  rewrite !Reqb_f /= ?Reqb_f; try lra.
  by rewrite Rpower_1 /toy_rho /toy_ppf /=; last lra; congr (Ok (XF _)); field.
rewrite /fit_core s [tr_standardize _]/= [tr_range _]/= [tr_quantile _]/= [tr_nsteps _]/=.
rewrite eb ey /bind lb rb ly ry [xltb _ _]/=.
by rewrite Rltb_t //; lra.
Qed.

Example explicit_refit_fresh_ex hs :
  (toy_fit 1 (run (toy_ms 1) toy_huber toy_rho toy_ppf toy_ppf 1
     (new_transformer Yeojohnson false (-4) 6 (99/100) 2) hs) F64 [:: XF 1]).2 = Ok tt.
Proof.
have [|-> _] := @explicit_refit_fresh (toy_ms 1) toy_huber toy_rho toy_ppf toy_ppf 1 Yeojohnson
  false (-4) 6 (99/100) 2 hs F64 [:: XF 1]; first by right.
exact: power_fit_margin_ex.
Qed.

Example auto_failed_fit_switches_ex :
  tr_method (toy_fit 1 (new_transformer Auto true (-4) 6 (99/100) 2) F64 [:: XF 1; XF (-1)]).1
    = Yeojohnson.
Proof.
apply: auto_failed_fit_switches => //=.
by rewrite (_ : Rleb (-1) 0 = true) ?orbT //; apply: Rleb_t; lra.
Qed.

(* ---- C89 ---- *)
(* Yeo-Johnson on an integer array without standardisation: the result array is
   an integer array, so every transformed value is cut off *)
Theorem yeojohnson_integer_input_truncated t lam xs : fitted_yj t lam -> ~~ tr_standardize t ->
  exists ys, transform t F64 (map XF xs) = Ok (map XF ys) /\
             transform t I64 (map XF xs) = Ok (map XF (map Rtrunc ys)).
Proof.
case: t => m std r q ns sp lp lo so la; rewrite /fitted_yj /= => -[-> [-> _]] /negbTE ->.
exists (map (yjR lam) xs); rewrite /transform /=; split; congr Ok;
  rewrite /transf_yeojohnson -!map_comp; apply: eq_map => x /=; by rewrite yj1_fin.
Qed.

Definition ex_yj0 : transformer :=
  Tr Yeojohnson false (PyList (-4) 6) (99/100) 2 None None None None (Some 0).

(* the distinct integers 0 and 1 are mapped to the same value: no inverse *)
Theorem yeojohnson_integer_round_trip_refuted :
  fitted_yj ex_yj0 0 /\
  transform ex_yj0 I64 [:: XF 0; XF 1] = Ok [:: XF 0; XF 0] /\
  (do y <- transform ex_yj0 I64 [:: XF 0; XF 1]; inverse_transform ex_yj0 F64 y)
     <> Ok [:: XF 0; XF 1].
Proof.
have tr u : 0 <= u < 1 -> Rtrunc u = 0.
  move=> [u0 u1]; rewrite /Rtrunc Rleb_t //.
  have [b1 b2] := base_Int_part u.
  have -> : Int_part u = 0%Z; last by [].
  apply: Z.le_antisymm; apply: Zlt_succ_le; apply: lt_IZR; rewrite succ_IZR; lra.
have ln2 : 0 <= ln 2 < 1.
  split; first by apply: Rlt_le; rewrite -ln_1; apply: ln_increasing; lra.
  rewrite -(ln_exp 1); apply: ln_increasing; first lra.
  by have := @exp_ineq1 1; lra.
have e : transform ex_yj0 I64 [:: XF 0; XF 1] = Ok [:: XF 0; XF 0].
  rewrite /transform /= !yj1_fin /yjR !Rleb_t /=; try lra.
  rewrite /bcR Reqb_t /= Rplus_0_r ln_1 (_ : 1 + 1 = 2); last lra.
  by rewrite !tr //; lra.
split; first by split => //; split.
split => //; rewrite e.
have -> : (do y <- Ok [:: XF 0; XF 0]; inverse_transform ex_yj0 F64 y) =
          inverse_transform ex_yj0 F64 [:: XF 0; XF 0] by [].
rewrite /inverse_transform /= /handle_bounds /=.
rewrite !Rltb_f /=; try lra.
rewrite /inv_transf_yeojohnson /= /inv_yj1 /= !Rleb_t ?Reqb_t /=; try lra.
by rewrite exp_0; case; lra.
Qed.

Example yeojohnson_integer_input_truncated_ex : exists ys,
  transform ex_yj0 F64 [:: XF (-3); XF 7] = Ok (map XF ys) /\
  transform ex_yj0 I64 [:: XF (-3); XF 7] = Ok (map XF (map Rtrunc ys)).
Proof. by apply: (@yeojohnson_integer_input_truncated ex_yj0 0 [:: -3; 7]) => //; split. Qed.

(* ---- C90 ---- *)
(* one NaN in the data switches the checks off: np.min returns NaN, every
   comparison with NaN is false *)
Theorem nan_disables_clamping t lam d y : fitted_bc t lam -> ~~ tr_standardize t -> lam <> 0 ->
  1 / lam <> IZR (Int_part (1 / lam)) -> y * lam + 1 < 0 ->
  (exists2 v, inverse_transform t d [:: XF y] = Ok [:: XF v] & 0 < v) /\
  inverse_transform t d [:: XF y; XNaN] = Ok [:: XNaN; XNaN].
Proof.
move=> ft ns l0 ni yl; split; last exact: bc_nan_inverse ft ns l0 ni yl.
have [vs [e p _]] : exists vs, [/\ inverse_transform t d (map XF [:: y]) = Ok (map XF vs),
    all (Rltb 0) vs & transform t F64 (map XF vs) =
      Ok (map XF [seq post_std t (bc_clamp lam (pre_inv t y)) | y <- [:: y]])].
  apply: (boxcox_inverse_clamps d ft) => //=.
  by rewrite /bc_off_bound /pre_inv (negbTE ns) Reqb_f //; lra.
have [v ev] : exists v, vs = [:: v].
  have := f_equal (fun r => if r is Ok s then size s else 0%N) e.
  rewrite /= size_map; case: (t) ft ns => m std r q nst sp lp lo so la.
  rewrite /fitted_bc /inverse_transform /= => -[-> [-> _]] /negbTE ->.
  rewrite [bind (Ok _) _]/= (@handle_boundsE Boxcox lam [:: y]) //=.
  by case: (vs) => [|v [|]] // _; exists v.
by exists v; [rewrite e ev | move: p; rewrite ev /= andbT => /RltbP].
Qed.

Theorem nan_disables_positivity_check t lam d x : fitted_bc t lam -> ~~ tr_standardize t ->
  lam <> IZR (Int_part lam) \/ lam = 0 -> x < 0 ->
  transform t d [:: XF x] = Err ValueError /\
  transform t d [:: XF x; XNaN] = Ok [:: XNaN; XNaN].
Proof.
move=> ft ns hl x0; split; last exact: bc_nan_transform ft ns hl x0.
by apply: (boxcox_rejects_nonpositive _ ft) => //=; rewrite Rleb_t //; lra.
Qed.

Lemma half_not_int : 3/2 <> IZR (Int_part (3/2)).
Proof.
move=> h; have h1 : (1 < Int_part (3/2))%Z by apply: lt_IZR; rewrite -h; lra.
have h2 : (Int_part (3/2) < 2)%Z by apply: lt_IZR; rewrite -h; lra.
by move/Zlt_le_succ: h1 => h1; have := Z.le_lt_trans _ _ _ h1 h2; rewrite /= => /Z.lt_irrefl.
Qed.

Definition ex_bc_raw (lam : R) : transformer :=
  Tr Boxcox false (PyList (-4) 6) (99/100) 2 None None None None (Some lam).

Example nan_disables_clamping_ex :
  (exists2 v, inverse_transform (ex_bc_raw (2/3)) F64 [:: XF (-5)] = Ok [:: XF v] & 0 < v) /\
  inverse_transform (ex_bc_raw (2/3)) F64 [:: XF (-5); XNaN] = Ok [:: XNaN; XNaN].
Proof.
apply: (@nan_disables_clamping _ (2/3)) => //; try lra.
have -> : 1 / (2/3) = 3/2 by field.
exact: half_not_int.
Qed.

Example nan_disables_positivity_check_ex :
  transform (ex_bc_raw (3/2)) F64 [:: XF (-5)] = Err ValueError /\
  transform (ex_bc_raw (3/2)) F64 [:: XF (-5); XNaN] = Ok [:: XNaN; XNaN].
Proof.
apply: (@nan_disables_positivity_check _ (3/2)) => //; last lra.
by left; exact: half_not_int.
Qed.

Print Assumptions boxcox_round_trip.
Print Assumptions boxcox_rejects_nonpositive.
Print Assumptions yeojohnson_round_trip.
Print Assumptions boxcox_transform_order.
Print Assumptions yeojohnson_transform_order.
Print Assumptions boxcox_inverse_clamps.
Print Assumptions yeojohnson_inverse_clamps.
Print Assumptions boxcox_inverse_at_bound.
Print Assumptions boxcox_inverse_not_monotone.
Print Assumptions yeojohnson_inverse_not_monotone.
Print Assumptions boxcox_rectified_smooth.
Print Assumptions yeojohnson_rectified_smooth.
Print Assumptions yeojohnson_rectified_smooth_centred.
Print Assumptions yeojohnson_rectified_jump_refuted.
Print Assumptions yeojohnson_rectified_order_refuted.
Print Assumptions power_fit_single_round.
Print Assumptions power_fit_margin.
Print Assumptions boxcox_fit_type_error.
Print Assumptions yeojohnson_fit_type_error.
Print Assumptions auto_fit_history.
Print Assumptions auto_method_final.
Print Assumptions auto_failed_fit_switches.
Print Assumptions explicit_refit_fresh.
Print Assumptions yeojohnson_integer_input_truncated.
Print Assumptions yeojohnson_integer_round_trip_refuted.
Print Assumptions nan_disables_clamping.
Print Assumptions nan_disables_positivity_check.
