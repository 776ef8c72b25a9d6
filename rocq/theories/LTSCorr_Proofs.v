(* Proofs about the LTS correction factors. *)
From Coq Require Import Reals Lra.
From mathcomp Require Import all_ssreflect.
From Verif Require Import RFieldLra Prelude XR LTSCorr_Model.

Set Implicit Arguments.
Unset Strict Implicit.
Unset Printing Implicit Defensive.

Local Open Scope R_scope.

Lemma line_lt1 ab n : line ab n < 1.
Proof.
rewrite /line; have h1 := exp_pos ab.1; have h2 : 0 < Rpower (INR n) ab.2 by apply: exp_pos.
have : 0 < exp ab.1 / Rpower (INR n) ab.2 by apply: Rdiv_lt_0_compat.
lra.
Qed.

Lemma fp_lines K p n : exists f5 f8, [/\ f5 < 1, f8 < 1 & forall a, fp K p n a = interpolate f5 f8 a].
Proof.
by case: p => [|[|p]]; do 2 eexists; split; try (move=> a; reflexivity); exact: line_lt1.
Qed.

Lemma interpolate_one f5 f8 : interpolate f5 f8 1 = 1.
Proof. by rewrite /interpolate; case: RlebP => h; [lra|field]. Qed.

Lemma interpolate_half f5 f8 : interpolate f5 f8 (1/2) = f5.
Proof. by rewrite /interpolate; case: RlebP => h; [field|lra]. Qed.

Lemma interpolate_mid f5 f8 : interpolate f5 f8 (7/8) = f8.
Proof. by rewrite /interpolate; case: RlebP => h; [field|lra]. Qed.

Lemma cvx x y w : 0 < x -> 0 < y -> 0 <= w <= 1 -> 0 < x * w + y * (1 - w).
Proof.
move=> hx hy hw; case: (Rle_lt_dec w (1/2)) => h.
  have : 0 < y * (1 - w) by apply: Rmult_lt_0_compat; lra.
  have : 0 <= x * w by apply: Rmult_le_pos; lra.
  lra.
have : 0 < x * w by apply: Rmult_lt_0_compat; lra.
have : 0 <= y * (1 - w) by apply: Rmult_le_pos; lra.
lra.
Qed.

Lemma interpolate_lt1 f5 f8 a : f5 < 1 -> f8 < 1 -> 1/2 <= a < 1 -> interpolate f5 f8 a < 1.
Proof.
move=> h5 h8 ha; rewrite /interpolate; case: RlebP => h.
  have e : f5 + (f8 - f5) / (3/8) * (a - 1/2)
    = 1 - ((1 - f8) * ((a - 1/2) / (3/8)) + (1 - f5) * (1 - (a - 1/2) / (3/8))) by field.
  rewrite e; have := @cvx (1 - f8) (1 - f5) ((a - 1/2) / (3/8)); lra.
have -> : f8 + (1 - f8) / (1/8) * (a - 7/8) = 1 - (1 - f8) * ((1 - a) / (1/8)) by field.
have : 0 < (1 - f8) * ((1 - a) / (1/8)) by apply: Rmult_lt_0_compat; lra.
lra.
Qed.

Lemma interpolate_gt f5 f8 a c : c < f5 -> c < f8 -> c < 1 -> 1/2 <= a <= 1 -> c < interpolate f5 f8 a.
Proof.
move=> h5 h8 h1 ha; rewrite /interpolate; case: RlebP => h.
  have e : f5 + (f8 - f5) / (3/8) * (a - 1/2)
    = c + ((f8 - c) * ((a - 1/2) / (3/8)) + (f5 - c) * (1 - (a - 1/2) / (3/8))) by field.
  rewrite e; have := @cvx (f8 - c) (f5 - c) ((a - 1/2) / (3/8)); lra.
have e : f8 + (1 - f8) / (1/8) * (a - 7/8)
  = c + ((1 - c) * ((a - 7/8) / (1/8)) + (f8 - c) * (1 - (a - 7/8) / (1/8))) by field.
rewrite e; have := @cvx (1 - c) (f8 - c) ((a - 7/8) / (1/8)); lra.
Qed.

Lemma interpolate_lip f5 f8 : exists L, forall a b,
  Rabs (interpolate f5 f8 a - interpolate f5 f8 b) <= L * Rabs (a - b).
Proof.
set s1 := (f8 - f5) / (3/8); set s2 := (1 - f8) / (1/8).
exists (Rabs s1 + Rabs s2) => a b.
have e1 c : c <= (7/8) -> interpolate f5 f8 c = f8 + s1 * (c - (7/8)).
  by move=> hc; rewrite /interpolate; case: RlebP => // _; rewrite /s1; field.
have e2 c : (7/8) <= c -> interpolate f5 f8 c = f8 + s2 * (c - (7/8)).
  move=> hc; rewrite /interpolate; case: RlebP => // h; rewrite /s2.
  have -> : c = (7/8) by lra.
  by field.
clearbody s1 s2; have P1 := Rabs_pos s1; have P2 := Rabs_pos s2; have P3 := Rabs_pos (a - b).
have k (x y s t : R) : Rabs s <= Rabs s1 + Rabs s2 -> Rabs t <= Rabs s1 + Rabs s2 ->
   x <= (7/8) <= y -> Rabs (s * (x - (7/8)) - t * (y - (7/8))) <= (Rabs s1 + Rabs s2) * (y - x).
  move=> hs ht hxy; apply: Rle_trans (Rabs_triang _ _) _.
  rewrite Rabs_Ropp !Rabs_mult (Rabs_left1 (x - (7/8))); last lra.
  rewrite (Rabs_pos_eq (y - (7/8))); last lra.
  have k1 : Rabs s * (7/8 - x) <= (Rabs s1 + Rabs s2) * (7/8 - x) by apply: Rmult_le_compat_r => //; lra.
  have k2 : Rabs t * (y - 7/8) <= (Rabs s1 + Rabs s2) * (y - 7/8) by apply: Rmult_le_compat_r => //; lra.
  lra.
case: (Rle_dec a (7/8)) => ha; case: (Rle_dec b (7/8)) => hb.
- rewrite !e1 // (_ : f8 + s1 * (a - (7/8)) - (f8 + s1 * (b - (7/8))) = s1 * (a - b)); last ring.
  by rewrite Rabs_mult; nra.
- rewrite e1 // e2; last lra.
  rewrite (_ : f8 + s1 * (a - (7/8)) - (f8 + s2 * (b - (7/8))) = s1 * (a - (7/8)) - s2 * (b - (7/8))); last ring.
  rewrite (Rabs_left1 (a - b)); last lra.
  have -> : - (a - b) = b - a by ring.
  by apply: k; lra.
- rewrite e2; last lra.
  rewrite e1 // (_ : f8 + s2 * (a - (7/8)) - (f8 + s1 * (b - (7/8))) = - (s1 * (b - (7/8)) - s2 * (a - (7/8)))); last ring.
  rewrite Rabs_Ropp (Rabs_pos_eq (a - b)); last lra.
  by apply: k; lra.
- rewrite !e2; try lra.
  rewrite (_ : f8 + s2 * (a - (7/8)) - (f8 + s2 * (b - (7/8))) = s2 * (a - b)); last ring.
  by rewrite Rabs_mult; nra.
Qed.

Lemma correction_range K p n a : a < (1/2) \/ 1 < a -> correction K p n a = Err ValueError.
Proof.
move=> h; rewrite /correction; case: RltbP => h1 //=; case: RltbP => h2 //; lra.
Qed.

Lemma correctionE K p n a : (1/2) <= a <= 1 ->
  correction K p n a = Ok (xdiv (XF 1) (if p is 0%N then xsqrt (XF (fp K p n a)) else XF (fp K p n a))).
Proof.
move=> h; rewrite /correction; case: RltbP => h1 /=; first lra.
by case: RltbP => h2 //; lra.
Qed.

Lemma correction_one K p n : correction K p n 1 = Ok (XF 1).
Proof.
rewrite correctionE; last lra.
have [f5 [f8 [_ _ ->]]] := fp_lines K p n; rewrite interpolate_one.
have d1 : XF (1 / 1) = XF 1 by congr XF; field.
case: p => [|p] /=.
  case: RltbP => h; first lra.
  by rewrite /= sqrt_1; case: ReqbP => h'; [lra|rewrite d1].
by case: ReqbP => h'; [lra|rewrite d1].
Qed.

(* the finite values of a factor: at least one, or negative *)
Lemma correction_finite K p n a v : 1/2 <= a <= 1 -> correction K p n a = Ok (XF v) ->
  1 <= v \/ (v < 0 /\ (0 < p)%N).
Proof.
move=> ha; rewrite correctionE //; have [f5 [f8 [h5 h8 ->]]] := fp_lines K p n.
have hle : interpolate f5 f8 a <= 1.
  case: (Rle_lt_dec 1 a) => h; last by apply: Rlt_le; apply: interpolate_lt1 => //; lra.
  have -> : a = 1 by lra.
  rewrite interpolate_one; lra.
move: (interpolate f5 f8 a) hle => f hf.
have k g : 0 < g -> g <= 1 -> 1 <= 1 / g.
  move=> g0 g1; apply: (Rmult_le_reg_r g) => //; rewrite /Rdiv Rmult_assoc Rinv_l; lra.
have one : forall w, XF (1 / w) = XF v -> v = 1 / w by move=> w [].
case: p => [|p] /=.
  case: RltbP => h //=; case: ReqbP => h' //; first by rewrite /xinf; case: RltbP => [_ //|h1]; lra.
  case=> <-; left; have s0 := sqrt_pos f.
  have s1 : sqrt f <= 1 by rewrite -sqrt_1; apply: sqrt_le_1_alt.
  by apply: k => //; lra.
case: ReqbP => h'; first by rewrite /xinf; case: RltbP => [_ //|h1]; lra.
case=> <-; case: (Rlt_dec 0 f) => h; first by left; apply: k.
right; split => //; have : / f < 0 by apply: Rinv_lt_0_compat; lra.
by rewrite /Rdiv Rmult_1_l.
Qed.

(* p = 1 *)
Lemma ln2_small : ln 2 < 96/100.
Proof.
have : 2 < exp (96/100).
  have -> : 96/100 = 48/100 + 48/100 by field.
  rewrite exp_plus; have h : 148/100 < exp (48/100) by have := @exp_ineq1 (48/100); lra.
  nra.
by move=> h; rewrite -[X in _ < X]ln_exp; apply: ln_increasing => //; lra.
Qed.

Lemma line_neg ab n : ab.2 * ln (INR n) < ab.1 -> line ab n < 0.
Proof.
move=> h; rewrite /line /Rpower.
have -> : exp ab.1 / exp (ab.2 * ln (INR n)) = exp (ab.1 - ab.2 * ln (INR n)).
  by rewrite /Rminus exp_plus exp_Ropp.
have := @exp_ineq1 (ab.1 - ab.2 * ln (INR n)); lra.
Qed.

Lemma line_pos ab n : ab.1 < ab.2 * ln (INR n) -> 0 < line ab n.
Proof.
move=> h; rewrite /line /Rpower.
have -> : exp ab.1 / exp (ab.2 * ln (INR n)) = exp (ab.1 - ab.2 * ln (INR n)).
  by rewrite /Rminus exp_plus exp_Ropp.
have : exp (ab.1 - ab.2 * ln (INR n)) < exp 0 by apply: exp_increasing; lra.
rewrite exp_0; lra.
Qed.

Lemma raw_negative : exists v, v < 0 /\ correction raw_consts 1 2 (1/2) = Ok (XF v).
Proof.
rewrite correctionE; last lra.
rewrite /fp interpolate_half; have h : line (one_500 raw_consts) 2 < 0.
  apply: line_neg; have := ln2_small; rewrite (_ : INR 2 = 2); last by rewrite /=; lra.
  rewrite [one_500 _]/= [(_, _).1]/= [(_, _).2]/=.
  lra.
move: (line _ _) h => l h; rewrite /=; case: ReqbP => h'; first lra.
exists (1 / l); split => //; have : / l < 0 by apply: Rinv_lt_0_compat.
by rewrite /Rdiv Rmult_1_l.
Qed.

Lemma rew_negative : exists v, v < 0 /\ correction rew_consts 1 2 (1/2) = Ok (XF v).
Proof.
rewrite correctionE; last lra.
rewrite /fp interpolate_half; have h : line (one_500 rew_consts) 2 < 0.
  apply: line_neg; have := ln2_small; rewrite (_ : INR 2 = 2); last by rewrite /=; lra.
  rewrite [one_500 _]/= [(_, _).1]/= [(_, _).2]/=.
  lra.
move: (line _ _) h => l h; rewrite /=; case: ReqbP => h'; first lra.
exists (1 / l); split => //; have : / l < 0 by apply: Rinv_lt_0_compat.
by rewrite /Rdiv Rmult_1_l.
Qed.

Lemma ln3_big : 97/100 < ln 3.
Proof.
have h : exp (97/100) < 3.
  apply: Rlt_le_trans exp_le_3; apply: exp_increasing; lra.
by rewrite -[X in X < _]ln_exp; apply: ln_increasing => //; apply: exp_pos.
Qed.

Lemma raw_positive n a : (3 <= n)%N -> 1/2 <= a <= 1 ->
  exists v, 1 <= v /\ correction raw_consts 1 n a = Ok (XF v).
Proof.
move=> n3 ha; rewrite correctionE // /fp.
have ln3 : 97/100 < ln (INR n).
  apply: Rlt_le_trans ln3_big _; have h3 : 3 <= INR n.
    have -> : 3 = INR 3 by rewrite /=; lra.
    by apply: le_INR; apply/ssrnat.leP.
  case: (Rle_lt_or_eq_dec _ _ h3) => [h|<-]; last exact: Rle_refl.
  by apply: Rlt_le; apply: ln_increasing; lra.
set f := interpolate _ _ _.
have f0 : 0 < f.
  apply: interpolate_gt; [| |lra|lra]; apply: line_pos.
    by rewrite [one_500 _]/= [(_, _).1]/= [(_, _).2]/=; lra.
  by rewrite [one_875 _]/= [(_, _).1]/= [(_, _).2]/=; lra.
rewrite /=; case: ReqbP => h'; first lra.
exists (1 / f); split => //.
have := @correction_finite raw_consts 1 n a (1 / f) ha; rewrite correctionE // /fp -/f /=.
case: ReqbP => // _ /(_ erefl) [] // [h _].
have : 0 < / f by apply: Rinv_0_lt_compat.
lra.
Qed.

(* p >= 2: the two sample sizes the coefficients are calibrated on *)
Lemma solve_calibrated q3 q5 p : (0 < p)%N -> q3.1 < 0 -> q5.1 < 0 ->
  line (solve q3 q5 p) (3 * p ^ 2) = 1 + q3.1 / Rpower (INR p) q3.2 /\
  line (solve q3 q5 p) (5 * p ^ 2) = 1 + q5.1 / Rpower (INR p) q5.2.
Proof.
move=> p0 h3 h5; have P0 : 0 < INR p by apply: lt_0_INR; apply/ssrnat.ltP.
have P2 : 0 < INR p ^ 2 by apply: pow_lt.
have eN k : INR (k * p ^ 2) = INR k * INR p ^ 2.
  by rewrite -multE mult_INR expnS expn1 -multE mult_INR /= Rmult_1_r.
have lpos cd : cd.1 < 0 -> 0 < - cd.1 / Rpower (INR p) cd.2.
  by move=> h; apply: Rdiv_lt_0_compat; [lra|apply: exp_pos].
have le ab n : exp ab.1 / Rpower (INR n) ab.2 = exp (ab.1 - ab.2 * ln (INR n)).
  by rewrite /Rpower /Rminus exp_plus exp_Ropp.
have d : ln (3 * INR p ^ 2) < ln (5 * INR p ^ 2) by apply: ln_increasing; lra.
rewrite /line !le !eN /solve [(_, _).1]/= [(_, _).2]/=.
set y3 := log_coef q3 p; set y5 := log_coef q5 p.
have -> : INR 3 = 3 by rewrite /=; lra.
have -> : INR 5 = 5 by rewrite /=; lra.
set u3 := ln (3 * _) in d *; set u5 := ln (5 * _) in d *.
split.
  have -> : y3 - - u3 * ((y5 - y3) / (- u5 - - u3)) - (y5 - y3) / (- u5 - - u3) * u3 = y3 by ring.
  by rewrite /y3 /log_coef exp_ln; [rewrite /Rdiv; ring|apply: lpos].
have -> : y3 - - u3 * ((y5 - y3) / (- u5 - - u3)) - (y5 - y3) / (- u5 - - u3) * u5 = y5.
  by field; lra.
by rewrite /y5 /log_coef exp_ln; [rewrite /Rdiv; ring|apply: lpos].
Qed.

Lemma fp_calibrated K p : (1 < p)%N ->
  (q3_500 K).1 < 0 -> (q5_500 K).1 < 0 -> (q3_875 K).1 < 0 -> (q5_875 K).1 < 0 ->
  [/\ fp K p (3 * p ^ 2) (1/2) = 1 + (q3_500 K).1 / Rpower (INR p) (q3_500 K).2,
      fp K p (5 * p ^ 2) (1/2) = 1 + (q5_500 K).1 / Rpower (INR p) (q5_500 K).2,
      fp K p (3 * p ^ 2) (7/8) = 1 + (q3_875 K).1 / Rpower (INR p) (q3_875 K).2 &
      fp K p (5 * p ^ 2) (7/8) = 1 + (q5_875 K).1 / Rpower (INR p) (q5_875 K).2].
Proof.
case: p => [|[|p]] // _ h1 h2 h3 h4; rewrite /fp !interpolate_half !interpolate_mid.
have [-> ->] := @solve_calibrated (q3_500 K) (q5_500 K) p.+2 isT h1 h2.
by have [-> ->] := @solve_calibrated (q3_875 K) (q5_875 K) p.+2 isT h3 h4.
Qed.
