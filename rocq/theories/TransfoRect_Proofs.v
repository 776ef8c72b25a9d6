(* The rectified power transformations: derivative, monotonicity and the
   changepoint (Transfo_Model.v). *)
From Coq Require Import Reals Lra.
From mathcomp Require Import all_ssreflect.
From mathcomp.zify Require Import zify.
From Verif Require Import Prelude XR Transfo_Model Transfo_Spec Transfo_Proofs.

Set Implicit Arguments.
Unset Strict Implicit.
Unset Printing Implicit Defensive.

Local Open Scope R_scope.

(* -------- derivatives -------- *)
Lemma dglue (f g h : R -> R) c d : f c = g c -> h c = f c ->
  (forall x, h x = f x \/ h x = g x) ->
  derivable_pt_lim f c d -> derivable_pt_lim g c d -> derivable_pt_lim h c d.
Proof.
move=> fg hf pieces df dg e e0.
have [d1 h1] := df e e0; have [d2 h2] := dg e e0.
have m0 : 0 < Rmin d1 d2 by apply: Rmin_pos; exact: cond_pos.
exists (mkposreal _ m0) => k k0 /= hk.
case: (pieces (c + k)) => ->.
- by rewrite hf; apply: h1 => //; apply: Rlt_le_trans hk _; exact: Rmin_l.
- by rewrite hf fg; apply: h2 => //; apply: Rlt_le_trans hk _; exact: Rmin_r.
Qed.

Lemma dloc (f h : R -> R) c d r : 0 < r -> (forall x, Rabs (x - c) < r -> h x = f x) ->
  derivable_pt_lim f c d -> derivable_pt_lim h c d.
Proof.
move=> r0 eqn df e e0; have [d1 h1] := df e e0.
have m0 : 0 < Rmin d1 r by apply: Rmin_pos => //; exact: cond_pos.
exists (mkposreal _ m0) => k k0 /= hk.
rewrite !eqn.
- by apply: h1 => //; apply: Rlt_le_trans hk _; exact: Rmin_l.
- by rewrite Rminus_diag_eq // Rabs_R0.
- have -> : c + k - c = k by ring.
  by apply: Rlt_le_trans hk _; exact: Rmin_r.
Qed.

Lemma dlin A c d x : derivable_pt_lim (fun u => A + (u - c) * d) x d.
Proof.
move=> e e0; exists (mkposreal 1 Rlt_0_1) => k k0 _.
have -> : (A + (x + k - c) * d - (A + (x - c) * d)) / k - d = 0 by field.
by rewrite Rabs_R0.
Qed.

Lemma dshift f x d : derivable_pt_lim f (1 + x) d -> derivable_pt_lim (fun u => f (1 + u)) x d.
Proof.
move=> df e e0; have [d1 h1] := df e e0; exists d1 => k k0 hk.
by rewrite -Rplus_assoc; exact: h1.
Qed.

Lemma dflip f x d : derivable_pt_lim f (1 - x) d ->
  derivable_pt_lim (fun u => - f (1 - u)) x d.
Proof.
move=> df e e0; have [d1 h1] := df e e0; exists d1 => k k0 hk.
have k0' : - k <> 0 by lra.
have hk' : Rabs (- k) < d1 by rewrite Rabs_Ropp.
have := h1 _ k0' hk'.
have -> : 1 - x + - k = 1 - (x + k) by ring.
by congr (Rabs _ < e); field.
Qed.

Lemma Rpower_m1 c : 0 < c -> Rpower c (-1) = / c.
Proof. by move=> c0; rewrite (_ : -1 = - (1)) ?Rpower_Ropp ?Rpower_1 //; lra. Qed.

Lemma bcR_deriv lam x : 0 < x -> derivable_pt_lim (bcR lam) x (Rpower x (lam - 1)).
Proof.
move=> x0; case: (Req_EM_T lam 0) => l0.
  apply: (@dloc ln _ _ _ 1); first lra.
    by move=> u _; rewrite /bcR l0 Reqb_t.
  rewrite l0 (_ : 0 - 1 = -1); last lra.
  by rewrite Rpower_m1 //; exact: derivable_pt_lim_ln.
have d1 := derivable_pt_lim_power x lam x0.
apply: (@dloc (fun u => / lam * (Rpower u lam - 1)) _ _ _ 1); first lra.
  by move=> u _; rewrite /bcR Reqb_f // /Rdiv Rmult_comm.
have -> : Rpower x (lam - 1) = / lam * (lam * Rpower x (lam - 1) - 0) by field.
apply: derivable_pt_lim_scal; apply: derivable_pt_lim_minus => //.
exact: derivable_pt_lim_const.
Qed.

Definition yj_slope (lam x : R) : R :=
  if Rleb 0 x then Rpower (1 + x) (lam - 1) else Rpower (1 - x) (1 - lam).

Lemma yj_slope_gt0 lam x : 0 < yj_slope lam x.
Proof. by rewrite /yj_slope; case: ifP => _; exact: Rpower_gt0. Qed.

Lemma Rpower_1l y : Rpower 1 y = 1.
Proof. by rewrite /Rpower ln_1 Rmult_0_r exp_0. Qed.

Lemma yjR_deriv lam x : derivable_pt_lim (yjR lam) x (yj_slope lam x).
Proof.
have dp u : -1 < u -> derivable_pt_lim (fun u => bcR lam (1 + u)) u (Rpower (1 + u) (lam - 1)).
  by move=> hu; apply: dshift; apply: bcR_deriv; lra.
have dn u : u < 1 -> derivable_pt_lim (fun u => - bcR (2 - lam) (1 - u)) u
    (Rpower (1 - u) (1 - lam)).
  move=> hu; apply: (@dflip (bcR (2 - lam))).
  by rewrite (_ : 1 - lam = 2 - lam - 1); [apply: bcR_deriv | ]; lra.
rewrite /yj_slope; case: RlebP => hx.
- case: hx => hx.
    apply: (dloc (r := x)) (dp _ _) => //; last lra.
    move=> u hu; rewrite /yjR Rleb_t //.
    by move: hu; rewrite /Rabs; case: Rcase_abs; lra.
  rewrite -hx Rplus_0_r Rpower_1l.
  apply: (@dglue (fun u => bcR lam (1 + u)) (fun u => - bcR (2 - lam) (1 - u))).
  + by rewrite Rplus_0_r Rminus_0_r !bcR1; lra.
  + by rewrite /yjR Rleb_t //; lra.
  + by move=> u; rewrite /yjR; case: ifP => _; [left | right].
  + by have := @dp 0; rewrite Rplus_0_r Rpower_1l; apply; lra.
  + by have := @dn 0; rewrite Rminus_0_r Rpower_1l; apply; lra.
- apply: (dloc (r := - x)) (dn _ _); try lra.
  move=> u hu; rewrite /yjR Rleb_f //.
  by move: hu; rewrite /Rabs; case: Rcase_abs; lra.
Qed.

(* -------- rectified functions -------- *)
Definition tailb (lam c x : R) : bool := if Rltb 1 lam then Rltb x c else Rltb c x.

Definition rectR (g : R -> R) (sl lam c x : R) : R :=
  if tailb lam c x then g c + (x - c) * sl else g x.

Lemma rectR_incr g sl lam c (D : R -> Prop) : 0 < sl -> D c ->
  (forall x y, D x -> D y -> x < y -> g x < g y) ->
  forall x y, D x -> D y -> x < y -> rectR g sl lam c x < rectR g sl lam c y.
Proof.
move=> s0 Dc gi x y Dx Dy xy; rewrite /rectR /tailb.
have gle u v : D u -> D v -> u <= v -> g u <= g v.
  by move=> Du Dv [h|->]; [apply: Rlt_le; exact: gi | lra].
case: (RltbP 1 lam) => hl.
- case: (RltbP x c) => hx; case: (RltbP y c) => hy; try nra.
  + by have : g c <= g y; [apply: gle => //; lra | nra].
  + exact: gi.
- case: (RltbP c x) => hx; case: (RltbP c y) => hy; try nra.
  + by have : g x <= g c; [apply: gle => //; lra | nra].
  + exact: gi.
Qed.

Lemma rectR_deriv g g' sl lam c x : g' c = sl ->
  derivable_pt_lim g c (g' c) -> derivable_pt_lim g x (g' x) ->
  derivable_pt_lim (rectR g sl lam c) x (if tailb lam c x then sl else g' x).
Proof.
move=> es dc dx; case: (Req_EM_T x c) => [->|ne].
  have tc : tailb lam c c = false by rewrite /tailb; case: ifP => _; apply: Rltb_f; lra.
  rewrite tc.
  apply: (@dglue g (fun u => g c + (u - c) * sl)) => //.
  - by ring.
  - by rewrite /rectR tc.
  - by move=> u; rewrite /rectR; case: ifP => _; [right | left].
  - by rewrite es; exact: dlin.
have r0 : 0 < Rabs (x - c) by apply: Rabs_pos_lt; lra.
have same u : Rabs (u - x) < Rabs (x - c) -> tailb lam c u = tailb lam c x.
  move=> hu; rewrite /tailb; case: ifP => _.
  - apply/RltbP/RltbP; move: hu; rewrite /Rabs; case: Rcase_abs; case: Rcase_abs; lra.
  - apply/RltbP/RltbP; move: hu; rewrite /Rabs; case: Rcase_abs; case: Rcase_abs; lra.
case E: (tailb lam c x).
- apply: (dloc r0) (@dlin (g c) c sl x) => u hu.
  by rewrite /rectR same // E.
- apply: (dloc r0) dx => u hu.
  by rewrite /rectR same // E.
Qed.

Lemma bc_rect1_fin lam c x : 0 < c -> 0 < x ->
  bc_rect1 lam (XF c) (XF x) = XF (rectR (bcR lam) (Rpower c (lam - 1)) lam c x).
Proof.
move=> c0 x0; rewrite /bc_rect1 /rectR /tailb /xltb /bcR.
case: ReqbP => l0.
  rewrite !xlog_pos // xdiv_fin; last lra.
  case: ifP => // _; rewrite /xadd l0 (_ : 0 - 1 = -1); last lra.
  by rewrite Rpower_m1.
rewrite !xpow_pos //.
by case: ifP => _; rewrite /xsub /= Reqb_f.
Qed.


Lemma yj_rect1_fin lam c x : lam <> 1 -> cp_side lam c ->
  yj_rect1 lam F64 (XF c) (XF x) = XF (rectR (yjR lam) (yj_slope lam c) lam c x).
Proof.
move=> l1 [s1 s2]; rewrite /yj_rect1 /rectR /tailb.
rewrite [store F64 _]/= yj1_fin.
have ab : 1 + Rabs c = if Rleb 0 c then 1 + c else 1 - c.
  by case: RlebP => h; [rewrite Rabs_right | rewrite Rabs_left]; lra.
case: (RltbP 1 lam) => hl.
- have c0 := s1 hl.
  have slope : Rpower (1 + Rabs c) (1 - lam) = yj_slope lam c.
    rewrite ab /yj_slope; case: RlebP => // h.
    have -> : c = 0 by lra.
    by rewrite Rplus_0_r !Rpower_1l.
  rewrite /xltb /xleb.
  case: (RltbP x c) => hx.
    case: ReqbP => l2.
      rewrite /xsub /xadd /xopp -/(1 - c) xlog_pos; last lra.
      rewrite xdiv_fin; last lra.
      congr XF; rewrite /yjR /bcR l2; case: RlebP => h0.
        have -> : c = 0 by lra.
        have e21 : 2 - 1 = 1 by lra.
        rewrite /yj_slope Rleb_t; last lra.
        rewrite Reqb_f; last lra.
        rewrite Rplus_0_r !Rpower_1l Rminus_0_r ln_1; field.
      rewrite (_ : 2 - 2 = 0); last lra.
      rewrite Reqb_t /yj_slope Rleb_f; last lra.
      by rewrite (_ : 1 - 2 = -1) ?Rpower_m1 //; lra.
    rewrite /xabs /xadd xpow_pos; last by have := Rabs_pos c; lra.
    by rewrite slope.
  case: (RltbP x 0) => hx0.
    have -> : Rleb c x = true by apply: Rleb_t; lra.
    have -> : Rleb 0 x = false by apply: Rleb_f.
    by rewrite [true && true]/= -(yj1_fin lam x) /yj1 /xleb Rleb_f.
  rewrite andbF; have -> : Rleb 0 x = true by apply: Rleb_t; lra.
  rewrite -(yj1_fin lam x) /yj1 /xleb Rleb_t; last lra.
  rewrite [Reqb lam 0]Reqb_f; last lra.
  by case: ReqbP.
- have hl' : lam < 1 by lra.
  have c0 := s2 hl'.
  have slope : Rpower (1 + Rabs c) (lam - 1) = yj_slope lam c.
    by rewrite ab /yj_slope Rleb_t.
  rewrite /xltb /xleb.
  case: (RltbP c x) => hx.
    case: ReqbP => l0.
      rewrite /xsub /xadd /xopp xlog_pos; last lra.
      rewrite xdiv_fin; last lra.
      congr XF; rewrite /yjR /bcR l0 Reqb_t Rleb_t // /yj_slope Rleb_t //.
      by rewrite (_ : 0 - 1 = -1) ?Rpower_m1 //; lra.
    rewrite /xabs /xadd xpow_pos; last by have := Rabs_pos c; lra.
    by rewrite slope.
  have -> : Rleb x c = true by apply: Rleb_t; lra.
  case: (RltbP x 0) => hx0.
    have -> : Rleb 0 x = false by apply: Rleb_f.
    rewrite /= -(yj1_fin lam x) /yj1 /xleb Rleb_f // [Reqb lam 2]Reqb_f; last lra.
    by case: ReqbP.
  have -> : Rleb 0 x = true by apply: Rleb_t; lra.
  rewrite [true && true]/= -(yj1_fin lam x) /yj1 /xleb Rleb_t; last lra.
  by case: ReqbP.
Qed.

(* -------- the changepoint -------- *)
Lemma Rleb_trans : transitive Rleb.
Proof. by move=> y x z /RlebP h1 /RlebP h2; apply/RlebP; lra. Qed.
Lemma Rleb_refl : reflexive Rleb.
Proof. by move=> x; apply/RlebP; lra. Qed.

Lemma sorted_nth (xs : seq R) i j : sorted Rleb xs -> (i <= j)%N -> (j < size xs)%N ->
  nth 0 xs i <= nth 0 xs j.
Proof.
move=> st ij hj; apply/RlebP.
apply: (sorted_leq_nth Rleb_trans Rleb_refl 0 st) => //.
by rewrite inE; lia.
Qed.

Lemma q1_lt n : (0 < n)%N -> (q1_idx n < n)%N.
Proof. by rewrite /q1_idx; lia. Qed.
Lemma q3_lt n : (0 < n)%N -> (q3_idx n < n)%N.
Proof. by rewrite /q3_idx; lia. Qed.

Lemma np_get_XF xs i : (i < size xs)%N -> np_get (map XF xs) i = Ok (XF (nth 0 xs i)).
Proof. by move=> h; rewrite /np_get size_map h (nth_map 0). Qed.

Lemma pymin_XF a b : pymin (XF a) (XF b) = XF (if Rltb b a then b else a).
Proof. by rewrite /pymin /=; case: ifP. Qed.
Lemma pymax_XF a b : pymax (XF a) (XF b) = XF (if Rltb a b then b else a).
Proof. by rewrite /pymax /=; case: ifP. Qed.

Lemma eps_gt0 : 0 < eps. Proof. by rewrite /eps; lra. Qed.

Definition clip (a lo hi : R) : R :=
  let m := if Rltb a lo then lo else a in if Rltb hi m then hi else m.

Lemma clip_between a lo hi : lo <= hi -> lo <= clip a lo hi <= hi.
Proof. by rewrite /clip; case: (RltbP a lo) => h1; case: RltbP => h2; lra. Qed.

Lemma bc_changepoint_lem xs lam : xs <> [::] -> all (Rltb 0) xs -> sorted Rleb xs -> lam <> 1 ->
  exists c, bc_changepoint (map XF xs) lam = Ok (XF c) /\
    nth 0 xs 0 <= c <= nth 0 xs (size xs).-1.
Proof.
move=> x0 xp st l1; set n := size xs.
have n0 : (0 < n)%N by rewrite /n; case: (xs) x0.
have h1 := q1_lt n0; have h3 := q3_lt n0.
have p1 : 0 < nth 0 xs (q1_idx n) by apply/RltbP; exact: all_nthR.
have p3 : 0 < nth 0 xs (q3_idx n) by apply/RltbP; exact: all_nthR.
rewrite /bc_changepoint size_map -/n !np_get_XF //; last by lia.
have tb r : 0 < r -> transf_boxcox [:: XF r] lam = Ok [:: XF (bcR lam r)].
  by move=> r0; rewrite transf_boxcox_ok //= ?Rltb_t // bc1_fin.
have [q [q0 eq]] : exists q, 0 < q /\ (if Rltb lam 1 then
              do t <- transf_boxcox [:: XF (nth 0 xs (q3_idx n))] lam; Ok (xmul (nth XNaN t 0) (XF factor))
            else if Rltb 1 lam then
              do t <- transf_boxcox [:: XF (nth 0 xs (q1_idx n))] lam; Ok (xmul (nth XNaN t 0) (XF factor))
            else Err ValueError) = Ok (XF (bcR lam q * factor)).
  case: (RltbP lam 1) => hl; first by exists (nth 0 xs (q3_idx n)); rewrite tb.
  by rewrite Rltb_t; [exists (nth 0 xs (q1_idx n)); rewrite tb | lra].
rewrite [bind (Ok (XF (nth 0 xs (q1_idx n)))) _]/= [X in bind X _]eq /=.
set w := bcR lam q * factor.
have [c1 [-> dc]] : exists c1, (if Rltb lam 0 then pymin (XF w) (XF (Rabs (1 / lam) - eps))
            else if Rltb 0 lam then pymax (XF w) (XF (- 1 / lam + eps)) else XF w) = XF c1
     /\ bc_dom lam c1.
  have e0 := eps_gt0.
  case: (RltbP lam 0) => hl.
    rewrite pymin_XF; eexists; split; first by [].
    have il : / lam < 0 by exact: Rinv_lt_0_compat.
    have e : lam * / lam = 1 by field; lra.
    have ab : Rabs (1 / lam) = - / lam by rewrite Rabs_left /Rdiv; lra.
    rewrite ab; right; case: RltbP => h; nra.
  case: (RltbP 0 lam) => hl'.
    rewrite pymax_XF; eexists; split; first by [].
    have il : 0 < / lam by exact: Rinv_0_lt_compat.
    have e : lam * / lam = 1 by field; lra.
    have e' : - 1 / lam = - / lam by field; lra.
    rewrite e'; right; case: RltbP => h; nra.
  by exists w; split => //; left; lra.
rewrite inv_bc1_fin // pymax_XF pymin_XF.
exists (clip (ibcR lam c1) (nth 0 xs 0) (nth 0 xs n.-1)); split => //.
by apply: clip_between; apply: sorted_nth => //; lia.
Qed.

Lemma bc_rectified_lem xs lam : xs <> [::] -> all (Rltb 0) xs -> sorted Rleb xs -> lam <> 1 ->
  exists c f,
    [/\ 0 < c /\ nth 0 xs 0 <= c <= nth 0 xs (size xs).-1,
        boxcox_rectified F64 (map XF xs) lam = Ok (map XF (map f xs)),
        forall x, 0 < x -> (if Rltb 1 lam then c <= x else x <= c) -> bc1 lam (XF x) = XF (f x),
        forall x, 0 < x -> exists2 d, 0 < d & derivable_pt_lim f x d &
        forall x y, 0 < x -> x < y -> f x < f y].
Proof.
move=> x0 xp st l1; have [c [ec [c1 c2]]] := bc_changepoint_lem x0 xp st l1.
have c0 : 0 < c.
  have : 0 < nth 0 xs 0 by apply/RltbP; apply: all_nthR => //; case: (xs) x0.
  lra.
exists c, (rectR (bcR lam) (Rpower c (lam - 1)) lam c); split => //.
- rewrite /boxcox_rectified check_positive_ok //=; last 2 first.
  + exact: map_XF_neq0.
  + exact: posnan_XF.
  rewrite Reqb_f // ec /=; congr Ok; rewrite -!map_comp.
  by apply: (eq_map_all _ xp) => x /RltbP hx; rewrite /= bc_rect1_fin.
- move=> x hx side; rewrite bc1_fin //; congr XF.
  rewrite /rectR /tailb; move: side; case: ifP => _ h; by rewrite Rltb_f.
- move=> x hx; exists (if tailb lam c x then Rpower c (lam - 1) else Rpower x (lam - 1)).
    by case: ifP => _; exact: Rpower_gt0.
  by apply: (@rectR_deriv _ (fun u => Rpower u (lam - 1))) => //; exact: bcR_deriv.
- move=> x y hx xy.
  apply: (@rectR_incr _ _ _ _ (fun u => 0 < u)) => //; first exact: Rpower_gt0.
    by move=> u v u0 _; exact: bcR_incr.
  lra.
Qed.

Lemma iyjR_sign lam y : yj_dom lam y -> (y <= 0 -> iyjR lam y <= 0) /\ (0 <= y -> 0 <= iyjR lam y).
Proof.
move=> d; have := iyjRK d; move=> e; split => h.
- case: (Rle_lt_dec (iyjR lam y) 0) => // h2.
  have : yjR lam 0 < yjR lam (iyjR lam y) by exact: yjR_incr.
  have := @yjR_nonneg lam 0; lra.
- case: (Rle_lt_dec 0 (iyjR lam y)) => // h2.
  have := yjR_neg lam h2; lra.
Qed.

Lemma yjR_nonpos lam x : x <= 0 -> yjR lam x <= 0.
Proof.
case=> [h|->]; first by apply: Rlt_le; exact: yjR_neg.
rewrite /yjR Rleb_t; last lra.
by rewrite Rplus_0_r bcR1; lra.
Qed.

(* Yeo-Johnson's changepoint, with the expected signs of the quartiles *)
Lemma yj_changepoint_lem xs lam : xs <> [::] -> sorted Rleb xs -> lam <> 1 ->
  exists c, [/\ yj_changepoint F64 (map XF xs) lam = Ok (F64, XF c),
    nth 0 xs 0 <= c <= nth 0 xs (size xs).-1 &
    Rabs lam <= 100000 -> (1 < lam -> nth 0 xs (q1_idx (size xs)) <= 0) ->
      (lam < 1 -> 0 <= nth 0 xs (q3_idx (size xs))) -> cp_side lam c].
Proof.
move=> x0 st l1; set n := size xs.
have n0 : (0 < n)%N by rewrite /n; case: (xs) x0.
have h1 := q1_lt n0; have h3 := q3_lt n0.
rewrite /yj_changepoint size_map -/n !np_get_XF //; last by lia.
have [q [sq eq]] : exists q, (if Rltb lam 1 then q = nth 0 xs (q3_idx n) else q = nth 0 xs (q1_idx n)) /\
     (if Rltb lam 1 then Ok (xmul (store F64 (yj1 lam (XF (nth 0 xs (q3_idx n))))) (XF factor))
            else if Rltb 1 lam then Ok (xmul (store F64 (yj1 lam (XF (nth 0 xs (q1_idx n))))) (XF factor))
            else Err ValueError) = Ok (XF (yjR lam q * factor)).
  case: (RltbP lam 1) => hl; first by eexists; split; first by []; rewrite yj1_fin.
  by rewrite Rltb_t; [eexists; split; first by []; rewrite yj1_fin | lra].
rewrite [bind (Ok (XF (nth 0 xs (q1_idx n)))) _]/= [X in bind X _]eq /=.
set w := yjR lam q * factor.
have [c1 [-> dc sc]] : exists c1, [/\ (if Rltb lam 0 then pymin (XF w) (XF (Rabs (1 / lam) - eps))
            else if Rltb 2 lam then pymax (XF w) (XF (1 / (2 - lam) + eps)) else XF w) = XF c1,
     yj_dom lam c1 &
     Rabs lam <= 100000 -> (1 < lam -> q <= 0 -> c1 <= 0) /\ (lam < 1 -> 0 <= q -> 0 <= c1)].
  have e0 := eps_gt0.
  have wneg : q <= 0 -> w <= 0 by move=> /(yjR_nonpos lam); rewrite /w /factor; lra.
  have wpos : 0 <= q -> 0 <= w by move=> /(yjR_nonneg lam); rewrite /w /factor; lra.
  case: (RltbP lam 0) => hl.
    rewrite pymin_XF; eexists; split; first by [].
    - have il : / lam < 0 by exact: Rinv_lt_0_compat.
      have e : lam * / lam = 1 by field; lra.
      have ab : Rabs (1 / lam) = - / lam by rewrite Rabs_left /Rdiv; lra.
      rewrite ab /yj_dom; case: (RlebP 0 _) => hs; last first.
        by right; move: hs; case: RltbP => h hs; nra.
      by right; move: hs; case: RltbP => h hs; nra.
    - rewrite Rabs_left // => hb; split; first lra.
      move=> _ /wpos w0; case: RltbP => // h.
      have -> : Rabs (1 / lam) = / - lam.
        by rewrite Rabs_left /Rdiv ?Rmult_1_l ?Ropp_inv_permute //; [lra | exact: Rinv_lt_0_compat].
      have : / 100000 <= / - lam by apply: Rinv_le_contravar; lra.
      by rewrite /eps; lra.
  case: (RltbP 2 lam) => hl'.
    rewrite pymax_XF; eexists; split; first by [].
    - have il : 0 < / (lam - 2) by apply: Rinv_0_lt_compat; lra.
      have e : (lam - 2) * / (lam - 2) = 1 by field; lra.
      have e' : 1 / (2 - lam) = - / (lam - 2) by field; lra.
      rewrite e' /yj_dom; case: (RlebP 0 _) => hs; last first.
        by right; move: hs; case: RltbP => h hs; nra.
      by right; move: hs; case: RltbP => h hs; nra.
    - rewrite Rabs_right; last lra.
      move=> hb; split; last lra.
      move=> _ /wneg w0; case: RltbP => // h.
      have -> : 1 / (2 - lam) = - / (lam - 2) by field; lra.
      have : / 100000 <= / (lam - 2) by apply: Rinv_le_contravar; lra.
      by rewrite /eps; lra.
  exists w; split => //.
  rewrite /yj_dom; case: (RlebP 0 w) => hs; right; nra.
rewrite inv_yj1_fin //=.
exists (clip (iyjR lam c1) (nth 0 xs 0) (nth 0 xs n.-1)); split.
- by congr Ok; rewrite /clip; case: (Rltb (iyjR lam c1) _); rewrite /=; case: ifP.
- by apply: clip_between; apply: sorted_nth => //; lia.
- move=> hb q1s q3s; have [s1 s2] := sc hb; have [i1 i2] := iyjR_sign dc.
  have lo1 : nth 0 xs 0 <= nth 0 xs (q1_idx n) by apply: sorted_nth => //; lia.
  have hi3 : nth 0 xs (q3_idx n) <= nth 0 xs n.-1 by apply: sorted_nth => //; rewrite -/n; lia.
  split => hl.
  + have q0 : q <= 0 by move: sq; rewrite Rltb_f; [move=> ->; exact: q1s | lra].
    have := i1 (s1 hl q0); have := q1s hl.
    by rewrite /clip; case: (RltbP _ (nth 0 xs 0)) => ?; case: RltbP => ?; lra.
  + have q0 : 0 <= q by move: sq; rewrite Rltb_t; [move=> ->; exact: q3s | lra].
    have := i2 (s2 hl q0); have := q3s hl.
    by rewrite /clip; case: (RltbP _ (nth 0 xs 0)) => ?; case: RltbP => ?; lra.
Qed.

Lemma yj_rectified_lem xs lam : xs <> [::] -> sorted Rleb xs -> lam <> 1 -> Rabs lam <= 100000 ->
  (1 < lam -> nth 0 xs (q1_idx (size xs)) <= 0) ->
  (lam < 1 -> 0 <= nth 0 xs (q3_idx (size xs))) ->
  exists c f,
    [/\ cp_side lam c /\ nth 0 xs 0 <= c <= nth 0 xs (size xs).-1,
        yeojohnson_rectified F64 (map XF xs) lam = Ok (map XF (map f xs)),
        forall x, (if Rltb 1 lam then c <= x else x <= c) -> yj1 lam (XF x) = XF (f x),
        forall x, exists2 d, 0 < d & derivable_pt_lim f x d &
        forall x y, x < y -> f x < f y].
Proof.
move=> x0 st l1 hb h1 h3; have [c [ec cb cs]] := yj_changepoint_lem x0 st l1.
have {}cs := cs hb h1 h3.
exists c, (rectR (yjR lam) (yj_slope lam c) lam c); split => //.
- rewrite /yeojohnson_rectified Reqb_f // ec /=; congr Ok; rewrite -!map_comp.
  by apply: eq_map => x; rewrite /= yj_rect1_fin.
- move=> x side; rewrite yj1_fin; congr XF.
  rewrite /rectR /tailb; move: side; case: ifP => _ h; by rewrite Rltb_f.
- move=> x; exists (if tailb lam c x then yj_slope lam c else yj_slope lam x).
    by case: ifP => _; exact: yj_slope_gt0.
  by apply: (@rectR_deriv _ (yj_slope lam)) => //; exact: yjR_deriv.
- move=> x y xy.
  apply: (@rectR_incr _ _ _ _ (fun u => True)) => //; first exact: yj_slope_gt0.
  by move=> u v _ _; exact: yjR_incr.
Qed.

(* -------- changepoint on the wrong side -------- *)
Lemma log_gap c : 0 < c < 1 -> c + c * c / 2 < - ln (1 - c).
Proof.
move=> [c0 c1].
pose f u := - ln (1 - u) - (u + u * u / 2).
have df u : 0 <= u <= c -> derivable_pt_lim f u (/ (1 - u) - (1 + u)).
  move=> hu; apply: derivable_pt_lim_minus.
    by apply: (@dflip ln); apply: derivable_pt_lim_ln; lra.
  have -> : 1 + u = 1 + (1 * u + u * 1) / 2 by field.
  apply: derivable_pt_lim_plus; first exact: derivable_pt_lim_id.
  have d2 : derivable_pt_lim (fun u => u * u) u (1 * u + u * 1).
    by apply: (@derivable_pt_lim_mult id id); exact: derivable_pt_lim_id.
  have := @derivable_pt_lim_scal _ (/ 2) _ _ d2.
  rewrite /Rdiv (Rmult_comm (/ 2)) => h.
  by apply: (dloc Rlt_0_1) h => v _; rewrite /mult_real_fct Rmult_comm.
have [w [ew [w0 w1]]] := @MVT_cor2 f (fun u => / (1 - u) - (1 + u)) 0 c c0 df.
move: ew; rewrite /f Rminus_0_r ln_1.
have p : 0 < / (1 - w) - (1 + w).
  have i0 : 0 < / (1 - w) by apply: Rinv_0_lt_compat; lra.
  have e : (1 - w) * / (1 - w) = 1 by field; lra.
  by nra.
by move=> ew; nra.
Qed.

Lemma not_cont f c L s : f c < L -> (forall x, x < c -> f x = L + (x - c) * s) -> 0 < s ->
  ~ continuity_pt f c /\ exists2 x, x < c & f c < f x.
Proof.
move=> gap left s0.
have near r : 0 < r -> exists x, [/\ x < c, Rabs (x - c) < r & (L - f c) / 2 < f x - f c].
  move=> r0; pose k := Rmin (r / 2) ((L - f c) / (4 * s)).
  have k0 : 0 < k.
    by apply: Rmin_pos; [lra | apply: Rdiv_lt_0_compat; lra].
  have k1 : k <= r / 2 by exact: Rmin_l.
  have k2 : k * s <= (L - f c) / 4.
    have : k <= (L - f c) / (4 * s) by exact: Rmin_r.
    move=> h; apply: Rle_trans (_ : (L - f c) / (4 * s) * s <= _).
      by apply: Rmult_le_compat_r; lra.
    by apply: Req_le; field; lra.
  exists (c - k); split; first lra.
    by rewrite (_ : c - k - c = - k) ?Rabs_Ropp ?Rabs_right; lra.
  rewrite (left (c - k)); last lra.
  nra.
split; last first.
  by have [x [x1 _ x3]] := near 1 Rlt_0_1; exists x => //; lra.
move=> cont; have g0 : (L - f c) / 2 > 0 by lra.
have [al [al0 h]] := cont _ g0.
have [x [x1 x2 x3]] := near al al0.
have : Rabs (f x - f c) < (L - f c) / 2.
  apply: (h x); split => //; split => //; lra.
by rewrite Rabs_right; lra.
Qed.

Lemma Rpower_2 x : 0 < x -> Rpower x 2 = x * x.
Proof.
move=> x0; rewrite (_ : 2 = INR 2); last by rewrite /=; lra.
by rewrite Rpower_pow //=; ring.
Qed.

Lemma yj_rect_lambda2_lem c : 0 < c < 1 ->
  exists f, [/\ forall x, yj_rect1 2 F64 (XF c) (XF x) = XF (f x),
    ~ continuity_pt f c & exists2 x, x < c & f c < f x].
Proof.
move=> [c0 c1].
pose f x := if Rltb x c then - ln (1 - c) + (x - c) * / (1 - c)
            else ((1 + x) * (1 + x) - 1) / 2.
exists f.
have ef x : yj_rect1 2 F64 (XF c) (XF x) = XF (f x).
  rewrite /yj_rect1 Rltb_t; last lra.
  rewrite Reqb_t /f /xltb; case: (RltbP x c) => hx.
    rewrite /xsub /xadd /xopp -/(1 - c) xlog_pos; last lra.
    by rewrite xdiv_fin //; lra.
  rewrite (_ : Rltb x 0 = false) ?andbF; last by apply: Rltb_f; lra.
  rewrite /xleb Rleb_t; last lra.
  rewrite /xadd xpow_pos; last lra.
  by rewrite Rpower_2 /xsub /=; [rewrite Reqb_f //; lra | lra].
have [h1 h2] : ~ continuity_pt f c /\ exists2 x, x < c & f c < f x; last by [].
apply: (@not_cont f c (- ln (1 - c)) (/ (1 - c))).
- rewrite /f Rltb_f; last lra.
  by have := @log_gap c; lra.
- by move=> x hx; rewrite /f Rltb_t.
- by apply: Rinv_0_lt_compat; lra.
Qed.

(* -------- data on which the rectified transform reverses an order -------- *)
Lemma Rpower_half x : 0 < x -> Rpower (x * x) (1 / 2) = x.
Proof.
move=> x0; rewrite (_ : 1 / 2 = / 2); last lra.
rewrite Rpower_sqrt; last by nra.
by apply: sqrt_square; lra.
Qed.

Lemma yj_reversal_lem : exists y0 y1 y2 y3,
  yeojohnson_rectified F64 [:: XF (10/23); XF (13/23); XF (14/23); XF 1] 2
    = Ok [:: XF y0; XF y1; XF y2; XF y3] /\ y2 < y1.
Proof.
have b1 : yj1 2 (XF (10/23)) = XF (280/529).
  rewrite yj1_fin /yjR Rleb_t /bcR; last lra.
  rewrite Reqb_f; last lra.
  by rewrite Rpower_2; [congr XF; field | lra].
have b2 : inv_yj1 2 (XF (280/529 * factor)) = XF (14/23).
  rewrite inv_yj1_fin /iyjR /yj_dom /factor Rleb_t; try lra; last by right; lra.
  rewrite /ibcR Reqb_f; last lra.
  rewrite (_ : 280 / 529 * (15 / 10) * 2 + 1 = (37/23) * (37/23)); last lra.
  by rewrite Rpower_half; [congr XF | ]; lra.
have cp : yj_changepoint F64 [:: XF (10/23); XF (13/23); XF (14/23); XF 1] 2 = Ok (F64, XF (14/23)).
  rewrite /yj_changepoint /=.
  rewrite Rltb_f; last lra.
  rewrite Rltb_t; last lra.
  rewrite b1 /=.
  rewrite !Rltb_f; try lra.
  rewrite b2 /= Rltb_f; last lra.
  by rewrite /= Rltb_f //; lra.
rewrite /yeojohnson_rectified Reqb_f; last lra.
rewrite cp.
have c01 : 0 < 14/23 < 1 by lra.
have [f [ef _ _]] := yj_rect_lambda2_lem c01.
rewrite /= !ef.
exists (f (10/23)), (f (13/23)), (f (14/23)), (f 1); split => //.
have e1 : XF (f (13/23)) = XF (- ln (1 - 14/23) + (13/23 - 14/23) * / (1 - 14/23)).
  rewrite -ef /yj_rect1 Rltb_t; last lra.
  rewrite Reqb_t /xltb Rltb_t; last lra.
  rewrite /xsub /xadd /xopp -/(1 - 14/23) xlog_pos; last lra.
  by rewrite xdiv_fin //; lra.
have e2 : XF (f (14/23)) = XF (420/529).
  rewrite -ef /yj_rect1 Rltb_t; last lra.
  rewrite Reqb_t /xltb !Rltb_f ?andbF; try lra.
  rewrite /xleb Rleb_t; last lra.
  rewrite /xadd xpow_pos; last lra.
  by rewrite Rpower_2 /xsub /=; [rewrite Reqb_f; [congr XF; field | lra] | lra].
case: e1 => ->; case: e2 => ->.
have l : 32/35 < - ln (9/23).
  have h : 34/35 < exp (- (1/35)) by have := @exp_ineq1 (- (1/35)); lra.
  have h2 : 9/23 < exp (- (32/35)).
    rewrite (_ : - (32/35) = - (1/35) * INR 32); last by rewrite /=; lra.
    have e : exp (- (1 / 35) * INR 32) = (exp (- (1/35))) ^ 32.
      rewrite -Rpower_pow; last exact: exp_pos.
      by rewrite /Rpower ln_exp Rmult_comm.
    rewrite e; apply: Rlt_le_trans (_ : (34/35)^32 <= _); last by apply: pow_incr; lra.
    by rewrite /=; lra.
  have := @ln_increasing (9/23) (exp (- (32/35))); rewrite ln_exp; lra.
rewrite (_ : 1 - 14/23 = 9/23); last lra.
have -> : / (9/23) = 23/9 by field.
by lra.
Qed.

(* -------- data standardised by their median have the expected signs -------- *)
Lemma np_sort_sorted xs : sorted Rleb xs -> np_sort (map XF xs) = map XF xs.
Proof.
move=> st; rewrite /np_sort sorted_sort //.
- move=> y x z; case: x => [a|||]; case: y => [b|||]; case: z => [c|||] //=.
  by move=> /RlebP h1 /RlebP h2; apply/RlebP; lra.
- by rewrite sorted_map; move: st; apply: sub_sorted => x y.
Qed.

Lemma median_quartiles xs : xs <> [::] -> sorted Rleb xs -> np_median (map XF xs) = XF 0 ->
  nth 0 xs (q1_idx (size xs)) <= 0 <= nth 0 xs (q3_idx (size xs)).
Proof.
move=> x0 st; have n0 : (0 < size xs)%N by case: (xs) x0.
have nn : has xisnan (map XF xs) = false by elim: (xs).
rewrite /np_median nn size_map np_sort_sorted // (_ : size xs == 0%N = false); last by apply/eqP; lia.
rewrite /=; case: ifP => od.
  rewrite (nth_map 0); last by lia.
  case=> e.
  have h1 : nth 0 xs (q1_idx (size xs)) <= nth 0 xs (size xs)./2.
    by apply: sorted_nth => //; rewrite /q1_idx; lia.
  have h2 : nth 0 xs (size xs)./2 <= nth 0 xs (q3_idx (size xs)).
    by apply: sorted_nth => //; rewrite /q3_idx; lia.
  lra.
rewrite (nth_map 0); last by lia.
rewrite (nth_map 0); last by lia.
rewrite /= Reqb_f; last lra.
case=> e.
have m : nth 0 xs (size xs)./2.-1 <= nth 0 xs (size xs)./2 by apply: sorted_nth => //; lia.
have h1 : nth 0 xs (q1_idx (size xs)) <= nth 0 xs (size xs)./2.-1.
  by apply: sorted_nth => //; rewrite /q1_idx; lia.
have h2 : nth 0 xs (size xs)./2 <= nth 0 xs (q3_idx (size xs)).
  by apply: sorted_nth => //; rewrite /q3_idx; lia.
lra.
Qed.
