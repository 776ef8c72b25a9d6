(* Proofs about the power transformations (Transfo_Model.v). *)
From Coq Require Import Reals Lra.
From mathcomp Require Import all_ssreflect.
From Verif Require Import Prelude XR Transfo_Model Transfo_Spec.

Set Implicit Arguments.
Unset Strict Implicit.
Unset Printing Implicit Defensive.

Local Open Scope R_scope.

(* -------- booleans -------- *)
Lemma Rltb_t x y : x < y -> Rltb x y = true. Proof. by move/RltbP. Qed.
Lemma Rltb_f x y : y <= x -> Rltb x y = false.
Proof. by move=> h; apply/RltbP; lra. Qed.
Lemma Rleb_t x y : x <= y -> Rleb x y = true. Proof. by move/RlebP. Qed.
Lemma Rleb_f x y : y < x -> Rleb x y = false.
Proof. by move=> h; apply/RlebP; lra. Qed.
Lemma Reqb_t x : Reqb x x = true. Proof. exact/ReqbP. Qed.
Lemma Reqb_f x y : x <> y -> Reqb x y = false. Proof. by move/ReqbP/negbTE. Qed.

(* -------- real functions -------- *)
Definition bcR (lam x : R) : R :=
  if Reqb lam 0 then ln x else (Rpower x lam - 1) / lam.
Definition ibcR (lam y : R) : R :=
  if Reqb lam 0 then exp y else Rpower (y * lam + 1) (1 / lam).
Definition yjR (lam x : R) : R :=
  if Rleb 0 x then bcR lam (1 + x) else - bcR (2 - lam) (1 - x).
Definition iyjR (lam y : R) : R :=
  if Rleb 0 y then ibcR lam y - 1 else 1 - ibcR (2 - lam) (- y).

(* the values bcR takes: where ibcR is its inverse *)
Definition bc_dom (lam y : R) : Prop := lam = 0 \/ 0 < y * lam + 1.
Definition yj_dom (lam y : R) : Prop :=
  if Rleb 0 y then bc_dom lam y else bc_dom (2 - lam) (- y).

Lemma Rpower_gt0 x y : 0 < Rpower x y. Proof. exact: exp_pos. Qed.

Lemma bcR_dom lam x : bc_dom lam (bcR lam x).
Proof.
rewrite /bc_dom /bcR; case: ReqbP => h; [by left | right].
have := Rpower_gt0 x lam.
by have -> : (Rpower x lam - 1) / lam * lam + 1 = Rpower x lam by field.
Qed.

Lemma bcRK lam x : 0 < x -> ibcR lam (bcR lam x) = x.
Proof.
move=> x0; rewrite /ibcR /bcR; case: ReqbP => h; first exact: exp_ln.
have -> : (Rpower x lam - 1) / lam * lam + 1 = Rpower x lam by field.
by rewrite Rpower_mult (_ : lam * (1 / lam) = 1) ?Rpower_1 //; field.
Qed.

Lemma ibcR_gt0 lam y : 0 < ibcR lam y.
Proof. by rewrite /ibcR; case: ReqbP => h; exact: exp_pos. Qed.

Lemma ibcRK lam y : bc_dom lam y -> bcR lam (ibcR lam y) = y.
Proof.
rewrite /bc_dom /ibcR /bcR; case: ReqbP => h; first by rewrite ln_exp.
case=> // y0; rewrite Rpower_mult (_ : 1 / lam * lam = 1) ?Rpower_1 //; by field.
Qed.

Lemma bcR1 lam : bcR lam 1 = 0.
Proof.
rewrite /bcR; case: ReqbP => h; first exact: ln_1.
by rewrite /Rpower ln_1 Rmult_0_r exp_0; field.
Qed.

Lemma Rpower_incr x y lam : 0 < lam -> 0 < x -> x < y -> Rpower x lam < Rpower y lam.
Proof. by move=> l0 x0 xy; apply: exp_increasing; apply: Rmult_lt_compat_l => //; exact: ln_increasing. Qed.

Lemma Rpower_decr x y lam : lam < 0 -> 0 < x -> x < y -> Rpower y lam < Rpower x lam.
Proof.
move=> l0 x0 xy; apply: exp_increasing.
have := ln_increasing _ _ x0 xy; move=> h; nra.
Qed.

Lemma bcR_incr lam x y : 0 < x -> x < y -> bcR lam x < bcR lam y.
Proof.
move=> x0 xy; rewrite /bcR; case: ReqbP => h; first exact: ln_increasing.
case: (Rtotal_order lam 0) => [l0|[//|l0]].
- have p := Rpower_decr l0 x0 xy.
  have il : / lam < 0 by exact: Rinv_lt_0_compat.
  by rewrite /Rdiv; nra.
- have p := Rpower_incr l0 x0 xy.
  have il : 0 < / lam by exact: Rinv_0_lt_compat.
  by rewrite /Rdiv; nra.
Qed.

Lemma bcR_le lam x y : 0 < x -> x <= y -> bcR lam x <= bcR lam y.
Proof. by move=> x0 [xy|->]; [apply: Rlt_le; exact: bcR_incr | lra]. Qed.

Lemma bcR_ge0 lam x : 1 <= x -> 0 <= bcR lam x.
Proof. by move=> x1; rewrite -(bcR1 lam); apply: bcR_le; lra. Qed.
Lemma bcR_gt0 lam x : 1 < x -> 0 < bcR lam x.
Proof. by move=> x1; rewrite -(bcR1 lam); apply: bcR_incr; lra. Qed.

Lemma yjR_neg lam x : x < 0 -> yjR lam x < 0.
Proof.
move=> x0; rewrite /yjR Rleb_f //.
have := @bcR_gt0 (2 - lam) (1 - x); lra.
Qed.
Lemma yjR_nonneg lam x : 0 <= x -> 0 <= yjR lam x.
Proof. by move=> x0; rewrite /yjR Rleb_t //; apply: bcR_ge0; lra. Qed.

Lemma yjR_dom lam x : yj_dom lam (yjR lam x).
Proof.
rewrite /yj_dom; case: (Rle_lt_dec 0 x) => h.
- rewrite Rleb_t; last exact: yjR_nonneg.
  by rewrite /yjR Rleb_t //; exact: bcR_dom.
- rewrite Rleb_f; last exact: yjR_neg.
  by rewrite /yjR Rleb_f // Ropp_involutive; exact: bcR_dom.
Qed.

Lemma yjRK lam x : iyjR lam (yjR lam x) = x.
Proof.
rewrite /iyjR; case: (Rle_lt_dec 0 x) => h.
- rewrite Rleb_t; last exact: yjR_nonneg.
  by rewrite /yjR Rleb_t // bcRK; lra.
- rewrite Rleb_f; last exact: yjR_neg.
  by rewrite /yjR Rleb_f // Ropp_involutive bcRK; lra.
Qed.

Lemma yjR_incr lam x y : x < y -> yjR lam x < yjR lam y.
Proof.
move=> xy; case: (Rle_lt_dec 0 x) => hx.
- by rewrite /yjR !Rleb_t; try lra; apply: bcR_incr; lra.
case: (Rle_lt_dec 0 y) => hy.
- have := yjR_neg lam hx; have := yjR_nonneg lam hy; lra.
rewrite /yjR !Rleb_f //.
have := @bcR_incr (2 - lam) (1 - y) (1 - x); lra.
Qed.

(* -------- model on finite numbers -------- *)
Lemma xpow_pos x y : 0 < x -> xpow (XF x) y = XF (Rpower x y).
Proof. by move=> x0; rewrite /xpow Rltb_t. Qed.
Lemma xlog_pos x : 0 < x -> xlog (XF x) = XF (ln x).
Proof. by move=> x0; rewrite /xlog Rltb_t. Qed.
Lemma xdiv_fin x y : y <> 0 -> xdiv (XF x) (XF y) = XF (x / y).
Proof. by move=> y0; rewrite /xdiv Reqb_f. Qed.

Lemma bc1_fin lam x : 0 < x -> bc1 lam (XF x) = XF (bcR lam x).
Proof.
move=> x0; rewrite /bc1 /bcR; case: ReqbP => h; first by rewrite xlog_pos.
by rewrite xpow_pos // /xsub /= Reqb_f.
Qed.

Lemma inv_bc1_fin lam y : bc_dom lam y -> inv_bc1 lam (XF y) = XF (ibcR lam y).
Proof.
rewrite /bc_dom /inv_bc1 /ibcR; case: ReqbP => [//|h] [//|y0].
by rewrite /xadd /xmul xpow_pos.
Qed.

Lemma yj1_fin lam x : yj1 lam (XF x) = XF (yjR lam x).
Proof.
rewrite /yj1 /yjR /bcR /xleb; case: RlebP => hx.
- rewrite /xadd; case: ReqbP => hl; first by rewrite xlog_pos //; lra.
  by rewrite xpow_pos /xsub /= ?Reqb_f //; lra.
- have e : (2 - lam = 0) <-> (lam = 2) by lra.
  case: ReqbP => hl.
    rewrite (_ : Reqb (2 - lam) 0 = true); last by apply/ReqbP; lra.
    by rewrite /xsub /= -/(1 - x) Rltb_t //; lra.
  rewrite (_ : Reqb (2 - lam) 0 = false); last by apply/ReqbP; lra.
  rewrite /xsub /xadd /xopp -/(1 - x) xpow_pos; last lra.
  rewrite xdiv_fin; last lra.
  by congr XF; field; lra.
Qed.

Lemma inv_yj1_fin lam y : yj_dom lam y -> inv_yj1 lam (XF y) = XF (iyjR lam y).
Proof.
rewrite /yj_dom /inv_yj1 /iyjR /xleb /ibcR /bc_dom; case: RlebP => hy.
- case: ReqbP => hl // [//|d].
  rewrite /xmul /xadd xpow_pos ?(Rmult_comm lam) //.
- case: ReqbP => hl.
    by rewrite (_ : Reqb (2 - lam) 0 = true) //; apply/ReqbP; lra.
  rewrite (_ : Reqb (2 - lam) 0 = false); last by apply/ReqbP; lra.
  case=> [|d]; first lra.
  rewrite /xmul /xadd xpow_pos; last lra.
  by congr (XF (1 - Rpower _ _)); lra.
Qed.

Lemma bc1_nan lam : bc1 lam XNaN = XNaN.
Proof. by rewrite /bc1; case: ReqbP => // h; rewrite /xpow Reqb_f. Qed.
Lemma inv_bc1_nan lam : inv_bc1 lam XNaN = XNaN.
Proof.
rewrite /inv_bc1; case: ReqbP => // h; rewrite /xmul /xadd /xpow Reqb_f //.
by rewrite /Rdiv Rmult_1_l; exact: Rinv_neq_0_compat.
Qed.
Lemma yj1_nan lam : yj1 lam XNaN = XNaN.
Proof. by rewrite /yj1 /=; case: ReqbP => // h; rewrite Reqb_f //; lra. Qed.
Lemma inv_yj1_nan lam : inv_yj1 lam XNaN = XNaN.
Proof.
rewrite /inv_yj1 /=; case: ReqbP => // h; rewrite Reqb_f //.
rewrite /Rdiv Rmult_1_l; apply: Rinv_neq_0_compat; lra.
Qed.

(* -------- minima and maxima -------- *)
Lemma xltb_min2 u v c : ~~ xisnan u -> ~~ xisnan v ->
  xltb (xmin2 u v) c = xltb u c || xltb v c.
Proof.
case: u => [a|||]; case: v => [b|||]; case: c => [e|||] //= _ _; rewrite ?orbT ?orbF //=.
all: try by case: (RltbP b a).
by case: (RltbP b a) => h /=; case: (RltbP a e) => h1; case: (RltbP b e) => h2 //=; lra.
Qed.

Lemma xleb_min2 u v c : ~~ xisnan u -> ~~ xisnan v ->
  xleb (xmin2 u v) c = xleb u c || xleb v c.
Proof.
case: u => [a|||]; case: v => [b|||]; case: c => [e|||] //= _ _; rewrite ?orbT ?orbF //=.
all: try by case: (RltbP b a).
by case: (RltbP b a) => h /=; case: (RlebP a e) => h1; case: (RlebP b e) => h2 //=; lra.
Qed.

Lemma xltb_max2 u v c : ~~ xisnan u -> ~~ xisnan v ->
  xltb c (xmax2 u v) = xltb c u || xltb c v.
Proof.
case: u => [a|||]; case: v => [b|||]; case: c => [e|||] //= _ _; rewrite ?orbT ?orbF //=.
all: try by case: (RltbP a b).
by case: (RltbP a b) => h /=; case: (RltbP e a) => h1; case: (RltbP e b) => h2 //=; lra.
Qed.

Lemma xmin2_nan u v : xisnan (xmin2 u v) = xisnan u || xisnan v.
Proof. by case: u => [a|||]; case: v => [b|||] //=; case: RltbP. Qed.
Lemma xmax2_nan u v : xisnan (xmax2 u v) = xisnan u || xisnan v.
Proof. by case: u => [a|||]; case: v => [b|||] //=; case: RltbP. Qed.

Lemma foldl_min_nan s a : xisnan (foldl xmin2 a s) = xisnan a || has xisnan s.
Proof.
elim: s a => [|b s IH] a /=; first by rewrite orbF.
by rewrite IH xmin2_nan orbA.
Qed.
Lemma foldl_max_nan s a : xisnan (foldl xmax2 a s) = xisnan a || has xisnan s.
Proof.
elim: s a => [|b s IH] a /=; first by rewrite orbF.
by rewrite IH xmax2_nan orbA.
Qed.

Lemma foldl_min_ltb s a c : ~~ xisnan a -> ~~ has xisnan s ->
  xltb (foldl xmin2 a s) c = xltb a c || has (fun u => xltb u c) s.
Proof.
elim: s a => [|b s IH] a /=; first by rewrite orbF.
rewrite negb_or => na /andP [nb ns].
by rewrite IH ?xmin2_nan ?negb_or ?na // xltb_min2 // orbA.
Qed.
Lemma foldl_min_leb s a c : ~~ xisnan a -> ~~ has xisnan s ->
  xleb (foldl xmin2 a s) c = xleb a c || has (fun u => xleb u c) s.
Proof.
elim: s a => [|b s IH] a /=; first by rewrite orbF.
rewrite negb_or => na /andP [nb ns].
by rewrite IH ?xmin2_nan ?negb_or ?na // xleb_min2 // orbA.
Qed.
Lemma foldl_max_ltb s a c : ~~ xisnan a -> ~~ has xisnan s ->
  xltb c (foldl xmax2 a s) = xltb c a || has (fun u => xltb c u) s.
Proof.
elim: s a => [|b s IH] a /=; first by rewrite orbF.
rewrite negb_or => na /andP [nb ns].
by rewrite IH ?xmax2_nan ?negb_or ?na // xltb_max2 // orbA.
Qed.

Lemma isnanE u : xisnan u -> u = XNaN. Proof. by case: u. Qed.

(* what the positivity check does *)
Lemma check_positiveE x : check_positive x =
  if x is [::] then Err ValueError
  else if has xisnan x then Ok tt
  else if has (fun u => xleb u (XF 0)) x then Err ValueError else Ok tt.
Proof.
case: x => [//|a s]; rewrite /check_positive /np_min /bind.
have [h|] := boolP (has xisnan (a :: s)).
  by rewrite (@isnanE (foldl xmin2 a s)) // foldl_min_nan.
rewrite /= negb_or => /andP [na ns].
by rewrite foldl_min_leb.
Qed.


Lemma has_all_false (A : Type) (p q : A -> bool) s :
  (forall u, p u -> q u = false) -> all p s -> has q s = false.
Proof.
move=> pq; elim: s => //= a s IH /andP [pa ps].
by rewrite pq // IH.
Qed.

Lemma check_positive_ok x : x <> [::] -> all posnan x -> check_positive x = Ok tt.
Proof.
rewrite check_positiveE; case: x => // a s _ h.
case: ifP => // _; rewrite (has_all_false _ h) // => u.
by case: u => //= r /RltbP hr; apply: Rleb_f.
Qed.

(* the bounds never touch values inside the range *)
Definition in_range (m : meth) (lam : R) (u : xr) : bool :=
  match u with
  | XNaN => true
  | XF y =>
    (if (calculate_bounds m lam).1 is Some lb then Rleb lb y else true) &&
    (if (calculate_bounds m lam).2 is Some ub then Rleb y ub else true)
  | _ => false
  end.

Lemma map_id_all (A : Type) (p : A -> bool) (f : A -> A) s :
  (forall u, p u -> f u = u) -> all p s -> map f s = s.
Proof. by move=> pf; elim: s => //= a s IH /andP [pa ps]; rewrite pf // IH. Qed.

Lemma handle_bounds_id m lam x : x <> [::] -> all (in_range m lam) x ->
  handle_bounds m lam x = Ok x.
Proof.
case: x => // a s _ h; rewrite /handle_bounds.
have e1 lb : (calculate_bounds m lam).1 = Some lb ->
   [seq if xltb u (XF lb) then XF (95 / 100 * lb) else u | u <- a :: s] = a :: s.
  move=> E; apply: (map_id_all _ h) => u; rewrite /in_range E.
  by case: u => //= r /andP [/RlebP hr _]; rewrite Rltb_f.
have e2 ub : (calculate_bounds m lam).2 = Some ub ->
   [seq if xltb (XF ub) u then XF (95 / 100 * ub) else u | u <- a :: s] = a :: s.
  move=> E; apply: (map_id_all _ h) => u; rewrite /in_range E.
  by case: u => //= r /andP [_ /RlebP hr]; rewrite Rltb_f.
case E1: (calculate_bounds m lam).1 => [lb|]; rewrite /np_min /bind.
  rewrite (e1 _ E1).
  have -> : (if xltb (foldl xmin2 a s) (XF lb) then Ok (a :: s) else Ok (a :: s)) = Ok (a :: s)
    by case: ifP.
  case E2: (calculate_bounds m lam).2 => [ub|] //; rewrite /np_max (e2 _ E2).
  by case: ifP.
case E2: (calculate_bounds m lam).2 => [ub|] //; rewrite /np_max (e2 _ E2).
by case: ifP.
Qed.

Lemma in_range_bc lam x : 0 < x -> in_range Boxcox lam (XF (bcR lam x)).
Proof.
move=> x0; rewrite /in_range /=; have [->|d] := bcR_dom lam x.
  by rewrite /calculate_bounds !Rltb_f //; lra.
case: (RltbP 0 lam) => l0 /=.
  rewrite andbT; apply/RlebP; rewrite Rabs_right; last lra.
  have il : 0 < / lam by exact: Rinv_0_lt_compat.
  have e : lam * / lam = 1 by field; lra.
  by rewrite /Rdiv; nra.
case: (RltbP lam 0) => l1 //=.
apply/RlebP; rewrite Rabs_left //.
have il : / lam < 0 by exact: Rinv_lt_0_compat.
have e : lam * / lam = 1 by field; lra.
have -> : 1 / - lam = - / lam by field; lra.
by nra.
Qed.

Lemma in_range_yj lam x : in_range Yeojohnson lam (XF (yjR lam x)).
Proof.
rewrite /in_range /=; case: (RltbP 2 lam) => l0 /=.
  rewrite andbT; apply/RlebP.
  have -> : Rabs (lam - 2) = lam - 2 by apply: Rabs_right; lra.
  have il : 0 < / (lam - 2) by apply: Rinv_0_lt_compat; lra.
  case: (Rle_lt_dec 0 x) => h.
    by have := yjR_nonneg lam h; rewrite /Rdiv; lra.
  rewrite /yjR Rleb_f //.
  have [|d] := bcR_dom (2 - lam) (1 - x); first lra.
  have e : (lam - 2) * / (lam - 2) = 1 by field; lra.
  by rewrite /Rdiv; nra.
case: (RltbP lam 0) => l1 //=.
apply/RlebP; rewrite Rabs_left //.
have il : / lam < 0 by exact: Rinv_lt_0_compat.
have e : lam * / lam = 1 by field; lra.
have -> : 1 / - lam = - / lam by field; lra.
case: (Rle_lt_dec 0 x) => h; last by have := yjR_neg lam h; lra.
rewrite /yjR Rleb_t //.
have [|d] := bcR_dom lam (1 + x); first lra.
by nra.
Qed.



Lemma all_map_imp (A B : Type) (p : A -> bool) (q : B -> bool) (f : A -> B) s :
  (forall u, p u -> q (f u)) -> all p s -> all q (map f s).
Proof. by move=> pq; elim: s => //= a s IH /andP [pa ps]; rewrite pq // IH. Qed.

Lemma map_nil (A B : Type) (f : A -> B) s : s <> [::] -> map f s <> [::].
Proof. by case: s. Qed.

Lemma posnan_div s x : 0 < s -> all posnan x -> all posnan (arr_div x (XF s)).
Proof.
move=> s0; apply: all_map_imp => -[r|||] //= /RltbP r0.
rewrite Reqb_f /=; last lra.
by rewrite Rltb_t //; apply: Rmult_lt_0_compat => //; exact: Rinv_0_lt_compat.
Qed.

Lemma transf_boxcox_ok x lam : x <> [::] -> all posnan x ->
  transf_boxcox x lam = Ok [seq bc1 lam u | u <- x].
Proof. by move=> x0 xp; rewrite /transf_boxcox check_positive_ok. Qed.

Lemma bc_in_range lam x : all posnan x -> all (in_range Boxcox lam) [seq bc1 lam u | u <- x].
Proof.
apply: all_map_imp => -[r|||] //.
- by move=> /RltbP r0; rewrite bc1_fin //; exact: in_range_bc.
- by rewrite bc1_nan.
Qed.

Lemma yj_in_range lam x : all finnan x ->
  all (in_range Yeojohnson lam) [seq yj1 lam u | u <- x].
Proof.
apply: all_map_imp => -[r|||] //.
- by rewrite yj1_fin => _; exact: in_range_yj.
- by rewrite yj1_nan.
Qed.

Lemma unstd_std l s x : s <> 0 -> all finnan x ->
  arr_unstd (arr_std x (XF l) (XF s)) (XF l) (XF s) = x.
Proof.
move=> s0 h; rewrite /arr_unstd /arr_std -map_comp; apply: (map_id_all _ h) => -[r|||] //= _.
by rewrite Reqb_f //=; congr XF; field.
Qed.

Lemma mul_div s x : s <> 0 -> all finnan x -> arr_mul (arr_div x (XF s)) (XF s) = x.
Proof.
move=> s0 h; rewrite /arr_mul /arr_div -map_comp; apply: (map_id_all _ h) => -[r|||] //= _.
by rewrite Reqb_f //=; congr XF; field.
Qed.

Lemma posnan_fin x : all posnan x -> all finnan x.
Proof. by apply: sub_all => -[]. Qed.

Lemma in_range_fin m lam x : all (in_range m lam) x -> all finnan x.
Proof. by apply: sub_all => -[]. Qed.

Lemma inv_bc_bc lam x : all posnan x ->
  [seq inv_bc1 lam u | u <- [seq bc1 lam u | u <- x]] = x.
Proof.
move=> h; rewrite -map_comp; apply: (map_id_all _ h) => -[r|||] //=.
- move=> /RltbP r0; rewrite bc1_fin // inv_bc1_fin; last exact: bcR_dom.
  by rewrite bcRK.
- by rewrite bc1_nan inv_bc1_nan.
Qed.

Lemma inv_yj_yj lam x : all finnan x ->
  inv_transf_yeojohnson F64 [seq yj1 lam u | u <- x] lam = x.
Proof.
move=> h; rewrite /inv_transf_yeojohnson -map_comp; apply: (map_id_all _ h) => -[r|||] //=.
- by move=> _; rewrite yj1_fin inv_yj1_fin ?yjRK //; exact: yjR_dom.
- by rewrite yj1_nan inv_yj1_nan.
Qed.

Lemma boxcox_round_trip_lem t lam d x : fitted_bc t lam -> x <> [::] -> all posnan x ->
  (do y <- transform t d x; inverse_transform t F64 y) = Ok x.
Proof.
case: t => m std r q ns sp lp lo so la; rewrite /fitted_bc /= => -[-> [-> hs]] x0 xp.
rewrite /transform /= check_positive_ok //=.
case: std hs => [hs|_].
  have [s [l [sq [-> -> -> s0 sq0]]]] := hs isT.
  rewrite /=; have xp1 := posnan_div s0 xp.
  have x1 : arr_div x (XF s) <> [::] by exact: map_nil.
  rewrite transf_boxcox_ok //=.
  have hr := @bc_in_range lam _ xp1.
  rewrite /inverse_transform /= unstd_std //; last exact: in_range_fin hr.
  rewrite handle_bounds_id //=; last exact: map_nil.
  by rewrite inv_bc_bc // mul_div ?posnan_fin //; lra.
rewrite /= transf_boxcox_ok //= /inverse_transform /=.
have hr := @bc_in_range lam _ xp.
rewrite handle_bounds_id //=; last exact: map_nil.
by rewrite inv_bc_bc.
Qed.

Lemma finnan_std l s x : s <> 0 -> all finnan x -> all finnan (arr_std x (XF l) (XF s)).
Proof. by move=> s0; apply: all_map_imp => -[r|||] //= _; rewrite Reqb_f. Qed.

Lemma below_none lam m x (b := calculate_bounds m lam) : all (in_range m lam) x ->
  ((if b.1 is Some lb then has (fun u => xltb u (XF lb)) x else false) ||
   (if b.2 is Some ub then has (fun u => xltb (XF ub) u) x else false)) = false.
Proof.
move=> h; apply/orP => -[]; rewrite /b.
- case E: (calculate_bounds m lam).1 => [lb|] //.
  rewrite (has_all_false _ h) // => -[r|||] //=; rewrite E => /andP [/RlebP hr _].
  exact: Rltb_f.
- case E: (calculate_bounds m lam).2 => [ub|] //.
  rewrite (has_all_false _ h) // => -[r|||] //=; rewrite E => /andP [_ /RlebP hr].
  exact: Rltb_f.
Qed.

Lemma yeojohnson_round_trip_lem t lam x : fitted_yj t lam -> x <> [::] -> all finnan x ->
  (do y <- transform t F64 x; inverse_transform t F64 y) = Ok x.
Proof.
case: t => m std r q ns sp lp lo so la; rewrite /fitted_yj /= => -[-> [-> hs]] x0 xf.
rewrite /transform /=.
have store_id s : [seq store F64 u | u <- s] = s by exact: map_id.
case: std hs => [hs|_].
  have [mm [s [l [sq [-> -> -> -> [s0 sq0]]]]]] := hs isT.
  rewrite /=; have xf1 := @finnan_std mm s x s0 xf.
  have x1 : arr_std x (XF mm) (XF s) <> [::] by exact: map_nil.
  have hr := @yj_in_range lam _ xf1.
  rewrite /inverse_transform /= unstd_std //; last exact: in_range_fin hr.
  rewrite handle_bounds_id //=; last exact: map_nil.
  rewrite (below_none hr) inv_yj_yj //=.
  by rewrite unstd_std.
rewrite /= /inverse_transform /=.
have hr := @yj_in_range lam _ xf.
rewrite handle_bounds_id //=; last exact: map_nil.
by rewrite (below_none hr) inv_yj_yj.
Qed.


Lemma map_XF_neq0 (xs : seq R) : xs <> [::] -> map XF xs <> [::].
Proof. by case: xs. Qed.

Lemma posnan_XF xs : all (Rltb 0) xs -> all posnan (map XF xs).
Proof. by apply: all_map_imp. Qed.

Lemma eq_map_all (A B : Type) (p : A -> bool) (f g : A -> B) s :
  (forall u, p u -> f u = g u) -> all p s -> map f s = map g s.
Proof. by move=> fg; elim: s => //= a s IH /andP [pa ps]; rewrite fg // IH. Qed.



Definition bc_pre (t : transformer) (x : R) : R :=
  if tr_standardize t then x / real_of (tr_scale_pre t) else x.
Definition yj_pre (t : transformer) (x : R) : R :=
  if tr_standardize t then (x - real_of (tr_location_pre t)) / real_of (tr_scale_pre t) else x.

Lemma bc_transformE t lam d xs : fitted_bc t lam -> xs <> [::] -> all (Rltb 0) xs ->
  transform t d (map XF xs) = Ok (map XF [seq post_std t (bcR lam (bc_pre t x)) | x <- xs]).
Proof.
case: t => m std r q ns sp lp lo so la; rewrite /fitted_bc /= => -[-> [-> hs]] x0 xp.
rewrite /transform /= check_positive_ok //=; last 2 first.
- exact: map_XF_neq0.
- exact: posnan_XF.
case: std hs => [hs|_].
  have [s [l [sq [-> -> -> s0 sq0]]]] := hs isT.
  rewrite /= transf_boxcox_ok //=; last 2 first.
  - by apply: map_nil; exact: map_XF_neq0.
  - by apply: posnan_div => //; exact: posnan_XF.
  congr Ok; rewrite /arr_std /arr_div -!map_comp; apply: (eq_map_all _ xp) => x /RltbP hx /=.
  rewrite Reqb_f; last lra.
  have xs0 : 0 < x / s by apply: Rmult_lt_0_compat => //; exact: Rinv_0_lt_compat.
  by rewrite bc1_fin //= Reqb_f.
rewrite /= transf_boxcox_ok //=; last 2 first.
- exact: map_XF_neq0.
- exact: posnan_XF.
congr Ok; rewrite -!map_comp; apply: (eq_map_all _ xp) => x /RltbP hx /=.
by rewrite bc1_fin.
Qed.

Lemma yj_transformE t lam xs : fitted_yj t lam ->
  transform t F64 (map XF xs) = Ok (map XF [seq post_std t (yjR lam (yj_pre t x)) | x <- xs]).
Proof.
case: t => m std r q ns sp lp lo so la; rewrite /fitted_yj /= => -[-> [-> hs]].
case: std hs => [hs|_].
  have [mm [s [l [sq [-> -> -> -> [s0 sq0]]]]]] := hs isT.
  rewrite /transform /=.
  congr Ok; rewrite /arr_std /transf_yeojohnson -!map_comp; apply: eq_map => x /=.
  by rewrite Reqb_f //= yj1_fin /= Reqb_f.
rewrite /transform /=.
congr Ok; rewrite /transf_yeojohnson -!map_comp; apply: eq_map => x /=.
by rewrite yj1_fin.
Qed.

Lemma post_std_incr t y z : pos_scales t -> y < z -> post_std t y < post_std t z.
Proof.
rewrite /pos_scales /post_std; case: (tr_standardize t) => // ps yz.
have [s [sp [e1 s0 e2 sp0]]] := ps isT; rewrite e2 /=.
by apply: Rmult_lt_compat_r; [exact: Rinv_0_lt_compat | lra].
Qed.

Lemma bc_pre_incr t x y : pos_scales t -> 0 < x -> x < y -> 0 < bc_pre t x < bc_pre t y.
Proof.
rewrite /pos_scales /bc_pre; case: (tr_standardize t) => // ps x0 xy.
have [s [sp [e1 s0 e2 sp0]]] := ps isT; rewrite e1 /=.
have i0 : 0 < / s by exact: Rinv_0_lt_compat.
by rewrite /Rdiv; split; nra.
Qed.

Lemma yj_pre_incr t x y : pos_scales t -> x < y -> yj_pre t x < yj_pre t y.
Proof.
rewrite /pos_scales /yj_pre; case: (tr_standardize t) => // ps xy.
have [s [sp [e1 s0 e2 sp0]]] := ps isT; rewrite e1 /=.
have i0 : 0 < / s by exact: Rinv_0_lt_compat.
by rewrite /Rdiv; nra.
Qed.

Lemma nth_map_R (f : R -> R) xs i : (i < size xs)%N -> nth 0 (map f xs) i = f (nth 0 xs i).
Proof. by move=> h; rewrite (nth_map 0). Qed.

Lemma all_nthR (p : R -> bool) xs i : all p xs -> (i < size xs)%N -> p (nth 0 xs i).
Proof. by elim: xs i => //= a s IH [|i] /andP [pa ps] //; exact: IH. Qed.

Lemma bc_order_lem t lam d xs : fitted_bc t lam -> pos_scales t ->
  xs <> [::] -> all (Rltb 0) xs ->
  exists ys, [/\ transform t d (map XF xs) = Ok (map XF ys), size ys = size xs &
    forall i j, (i < size xs)%N -> (j < size xs)%N ->
      nth 0 xs i < nth 0 xs j -> nth 0 ys i < nth 0 ys j].
Proof.
move=> ft ps x0 xp; eexists; split; first exact: (bc_transformE _ ft x0 xp).
  by rewrite size_map.
move=> i j hi hj hij; rewrite !nth_map_R //; apply: post_std_incr => //.
have /RltbP p := all_nthR xp hi.
have [] := bc_pre_incr ps p hij; exact: bcR_incr.
Qed.

Lemma yj_order_lem t lam xs : fitted_yj t lam -> pos_scales t ->
  exists ys, [/\ transform t F64 (map XF xs) = Ok (map XF ys), size ys = size xs &
    forall i j, (i < size xs)%N -> (j < size xs)%N ->
      nth 0 xs i < nth 0 xs j -> nth 0 ys i < nth 0 ys j].
Proof.
move=> ft ps; eexists; split; first exact: (yj_transformE _ ft).
  by rewrite size_map.
move=> i j hi hj hij; rewrite !nth_map_R //; apply: post_std_incr => //.
by apply: yjR_incr; exact: yj_pre_incr.
Qed.

(* -------- clamping -------- *)
Definition clampR (m : meth) (lam y : R) : R :=
  let b := calculate_bounds m lam in
  let y1 := if b.1 is Some lb then (if Rltb y lb then 95 / 100 * lb else y) else y in
  if b.2 is Some ub then (if Rltb ub y1 then 95 / 100 * ub else y1) else y1.

Lemma has_false_map (A : Type) (p : A -> bool) (f : A -> A) s :
  has p s = false -> (forall u, p u = false -> f u = u) -> map f s = s.
Proof.
move=> h pf; elim: s h => //= a s IH /norP [/negbTE pa ps].
by rewrite pf // IH //; exact/negbTE.
Qed.

Lemma handle_boundsE m lam ys : ys <> [::] ->
  handle_bounds m lam (map XF ys) = Ok (map XF (map (clampR m lam) ys)).
Proof.
case: ys => // a s _; rewrite /handle_bounds.
have nn (l : seq R) : has xisnan (map XF l) = false by elim: l.
have step1 : (if (calculate_bounds m lam).1 is Some lb then
              do mn <- np_min (map XF (a :: s));
              if xltb mn (XF lb)
              then Ok [seq if xltb u (XF lb) then XF (95 / 100 * lb) else u | u <- map XF (a :: s)]
              else Ok (map XF (a :: s))
            else Ok (map XF (a :: s))) = Ok (map XF [seq (if (calculate_bounds m lam).1 is Some lb then (if Rltb y lb then 95 / 100 * lb else y) else y) | y <- a :: s]).
  case E: (calculate_bounds m lam).1 => [lb|]; last by congr Ok; rewrite map_id.
  set L := map XF (a :: s).
  have e : [seq if xltb u (XF lb) then XF (95 / 100 * lb) else u | u <- L] =
      map XF [seq (if Rltb y lb then 95 / 100 * lb else y) | y <- a :: s].
    by rewrite /L -!map_comp; apply: eq_map => y /=; case: ifP.
  rewrite -e /L (_ : np_min (map XF (a :: s)) = Ok (foldl xmin2 (XF a) (map XF s))) //.
  rewrite /bind foldl_min_ltb ?nn //.
  have -> : xltb (XF a) (XF lb) || has (xltb^~ (XF lb)) (map XF s) =
      has (xltb^~ (XF lb)) (map XF (a :: s)) by [].
  case: ifP => // h; congr Ok; symmetry; apply: (has_false_map h) => u -> //.
rewrite [X in bind X _]step1 /bind.
set b1 : seq R := map _ (a :: s).
have -> : map (clampR m lam) (a :: s) =
   [seq (if (calculate_bounds m lam).2 is Some ub then (if Rltb ub y then 95 / 100 * ub else y) else y) | y <- b1].
  by rewrite /b1 -map_comp.
have : b1 <> [::] by [].
case: b1 => // a1 s1 _.
case E: (calculate_bounds m lam).2 => [ub|]; last by congr Ok; rewrite map_id.
set L := map XF (a1 :: s1).
have e : [seq if xltb (XF ub) u then XF (95 / 100 * ub) else u | u <- L] =
    map XF [seq (if Rltb ub y then 95 / 100 * ub else y) | y <- a1 :: s1].
  by rewrite /L -!map_comp; apply: eq_map => y /=; case: ifP.
rewrite -e /L (_ : np_max (map XF (a1 :: s1)) = Ok (foldl xmax2 (XF a1) (map XF s1))) //.
rewrite foldl_max_ltb ?nn //.
have -> : xltb (XF ub) (XF a1) || has (xltb (XF ub)) (map XF s1) =
    has (xltb (XF ub)) (map XF (a1 :: s1)) by [].
case: ifP => // h; congr Ok; symmetry; apply: (has_false_map h) => u -> //.
Qed.


Lemma clampR_bc lam y : clampR Boxcox lam y = bc_clamp lam y.
Proof.
rewrite /clampR /bc_clamp /calculate_bounds.
case: (RltbP 0 lam) => l0 /=.
  have il : 0 < / lam by exact: Rinv_0_lt_compat.
  have e : lam * / lam = 1 by field; lra.
  rewrite Rabs_right; last lra.
  have -> : Rltb y (- 1 / lam) = Rltb (y * lam + 1) 0.
    by apply/RltbP/RltbP; rewrite /Rdiv => h; nra.
  by case: ifP => // _; field; lra.
case: (RltbP lam 0) => l1 /=.
  have il : / lam < 0 by exact: Rinv_lt_0_compat.
  have e : lam * / lam = 1 by field; lra.
  rewrite Rabs_left // (_ : 1 / - lam = - / lam); last by field; lra.
  have -> : Rltb (- / lam) y = Rltb (y * lam + 1) 0.
    by apply/RltbP/RltbP => h; nra.
  by case: ifP => // _; field; lra.
by rewrite Rltb_f // (_ : lam = 0); lra.
Qed.

Lemma clampR_yj lam y : clampR Yeojohnson lam y = yj_clamp lam y.
Proof.
rewrite /clampR /yj_clamp /calculate_bounds.
case: (RltbP 2 lam) => l0 /=.
  have il : 0 < / (lam - 2) by apply: Rinv_0_lt_compat; lra.
  have e : (lam - 2) * / (lam - 2) = 1 by field; lra.
  rewrite Rabs_right; last lra.
  case: (RlebP 0 y) => hy.
    rewrite !Rltb_f //; first by nra.
    by rewrite /Rdiv; nra.
  have -> : Rltb y (- 1 / (lam - 2)) = Rltb (1 + (lam - 2) * y) 0.
    by apply/RltbP/RltbP; rewrite /Rdiv => h; nra.
  by case: ifP => // _; field; lra.
case: (RltbP lam 0) => l1 /=.
  have il : / lam < 0 by exact: Rinv_lt_0_compat.
  have e : lam * / lam = 1 by field; lra.
  rewrite Rabs_left // (_ : 1 / - lam = - / lam); last by field; lra.
  case: (RlebP 0 y) => hy; last first.
    rewrite !Rltb_f //; by nra.
  have -> : Rltb (- / lam) y = Rltb (y * lam + 1) 0.
    by apply/RltbP/RltbP => h; nra.
  by case: ifP => // _; field; lra.
case: (RlebP 0 y) => hy; rewrite Rltb_f //; nra.
Qed.

Lemma bc_clamp_dom lam y : y * lam + 1 <> 0 -> bc_dom lam (bc_clamp lam y).
Proof.
rewrite /bc_dom /bc_clamp => h; case: (Req_EM_T lam 0) => l0; [by left | right].
case: RltbP => hy; last lra.
have -> : - (95 / 100) / lam * lam + 1 = 5 / 100 by field.
lra.
Qed.

Lemma yj_clamp_dom lam y : (0 <= y -> y * lam + 1 <> 0) -> (y < 0 -> 1 + (lam - 2) * y <> 0) ->
  yj_dom lam (yj_clamp lam y).
Proof.
move=> h1 h2; rewrite /yj_dom /yj_clamp; case: (RlebP 0 y) => hy.
  case: RltbP => hc.
    have l0 : lam < 0 by nra.
    have il : / lam < 0 by exact: Rinv_lt_0_compat.
    rewrite Rleb_t; last by rewrite /Rdiv; nra.
    right; have -> : - (95 / 100) / lam * lam + 1 = 5 / 100 by field; lra.
    lra.
  rewrite Rleb_t //; right; have := h1 hy; lra.
case: RltbP => hc.
  have l0 : 2 < lam by nra.
  have il : 0 < / (lam - 2) by apply: Rinv_0_lt_compat; lra.
  rewrite Rleb_f; last by rewrite /Rdiv; nra.
  right; have -> : - (- (95 / 100) / (lam - 2)) * (2 - lam) + 1 = 5 / 100 by field; lra.
  lra.
rewrite Rleb_f; last lra.
right; have := h2; lra.
Qed.

Lemma bc_inverseE t lam d ys : fitted_bc t lam -> ys <> [::] ->
  all (fun y => bc_off_bound lam (pre_inv t y)) ys ->
  inverse_transform t d (map XF ys) =
  Ok (map XF [seq (if tr_standardize t then
                     ibcR lam (bc_clamp lam (pre_inv t y)) * real_of (tr_scale_pre t)
                   else ibcR lam (bc_clamp lam (pre_inv t y))) | y <- ys]).
Proof.
move=> ft y0 yd.
have step (zs : seq R) : all (fun z => ~~ Reqb (z * lam + 1) 0) zs ->
   [seq inv_bc1 lam u | u <- map XF (map (clampR Boxcox lam) zs)] =
   map XF [seq ibcR lam (bc_clamp lam z) | z <- zs].
  move=> zd; rewrite -!map_comp; apply: (eq_map_all _ zd) => z /ReqbP hz /=.
  by rewrite clampR_bc inv_bc1_fin //; exact: bc_clamp_dom.
case: t ft yd => m std r q ns sp lp lo so la; rewrite /fitted_bc /= => -[-> [-> hs]].
rewrite /inverse_transform /= /pre_inv /=.
case: std hs => [hs|_] /= yd.
  have [s [l [sq [e1 e2 e3 s0 sq0]]]] := hs isT.
  move: yd; rewrite e1 e2 e3 /= => yd.
  have -> : arr_unstd (map XF ys) (XF l) (XF sq) = map XF [seq y * sq + l | y <- ys].
    by rewrite /arr_unstd -!map_comp.
  rewrite handle_boundsE; last exact: map_nil.
  rewrite /= step ?all_map // /arr_mul -!map_comp; congr Ok; exact: eq_map.
rewrite handle_boundsE //= step //.
Qed.

Lemma ibcR_pos lam y : Rltb 0 (ibcR lam y). Proof. by rewrite Rltb_t //; exact: ibcR_gt0. Qed.

Lemma bc_clamp_lem t lam d ys : fitted_bc t lam -> ys <> [::] ->
  all (fun y => bc_off_bound lam (pre_inv t y)) ys ->
  exists vs, [/\ inverse_transform t d (map XF ys) = Ok (map XF vs), all (Rltb 0) vs &
    transform t F64 (map XF vs) =
      Ok (map XF [seq post_std t (bc_clamp lam (pre_inv t y)) | y <- ys])].
Proof.
move=> ft y0 yd; eexists.
have pos : all (Rltb 0) [seq (if tr_standardize t then
                     ibcR lam (bc_clamp lam (pre_inv t y)) * real_of (tr_scale_pre t)
                   else ibcR lam (bc_clamp lam (pre_inv t y))) | y <- ys].
  rewrite all_map; elim: (ys) => //= a s ->; rewrite andbT.
  case: ft => _ [_]; case: (tr_standardize t) => [hs|_]; last exact: ibcR_pos.
  have [sc [l [sq [-> _ _ s0 _]]]] := hs isT.
  by rewrite Rltb_t //; apply: Rmult_lt_0_compat => //; exact: ibcR_gt0.
split; [exact: (bc_inverseE _ ft y0 yd) | exact: pos | ].
rewrite (bc_transformE _ ft) //; last exact: map_nil.
congr Ok; rewrite -!map_comp; apply: (eq_map_all _ yd) => y /ReqbP hy /=.
congr (XF (post_std t _)).
rewrite -[RHS](@ibcRK lam); last exact: bc_clamp_dom.
congr bcR; rewrite /bc_pre.
case: ft => _ [_]; case: (tr_standardize t) => [hs|_] //.
have [sc [l [sq [-> _ _ s0 _]]]] := hs isT.
by rewrite /=; field; lra.
Qed.

Lemma iyjRK lam y : yj_dom lam y -> yjR lam (iyjR lam y) = y.
Proof.
rewrite /yj_dom /iyjR; case: RlebP => hy dy.
  have h : 1 <= ibcR lam y.
    case: (Rlt_le_dec (ibcR lam y) 1) => // h.
    have := bcR_incr lam (ibcR_gt0 lam y) h; rewrite bcR1 ibcRK //; lra.
  rewrite /yjR Rleb_t; last lra.
  by rewrite (_ : 1 + (ibcR lam y - 1) = ibcR lam y) ?ibcRK //; lra.
have h : 1 < ibcR (2 - lam) (- y).
  case: (Rle_lt_dec (ibcR (2 - lam) (- y)) 1) => // h.
  have := bcR_le (2 - lam) (ibcR_gt0 (2 - lam) (- y)) h; rewrite bcR1 ibcRK //; lra.
rewrite /yjR Rleb_f; last lra.
by rewrite (_ : 1 - (1 - ibcR (2 - lam) (- y)) = ibcR (2 - lam) (- y)) ?ibcRK //; lra.
Qed.


Lemma yj_clamp_dom' lam y : yj_off_bound lam y -> yj_dom lam (yj_clamp lam y).
Proof.
rewrite /yj_off_bound; case: RlebP => hy /ReqbP h; apply: yj_clamp_dom => //; lra.
Qed.

Lemma yj_inverseE t lam ys : fitted_yj t lam -> ys <> [::] ->
  all (fun y => yj_off_bound lam (pre_inv t y)) ys ->
  inverse_transform t F64 (map XF ys) =
  Ok (map XF [seq (if tr_standardize t then
                     iyjR lam (yj_clamp lam (pre_inv t y)) * real_of (tr_scale_pre t)
                     + real_of (tr_location_pre t)
                   else iyjR lam (yj_clamp lam (pre_inv t y))) | y <- ys]).
Proof.
move=> ft y0 yd.
have step (zs : seq R) d2 : d2 = F64 -> all (fun z => yj_off_bound lam z) zs ->
   inv_transf_yeojohnson d2 (map XF (map (clampR Yeojohnson lam) zs)) lam =
   map XF [seq iyjR lam (yj_clamp lam z) | z <- zs].
  move=> -> zd; rewrite /inv_transf_yeojohnson -!map_comp; apply: (eq_map_all _ zd) => z hz /=.
  by rewrite clampR_yj inv_yj1_fin //; exact: yj_clamp_dom'.
case: t ft yd => m std r q ns sp lp lo so la; rewrite /fitted_yj /= => -[-> [-> hs]].
rewrite /inverse_transform /= /pre_inv /=.
case: std hs => [hs|_] yd.
  have [mm [s [l [sq [e0 e1 e2 e3 [s0 sq0]]]]]] := hs isT.
  move: yd; rewrite e0 e1 e2 e3 => yd.
  rewrite /=.
  have -> : arr_unstd (map XF ys) (XF l) (XF sq) = map XF [seq y * sq + l | y <- ys].
    by rewrite /arr_unstd -!map_comp.
  rewrite handle_boundsE; last exact: map_nil.
  rewrite [bind (Ok _) _]/= step ?all_map //; last by case: ifP.
  by rewrite /arr_unstd /= -!map_comp.
rewrite /= handle_boundsE //.
by rewrite [bind (Ok _) _]/= step //; case: ifP.
Qed.

Lemma yj_clamp_lem t lam ys : fitted_yj t lam -> ys <> [::] ->
  all (fun y => yj_off_bound lam (pre_inv t y)) ys ->
  exists vs, inverse_transform t F64 (map XF ys) = Ok (map XF vs) /\
    transform t F64 (map XF vs) =
      Ok (map XF [seq post_std t (yj_clamp lam (pre_inv t y)) | y <- ys]).
Proof.
move=> ft y0 yd; eexists.
split; first exact: (yj_inverseE ft y0 yd).
rewrite (yj_transformE _ ft) //.
congr Ok; rewrite -!map_comp; apply: (eq_map_all _ yd) => y hy /=.
congr (XF (post_std t _)).
rewrite -[RHS](@iyjRK lam); last exact: yj_clamp_dom'.
congr yjR; rewrite /yj_pre.
case: ft => _ [_]; case: (tr_standardize t) => [hs|_] //.
have [mm [sc [l [sq [-> -> _ _ [s0 _]]]]]] := hs isT.
by rewrite /=; field; lra.
Qed.

(* -------- the inverse is not monotone -------- *)
Lemma ibcR_incr lam y z : bc_dom lam y -> bc_dom lam z -> y < z -> ibcR lam y < ibcR lam z.
Proof.
move=> dy dz yz; case: (Rlt_le_dec (ibcR lam y) (ibcR lam z)) => // h.
have := bcR_le lam (ibcR_gt0 lam z) h; rewrite !ibcRK //; lra.
Qed.

Lemma iyjR_incr lam y z : yj_dom lam y -> yj_dom lam z -> y < z -> iyjR lam y < iyjR lam z.
Proof.
move=> dy dz yz; case: (Rtotal_order (iyjR lam y) (iyjR lam z)) => // -[h|h].
- by have := iyjRK dy; rewrite h iyjRK //; lra.
- by have := yjR_incr lam h; rewrite !iyjRK //; lra.
Qed.

Lemma pre_post t y : pos_scales t -> pre_inv t (post_std t y) = y.
Proof.
rewrite /pos_scales /pre_inv /post_std; case: (tr_standardize t) => // ps.
by have [s [sp [_ s0 -> sp0]]] := ps isT; rewrite /=; field; lra.
Qed.

Lemma bc_not_monotone_lem t lam : fitted_bc t lam -> pos_scales t -> lam <> 0 ->
  exists y1 y2 v1 v2, [/\ y1 < y2, v2 < v1 &
    inverse_transform t F64 [:: XF y1; XF y2] = Ok [:: XF v1; XF v2]].
Proof.
move=> ft ps l0.
pose a := - (95 / 100) / lam; pose b := - (99 / 100) / lam; pose c := - 2 / lam.
have ha : a * lam + 1 = 5 / 100 by rewrite /a; field.
have hb : b * lam + 1 = 1 / 100 by rewrite /b; field.
have hc : c * lam + 1 = - 1 by rewrite /c; field.
have ca : bc_clamp lam c = a by rewrite /bc_clamp hc Rltb_t //; lra.
have cb : bc_clamp lam b = b by rewrite /bc_clamp hb Rltb_f //; lra.
have da : bc_dom lam a by right; lra.
have db : bc_dom lam b by right; lra.
pose V z := if tr_standardize t then ibcR lam z * real_of (tr_scale_pre t) else ibcR lam z.
have Vincr y z : ibcR lam y < ibcR lam z -> V y < V z.
  rewrite /V; case: ft => _ [_]; case: (tr_standardize t) => // hs h.
  have [sc [l [sq [-> _ _ s0 _]]]] := hs isT.
  by apply: Rmult_lt_compat_r.
have inv y z : y = c /\ z = b \/ y = b /\ z = c ->
   inverse_transform t F64 [:: XF (post_std t y); XF (post_std t z)] =
   Ok [:: XF (V (bc_clamp lam y)); XF (V (bc_clamp lam z))].
  move=> h; have -> : [:: XF (post_std t y); XF (post_std t z)] = map XF [:: post_std t y; post_std t z] by [].
  rewrite (bc_inverseE F64 ft) //=.
    by rewrite !pre_post.
  by rewrite !pre_post //; case: h => -[-> ->]; rewrite /bc_off_bound hb hc !Reqb_f //; lra.
case: (Rtotal_order lam 0) => [ln|[//|lp]].
- have il : / lam < 0 by exact: Rinv_lt_0_compat.
  exists (post_std t b), (post_std t c), (V b), (V a); split.
  + by apply: post_std_incr => //; rewrite /b /c /Rdiv; nra.
  + by apply: Vincr; apply: ibcR_incr => //; rewrite /b /a /Rdiv; nra.
  + by rewrite inv ?ca ?cb //; right.
- have il : 0 < / lam by exact: Rinv_0_lt_compat.
  exists (post_std t c), (post_std t b), (V a), (V b); split.
  + by apply: post_std_incr => //; rewrite /b /c /Rdiv; nra.
  + by apply: Vincr; apply: ibcR_incr => //; rewrite /b /a /Rdiv; nra.
  + by rewrite inv ?ca ?cb //; left.
Qed.

Lemma yj_not_monotone_lem t lam : fitted_yj t lam -> pos_scales t -> lam < 0 \/ 2 < lam ->
  exists y1 y2 v1 v2, [/\ y1 < y2, v2 < v1 &
    inverse_transform t F64 [:: XF y1; XF y2] = Ok [:: XF v1; XF v2]].
Proof.
move=> ft ps hl.
pose V z := if tr_standardize t then iyjR lam z * real_of (tr_scale_pre t)
              + real_of (tr_location_pre t) else iyjR lam z.
have Vincr y z : iyjR lam y < iyjR lam z -> V y < V z.
  rewrite /V; move: ps; rewrite /pos_scales; case: (tr_standardize t) => // hs h.
  have [s [sp [-> s0 _ _]]] := hs isT; rewrite /=; nra.
have inv y z : yj_off_bound lam y -> yj_off_bound lam z ->
   inverse_transform t F64 [:: XF (post_std t y); XF (post_std t z)] =
   Ok [:: XF (V (yj_clamp lam y)); XF (V (yj_clamp lam z))].
  move=> h1 h2; have -> : [:: XF (post_std t y); XF (post_std t z)] = map XF [:: post_std t y; post_std t z] by [].
  rewrite (yj_inverseE ft) //=.
    by rewrite !pre_post.
  by rewrite !pre_post // h1 h2.
case: hl => hl.
- have il : / lam < 0 by exact: Rinv_lt_0_compat.
  pose a := - (95 / 100) / lam; pose b := - (99 / 100) / lam; pose c := - 2 / lam.
  have ha : a * lam + 1 = 5 / 100 by rewrite /a; field; lra.
  have hb : b * lam + 1 = 1 / 100 by rewrite /b; field; lra.
  have hc : c * lam + 1 = - 1 by rewrite /c; field; lra.
  have [a0 b0 c0] : [/\ 0 <= a, 0 <= b & 0 <= c] by rewrite /a /b /c /Rdiv; split; nra.
  have ca : yj_clamp lam c = a by rewrite /yj_clamp Rleb_t // hc Rltb_t //; lra.
  have cb : yj_clamp lam b = b by rewrite /yj_clamp Rleb_t // hb Rltb_f //; lra.
  exists (post_std t b), (post_std t c), (V b), (V a); split.
  + by apply: post_std_incr => //; rewrite /b /c /Rdiv; nra.
  + apply: Vincr; apply: iyjR_incr; rewrite /yj_dom ?Rleb_t //; try by right; lra.
    by rewrite /b /a /Rdiv; nra.
  + by rewrite inv ?ca ?cb //; rewrite /yj_off_bound Rleb_t // ?hb ?hc Reqb_f //; lra.
- have il : 0 < / (lam - 2) by apply: Rinv_0_lt_compat; lra.
  pose a := - (95 / 100) / (lam - 2); pose b := - (99 / 100) / (lam - 2); pose c := - 2 / (lam - 2).
  have ha : 1 + (lam - 2) * a = 5 / 100 by rewrite /a; field; lra.
  have hb : 1 + (lam - 2) * b = 1 / 100 by rewrite /b; field; lra.
  have hc : 1 + (lam - 2) * c = - 1 by rewrite /c; field; lra.
  have [a0 b0 c0] : [/\ a < 0, b < 0 & c < 0] by rewrite /a /b /c /Rdiv; split; nra.
  have ca : yj_clamp lam c = a by rewrite /yj_clamp Rleb_f // hc Rltb_t //; lra.
  have cb : yj_clamp lam b = b by rewrite /yj_clamp Rleb_f // hb Rltb_f //; lra.
  exists (post_std t c), (post_std t b), (V a), (V b); split.
  + by apply: post_std_incr => //; rewrite /b /c /Rdiv; nra.
  + apply: Vincr; apply: iyjR_incr; rewrite /yj_dom ?Rleb_f //; try by right; lra.
    by rewrite /b /a /Rdiv; nra.
  + by rewrite inv ?ca ?cb //; rewrite /yj_off_bound Rleb_f // ?hb ?hc Reqb_f //; lra.
Qed.

(* -------- at the bound itself, without standardisation -------- *)
Lemma bc_at_bound_lem t lam d : fitted_bc t lam -> ~~ tr_standardize t -> lam <> 0 ->
  inverse_transform t d [:: XF (- 1 / lam)] = Ok [:: if Rltb 0 lam then XF 0 else XP].
Proof.
case: t => m std r q ns sp lp lo so la; rewrite /fitted_bc /= => -[-> [-> _]] /negbTE -> l0.
rewrite /inverse_transform [bind (Ok _) _]/= (@handle_boundsE Boxcox lam [:: - 1 / lam]) //=.
rewrite clampR_bc /bc_clamp (_ : - 1 / lam * lam + 1 = 0); last by field.
rewrite Rltb_f; last lra.
rewrite /inv_bc1 Reqb_f // /xmul /xadd (_ : - 1 / lam * lam + 1 = 0); last by field.
have il0 : 1 / lam <> 0 by rewrite /Rdiv Rmult_1_l; exact: Rinv_neq_0_compat.
rewrite /xpow Rltb_f; last lra.
rewrite Reqb_f // Reqb_t; congr (Ok [:: _]).
case: (RltbP 0 lam) => lp0.
  by rewrite Rltb_t //; rewrite /Rdiv Rmult_1_l; exact: Rinv_0_lt_compat.
rewrite Rltb_f //; rewrite /Rdiv Rmult_1_l; apply: Rlt_le; apply: Rinv_lt_0_compat; lra.
Qed.

(* -------- a NaN switches the checks off -------- *)
Lemma check_positive_nan x : has xisnan x -> check_positive x = Ok tt.
Proof. by rewrite check_positiveE; case: x => // a s ->. Qed.

Lemma handle_bounds_nan m lam x : has xisnan x -> handle_bounds m lam x = Ok x.
Proof.
case: x => // a s h; rewrite /handle_bounds.
have e1 : foldl xmin2 a s = XNaN by apply: isnanE; rewrite foldl_min_nan.
have e2 : foldl xmax2 a s = XNaN by apply: isnanE; rewrite foldl_max_nan.
have m1 : np_min (a :: s) = Ok XNaN by rewrite /np_min e1.
have m2 : np_max (a :: s) = Ok XNaN by rewrite /np_max e2.
rewrite m1.
by case: ((calculate_bounds m lam).1) => [lb|] /=; case: ((calculate_bounds m lam).2) => [ub|] //=; rewrite ?e2.
Qed.

Lemma Rpow_nan x y : x < 0 -> y <> IZR (Int_part y) -> xpow (XF x) y = XNaN.
Proof.
move=> x0 hy; rewrite /xpow Rltb_f; last lra.
have y0 : y <> 0.
  move=> e; apply: hy; rewrite e.
  have := base_Int_part 0; case=> h1 h2.
  have : (Int_part 0 = 0)%Z.
    apply: Z.le_antisymm.
      by apply: le_IZR; lra.
    by apply: Zlt_succ_le; apply: lt_IZR; rewrite succ_IZR; lra.
  by move=> ->.
by rewrite Reqb_f // Reqb_f; [rewrite /Risint Reqb_f | lra].
Qed.

Lemma bc_nan_inverse t lam d y : fitted_bc t lam -> ~~ tr_standardize t -> lam <> 0 ->
  1 / lam <> IZR (Int_part (1 / lam)) -> y * lam + 1 < 0 ->
  inverse_transform t d [:: XF y; XNaN] = Ok [:: XNaN; XNaN].
Proof.
case: t => m std r q ns sp lp lo so la; rewrite /fitted_bc /= => -[-> [-> _]] /negbTE -> l0 ni yl.
rewrite /inverse_transform [bind (Ok _) _]/= handle_bounds_nan //=.
rewrite inv_bc1_nan; congr (Ok [:: _; _]).
by rewrite /inv_bc1 Reqb_f // /xmul /xadd Rpow_nan.
Qed.

Lemma bc_nan_transform t lam d x : fitted_bc t lam -> ~~ tr_standardize t ->
  lam <> IZR (Int_part lam) \/ lam = 0 -> x < 0 ->
  transform t d [:: XF x; XNaN] = Ok [:: XNaN; XNaN].
Proof.
case: t => m std r q ns sp lp lo so la; rewrite /fitted_bc /= => -[-> [-> _]] /negbTE -> hl x0.
rewrite /transform /=.
rewrite bc1_nan; congr (Ok [:: _; _]); rewrite /bc1.
case: ReqbP => l0; first by rewrite /xlog Rltb_f ?Reqb_f //; lra.
case: hl => // hl; by rewrite Rpow_nan.
Qed.

Lemma bc_reject_lem t lam d x : fitted_bc t lam -> ~~ has xisnan x ->
  has (fun u => xleb u (XF 0)) x -> transform t d x = Err ValueError.
Proof.
move=> [em _] nn hp; rewrite /transform em /= check_positiveE.
by case: x nn hp => // a s /negbTE -> ->.
Qed.
