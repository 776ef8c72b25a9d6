(* Proofs about the loss functions. *)
From mathcomp Require Import all_ssreflect all_algebra.
From mathcomp.zify Require Import zify.
From mathcomp.algebra_tactics Require Import ring.
From Verif Require Import RFieldLra Prelude Rho_Model Rho_Spec.

Set Implicit Arguments.
Unset Strict Implicit.
Unset Printing Implicit Defensive.

Import Order.TTheory GRing.Theory Num.Theory.
Local Open Scope ring_scope.

Section Rho.
Variable T : realFieldType.
Implicit Types (x y : T).

(* a quadratic error bound gives the derivative *)
Lemma quad_derivative (f : T -> T) x l K : 0 < K ->
  (forall y, `|f y - f x - l * (y - x)| <= K * (y - x) ^+ 2) -> has_derivative f x l.
Proof.
move=> K0 h eps e0; exists (eps / K); first by rewrite divr_gt0.
move=> y; rewrite ltr_pdivl_mulr // => hy; apply: le_trans (h y) _.
rewrite -real_normK ?num_real // expr2 mulrA ler_wpmul2r //.
by rewrite mulrC ltW.
Qed.

(* ------------------------------------------------------ Tukey *)
Section Tukey.
Variable c : T.
Hypothesis c0 : 0 < c.

Let cn0 : c != 0. Proof. by rewrite gt_eqF. Qed.

(* p = 1 - (x/c)^2 clipped at zero *)
Definition tk_p (x : T) : T := if `|x| <= c then 1 - (x / c) ^+ 2 else 0.

Lemma tukey_rho_p x : tukey_rho c x = c ^+ 2 / 6%:R * (1 - tk_p x ^+ 3).
Proof.
rewrite /tukey_rho /tk_p; case: ifP => _; last by rewrite expr0n /= subr0 mulr1.
by field; rewrite cn0.
Qed.

Lemma tukey_psi_p x : tukey_psi c x = x * tk_p x ^+ 2.
Proof. by rewrite /tukey_psi /tk_p; case: ifP => _ //; rewrite expr0n /= mulr0. Qed.

Lemma norm_le_sqr x : `|x| <= c -> x ^+ 2 <= c ^+ 2.
Proof. by move=> h; rewrite -(sqr_normr x) ler_sqr ?nnegrE ?normr_ge0 // ltW. Qed.

Lemma tk_p_in x : `|x| <= c -> c ^+ 2 * tk_p x = c ^+ 2 - x ^+ 2.
Proof. by rewrite /tk_p => ->; field; rewrite cn0. Qed.

Lemma tk_p_out x : c < `|x| -> tk_p x = 0.
Proof. by rewrite /tk_p ltNge => /negbTE ->. Qed.

Lemma c2_gt0 : 0 < c ^+ 2. Proof. by rewrite exprn_gt0. Qed.

Lemma tk_p_range x : 0 <= tk_p x <= 1.
Proof.
have c2 := c2_gt0; case: (lerP `|x| c) => h; last by rewrite tk_p_out // lexx ler01.
rewrite -(ler_pmul2l c2) -(@ler_pmul2l _ (c ^+ 2) c2 _ 1) tk_p_in // mulr0 mulr1.
by rewrite subr_ge0 norm_le_sqr //= ler_subl_addr ler_addl sqr_ge0.
Qed.

(* p is Lipschitz with constant 2/c *)
Lemma tk_p_lip_in x y : `|x| <= c -> `|y| <= c ->
  c * `|tk_p x - tk_p y| <= 2%:R * `|y - x|.
Proof.
move=> hx hy; rewrite -(ler_pmul2l c0) (mulrA c c) -(expr2 c).
rewrite -{1}(gtr0_norm c2_gt0) -normrM mulrBr !tk_p_in //.
have -> : c ^+ 2 - x ^+ 2 - (c ^+ 2 - y ^+ 2) = (y + x) * (y - x) by ring.
rewrite normrM mulrA ler_wpmul2r // (le_trans (ler_norm_add _ _)) //.
flra.
Qed.

Lemma tk_p_lip_out x y : `|x| <= c -> c < `|y| -> c * tk_p x <= 2%:R * `|y - x|.
Proof.
move=> hx hy; rewrite -(ler_pmul2l c0) (mulrA c c) -(expr2 c) tk_p_in //.
have -> : c ^+ 2 - x ^+ 2 = (c + `|x|) * (c - `|x|).
  by rewrite -(sqr_normr x); ring.
have h1 : c - `|x| <= `|y - x|.
  have := ler_norm_add (y - x) x; rewrite subrK => h; flra.
have h2 : 0 <= c - `|x| by flra.
have hn := normr_ge0 x.
apply: le_trans (_ : (c + c) * (c - `|x|) <= _); first by rewrite ler_wpmul2r // ler_add2l.
rewrite mulrA (_ : c * 2%:R = c + c); last by ring.
by rewrite ler_wpmul2l // addr_ge0 // ltW.
Qed.

Lemma tk_p_lip x y : c * `|tk_p x - tk_p y| <= 2%:R * `|y - x|.
Proof.
case: (lerP `|x| c) => hx; case: (lerP `|y| c) => hy.
- exact: tk_p_lip_in.
- rewrite (tk_p_out hy) subr0 ger0_norm; last by case/andP: (tk_p_range x).
  exact: tk_p_lip_out.
- rewrite (tk_p_out hx) sub0r normrN ger0_norm; last by case/andP: (tk_p_range y).
  by rewrite distrC; exact: tk_p_lip_out.
- by rewrite !tk_p_out // subrr normr0 mulr0 mulr_ge0 ?ler0n.
Qed.

Lemma tukey_first_part x y :
  `|tk_p x ^+ 2 * (c ^+ 2 * (tk_p x - tk_p y) / 2%:R - (y - x) * x)| <= 4%:R * (y - x) ^+ 2.
Proof.
have d2 := sqr_ge0 (y - x).
have /andP[p0 p1] := tk_p_range x.
case: (lerP `|x| c) => hx; last first.
  by rewrite (tk_p_out hx) expr0n /= mul0r normr0 mulr_ge0 ?ler0n.
have pp : tk_p x ^+ 2 <= 1 by rewrite expr_le1.
case: (lerP `|y| c) => hy.
  have -> : c ^+ 2 * (tk_p x - tk_p y) / 2%:R - (y - x) * x = (y - x) ^+ 2 / 2%:R.
    by rewrite mulrBr !tk_p_in //; field.
  rewrite ger0_norm; last by rewrite mulr_ge0 ?divr_ge0 ?sqr_ge0 ?ler0n.
  have h2 : 0 <= (y - x) ^+ 2 / 2%:R by rewrite divr_ge0 ?ler0n.
  apply: le_trans (ler_pimull h2 pp) _; flra.
rewrite (tk_p_out hy) subr0.
have hl := tk_p_lip_out hx hy.
set p := tk_p x in p0 p1 hl *; set D := `|y - x| in hl.
have D0 : 0 <= D by exact: normr_ge0.
have D2 : (y - x) ^+ 2 = D ^+ 2 by rewrite sqr_normr.
have cp0 : 0 <= c * p by rewrite mulr_ge0 // ltW.
have hA : p ^+ 2 * (c ^+ 2 * p / 2%:R) <= 2%:R * D ^+ 2.
  have -> : p ^+ 2 * (c ^+ 2 * p / 2%:R) = p * ((c * p) ^+ 2 / 2%:R) by ring.
  have h1 : (c * p) ^+ 2 <= (2%:R * D) ^+ 2 by rewrite ler_sqr ?nnegrE // mulr_ge0 ?ler0n.
  have h2 : p * ((c * p) ^+ 2 / 2%:R) <= (c * p) ^+ 2 / 2%:R.
    by apply: ler_pimull => //; rewrite divr_ge0 ?sqr_ge0 ?ler0n.
  apply: le_trans h2 _; rewrite ler_pdivr_mulr ?ltr0n //; apply: le_trans h1 _.
  by rewrite le_eqVlt; apply/orP; left; apply/eqP; ring.
have hB : p ^+ 2 * (D * `|x|) <= 2%:R * D ^+ 2.
  have -> : p ^+ 2 * (D * `|x|) = D * (p * (p * `|x|)) by ring.
  have h1 : p * `|x| <= 2%:R * D.
    by apply: le_trans hl; rewrite mulrC ler_wpmul2r.
  have h2 : p * (p * `|x|) <= 2%:R * D.
    by apply: le_trans h1; apply: ler_pimull => //; rewrite mulr_ge0.
  by rewrite expr2 (mulrCA 2%:R) ler_wpmul2l.
rewrite D2 mulrBr; apply: le_trans (ler_norm_sub _ _) _.
have -> : 4%:R * D ^+ 2 = 2%:R * D ^+ 2 + 2%:R * D ^+ 2 by ring.
apply: ler_add.
  by rewrite ger0_norm // mulr_ge0 ?sqr_ge0 // divr_ge0 ?ler0n // mulr_ge0 ?sqr_ge0.
by rewrite !normrM ger0_norm ?sqr_ge0.
Qed.

Lemma tukey_quad x y :
  `|tukey_rho c y - tukey_rho c x - tukey_psi c x * (y - x)| <= 7%:R * (y - x) ^+ 2.
Proof.
rewrite !tukey_rho_p tukey_psi_p.
have h1 := tukey_first_part x y; have hl := tk_p_lip x y.
have /andP[p0 p1] := tk_p_range x; have /andP[q0 q1] := tk_p_range y.
move: (tk_p x) (tk_p y) p0 p1 q0 q1 h1 hl => p q p0 p1 q0 q1 h1 hl.
have -> : c ^+ 2 / 6%:R * (1 - q ^+ 3) - c ^+ 2 / 6%:R * (1 - p ^+ 3) - x * p ^+ 2 * (y - x)
   = p ^+ 2 * (c ^+ 2 * (p - q) / 2%:R - (y - x) * x)
     + (c * (p - q)) ^+ 2 * (- (2%:R * p + q) / 6%:R) by field.
apply: le_trans (ler_norm_add _ _) _.
have -> : 7%:R * (y - x) ^+ 2 = 4%:R * (y - x) ^+ 2 + 3%:R * (y - x) ^+ 2 by ring.
apply: ler_add => //.
have h3 : (c * (p - q)) ^+ 2 <= 4%:R * (y - x) ^+ 2.
  rewrite -(sqr_normr (c * _)) normrM (gtr0_norm c0).
  have -> : 4%:R * (y - x) ^+ 2 = (2%:R * `|y - x|) ^+ 2 by rewrite exprMn sqr_normr; ring.
  by rewrite ler_sqr ?nnegrE // mulr_ge0 ?ler0n // ltW.
rewrite normrM (ger0_norm (sqr_ge0 _)) mulNr normrN ger0_norm; last first.
  by rewrite divr_ge0 ?ler0n // addr_ge0 // mulr_ge0 ?ler0n.
have h4 : (2%:R * p + q) / 6%:R <= 2%:R^-1 by rewrite ler_pdivr_mulr ?ltr0n //; flra.
apply: le_trans (ler_wpmul2l (sqr_ge0 _) h4) _.
have h5 := sqr_ge0 (y - x); flra.
Qed.

Lemma tukey_derivative x : has_derivative (tukey_rho c) x (tukey_psi c x).
Proof. by apply: (@quad_derivative _ _ _ 7%:R); [rewrite ltr0n|exact: tukey_quad]. Qed.

Lemma tk_p_even x : tk_p (- x) = tk_p x.
Proof. by rewrite /tk_p normrN mulNr sqrrN. Qed.

Lemma tukey_rho_even x : tukey_rho c (- x) = tukey_rho c x.
Proof. by rewrite !tukey_rho_p tk_p_even. Qed.

Lemma tukey_psi_odd x : tukey_psi c (- x) = - tukey_psi c x.
Proof. by rewrite !tukey_psi_p tk_p_even mulNr. Qed.

Lemma tk_p_anti x y : `|x| <= `|y| -> tk_p y <= tk_p x.
Proof.
move=> h; case: (lerP `|y| c) => hy; last first.
  by rewrite (tk_p_out hy); case/andP: (tk_p_range x).
have hx := le_trans h hy.
rewrite -(ler_pmul2l c2_gt0) !tk_p_in // ler_add2l ler_opp2 -(sqr_normr x) -(sqr_normr y).
by rewrite ler_sqr ?nnegrE.
Qed.

Lemma tukey_rho_mono x y : `|x| <= `|y| -> tukey_rho c x <= tukey_rho c y.
Proof.
move=> h; rewrite !tukey_rho_p ler_wpmul2l ?divr_ge0 ?sqr_ge0 ?ler0n //.
rewrite ler_add2l ler_opp2; apply: ler_expn2r; last exact: tk_p_anti.
  by rewrite nnegrE; case/andP: (tk_p_range y).
by rewrite nnegrE; case/andP: (tk_p_range x).
Qed.

Lemma tukey_rho_bounds x : 0 <= tukey_rho c x <= c ^+ 2 / 6%:R.
Proof.
rewrite tukey_rho_p; have /andP[p0 p1] := tk_p_range x.
have c6 : 0 <= c ^+ 2 / 6%:R by rewrite divr_ge0 ?sqr_ge0 ?ler0n.
rewrite mulr_ge0 ?subr_ge0 ?exprn_ile1 //=.
by apply: ler_pimulr => //; rewrite ler_subl_addr ler_addl exprn_ge0.
Qed.

Lemma tukey_rho_eq0 x : (tukey_rho c x == 0) = (x == 0).
Proof.
apply/idP/idP => [|/eqP ->].
  rewrite tukey_rho_p mulf_eq0 mulf_eq0 invr_eq0 pnatr_eq0 /= orbF.
  rewrite (gt_eqF c2_gt0) /= subr_eq0 eq_sym.
  have /andP[p0 p1] := tk_p_range x.
  rewrite pexpr_eq1 // => /eqP hp; case: (lerP `|x| c) => hx; last first.
    by move: hp; rewrite tk_p_out // => /eqP; rewrite eq_sym oner_eq0.
  have := tk_p_in hx; rewrite hp mulr1 => /eqP.
  by rewrite eq_sym -subr_eq0 addrAC subrr sub0r oppr_eq0 sqrf_eq0.
by rewrite /tukey_rho normr0 ltW // !expr0n /= !mul0r subr0 addr0.
Qed.

Lemma tukey_rho_sup x : c <= `|x| -> tukey_rho c x = c ^+ 2 / 6%:R.
Proof.
move=> h; rewrite tukey_rho_p.
suff -> : tk_p x = 0 by rewrite expr0n /= subr0 mulr1.
case: (ltrP c `|x|) => [/tk_p_out //|hx].
have e : `|x| = c by apply/eqP; rewrite eq_le hx h.
apply/eqP; have := tk_p_in hx; rewrite -(sqr_normr x) e subrr => /eqP.
by rewrite mulf_eq0 (gt_eqF c2_gt0).
Qed.

Lemma tukey_psi_zero x : c <= `|x| -> tukey_psi c x = 0.
Proof.
move=> h; rewrite tukey_psi_p; case: (ltrP c `|x|) => [/tk_p_out ->|hx].
  by rewrite expr0n /= mulr0.
have e : `|x| = c by apply/eqP; rewrite eq_le hx h.
have := tk_p_in hx; rewrite -(sqr_normr x) e subrr => /eqP.
by rewrite mulf_eq0 (gt_eqF c2_gt0) /= => /eqP ->; rewrite expr0n /= mulr0.
Qed.

(* the weight psi(x)/x (division by zero gives 0 here; the property is about x != 0) *)
Lemma tukey_weight x : x != 0 -> tukey_psi c x / x = tk_p x ^+ 2.
Proof. by move=> hx; rewrite tukey_psi_p mulrAC divff // mul1r. Qed.

Lemma tukey_weight_range x : x != 0 -> 0 <= tukey_psi c x / x <= 1.
Proof.
move=> hx; rewrite tukey_weight // sqr_ge0 /=; have /andP[p0 p1] := tk_p_range x.
by rewrite expr_le1.
Qed.

End Tukey.

(* ------------------------------------------------------ Huber *)
Section Huber.
Variable b : T.
Hypothesis b0 : 0 < b.

Lemma huber_rho_even x : huber_rho b (- x) = huber_rho b x.
Proof. by rewrite /huber_rho normrN sqrrN. Qed.

Lemma huber_psi_odd x : huber_psi b (- x) = - huber_psi b x.
Proof. by rewrite /huber_psi normrN sgrN mulrN; case: ifP. Qed.

Lemma huber_psi_bound x : `|huber_psi b x| <= b.
Proof.
rewrite /huber_psi; case: (lerP `|x| b) => // hx; rewrite normrM (gtr0_norm b0) normr_sg.
by apply: ler_pimulr; [exact: ltW|case: (x != 0); rewrite ?ler01 ?lexx].
Qed.

(* the tangent lines lie below (convexity), and the error is quadratic *)
Lemma huber_tangent x y :
  0 <= huber_rho b y - huber_rho b x - huber_psi b x * (y - x) <= (y - x) ^+ 2 / 2%:R.
Proof.
have two : 0 < 2%:R :> T by rewrite ltr0n.
rewrite /huber_rho /huber_psi.
case: (lerP `|x| b) => hx; case: (lerP `|y| b) => hy.
- have -> : y ^+ 2 / 2%:R - x ^+ 2 / 2%:R - x * (y - x) = (y - x) ^+ 2 / 2%:R by field.
  by rewrite lexx andbT divr_ge0 ?sqr_ge0 ?ler0n.
- move: hx hy; rewrite ler_norml; case: (ltrgt0P y) => hy0 /andP[x1 x2] hy.
  + have -> : b * y - b ^+ 2 / 2%:R - x ^+ 2 / 2%:R - x * (y - x)
       = (b - x) * (2%:R * y - b - x) / 2%:R by field.
    rewrite divr_ge0 ?mulr_ge0 ?ler0n //=; [|flra|flra].
    rewrite ler_pmul2r ?invr_gt0 // -subr_ge0.
    have -> : (y - x) ^+ 2 - (b - x) * (2%:R * y - b - x) = (y - b) ^+ 2 by ring.
    exact: sqr_ge0.
  + have -> : b * - y - b ^+ 2 / 2%:R - x ^+ 2 / 2%:R - x * (y - x)
       = (b + x) * (- (2%:R * y) - b + x) / 2%:R by field.
    rewrite divr_ge0 ?mulr_ge0 ?ler0n //=; [|flra|flra].
    rewrite ler_pmul2r ?invr_gt0 // -subr_ge0.
    have -> : (y - x) ^+ 2 - (b + x) * (- (2%:R * y) - b + x) = (y + b) ^+ 2 by ring.
    exact: sqr_ge0.
  + by exfalso; flra.
- move: hx hy; rewrite ler_norml; case: (ltrgt0P x) => hx0 hx /andP[y1 y2].
  + rewrite gtr0_sg // mulr1.
    have -> : y ^+ 2 / 2%:R - (b * x - b ^+ 2 / 2%:R) - b * (y - x) = (y - b) ^+ 2 / 2%:R by field.
    rewrite divr_ge0 ?sqr_ge0 ?ler0n //= ler_pmul2r ?invr_gt0 //.
    rewrite -subr_ge0.
    have -> : (y - x) ^+ 2 - (y - b) ^+ 2 = (x - b) * (x + b - 2%:R * y) by ring.
    by apply: mulr_ge0; flra.
  + rewrite ltr0_sg // mulrN1.
    have -> : y ^+ 2 / 2%:R - (b * - x - b ^+ 2 / 2%:R) - - b * (y - x) = (y + b) ^+ 2 / 2%:R by field.
    rewrite divr_ge0 ?sqr_ge0 ?ler0n //= ler_pmul2r ?invr_gt0 //.
    rewrite -subr_ge0.
    have -> : (y - x) ^+ 2 - (y + b) ^+ 2 = (- x - b) * (2%:R * y + b - x) by ring.
    by apply: mulr_ge0; flra.
  + by exfalso; flra.
- move: hx hy; case: (ltrgt0P x) => hx0 hx; case: (ltrgt0P y) => hy0 hy; try (by exfalso; flra).
  + rewrite gtr0_sg // mulr1.
    have -> : b * y - b ^+ 2 / 2%:R - (b * x - b ^+ 2 / 2%:R) - b * (y - x) = 0 by field.
    by rewrite lexx divr_ge0 ?sqr_ge0 ?ler0n.
  + rewrite gtr0_sg // mulr1.
    have -> : b * - y - b ^+ 2 / 2%:R - (b * x - b ^+ 2 / 2%:R) - b * (y - x)
       = 2%:R * (b * - y) by field.
    rewrite mulr_ge0 ?ler0n ?mulr_ge0 ?(ltW b0) //=; last by flra.
    rewrite ler_pdivl_mulr // -subr_ge0.
    have -> : (y - x) ^+ 2 - 2%:R * (b * - y) * 2%:R
       = (x + y) ^+ 2 + 4%:R * ((x - b) * - y) by ring.
    apply: addr_ge0; rewrite ?sqr_ge0 //; apply: mulr_ge0; rewrite ?ler0n //.
    by apply: mulr_ge0; flra.
  + rewrite ltr0_sg // mulrN1.
    have -> : b * y - b ^+ 2 / 2%:R - (b * - x - b ^+ 2 / 2%:R) - - b * (y - x)
       = 2%:R * (b * y) by field.
    rewrite mulr_ge0 ?ler0n ?mulr_ge0 ?(ltW b0) //=; last by flra.
    rewrite ler_pdivl_mulr // -subr_ge0.
    have -> : (y - x) ^+ 2 - 2%:R * (b * y) * 2%:R
       = (x + y) ^+ 2 + 4%:R * ((- x - b) * y) by ring.
    apply: addr_ge0; rewrite ?sqr_ge0 //; apply: mulr_ge0; rewrite ?ler0n //.
    by apply: mulr_ge0; flra.
  + rewrite ltr0_sg // mulrN1.
    have -> : b * - y - b ^+ 2 / 2%:R - (b * - x - b ^+ 2 / 2%:R) - - b * (y - x) = 0 by field.
    by rewrite lexx divr_ge0 ?sqr_ge0 ?ler0n.
Qed.

Lemma huber_derivative x : has_derivative (huber_rho b) x (huber_psi b x).
Proof.
apply: (@quad_derivative _ _ _ 1); first by rewrite ltr01.
move=> y; have /andP[h1 h2] := huber_tangent x y.
rewrite ger0_norm // mul1r; apply: le_trans h2 _.
have := sqr_ge0 (y - x); flra.
Qed.

Lemma huber_rho_mono x y : `|x| <= `|y| -> huber_rho b x <= huber_rho b y.
Proof.
have two : 0 < 2%:R :> T by rewrite ltr0n.
rewrite /huber_rho -(sqr_normr x) -(sqr_normr y).
move: `|x| `|y| (normr_ge0 x) (normr_ge0 y) => u v u0 v0 huv.
case: (lerP u b) => hu; case: (lerP v b) => hv.
- by rewrite ler_pmul2r ?invr_gt0 // ler_sqr ?nnegrE.
- rewrite -subr_ge0.
  have -> : b * v - b ^+ 2 / 2%:R - u ^+ 2 / 2%:R
     = b * (v - b) + (b - u) * (b + u) / 2%:R by field.
  by rewrite addr_ge0 ?divr_ge0 ?mulr_ge0 ?ler0n // ?(ltW b0) //; flra.
- by exfalso; flra.
- by rewrite ler_add2r ler_pmul2l.
Qed.

Lemma huber_rho_ge0 x : 0 <= huber_rho b x.
Proof.
have := @huber_rho_mono 0 x; rewrite normr0 normr_ge0 => /(_ isT).
by apply: le_trans; rewrite /huber_rho normr0 (ltW b0) expr0n mul0r.
Qed.

Lemma huber_rho_eq0 x : (huber_rho b x == 0) = (x == 0).
Proof.
rewrite /huber_rho; case: (lerP `|x| b) => hx.
  by rewrite mulf_eq0 invr_eq0 pnatr_eq0 orbF sqrf_eq0.
have -> : (x == 0) = false.
  by apply/negbTE; rewrite -normr_gt0; apply: lt_trans hx.
apply: gt_eqF.
have -> : b * `|x| - b ^+ 2 / 2%:R = b * (2%:R * (`|x| - b) + b) / 2%:R by field.
by rewrite divr_gt0 ?mulr_gt0 ?ltr0n //; flra.
Qed.

Lemma huber_weight x : x != 0 ->
  huber_psi b x / x = if `|x| <= b then 1 else b / `|x|.
Proof.
move=> hx; rewrite /huber_psi; case: ifP => _; first by rewrite divff.
have [h0|h0] := ltrP 0 x; first by rewrite gtr0_sg // gtr0_norm // mulr1.
have {h0 hx}h0 : x < 0 by rewrite lt_neqAle hx.
by rewrite ltr0_sg // ltr0_norm // invrN mulrN1 mulrN mulNr.
Qed.

Lemma huber_weight_range x : x != 0 -> 0 < huber_psi b x / x <= 1.
Proof.
move=> hx; rewrite huber_weight //; case: (lerP `|x| b) => h; first by rewrite ltr01 lexx.
have h0 : 0 < `|x| by rewrite normr_gt0.
by rewrite divr_gt0 //= ler_pdivr_mulr // mul1r ltW.
Qed.

Lemma huber_psi_mono x y : x <= y -> huber_psi b x <= huber_psi b y.
Proof.
rewrite /huber_psi; case: (lerP `|x| b) => hx; case: (lerP `|y| b) => hy // hxy.
- move: hx hy; rewrite ler_norml => /andP[h1 h2].
  case: (ltrgt0P y) => h3 hy; try (by exfalso; flra).
  by rewrite (gtr0_sg h3); flra.
- move: hx hy; rewrite ler_norml; case: (ltrgt0P x) => h3 hx /andP[h1 h2]; try (by exfalso; flra).
  by rewrite (ltr0_sg h3); flra.
- move: hx hy; case: (ltrgt0P x) => h3 hx; case: (ltrgt0P y) => h4 hy; try (by exfalso; flra).
  + by rewrite (gtr0_sg h3) (gtr0_sg h4).
  + by rewrite (ltr0_sg h3) (gtr0_sg h4); flra.
  + by rewrite (ltr0_sg h3) (ltr0_sg h4).
Qed.
End Huber.
End Rho.
