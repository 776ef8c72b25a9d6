(* Property theorems: the wrapping transformation (C30, C31). *)
From mathcomp Require Import all_ssreflect all_algebra.
From mathcomp.zify Require Import zify.
From mathcomp.algebra_tactics Require Import ring.
From Verif Require Import RFieldLra Prelude Stats Wrapping_Model.

Set Implicit Arguments.
Unset Strict Implicit.
Unset Printing Implicit Defensive.

Import Order.TTheory GRing.Theory Num.Theory.
Local Open Scope ring_scope.

Section Props.
Variable T : rcfType.
Variable tanh : T -> T.
Variables (b c q1 q2 : T).
Implicit Types (s : seq T) (x loc sc : T).
Notation wrap := (wrapping_transformation tanh b c q1 q2).

(* C30: what happens to one observation without rescaling *)
Let out loc sc x := nth 0 (wrap false loc sc [:: x]) 0.

Lemma no_rescale_pointwise loc sc s : wrap false loc sc s = [seq out loc sc x | x <- s].
Proof. by rewrite /wrapping_transformation /z_wrapped -map_comp; apply: eq_map. Qed.

Lemma outE loc sc x :
  out loc sc x = wrap_psi tanh b c q1 q2 ((x - loc) / no_zero sc) * sc + loc.
Proof. by []. Qed.

Lemma wrap_psi_bound z : (forall u, `|tanh u| <= 1) -> 0 < b ->
  `|wrap_psi tanh b c q1 q2 z| <= Num.max b `|q1|.
Proof.
move=> ht b0; rewrite /wrap_psi; case: ifP => h1; first by rewrite le_maxr ltW.
case: ifP => h2; last by rewrite normr0 le_maxr normr_ge0 orbT.
rewrite le_maxr; apply/orP; right; rewrite !normrM normr_sg.
have h3 : `|q1| * `|tanh (q2 * (c - `|z|))| <= `|q1|.
  by rewrite -[X in _ <= X]mulr1; apply: ler_wpmul2l.
by case: (_ != 0); rewrite ?mulr1 ?mulr0 ?normr_ge0.
Qed.

Theorem wrapping_pointwise loc sc s :
  (forall u, `|tanh u| <= 1) -> 0 < b -> b <= c -> 0 <= sc ->
  wrap false loc sc s = [seq out loc sc x | x <- s]
  /\ forall x,
     [/\ 0 < sc -> `|x - loc| < b * sc -> out loc sc x = x,
         0 < sc -> c * sc < `|x - loc| -> out loc sc x = loc,
         `|out loc sc x - loc| <= Num.max b `|q1| * sc
       & sc = 0 -> out loc sc x = loc].
Proof.
move=> ht b0 bc sc0; split; first exact: no_rescale_pointwise.
move=> x; rewrite outE; split.
- move=> sp h; rewrite /no_zero (gt_eqF sp) /wrap_psi ifT; first by rewrite divfK ?gt_eqF // subrK.
  by rewrite normrM normfV (gtr0_norm sp) ltr_pdivr_mulr.
- move=> sp h; rewrite /no_zero (gt_eqF sp) /wrap_psi.
  have hz : c < `|(x - loc) / sc| by rewrite normrM normfV (gtr0_norm sp) ltr_pdivl_mulr.
  by rewrite !ifF ?mul0r ?add0r //; apply/negbTE; rewrite -?leNgt -?ltNge //; flra.
- by rewrite addrK normrM (ger0_norm sc0); apply: ler_wpmul2r => //; exact: wrap_psi_bound.
- by move=> ->; rewrite mulr0 add0r.
Qed.

(* the rescaled output is an affine image of the unrescaled wrapped values *)
Theorem wrapping_rescaled loc sc s :
  0 <= sc -> (0 < size s)%N ->
  let z := z_wrapped tanh b c q1 q2 loc sc s in
  let w := wrap true loc sc s in
  [/\ size w = size s, fmean w = loc,
      ~~ constant z -> Num.sqrt (fvar w) = sc
    & constant z -> all (pred1 loc) w].
Proof.
move=> sc0 h0 z w.
have hz : size z = size s by rewrite size_map.
set f := sc / no_zero (Num.sqrt (fvar z)).
have eo : w = [seq f * v + (loc - fmean z * f) | v : T <- z].
  by rewrite /w /wrapping_transformation -/z -/f; apply: eq_map => v; ring.
have h0z : (0 < size z)%N by rewrite hz.
have cst : constant z = (fvar z == 0).
  rewrite fvar_eq0 //; apply/idP/idP => [/(constantP 0) [x ex]|/allP h].
    have nx : (size z)%:R != 0 :> T by rewrite pnatr_eq0 -lt0n.
    have e : fmean z = x.
      have es : fsum z = (size z)%:R * x.
        rewrite ex size_nseq; elim: (size z) => [|n IH] /=; first by rewrite mul0r.
        by rewrite /fsum /= -/(fsum _) IH -addn1 natrD mulrDl mul1r addrC.
      by rewrite /fmean es mulrC mulKf.
    by rewrite e ex all_nseq eqxx orbT.
  by apply/(constantP 0); exists (fmean z); apply/all_pred1P/allP.
split.
- by rewrite eo !size_map.
- by rewrite eo fmean_affine //; ring.
- move=> hc; rewrite eo fvar_affine sqrtrM ?sqr_ge0 // sqrtr_sqr.
  have vp : 0 < fvar z by rewrite lt_neqAle fvar_ge0 andbT eq_sym -cst.
  have sp : 0 < Num.sqrt (fvar z) by rewrite sqrtr_gt0.
  rewrite /f /no_zero (gt_eqF sp) ger0_norm ?divfK ?gt_eqF //.
  by rewrite divr_ge0 ?sqrtr_ge0.
- rewrite cst fvar_eq0 // => /allP h; rewrite eo; apply/allP => y /mapP[v vz ->] /=.
  by rewrite (eqP (h v vz)); apply/eqP; ring.
Qed.

(* C30: no division by zero: the divisor used is the scale itself, and 1 for a zero
   scale (the model's division is total, so this is stated separately) *)
Theorem wrapping_divisors sc : no_zero sc != 0 /\ (sc != 0 -> no_zero sc = sc) /\ no_zero (0 : T) = 1.
Proof.
rewrite /no_zero eqxx; case: (eqVneq sc 0) => h; rewrite ?oner_eq0 ?h; by split=> //; split.
Qed.

End Props.

Section Examples.
Variable T : rcfType.
(* any bounded function will do for tanh: no value lies between b and c here *)
Let th : T -> T := fun=> 0.
Let col : seq T := [:: 0; 1; 2%:R; 100%:R].

(* with location 1 and scale 1 the far outlier is moved to the location *)
Example wrapping_col : wrapping_transformation th (3%:R / 2%:R) 4%:R 1 1 false 1 1 col
                       = [:: 0; 1; 2%:R; 1].
Proof.
rewrite /wrapping_transformation /z_wrapped /col /= /no_zero oner_eq0 !divr1 !mulr1 /wrap_psi.
have e : 100%:R - 1 = 99%:R :> T by ring.
have -> : `|0 - 1 : T| = 1 by rewrite sub0r normrN normr1.
have -> : `|1 - 1 : T| = 0 by rewrite subrr normr0.
have -> : `|2%:R - 1 : T| = 1 by rewrite (_ : 2%:R - 1 = 1) ?normr1 //; ring.
have -> : (1 < 3%:R / 2%:R :> T) by rewrite ltr_pdivl_mulr ?ltr0n // mul1r ltr_nat.
have -> : (0 < 3%:R / 2%:R :> T) by rewrite divr_gt0 ?ltr0n.
rewrite e normr_nat.
have -> : (99%:R < 3%:R / 2%:R :> T) = false by rewrite ltr_pdivl_mulr ?ltr0n // -natrM ltr_nat.
rewrite ler_nat /=.
by do !congr (_ :: _); ring.
Qed.

Example wrapping_col_hyps :
  [/\ forall u, `|th u| <= 1, 0 < 3%:R / 2%:R :> T, 3%:R / 2%:R <= 4%:R :> T
    & ~~ constant (z_wrapped th (3%:R / 2%:R) 4%:R 1 1 1 1 col)].
Proof.
split.
- by move=> u; rewrite normr0 ler01.
- by rewrite divr_gt0 ?ltr0n.
- by rewrite ler_pdivr_mulr ?ltr0n // -natrM ler_nat.
- have /(congr1 (map (fun v : T => v - 1))) := wrapping_col.
  rewrite /wrapping_transformation -map_comp (_ : [seq _ | _ <- _] = z_wrapped th (3%:R / 2%:R) 4%:R 1 1 1 1 col).
    move=> ->; rewrite /= negb_and; apply/orP; left.
    by rewrite subrr sub0r eq_sym oppr_eq0 oner_eq0.
  by rewrite -[RHS]map_id; apply: eq_map => v /=; rewrite mulr1 addrK.
Qed.
End Examples.
Print Assumptions wrapping_pointwise.
Print Assumptions wrapping_rescaled.
Print Assumptions wrapping_divisors.
