(* Lemmas on the outlier map of a robust regression. *)
From mathcomp Require Import all_ssreflect all_algebra.
From mathcomp.zify Require Import zify.
From mathcomp.algebra_tactics Require Import ring.
From Verif Require Import RFieldLra Prelude Stats Xnum Regr Vec PSD LinAlg_Model LinAlg_Proofs
  MCD_Model MCD_Spec MCD_Proofs MCDRun_Proofs MCDEquiv_Proofs MCD_Props OGK_Proofs Cov_Model RegMap_Model.

Set Implicit Arguments.
Unset Strict Implicit.
Unset Printing Implicit Defensive.

Import Order.TTheory GRing.Theory Num.Theory.
Local Open Scope ring_scope.

Section Bound.
Variable T : rcfType.
Implicit Types r s : seq T.

Lemma fsum_sq s : (fsum s) ^+ 2 <= (size s)%:R * fsum [seq x ^+ 2 | x : T <- s].
Proof.
case: (posnP (size s)) => [/size0nil ->|h]; first by rewrite /= mul0r expr0n.
have := fsum_sq_shift 0 h; rewrite subr0.
have -> : [seq (x - 0) ^+ 2 | x : T <- s] = [seq x ^+ 2 | x : T <- s].
  by apply: eq_map => x; rewrite subr0.
move=> ->; have h0 : 0 <= fsum [seq (x - fmean s) ^+ 2 | x : T <- s].
  by apply: fsum_ge0; apply/allP => _ /mapP[y _ ->]; rewrite sqr_ge0.
rewrite -(fmeanM h); have := size_gt0_r h; move: (size s)%:R (fmean s) h0 => n m h0 n0.
have -> : n * (fsum [seq (x - m) ^+ 2 | x : T <- s] + n * m ^+ 2)
  = n * fsum [seq (x - m) ^+ 2 | x : T <- s] + (m * n) ^+ 2 by ring.
by rewrite ler_addr mulr_ge0 // ltW.
Qed.

(* a value of a list with sum zero *)
Lemma centred_bound s (e : T) : e \in s -> fsum s = 0 ->
  e ^+ 2 * (size s)%:R <= ((size s)%:R - 1) * fsum [seq x ^+ 2 | x : T <- s].
Proof.
move=> es s0; have pe := perm_to_rem es; set t := rem e s in pe.
have sz : (size s)%:R = (size t)%:R + 1 :> T by rewrite (perm_size pe) /= mulrSr.
have se : fsum t = - e by move: s0; rewrite (fsum_perm pe) /= => h; flra.
have sq : fsum [seq x ^+ 2 | x : T <- s] = e ^+ 2 + fsum [seq x ^+ 2 | x : T <- t].
  by rewrite (fsum_perm (perm_map (fun x => x ^+ 2) pe)).
have := fsum_sq t; rewrite sz sq se sqrrN.
by move: (size t)%:R (fsum _) (e ^+ 2) => n q u h; rewrite addrK mulrDr mulr1 mulrDr mulrC; flra.
Qed.

(* a value and the mean, in standard deviations *)
Lemma zscore_bound s (e : T) : e \in s -> (e - fmean s) ^+ 2 <= ((size s)%:R - 1) * fvar s.
Proof.
move=> es; have h0 : (0 < size s)%N by case: s es.
have := @centred_bound [seq x - fmean s | x <- s] (e - fmean s) (map_f _ es).
have -> : [seq x - fmean s | x <- s] = [seq 1 * x + (- fmean s) | x <- s] by apply: eq_map => x; rewrite mul1r.
rewrite fsum_affine mul1r mulNr fmeanM // subrr size_map => /(_ erefl).
rewrite -map_comp; have -> : [seq ((fun x => x ^+ 2) \o (fun x => 1 * x - fmean s)) i | i <- s]
  = [seq (x - fmean s) ^+ 2 | x <- s] by apply: eq_map => x /=; rewrite mul1r.
rewrite -(fvarM h0) mulrA => h; have := size_gt0_r h0 => n0.
by rewrite -(ler_pmul2r n0).
Qed.

End Bound.

Section Distances.
Variables (T : rcfType) (p : nat).
Implicit Types (X : seq 'rV[T]_p).

Lemma fsumE (s : seq T) : fsum s = \sum_(x <- s) x.
Proof. by elim: s => [|x s IH]; rewrite ?big_nil // big_cons -IH. Qed.

Lemma classical_distance_bound X x : (1 < size X)%N -> cov X \in unitmx -> x \in X ->
  maha_sq (invmx (cov X)) (vmean X) x * (size X)%:R <= ((size X)%:R - 1) ^+ 2.
Proof.
move=> h1 uC xX; set n := (size X)%:R : T; set m := vmean X; set P := invmx (cov X).
have n1 : 0 < n - 1 by rewrite subr_gt0 ltr1n.
have sz : \sum_(z <- X) (z - m) = 0.
  rewrite sumrB big_const_seq count_predT iter_addr_0 /m /vmean -scaler_nat scalerA mulfV ?scale1r ?subrr //.
  by rewrite pnatr_eq0; lia.
have sP : P^T = P by rewrite /P trmx_inv (proj1 (psd_cov X)).
pose d (z : 'rV[T]_p) := ((x - m) *m P *m (z - m)^T) 0 0.
have dx : maha_sq P m x = d x by rewrite maha_sqE.
have s0 : fsum [seq d z | z <- X] = 0.
  by rewrite fsumE big_map -summxE -mulmx_sumr -linear_sum sz linear0 mulmx0 mxE.
have s2 : fsum [seq u ^+ 2 | u <- [seq d z | z <- X]] = (n - 1) * d x.
  rewrite fsumE !big_map.
  have e z : d z ^+ 2 = ((x - m) *m P *m ((z - m)^T *m (z - m)) *m (P *m (x - m)^T)) 0 0.
    rewrite !mulmxA -[_ *m (z - m) *m P *m _]mulmxA -[_ *m (z - m) *m _]mulmxA mxE big_ord1 expr2; congr (_ * _).
    have -> : (z - m) *m (P *m (x - m)^T) = ((x - m) *m P *m (z - m)^T)^T.
      by rewrite !trmx_mul trmxK sP.
    by rewrite [RHS]mxE.
  rewrite (eq_bigr _ (fun z _ => e z)) -summxE -mulmx_suml -mulmx_sumr.
  have -> : \sum_(z <- X) (z - m)^T *m (z - m) = (n - 1) *: cov X.
    by rewrite /cov scalerA mulfV ?scale1r // gt_eqF.
  by rewrite -scalemxAr -scalemxAl mxE /d -!mulmxA [cov X *m _]mulmxA mulmxV // mul1mx !mulmxA.
have := centred_bound (map_f d xX) s0; rewrite s2 size_map -/n dx.
have d0 : 0 <= d x.
  rewrite -dx maha_sqE; have [//|nz] := eqVneq (x - m) 0; first by rewrite /P => ->; rewrite !mul0mx mxE.
  by apply: ltW; apply: posdef_inv nz; apply: psd_unit_posdef uC; exact: psd_cov.
have [->|nz] := eqVneq (d x) 0; first by rewrite mul0r sqr_ge0.
have dp : 0 < d x by rewrite lt_def nz.
by move=> h; rewrite -(ler_pmul2r dp) mulrAC -expr2 (le_trans h) // mulrA -expr2.
Qed.

End Distances.

Section Map.
Variables (T : rcfType) (p : nat) (q75 : T).
Variable argsort : seq (xnum T) -> seq nat.
Variables (chi2_ppf : T -> nat -> T) (gamma_cdf : T -> T -> T).
Variables (G : Type) (choice : G -> nat -> nat -> seq nat * G) (choice1 : G -> seq nat -> nat * G).
Variable pinvh : 'M[T]_p -> 'M[T]_p.
Implicit Types (X : seq 'rV[T]_p) (y r f : seq T).

Lemma residual_scale_ge0 b r : 0 <= q75 -> 0 <= residual_scale q75 b r.
Proof. by move=> h; case: b => /=; rewrite ?sqrtr_ge0 // divr_ge0 // fmad_ge0. Qed.

Lemma residual_scale_mul b r (c : T) : 0 < c ->
  residual_scale q75 b [seq c * e | e <- r] = c * residual_scale q75 b r.
Proof.
move=> c0; have -> : [seq c * e | e <- r] = [seq c * e + 0 | e <- r] by apply: eq_map => e; rewrite addr0.
case: b => /=.
  case: (posnP (size r)) => [/size0nil ->|h]; first by rewrite /fmad /fmed /fsort /= !addr0 !mul0r mulr0.
  by rewrite fmad_affine // gtr0_norm // -mulrA.
by rewrite fvar_affine sqrtrM ?sqr_ge0 // sqrtr_sqr gtr0_norm.
Qed.

Lemma standardized_mul b r (c : T) : 0 < c ->
  standardized q75 b [seq c * e | e <- r] = standardized q75 b r.
Proof.
move=> c0; rewrite /standardized residual_scale_mul // -map_comp; apply: eq_map => e /=.
rewrite mulf_eq0 (gt_eqF c0) /=; case: ifP => s0.
  by rewrite /inf_sign !pmulr_rgt0 // pmulr_rlt0.
by congr Fin; rewrite invfM mulrACA mulfV ?mul1r // gt_eqF.
Qed.

Lemma sub_columns_mul y f (c : T) :
  sub_columns [seq c * e | e <- y] [seq c * e | e <- f] = rmap (map ( *%R c)) (sub_columns y f).
Proof.
rewrite /sub_columns !size_map; case: ifP => _.
  by congr Ok; rewrite -map_comp; elim: y f => [|a y IH] [|b f] //=; rewrite IH mulrBr.
case: y => [|a [|a' y]]; case: f => [|b [|b' f]] //=; rewrite ?mulrBr //.
- by congr (Ok [:: _, _ & _]); rewrite ?mulrBr // -!map_comp; apply: eq_map => e /=; rewrite mulrBr.
- by congr (Ok [:: _, _ & _]); rewrite ?mulrBr // -!map_comp; apply: eq_map => e /=; rewrite mulrBr.
Qed.

Section Affine.
Variables (A : 'M[T]_p) (b : 'rV[T]_p).
Hypothesis uA : A \in unitmx.
Hypothesis Has : is_xargsort argsort.
Hypothesis Hc : is_choice choice.
Hypothesis Hc1 : is_choice1 choice1.

Let fit := fit_mcd argsort chi2_ppf gamma_cdf choice choice1 pinvh.

Lemma tol8_gt0 : 0 < tol8 T.
Proof. by rewrite /tol8 invr_gt0 exprn_gt0 // ltr0n. Qed.

Lemma finite_Fin (S : 'M[T]_p) : finite_mx (\matrix_(i, j) Fin (S i j)).
Proof. by apply/forallP => i; apply/forallP => j; rewrite mxE. Qed.

Lemma fin_Fin (S : 'M[T]_p) : fin_mx (\matrix_(i, j) Fin (S i j)) = S.
Proof. by apply/matrixP => i j; rewrite !mxE. Qed.

Lemma finite_NaN : (0 < p)%N -> finite_mx (\matrix_(i, j) NaN : 'M[xnum T]_p) = false.
Proof.
move=> p0; apply/forallP => /(_ (Ordinal p0))/forallP/(_ (Ordinal p0)); by rewrite mxE.
Qed.

(* a successful fit of FastMCD *)
Lemma fit_mcdP fuel g X l S0 : (0 < p)%N -> fit fuel g X = Ok (l, S0) <->
  exists o, [/\ fast_mcd argsort chi2_ppf gamma_cdf choice choice1 fuel ANone 500 2 10 None (tol8 T) true true g X = Ok o,
    ~~ few_weights o, (l, S0) = (o_location o, o_scale o),
    exists rd, mahalanobis_distance X l S0 = Ok rd & exists md, classical_distances X l = Ok md].
Proof.
move=> p0; rewrite /fit /fit_mcd /cov_fit /calc_fast_mcd; case: (fast_mcd _ _ _ _ _ _ _ _ _ _ _ _ _ _ _ _) => [o|e|] /=.
- case: (boolP (few_weights o)) => fw; first by rewrite finite_NaN //=; split=> // -[o' [[<-]]]; rewrite fw.
  rewrite finite_Fin /= fin_Fin; split.
    case e1: (mahalanobis_distance _ _ _) => [rd|e|] //=; case e2: (classical_distances _ _) => [md|e|] //= -[<- <-].
    by exists o; split=> //; [exists rd|exists md].
  by move=> [o' [[<-] _ [-> ->] [rd ->] [md ->]]].
- by split=> // -[o []].
- by split=> // -[o []].
Qed.

Lemma classical_t X l : classical_distances (map (tx A b) X) (tx A b l) = classical_distances X l.
Proof.
rewrite /classical_distances size_map; case: ifP => // _; case: ifP => _; first by rewrite -map_comp.
by rewrite cov_t maha_t.
Qed.

Lemma fit_mcd_t fuel g X l S0 : (0 < p)%N -> X != [::] -> fit fuel.+1 g X = Ok (l, S0) ->
  fit fuel.+1 g (map (tx A b) X) = Ok (tx A b l, tm A S0).
Proof.
move=> p0 X0 /fit_mcdP-/(_ p0)[o [ho fw [el eS] [rd hr] [md hm]]]; apply/fit_mcdP => //.
have [_ h] := @fast_mcd_affine_equivariant _ _ _ chi2_ppf gamma_cdf _ _ _ fuel ANone 500 2 10 None (tol8 T) true true g
  X A b Has Hc Hc1 uA X0 tol8_gt0 isT.
have [m em|o' [h1 h2 h3 h4 _]] := h o ho.
  move: fw; rewrite /few_weights em; case: (has id m) (has_count id m) => //; move: (count _ _) => c; lia.
exists o'; split; [exact: h1|by rewrite /few_weights h4|by rewrite h2 h3 el eS|exists rd|exists md].
  by rewrite maha_t.
by rewrite classical_t.
Qed.

End Affine.

End Map.
