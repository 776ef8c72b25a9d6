(* Properties of PCALocantore. *)
From mathcomp Require Import all_ssreflect all_algebra.
From mathcomp.zify Require Import zify.
From mathcomp.algebra_tactics Require Import ring.
From Verif Require Import RFieldLra Prelude Stats Xnum RatFloor Regr Vec PSD.
From Verif Require Import LinAlg_Model MCD_Model MCD_Proofs OGK_Model Cov_Spec PCA_Model PCA_Spec PCA_Proofs.
From Verif Require Import Spectral_Proofs SPCA_Proofs.

Set Implicit Arguments.
Unset Strict Implicit.
Unset Printing Implicit Defensive.

Import Order.TTheory GRing.Theory Num.Theory.
Local Open Scope ring_scope.

Section Sign.
Variables (T : rcfType) (p : nat).
Implicit Types (X : seq 'rV[T]_p) (loc u v : 'rV[T]_p).

(* C116: the spatial sign covariance is positive semidefinite with trace 1, and depends on the
   directions of the observations from the location only *)
Theorem spca_sign_cov X loc (c : 'rV[T]_p -> T) :
  [/\ psd (spatial_sign_cov X loc),
      (0 < size X)%N -> (forall x, x \in X -> x != loc) -> \tr (spatial_sign_cov X loc) = 1
    & (forall x, x \in X -> 0 < c x) ->
      spatial_sign_cov [seq loc + c x *: (x - loc) | x <- X] loc = spatial_sign_cov X loc].
Proof.
split; [exact: ssc_psd|exact: ssc_trace|move=> c0].
rewrite !sscE size_map big_map; congr (_ *: _); rewrite !big_seq; apply: eq_bigr => x xX.
by rewrite addrAC subrr add0r usign_ray ?c0.
Qed.

(* C116: replacing one of n observations changes the quadratic form by at most |u|^2 / n, wherever
   the observation is put *)
Theorem spca_sign_influence s1 s2 x y loc u :
  `|quad (spatial_sign_cov (s1 ++ x :: s2) loc) u - quad (spatial_sign_cov (s1 ++ y :: s2) loc) u|
    <= dotv u u / (size (s1 ++ x :: s2))%:R.
Proof.
rewrite !quad_ssc !size_cat /= -mulrBr normrM ger0_norm ?invr_ge0 ?ler0n // mulrC.
apply: ler_wpmul2r; first by rewrite invr_ge0 ler0n.
rewrite !big_cat !big_cons /=.
have h1 := dot_usign_le (x - loc) u; have h2 := dot_usign_le (y - loc) u.
have g1 := sqr_ge0 (dotv (usign (x - loc)) u); have g2 := sqr_ge0 (dotv (usign (y - loc)) u).
by rewrite ler_norml; apply/andP; split; flra.
Qed.

(* C116: rotated (reflected) and shifted data *)
Theorem spca_sign_rotation X loc (Q : 'M[T]_p) v : Q *m Q^T = 1%:M ->
  spatial_sign_cov [seq x *m Q + v | x <- X] (loc *m Q + v) = Q^T *m spatial_sign_cov X loc *m Q.
Proof.
move=> QQ; rewrite !sscE size_map big_map -scalemxAr -scalemxAl; congr (_ *: _).
rewrite mulmx_sumr mulmx_suml; apply: eq_bigr => x _.
by rewrite opprD addrACA subrr addr0 -mulmxBl usign_rot // trmx_mul !mulmxA.
Qed.

End Sign.

Section Fit.
Variables (T : rcfType) (p : nat) (eigh : forall q, 'M[T]_q -> 'rV[T]_q * 'M[T]_q).
Variables (l1 : seq 'rV[T]_p -> res 'rV[T]_p) (m thr : T).
Implicit Types (X : seq 'rV[T]_p) (o : obj T).
Notation fit := (spca_fit eigh l1 m thr).

(* C117: a fit succeeds iff the spatial median is found and is not an observation; the components are
   orthonormal eigenvectors, the variances the squared (scaled) MADs of the scores; there are min(k, p)
   of them, n_components is k also when k > p *)
Theorem spca_fit_spec o X loc : good_eigh eigh -> l1 X = Ok loc -> loc \notin X ->
  exists (V : 'M[T]_p) (w : 'rV[T]_p) ev k,
  [/\ orthonormal V /\ spatial_sign_cov X loc = V *m diag_mx w *m V^T,
      size ev = p /\ (forall j : 'I_p, nth 0 ev j = (m * fmad [seq dotv (x - loc) (\row_i V i j) | x <- X]) ^+ 2),
      n_components o = Some k \/ (n_components o = None /\ k = select_k thr ev)
    & exists C : 'M[T]_(p, minn k p), (forall i (j : 'I_(minn k p)) (j' : 'I_p), j = j' :> nat -> C i j = V i j') /\
      fit o X = (Obj (Some k) (Some (existT _ p loc))
        (Some (existT (fun d : nat * nat => 'M[T]_(d.1, d.2)) (p, minn k p) C)) (Some (take (minn k p) ev)), Ok tt)].
Proof.
move=> He el lX; rewrite /spca_fit el.
have -> : has (fun x => x == loc) X = false.
  by apply/negbTE/hasPn => x xX; apply: contra lX => /eqP <-.
set S := spatial_sign_cov X loc; set E := eigh S.
have sS : S^T = S by have [] := ssc_psd X loc.
have [oE eE] := He p S sS; set V := rev_cols E.2.
pose w : 'rV[T]_p := \row_j E.1 0 (rev_ord j).
set ev := [seq _ | j <- _].
have sev : size ev = p by rewrite size_map size_enum_ord.
pose k := if n_components o is Some k then k else select_k thr ev.
exists V, w, ev, k; split.
- split; first by apply: colsel_ortho => //; exact: rev_ord_inj.
  rewrite eE -/E; apply/matrixP => i j; rewrite !mxE (reindex_inj rev_ord_inj) /=; apply: eq_bigr => l _.
  by rewrite !mul_mx_diag !mxE.
- split=> // j; rewrite (nth_map j) ?size_enum_ord // nth_ord_enum; congr ((m * fmad _) ^+ 2).
  by apply: eq_map => x; rewrite /transform mxE /dotv; apply: eq_bigr => l _; rewrite !mxE.
- by rewrite /k; case: (n_components o) => [k'|]; [left|right].
exists (first_cols k V id); split.
  by move=> i j j' e; rewrite !mxE; congr (E.2 i _); apply: val_inj; rewrite /= e.
suff e : take k ev = take (minn k p) ev by rewrite -e.
have [kp|kp] := leqP k p => //.
by rewrite !take_oversize ?sev // ltnW.
Qed.

(* C118: an observation at the spatial median: the weights 1/0 make eigh fail, after location_ has been
   overwritten *)
Theorem spca_at_median o X loc : l1 X = Ok loc -> loc \in X ->
  fit o X = (Obj (n_components o) (Some (existT _ p loc)) (components_ o) (explained_variance_ o), Err LinAlgError).
Proof.
move=> el lX; rewrite /spca_fit el; have -> // : has (fun x => x == loc) X.
by apply/hasP; exists loc.
Qed.

(* C85: a successful fit depends on the object through n_components only *)
Theorem spca_fit_state o X : (fit o X).2 = Ok tt -> fit o X = fit (new_obj T (n_components o)) X.
Proof. by rewrite /spca_fit; case: (l1 X) => //= loc; case: ifP. Qed.

(* C85: a second fit is a fit with the number of components of the first *)
Theorem spca_refit o X X2 : (fit o X).2 = Ok tt -> exists k,
  [/\ n_components (fit o X).1 = Some k, forall k0, n_components o = Some k0 -> k = k0
    & (fit (fit o X).1 X2).2 = Ok tt -> fit (fit o X).1 X2 = fit (new_obj T (Some k)) X2].
Proof.
move=> h; have [k ek] : exists k, n_components (fit o X).1 = Some k.
  by move: h; rewrite /spca_fit; case: (l1 X) => //= loc; case: ifP => //= _ _; eexists.
exists k; split=> // [k0 e0|h2]; last by rewrite -ek; exact: spca_fit_state.
by move: h ek; rewrite /spca_fit e0; case: (l1 X) => //= loc; case: ifP => //= _ _ [].
Qed.

(* C85: an explicit number of components: a refit is a fresh fit *)
Theorem spca_refit_explicit o X X2 k : n_components o = Some k -> (fit o X).2 = Ok tt ->
  (fit (fit o X).1 X2).2 = Ok tt -> fit (fit o X).1 X2 = fit (new_obj T (Some k)) X2.
Proof. by move=> e /(@spca_refit _ _ X2) [k' [ek /(_ _ e) -> h2]]. Qed.

End Fit.

Section Witness.
Variable T : rcfType.

Lemma ratio_ineq (a b : nat) : (0 < a)%N -> (0 < b)%N -> (4 * b * b < 2 * (a * a + b * b) + 4 * a * a)%N ->
  4%:R * ((b%:R : T) ^+ 2 / (a%:R ^+ 2 + b%:R ^+ 2)) < 2%:R + 4%:R * (a%:R ^+ 2 / (a%:R ^+ 2 + b%:R ^+ 2)).
Proof.
move=> a0 b0 h; have s0 : (0 : T) < a%:R ^+ 2 + b%:R ^+ 2.
  by rewrite addr_gt0 // exprn_gt0 // ltr0n.
suff : 4%:R * (b%:R : T) ^+ 2 < 2%:R * (a%:R ^+ 2 + b%:R ^+ 2) + 4%:R * a%:R ^+ 2.
  move: (a%:R ^+ 2) (b%:R ^+ 2) s0 => A B s0; have s1 : A + B != 0 by rewrite gt_eqF.
  by rewrite !mulrA ltr_pdivr_mulr // [X in _ -> _ < X]mulrDl divfK.
rewrite -!natrX -!natrD -!natrM -natrD ltr_nat; lia.
Qed.

(* C119: the variances of the components need not descend: the components are ordered by the
   eigenvalues of the sign covariance, the variances are MADs *)
Theorem spca_variances_descend_refuted (m thr : T) : 0 < m -> exists X : seq 'rV[T]_2,
  forall (eigh : forall q, 'M[T]_q -> 'rV[T]_q * 'M[T]_q) (l1 : seq 'rV[T]_2 -> res 'rV[T]_2), correct_eigh (@eigh 2%N) ->
  (forall A : 'M[T]_2, (eigh _ A).1 0 0 <= (eigh _ A).1 0 1) -> l1 X = Ok 0 ->
  let f := spca_fit eigh l1 m thr (new_obj T (Some 2%N)) X in
  exists v1 v2, [/\ f.2 = Ok tt, explained_variance_ f.1 = Some [:: v1; v2] & v1 < v2].
Proof.
move=> m0; exists (rows 1 4%:R 5%:R) => eigh l1 He Hs el f.
have [||||-> _ ->] := rows_fit m thr He Hs (new_obj T (Some 2%N)) _ _ _ _ el; rewrite ?ltr0n ?ltr01 //; last first.
  exists ((m * 4%:R) ^+ 2), ((m * 5%:R) ^+ 2); split=> //.
  by rewrite ltr_pexpn2r // ?nnegrE ?mulr_ge0 ?ler0n ?(ltW m0) // ltr_pmul2l // ltr_nat.
exact: (@ratio_ineq 4 5).
Qed.

(* C85: with n_components=None a refit can differ from a fresh fit *)
Theorem spca_refit_none_refuted (m : T) : 0 < m -> exists X X2 : seq 'rV[T]_2,
  forall (eigh : forall q, 'M[T]_q -> 'rV[T]_q * 'M[T]_q) (l1 : seq 'rV[T]_2 -> res 'rV[T]_2), correct_eigh (@eigh 2%N) ->
  (forall A : 'M[T]_2, (eigh _ A).1 0 0 <= (eigh _ A).1 0 1) -> l1 X = Ok 0 -> l1 X2 = Ok 0 ->
  let fit := spca_fit eigh l1 m (8%:R / 10%:R) in
  [/\ (fit (new_obj T None) X).2 = Ok tt, (fit (fit (new_obj T None) X).1 X2).2 = Ok tt,
      n_components (fit (fit (new_obj T None) X).1 X2).1 = Some 1%N
    & n_components (fit (new_obj T None) X2).1 = Some 2%N].
Proof.
move=> m0; exists (rows 10%:R 10%:R 1%:R), (rows 1 4%:R 5%:R) => eigh l1 He Hs e1 e2 fit.
have m2 : 0 < m ^+ 2 by rewrite exprn_gt0.
have ns (v w : T) : 0 < v -> 0 < w -> select_k (8%:R / 10%:R) [:: v; w] = (if (8%:R * (v + w) <= 10%:R * v)%R then 1 else 2)%N.
  move=> v0 w0; rewrite select_kE /= /fsum /= !addr0; have vw : 0 < v + w by rewrite addr_gt0.
  have h1 : (8%:R / 10%:R <= v / (v + w)) = (8%:R * (v + w) <= 10%:R * v).
    by rewrite ler_pdivl_mulr // mulrAC ler_pdivr_mulr ?ltr0n // [v * _]mulrC.
  have h2 : 8%:R / 10%:R <= (v + w) / (v + w) by rewrite divff ?gt_eqF // ler_pdivr_mulr ?ltr0n // mul1r ler_nat.
  by rewrite gt_eqF //= h1 h2 orbT; case: ifP.
have k1 : select_k (8%:R / 10%:R) [:: (m * 10%:R) ^+ 2; (m * 1%:R) ^+ 2] = 1%N.
  rewrite ns; try by rewrite exprn_gt0 // mulr_gt0 // ltr0n.
  rewrite !exprMn ifT //; move: (m ^+ 2) m2 => q q0; rewrite !expr2; flra.
have k2 : select_k (8%:R / 10%:R) [:: (m * 4%:R) ^+ 2; (m * 5%:R) ^+ 2] = 2%N.
  rewrite ns; try by rewrite exprn_gt0 // mulr_gt0 // ltr0n.
  rewrite !exprMn ifF //; apply/negbTE; rewrite -ltNge; move: (m ^+ 2) m2 => q q0; rewrite !expr2; flra.
have p1 : (0 : T) < 10%:R by rewrite ltr0n.
have p2 : (0 : T) < 1%:R by rewrite ltr0n.
have p4 : (0 : T) < 4%:R by rewrite ltr0n.
have p5 : (0 : T) < 5%:R by rewrite ltr0n.
have i1 : 4%:R * ((1%:R : T) ^+ 2 / (10%:R ^+ 2 + 1%:R ^+ 2)) < 2%:R + 4%:R * (10%:R ^+ 2 / (10%:R ^+ 2 + 1%:R ^+ 2)).
  exact: (@ratio_ineq 10 1).
have i2 : 4%:R * ((5%:R : T) ^+ 2 / (4%:R ^+ 2 + 5%:R ^+ 2)) < 2%:R + 4%:R * (4%:R ^+ 2 / (4%:R ^+ 2 + 5%:R ^+ 2)).
  exact: (@ratio_ineq 4 5).
have F1 o := rows_fit m (8%:R / 10%:R) He Hs o p1 p1 p2 i1 e1.
have F2 o := rows_fit m (8%:R / 10%:R) He Hs o p2 p4 p5 i2 e2.
have [h1 h2 _] := F1 (new_obj T None); rewrite k1 in h2.
have [h3 h4 _] := F2 (fit (new_obj T None) (rows 10%:R 10%:R 1%:R)).1; rewrite h2 in h4.
have [h5 h6 _] := F2 (new_obj T None); rewrite k2 in h6.
by split; [exact: h1|exact: h3|exact: h4|exact: h6].
Qed.

End Witness.

Section Cases.
Variable T : rcfType.
(* 0 as the centre of symmetric data *)
Let l1 (_ : seq 'rV[T]_2) : res 'rV[T]_2 := Ok 0.
Let X := rows (1 : T) 4%:R 5%:R.

Lemma rows_off0 (a b c : T) : a != 0 -> b != 0 -> 0 \notin rows a b c.
Proof.
move=> a1 b1; rewrite /rows !inE !negb_or !(eq_sym 0).
by rewrite !row2_neq0 ?oppr_eq0 ?a1 ?b1.
Qed.

Example spca_sign_cov_case : (forall x, x \in X -> x != 0) /\ (0 < size X)%N /\
  spatial_sign_cov X 0 0 0 = (2%:R + 4%:R * (16%:R / 41%:R)) / 6%:R /\
  spatial_sign_cov X 0 1 1 = 4%:R * (25%:R / 41%:R) / 6%:R.
Proof.
have h : 0 \notin X by apply: rows_off0; rewrite ?oner_eq0 ?pnatr_eq0.
split; first by move=> x xX; apply: contra h => /eqP <-.
split=> //; rewrite !rows_ssc ?ltr0n ?ltr01 //=; split; congr (_ / _).
  by congr (_ + _ * _); rewrite -!natrX -natrD.
by congr (_ * _); rewrite -!natrX -natrD.
Qed.

Example spca_eigh_case : [/\ good_eigh (@eigh_asc T), correct_eigh (@eigh_asc T 2)
  & forall A : 'M[T]_2, (eigh_asc A).1 0 0 <= (eigh_asc A).1 0 1].
Proof. by split; [move=> q; exact: eigh_asc_correct|exact: eigh_asc_correct|move=> A; exact: eigh_asc_le]. Qed.

Example spca_fit_case (m thr : T) : 0 < m ->
  let f o := spca_fit (@eigh_asc T) l1 m thr o X in
  [/\ 0 \notin X, (f (new_obj T (Some 7%N))).2 = Ok tt, n_components (f (new_obj T (Some 7%N))).1 = Some 7%N,
      explained_variance_ (f (new_obj T (Some 7%N))).1 = Some [:: (m * 4%:R) ^+ 2; (m * 5%:R) ^+ 2]
    & f (f (new_obj T (Some 7%N))).1 = f (new_obj T (Some 7%N))].
Proof.
move=> m0 f; have h : 0 \notin X by apply: rows_off0; rewrite ?oner_eq0 ?pnatr_eq0.
have [_ He Hs] := spca_eigh_case.
have p4 : (0 : T) < 4%:R by rewrite ltr0n.
have p5 : (0 : T) < 5%:R by rewrite ltr0n.
have F o := @rows_fit T (@eigh_asc T) l1 m thr He Hs o 1 _ _ ltr01 p4 p5 (@ratio_ineq T 4 5 isT isT isT) erefl.
have [h1 h2 h3] := F (new_obj T (Some 7%N)); split=> //.
have [g1 _ _] := F (f (new_obj T (Some 7%N))).1.
exact: (@spca_refit_explicit _ _ _ _ _ _ (new_obj T (Some 7%N)) X X 7%N erefl h1 g1).
Qed.

Example spca_at_median_case (m thr : T) : let Y := 0 :: X in
  (spca_fit (@eigh_asc T) l1 m thr (new_obj T None) Y)
  = (Obj None (Some (existT _ 2%N (0 : 'rV[T]_2))) None None, Err LinAlgError).
Proof. by move=> Y; rewrite (@spca_at_median _ _ _ _ _ _ _ _ 0) // inE eqxx. Qed.

End Cases.

Print Assumptions spca_sign_cov.
Print Assumptions spca_sign_influence.
Print Assumptions spca_sign_rotation.
Print Assumptions spca_fit_spec.
Print Assumptions spca_at_median.
Print Assumptions spca_fit_state.
Print Assumptions spca_refit.
Print Assumptions spca_refit_explicit.
Print Assumptions spca_variances_descend_refuted.
Print Assumptions spca_refit_none_refuted.
