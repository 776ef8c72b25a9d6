(* Lemmas on the PCA estimators. *)
From mathcomp Require Import all_ssreflect all_algebra.
From mathcomp.zify Require Import zify.
From mathcomp.algebra_tactics Require Import ring.
From Verif Require Import RFieldLra Prelude Stats Xnum RatFloor Regr Vec PSD Qn_Model UMcd_Model UMcd_Props.
From Verif Require Import LinAlg_Model MCD_Model MCD_Proofs OGK_Model Cov_Spec PCA_Model PCA_Spec.

Set Implicit Arguments.
Unset Strict Implicit.
Unset Printing Implicit Defensive.

Import Order.TTheory GRing.Theory Num.Theory.
Local Open Scope ring_scope.

Section Base.
Variables (T : rcfType) (p k : nat).
Implicit Types (loc x : 'rV[T]_p) (C : 'M[T]_(p, k)).

Lemma orth_resid loc C x : orthonormal C -> ((x - loc) - project loc C x) *m C = 0.
Proof. by move=> o; rewrite mulmxBl /project -mulmxA o mulmx1 subrr. Qed.

Lemma dotv_mulmxT q (u : 'rV[T]_q) (C : 'M[T]_(p, q)) (v : 'rV[T]_p) : dotv v (u *m C^T) = dotv (v *m C) u.
Proof. by rewrite !dotvE trmx_mul trmxK mulmxA. Qed.

Lemma orth_dist_sq loc C x : orth_dist loc C x ^+ 2
  = dotv ((x - loc) - project loc C x) ((x - loc) - project loc C x).
Proof. by rewrite vnormK. Qed.

Lemma project_full loc (C : 'M[T]_p) x : C *m C^T = 1%:M -> project loc C x = x - loc.
Proof. by move=> e; rewrite /project /transform -mulmxA e mulmx1. Qed.

End Base.

Section SelectK.
Variable T : rcfType.
Implicit Types (thr : T) (w : seq T).

Lemma xle_share thr w j : 0 < fsum w ->
  xle (Fin thr) (xdiv (Fin (fsum (take j w))) (Fin (fsum w))) = (thr * fsum w <= fsum (take j w)).
Proof. by move=> h; rewrite /= gt_eqF //= ler_pdivl_mulr. Qed.

Lemma select_kE thr w : select_k thr w =
  (if has (fun j => xle (Fin thr) (xdiv (Fin (fsum (take j.+1 w))) (Fin (fsum w)))) (iota 0 (size w))
   then find (fun j => xle (Fin thr) (xdiv (Fin (fsum (take j.+1 w))) (Fin (fsum w)))) (iota 0 (size w))
   else 0%N).+1.
Proof. by rewrite /select_k /var_explained has_map has_map !find_map. Qed.

End SelectK.

Section Cols.
Variable T : rcfType.

Lemma colsel_ortho a r d (V : 'M[T]_(a, r)) (f : 'I_d -> 'I_r) :
  orthonormal V -> injective f -> orthonormal (\matrix_(i, j) V i (f j)).
Proof.
move=> o inj; apply/matrixP => i j; have e := o; move/matrixP: e => /(_ (f i) (f j)) e.
transitivity ((V^T *m V) (f i) (f j)).
  by rewrite !mxE; apply: eq_bigr => l _; rewrite !mxE.
by rewrite e !mxE (inj_eq inj).
Qed.

Lemma first_cols_ortho a r k (V : 'M[T]_(a, r)) (idx : 'I_r -> 'I_r) :
  orthonormal V -> injective idx -> orthonormal (first_cols k V idx).
Proof. by move=> o inj; apply: colsel_ortho => // i j /inj /(congr1 val) /= e; apply: val_inj. Qed.

Lemma last_flip_ortho a r k (V : 'M[T]_(a, r)) : orthonormal V -> orthonormal (last_flip k V).
Proof.
move=> o; apply: colsel_ortho => // i j /rev_ord_inj /(congr1 val) /= e; exact: val_inj.
Qed.

Lemma mul_ortho a b c (A : 'M[T]_(a, b)) (B : 'M[T]_(b, c)) :
  orthonormal A -> orthonormal B -> orthonormal (A *m B).
Proof. by move=> oA oB; rewrite /orthonormal trmx_mul mulmxA -[B^T *m A^T *m A]mulmxA oA mulmx1. Qed.

Lemma eigh_ortho eigh q (A : 'M[T]_q) : good_eigh eigh -> A^T = A -> orthonormal (eigh q A).2.
Proof. by move=> ge sA; have [] := ge q A sA. Qed.

Lemma cov_sym q (Y : seq 'rV[T]_q) : (cov Y)^T = cov Y.
Proof. by have [] := psd_cov Y. Qed.

Lemma desc_inj as_ r (w : 'rV[T]_r) : good_argsort as_ -> injective (desc as_ w).
Proof. by move=> g i j /g /rev_ord_inj. Qed.

End Cols.

Section Mean.
Variables (T : rcfType) (p : nat).
Implicit Types (X : seq 'rV[T]_p).

Lemma vmean_affine q X (M : 'M[T]_(p, q)) v : (0 < size X)%N ->
  vmean [seq x *m M + v | x <- X] = vmean X *m M + v.
Proof.
move=> h; rewrite /vmean size_map big_map big_split /= -mulmx_suml big_const_seq.
rewrite count_predT iter_addr_0 scalerDr scalemxAl; congr (_ + _).
by rewrite -scaler_nat scalerA mulVf ?scale1r // pnatr_eq0 -lt0n.
Qed.

Lemma vmean_centred q X (M : 'M[T]_(p, q)) : vmean [seq (x - vmean X) *m M | x <- X] = 0.
Proof.
rewrite /vmean size_map big_map -mulmx_suml -/(vmean X) sum_dev mul0mx scaler0 //.
Qed.

Lemma vmean0 : vmean (T := T) (p := p) [::] = 0.
Proof. by rewrite /vmean big_nil scaler0. Qed.

End Mean.

Section Core.
Variable T : rcfType.
Variables (eigh : forall q, 'M[T]_q -> 'rV[T]_q * 'M[T]_q) (as_ : forall q, 'rV[T]_q -> 'I_q -> 'I_q).
Variables (rk : forall q, 'M[T]_q -> nat) (outl : forall r, seq 'rV[T]_r -> option nat -> res (seq (xnum T))).
Variables (argsort : seq (xnum T) -> seq nat) (cutoff : seq T -> xnum T).
Variable mcd : forall d, seq 'rV[T]_d -> res 'M[T]_d.
Implicit Types (P : params T) (o : obj T).

Notation core := (robpca_core eigh as_ rk outl argsort cutoff mcd).

(* the parts of a successful run *)
Definition core_post P o r (Y : seq 'rV[T]_r) (res_ : obj T * res (nat * {d : nat & 'M[T]_(r, d)})) : Prop :=
  if res_ is (o', Ok (k3, existT d C)) then
    exists a s (w : 'rV[T]_r) (V : 'M[T]_r),
    let ws := [seq w 0 (desc as_ w j) | j <- enum 'I_r] in
    let k := if n_components o is Some k then k else select_k (k_min_var P) ws in
    [/\ r != 1%N, alpha P = Some a /\ (1%:R / 2%:R <= a <= 1), outl Y (seed P) = Ok s,
        eigh (cov (sel 0 Y (take (h_size a (size Y) (n_components o)) (argsort s)))) = (w, V)
      & [/\ orthonormal C, (d <= minn k r)%N, (k3 = d \/ k3 = 0%N), (0 < size Y)%N
          & explained_variance_ o' = Some (take k ws)]]
  else True.

Lemma core_inv P o r (Y : seq 'rV[T]_r) :
  good_eigh eigh -> good_argsort as_ -> good_rank rk ->
  (forall q (Z : seq 'rV[T]_q) S, mcd Z = Ok S -> S^T = S) ->
  core_post P o Y (core P o Y).
Proof.
rewrite /robpca_core /core_post => ge ga gr sm.
case eo: (outl Y (seed P)) => [s|//|//]; case: (alpha P) => [a|//].
case ha: ((1%:R / 2%:R <= a) && (a <= 1)) => //=; rewrite {1}/eigh_cov; case: ifP => // /negbT; rewrite negb_or => /andP[r1 _].
set hs := sel _ _ _; case E: (eigh (cov hs)) => [w V].
set ws := [seq _ | _ <- enum 'I_r]; set k := if n_components o is Some k then k else _.
rewrite /robpca_od_step; set Yv := [seq y <- Y | _]; rewrite {1}/eigh_cov; case: ifP => // /norP[_ nY].
case Ev: (eigh (cov Yv)) => [wv Vv].
have sY : (0 < size Y)%N.
  rewrite -ltnNge in nY; apply: leq_trans (ltnW nY) _; by rewrite size_filter count_size.
have oC : orthonormal (first_cols (minn k (rk (cov Yv))) Vv (desc as_ wv)).
  apply: first_cols_ortho; last exact: desc_inj.
  by have := eigh_ortho ge (cov_sym Yv); rewrite Ev.
have kr : (minn k (rk (cov Yv)) <= r)%N by apply: leq_trans (geq_minr _ _) (gr _ _).
rewrite /robpca_mcd_step; case: ifP => [_|_]; last first.
  exists a, s, w, V; split=> //; split=> //; last by left; rewrite (minn_idPl kr).
  by rewrite leq_min geq_minr andbT; apply: leq_trans (geq_minl _ _) (geq_minl _ _).
case em: (mcd _) => [Sm|//|//]; exists a, s, w, V; split=> //; split=> //.
- apply: mul_ortho => //; apply: last_flip_ortho; apply: eigh_ortho => //; exact: sm em.
- apply: leq_trans (n_last_le _ _) _.
  by rewrite leq_min geq_minr andbT; apply: leq_trans (geq_minl _ _) (geq_minl _ _).
- rewrite /n_last; case: eqP => [->|_]; [by right|left].
  by move: (rk Sm) kr => x; lia.
Qed.

Notation od_step := (robpca_od_step eigh as_ rk cutoff mcd).

(* the components before the step are overwritten *)
Lemma od_step_state P n l c c' e r (Y : seq 'rV[T]_r) loc k d (H : 'M[T]_(r, d)) :
  let s := od_step P (Obj n l c e) Y loc k H in let s' := od_step P (Obj n l c' e) Y loc k H in
  s.2 = s'.2 /\ (forall q, s.2 = Ok q -> s = s').
Proof.
rewrite /robpca_od_step /=; case: (eigh_cov _ _) => [[wv Vv]|//|//].
by rewrite /set_comp /=.
Qed.

Lemma core_state P o r (Y : seq 'rV[T]_r) :
  let s := core P o Y in let s' := core P (new_obj T (n_components o)) Y in
  s.2 = s'.2 /\ (forall q, s.2 = Ok q -> s = s').
Proof.
rewrite /robpca_core /set_loc /set_ev /=; case: (outl _ _) => [s|//|//].
case: (alpha P) => [a|//]; case: ((1%:R / 2%:R <= a) && (a <= 1)) => //=.
by case: (eigh_cov _ _) => [[w V]|//|//]; exact: od_step_state.
Qed.

End Core.

Section Map.
Variables (T : rcfType) (p : nat) (chi2_975 : nat -> T) (cutoff : seq T -> xnum T).

Lemma outlier_mapE (loc : 'rV[T]_p) d (C : 'M[T]_(p, d)) ev k (X : seq 'rV[T]_p) :
  outlier_map chi2_975 cutoff (Obj (Some k) (Some (existT _ p loc))
    (Some (existT (fun d : nat * nat => 'M[T]_(d.1, d.2)) (p, d) C)) (Some ev)) X =
  do sd <- mapM (score_dist ev loc C) X;
  Ok (sd, [seq orth_dist loc C x | x <- X], Num.sqrt (chi2_975 k), cutoff [seq orth_dist loc C x | x <- X]).
Proof.
rewrite /outlier_map /=; case: (@eqP nat_eqType p p) => // er.
by rewrite (eq_axiomK er) !castmx_id.
Qed.

Lemma mapM_ok (A B : Type) (f : A -> res B) g (s : seq A) : (forall x, f x = Ok (g x)) -> mapM f s = Ok (map g s).
Proof. by move=> h; elim: s => //= x s ->; rewrite h. Qed.

Lemma mapM_err (A B : Type) (f : A -> res B) e x (s : seq A) : (forall x, f x = Err e) -> mapM f (x :: s) = Err e.
Proof. by move=> h; rewrite /= h. Qed.

End Map.

Section Subset.
Variables (T : rcfType) (p : nat).
Implicit Types (Y : seq 'rV[T]_p).

Lemma cov_perm Y1 Y2 : perm_eq Y1 Y2 -> cov Y1 = cov Y2.
Proof.
move=> h; have hm : vmean Y1 = vmean Y2 by rewrite /vmean (perm_size h) (perm_big _ h).
by rewrite /cov hm (perm_size h) (perm_big _ h).
Qed.

Lemma sel_perm Y idx : perm_eq idx (iota 0 (size Y)) -> perm_eq (sel 0 Y idx) Y.
Proof.
move=> h; rewrite /sel; apply: perm_trans (perm_map _ h) _.
by rewrite -[X in perm_eq _ X](mkseq_nth 0).
Qed.

End Subset.

Section H.

Lemma floor_mul (a : rat) n : 0 <= a -> (n <= `|rat_floor (a * n%:R)|)%N = (n == 0)%N || (1 <= a).
Proof.
move=> a0; have v0 : 0 <= a * n%:R by rewrite mulr_ge0 ?ler0n.
have /andP[l1 l2] := rat_floorP v0; set f := rat_floor _ in l1 l2 *.
have f0 : 0 <= f by rewrite -ltz_addr1 -(ltr_int rat_numDomainType); apply: le_lt_trans l2.
have fE : (f%:~R : rat) = (`|f|%N)%:R by rewrite pmulrn; congr (_%:~R); rewrite gez0_abs.
case: n => [|n] in v0 f l1 l2 f0 fE *; first by rewrite leq0n.
have n0 : (0 : rat) < n.+1%:R by rewrite ltr0n.
apply/idP/idP => [h|].
  have : (n.+1%:R : rat) <= a * n.+1%:R by apply: le_trans l1; rewrite fE ler_nat.
  by rewrite -{1}[n.+1%:R]mul1r ler_pmul2r.
rewrite /= => h; have : (n.+1%:R : rat) < (`|f|%N).+1%:R.
  apply: le_lt_trans (_ : a * n.+1%:R < _); first by rewrite -{1}[n.+1%:R]mul1r ler_pmul2r.
  by apply: lt_le_trans l2 _; rewrite intrD fE -addn1 natrD lexx.
by rewrite ltr_nat ltnS.
Qed.

Lemma h_size_all (a : rat) n nc : 0 <= a ->
  (n <= h_size a n nc)%N = [|| (n == 0)%N, 1 <= a | (n <= (if nc is Some k then k else 10) + 1)%N].
Proof.
move=> a0; rewrite /h_size leq_max floor_mul // orbA; congr (_ || _).
by set k := if _ is Some _ then _ else _; lia.
Qed.

End H.

Section Tied.
Variable T : rcfType.
Variables (pow23 pow32 : T -> T) (z975 : T) (craw crew : nat -> nat -> T) (q975 : T).

Notation odc := (od_cutoff pow23 pow32 z975 craw crew q975).

Lemma od_cutoff_nan v od : (2 < size od)%N -> (size od %/ 2 + 1 <= count_mem v od)%N -> odc od = NaN.
Proof.
move=> n2 h; rewrite /od_cutoff (@umcd_exact_fit_nan _ _ _ _ _ _ _ (pow23 v)) //.
  rewrite size_map; move: (size od) n2 => n n2 {h}; lia.
apply: leq_trans h _; rewrite count_map; apply: sub_count => d /=; by move/eqP ->.
Qed.

Lemma fsum_zero (s : seq T) : all (pred1 0) s -> fsum s = 0.
Proof. by elim: s => //= x s IH /andP[/eqP -> /IH]; rewrite /fsum /= => ->; rewrite addr0. Qed.

Lemma od_cutoff_zero od : pow23 0 = 0 -> pow32 0 = 0 -> all (pred1 0) od -> xlt (Fin 0) (odc od) = false.
Proof.
move=> e1 e2 h0; have [n2|n2] := leqP (size od) 2; last first.
  rewrite (@od_cutoff_nan 0) //; move: h0; rewrite all_count => /eqP ->; move: (size od) n2 => n n2; lia.
case: od h0 n2 => [|a [|b [|//]]] /=.
- by rewrite /od_cutoff /umcd /=.
- case/andP=> /eqP -> _ _; rewrite /od_cutoff /umcd /= e1 /fvar /fmean /= /fsum /= !(addr0, mul0r, subr0, expr0n).
  by rewrite sqrtr0 mul0r addr0 e2 ltxx.
case/and3P=> /eqP -> /eqP -> _ _; rewrite /od_cutoff /umcd /= e1 /fvar /fmean /= /fsum /= !(addr0, mul0r, subr0, expr0n).
by rewrite sqrtr0 mul0r addr0 e2 ltxx.
Qed.

Lemma ortho_square r d (H : 'M[T]_(r, d)) : d = r -> orthonormal H -> H *m H^T = 1%:M.
Proof. by move=> e; move: H; rewrite e => H o; exact: mulmx1C. Qed.

Lemma orth_dist_full r d (H : 'M[T]_(r, d)) loc x : H *m H^T = 1%:M -> orth_dist loc H x = 0.
Proof.
move=> e; apply/eqP; rewrite /orth_dist vnorm_eq0 /project /transform -mulmxA e mulmx1; by rewrite subrr.
Qed.

End Tied.
