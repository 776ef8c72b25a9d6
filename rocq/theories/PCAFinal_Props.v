(* Properties of the final MCD step of ROBPCA. *)
From mathcomp Require Import all_ssreflect all_algebra.
From mathcomp.zify Require Import zify.
From mathcomp.algebra_tactics Require Import ring.
From Verif Require Import RFieldLra Prelude Stats Xnum RatFloor Regr Vec PSD.
From Verif Require Import LinAlg_Model MCD_Model MCD_Proofs OGK_Model Cov_Spec PCA_Model PCA_Spec PCA_Proofs PCA_Props Spectral_Proofs.

Set Implicit Arguments.
Unset Strict Implicit.
Unset Printing Implicit Defensive.

Import Order.TTheory GRing.Theory Num.Theory.
Local Open Scope ring_scope.

Section Final.
Variables (T : rcfType) (p : nat).
Variables (eigh : forall q, 'M[T]_q -> 'rV[T]_q * 'M[T]_q) (as_ : forall q, 'rV[T]_q -> 'I_q -> 'I_q).
Variables (rk : forall q, 'M[T]_q -> nat) (loadings : forall r, seq 'rV[T]_p -> 'M[T]_(p, r)).
Variable outl : forall r, seq 'rV[T]_r -> option nat -> res (seq (xnum T)).
Variables (argsort : seq (xnum T) -> seq nat) (cutoff : seq T -> xnum T).
Implicit Types (mcd : forall d, seq 'rV[T]_d -> res 'M[T]_d).

Notation fit := (robpca_fit eigh as_ rk loadings outl argsort cutoff).

(* C138: with one component requested the final MCD step is never taken: neither the flag nor the
   MCD estimator has any influence *)
Theorem robpca_one_component mcd mcd' (a : T) al (b b' : bool) sd o (X : seq 'rV[T]_p) k :
  n_components o = Some k -> (k <= 1)%N ->
  fit mcd (Params a al b sd) o X = fit mcd' (Params a al b' sd) o X.
Proof.
move=> ek k1; rewrite /robpca_fit; set Y := [seq _ | x <- X].
suff -> : robpca_core eigh as_ rk outl argsort cutoff mcd (Params a al b sd) o Y
        = robpca_core eigh as_ rk outl argsort cutoff mcd' (Params a al b' sd) o Y by [].
rewrite /robpca_core /=; case: (outl _ _) => // s; case: al => // c; case: ifP => // _; rewrite ek.
case: (eigh_cov _ _) => // -[w V]; rewrite /robpca_od_step; case: (eigh_cov _ _) => // -[wv Vv].
rewrite /robpca_mcd_step /=; set A := cov _.
by rewrite [(1 < _)%N]ltnNge (leq_trans (geq_minl k (rk A)) k1) !andbF.
Qed.

(* C138: with the final MCD step the number of components is at most the number requested, and
   when it exceeds one it is at most the rank of the MCD covariance of as many scores as there are
   observations *)
Theorem robpca_final_rank mcd (P : params T) o (X : seq 'rV[T]_p) o' :
  fit mcd P o X = (o', Ok tt) -> exists n, n_components o' = Some n /\
  (forall k, n_components o = Some k -> (n <= k)%N) /\
  (final_mcd P -> (1 < n)%N -> exists d (Z : seq 'rV[T]_d) S,
     [/\ size Z = size X, mcd d Z = Ok S & (n <= rk S)%N]).
Proof.
rewrite /robpca_fit; set Y := [seq _ | x <- X].
have sY : size Y = size X by rewrite size_map.
rewrite /robpca_core; case: (outl _ _) => // s; case: (alpha P) => // c; case: ifP => // _.
case: (eigh_cov _ _) => // -[w V]; set k := (match _ with Some _ => _ | None => _ end).
have hk k' : n_components o = Some k' -> k = k' by rewrite /k => ->.
rewrite /robpca_od_step; case: (eigh_cov _ _) => // -[wv Vv].
set A := cov _; set C := first_cols _ _ _; rewrite /robpca_mcd_step.
case: ifP => [h|h].
  case E: (mcd _ _) => [S|//|//] [<-]; exists (minn (minn k (rk A)) (rk S)); split; first by [].
  split=> [k' /hk <-|_ _]; first by rewrite -minnA geq_minl.
  by do 2 eexists; exists S; split; [|exact: E|exact: geq_minr]; rewrite size_map.
move=> [<-]; exists (minn k (rk A)); split; first by [].
split=> [k' /hk <-|f n1]; first by exact: geq_minl.
by move: h; rewrite f n1.
Qed.

End Final.

(* Cases *)
Section FinalCase.
Variable T : rcfType.
Let pt (a b : T) : 'rV[T]_2 := \row_(j < 2) (if j == 0 then a else b).
Let X3 : seq 'rV[T]_2 := [:: pt 0 0; pt 3%:R 0; pt 0 6%:R].
Notation run rk mcd := (robpca_fit (@eigh_of T) (@eig_order T) rk
  (@case_load T _) (@case_outl T) (@case_sort T) (fun _ : seq T => PInf) mcd).

(* an MCD which always fails goes unnoticed with one component *)
Example robpca_one_component_case :
  let P b : params T := Params (8%:R / 10%:R) (Some (3%:R / 4%:R)) b None in
  let broken d (_ : seq 'rV[T]_d) : res 'M[T]_d := Err ValueError in
  exists o', run (fun q _ => q) broken (P true) (new_obj T (Some 1%N)) X3 = (o', Ok tt) /\
             n_components o' = Some 1%N.
Proof.
move=> P broken.
have [//|//|//|//|//|//|o1 [e1 [//|A [C [_ [n1 _]]]]]] := @case_fitr T (fun q _ => q) 2 (P false) (new_obj T (Some 1%N)) 1 (3%:R / 4%:R) X3.
exists o1; split; last exact: n1.
by rewrite -e1; apply: robpca_one_component.
Qed.

(* two components requested; the MCD covariance has numerical rank 2, or 1 *)
Example robpca_final_rank_case :
  let P : params T := Params (8%:R / 10%:R) (Some (3%:R / 4%:R)) true None in
  let rk1 q (A : 'M[T]_q) := if A == const_mx 1 then 1%N else 2%N in
  let ones d (_ : seq 'rV[T]_d) : res 'M[T]_d := Ok (const_mx 1) in
  exists o1 o2, [/\ run (fun q _ => q) (@case_mcd T) P (new_obj T (Some 2%N)) X3 = (o1, Ok tt),
    n_components o1 = Some 2%N, 
    run rk1 ones P (new_obj T (Some 2%N)) X3 = (o2, Ok tt) & n_components o2 = Some 1%N].
Proof.
move=> P rk1 ones.
have [o1 [e1 n1]] : exists o1, run (fun q _ => q) (@case_mcd T) P (new_obj T (Some 2%N)) X3 = (o1, Ok tt) /\ n_components o1 = Some 2%N.
  rewrite /robpca_fit /robpca_core {1}/case_outl /= /eigh_cov /=.
  case: (eigh_of _) => w V; rewrite /robpca_od_step /eigh_cov /=.
  case: (eigh_of _) => wv Vv; rewrite /robpca_mcd_step /=.
  by eexists.
have [o2 [e2 n2]] : exists o2, run rk1 ones P (new_obj T (Some 2%N)) X3 = (o2, Ok tt) /\ n_components o2 = Some 1%N.
  rewrite /robpca_fit /robpca_core {1}/case_outl /= /eigh_cov /=.
  case: (eigh_of _) => w V; rewrite /robpca_od_step /eigh_cov /=.
  case: (eigh_of _) => wv Vv; rewrite /robpca_mcd_step /= /rk1.
  set A := cov _; have -> : (A == const_mx 1) = false.
    apply/negbTE/eqP => /matrixP /(_ 0 0).
    have m : vmean X3 = pt 1 2%:R.
      by apply/rowP => j; rewrite /vmean !mxE !big_cons big_nil !mxE /=; case: j => [[|[|//]] hj] /=; field.
    have -> : A = cov [seq (x - vmean X3) *m case_load 2 X3 | x <- X3] by [].
    rewrite /cov vmean_centred m big_map size_map 2!mxE summxE !big_cons big_nil !mxE !big_ord_recl !big_ord0 !mxE /=.
    rewrite !big_ord_recl !big_ord0 !mxE /=.
    set e := (X in X = 1 -> _); have -> : e = 3%:R by rewrite /e; field; rewrite ?pnatr_eq0.
    by move/eqP; rewrite -[1]/(1%:R) eqr_nat.
  by rewrite /= eqxx; eexists.
by exists o1, o2.
Qed.

End FinalCase.
