(* Lemmas: OGK. *)
From mathcomp Require Import all_ssreflect all_algebra perm.
From mathcomp.zify Require Import zify.
From mathcomp.algebra_tactics Require Import ring.
From Verif Require Import RFieldLra Prelude Stats Xnum Qn_Model Regr Vec PSD.
From Verif Require Import LinAlg_Model LinAlg_Proofs MCD_Model MCD_Spec MCD_Proofs MCDRun_Proofs MCDEquiv_Proofs OGK_Model OGK_Spec.

Set Implicit Arguments.
Unset Strict Implicit.
Unset Printing Implicit Defensive.

Import Order.TTheory GRing.Theory Num.Theory.
Local Open Scope ring_scope.

Section OGK.
Variables (T : rcfType) (p : nat).
Implicit Types (X Y Z : seq 'rV[T]_p).
Variables scale_est loc_est : seq T -> T.
Variable eigvecs : 'M[T]_p -> 'M[T]_p.
Local Notation step := (ogk_step scale_est eigvecs).

(* the loop and the way back in one recursion *)
Fixpoint ogk_rec (k : nat) Z : res ('rV[T]_p * 'M[T]_p) :=
  if k is k'.+1 then
    do q <- step Z; do mc <- ogk_rec k' q.2; Ok (ogk_back mc q.1)
  else Ok (\row_j loc_est (coln Z j), diag_mx (\row_j (scale_est (coln Z j) ^+ 2))).

Lemma ogk_rawE k X : ogk_raw scale_est loc_est eigvecs k X = ogk_rec k X.
Proof.
have aux k' DE Z : (do q <- ogk_loop scale_est eigvecs k' DE Z;
    Ok (foldl (@ogk_back T p) (\row_j loc_est (coln q.2 j),
          diag_mx (\row_j (scale_est (coln q.2 j) ^+ 2))) q.1))
    = do mc <- ogk_rec k' Z; Ok (foldl (@ogk_back T p) mc DE).
  elim: k' DE Z => [|k' IH] DE Z //=.
  case: (step Z) => [q| |] //=; rewrite IH /=; case: (ogk_rec k' q.2) => //.
by rewrite /ogk_raw aux; case: ogk_rec.
Qed.

Lemma psd_diag_sq (s : 'rV[T]_p) : psd (diag_mx (\row_j (s 0 j ^+ 2))).
Proof.
have -> : diag_mx (\row_j (s 0 j ^+ 2)) = (diag_mx s)^T *m diag_mx s.
  rewrite tr_diag_mx mulmx_diag; congr diag_mx; apply/rowP => j; rewrite !mxE; exact: expr2.
exact: psd_gram.
Qed.

Lemma ogk_rec_psd k Z mc : ogk_rec k Z = Ok mc -> psd mc.2.
Proof.
elim: k Z mc => [|k IH] Z mc /=.
  case=> <- /=.
  have -> : (\row_j (scale_est (coln Z j) ^+ 2)) = \row_j ((ogk_scales scale_est Z) 0 j ^+ 2).
    by apply/rowP => j; rewrite !mxE.
  exact: psd_diag_sq.
case: (step Z) => [q| |] //=; case e: (ogk_rec k q.2) => [mc'| |] //= [<-] /=.
by apply: psd_congr; exact: IH e.
Qed.

(* np.linalg.eigh returns orthonormal eigenvectors of a symmetric matrix *)
Hypothesis Heig : forall U : 'M[T]_p, U^T = U -> (eigvecs U)^T *m eigvecs U = 1%:M.

Lemma ogk_U_sym (Y : seq 'rV[T]_p) : (ogk_U scale_est Y)^T = ogk_U scale_est Y.
Proof.
apply/matrixP => i j; rewrite !mxE eq_sym; case: eqP => // nij.
by case: (ltngtP i j) => // eij; case: nij; apply: val_inj.
Qed.

Lemma rev_cols_orth (E : 'M[T]_p) : E^T *m E = 1%:M -> (rev_cols E)^T *m rev_cols E = 1%:M.
Proof.
move=> h; apply/matrixP => i j; rewrite !mxE.
have := congr1 (fun M : 'M[T]_p => M (rev_ord i) (rev_ord j)) h; rewrite !mxE (inj_eq rev_ord_inj) => <-.
by apply: eq_bigr => k _; rewrite !mxE.
Qed.

Lemma step_mat Z q : step Z = Ok q -> exists E, [/\ E^T *m E = 1%:M, q.1 = diag_mx (ogk_scales scale_est Z) *m E,
   q.2 = [seq y *m E | y <- ogk_Y scale_est Z] & forall j, ogk_scales scale_est Z 0 j != 0].
Proof.
rewrite /ogk_step; case: ifP => // /negbT; rewrite negb_or => /andP[/existsPn h _] [<-] /=.
eexists; split; try by [].
by apply: rev_cols_orth; apply: Heig; exact: ogk_U_sym.
Qed.

Lemma diag_unit (s : 'rV[T]_p) : (forall j, s 0 j != 0) -> diag_mx s \in unitmx.
Proof. by move=> h; rewrite unitmxE det_diag unitfE; apply/prodf_neq0 => j _; exact: h. Qed.

Lemma psd_unit_posdef (S : 'M[T]_p) : psd S -> S \in unitmx -> posdef S.
Proof.
move=> hp uS; have [sS pS] := hp; move=> x x0; rewrite lt_neqAle pS andbT eq_sym; apply/negP => /eqP q0.
(* if the form vanishes at x then x S = 0 *)
have h (y : 'rV[T]_p) : (x *m S *m y^T) 0 0 = 0.
  set b : T := (x *m S *m y^T) 0 0; set c : T := (y *m S *m y^T) 0 0.
  have bE : (y *m S *m x^T) 0 0 = b.
    have -> : (y *m S *m x^T) 0 0 = ((y *m S *m x^T)^T) 0 0 by rewrite [RHS]mxE.
    by rewrite !trmx_mul trmxK sS mulmxA.
  have q t : 0 <= 2%:R * t * b + c.
    have := pS (t *: x + y); have -> : ((t *: x + y) *m S *m (t *: x + y)^T) 0 0
        = t ^+ 2 * (x *m S *m x^T) 0 0 + 2%:R * t * b + c.
      rewrite /b /c -!dotvE mulmxDl -scalemxAl !dotvDl !dotvDr !dotvZl !dotvZr.
      by move: bE; rewrite /b -!dotvE => ->; ring.
    by rewrite q0 mulr0 add0r.
  case: (eqVneq b 0) => // b0; exfalso.
  have c0 : 0 <= c := pS y.
  have := q (- (c + 1) / (2%:R * b)).
  have -> : 2%:R * (- (c + 1) / (2%:R * b)) * b = - (c + 1).
    by field.
  by rewrite leNgt; flra.
have xS : x *m S = 0.
  apply/rowP => j; have := h (delta_mx 0 j); rewrite trmx_delta -colE !mxE => ->; by [].
by move: x0; rewrite -(mulmxK uS x) xS mul0mx eqxx.
Qed.

End OGK.

Section Unit.
Variables (T : rcfType) (p : nat) (scale_est loc_est : seq T -> T) (eigvecs : 'M[T]_p -> 'M[T]_p).
Implicit Types (X Y Z : seq 'rV[T]_p).
Local Notation step := (ogk_step scale_est eigvecs).
Local Notation ogk_rec := (ogk_rec scale_est loc_est eigvecs).
Hypothesis Hunit : forall U : 'M[T]_p, U^T = U -> eigvecs U \in unitmx.

Lemma rev_cols_unit (E : 'M[T]_p) : E \in unitmx -> rev_cols E \in unitmx.
Proof.
move=> uE; have -> : rev_cols E = col_perm (perm (@rev_ord_inj p)) E.
  by apply/matrixP => i j; rewrite !mxE permE.
by rewrite col_permE unitmx_mul uE unitmx_perm.
Qed.

Lemma step_unit Z q : step Z = Ok q -> q.1 \in unitmx.
Proof.
rewrite /ogk_step; case: ifP => // /negbT; rewrite negb_or => /andP[/existsPn h _] [<-] /=.
rewrite unitmx_mul diag_unit //=; apply: rev_cols_unit; apply: Hunit; exact: ogk_U_sym.
Qed.

(* the Z after the last iteration *)
Fixpoint ogk_Z (k : nat) Z : res (seq 'rV[T]_p) :=
  if k is k'.+1 then do q <- step Z; ogk_Z k' q.2 else Ok Z.

Lemma ogk_ZE k DE Z : rmap snd (ogk_loop scale_est eigvecs k DE Z) = ogk_Z k Z.
Proof. by elim: k DE Z => [|k IH] DE Z //=; case: (step Z) => [q| |] //=; rewrite IH. Qed.

Lemma ogk_rec_unit k Z Z' mc : ogk_Z k Z = Ok Z' -> ogk_rec k Z = Ok mc ->
  (forall j, scale_est (coln Z' j) != 0) -> mc.2 \in unitmx.
Proof.
elim: k Z mc => [|k IH] Z mc /=.
  by move=> [<-] [<-] h /=; apply: diag_unit => j; rewrite mxE expf_neq0.
case e0: (step Z) => [q| |] //= eZ; case e: (ogk_rec k q.2) => [mc'| |] //= [<-] h /=.
by rewrite !unitmx_mul unitmx_tr (step_unit e0) (IH _ _ eZ e h).
Qed.

End Unit.

Section Equiv.
Variables (T : rcfType) (p : nat) (scale_est loc_est : seq T -> T) (eigvecs : 'M[T]_p -> 'M[T]_p).
Hypotheses (Hs : scale_equivariant scale_est) (Hl : location_equivariant loc_est).
Hypothesis Heig : orthonormal_eigvecs eigvecs.
Implicit Types (X Z Y : seq 'rV[T]_p) (b c : 'rV[T]_p).

(* the affine map in matrix form *)
Definition aff (c b : 'rV[T]_p) Z := [seq z *m diag_mx c + b | z <- Z].

Lemma affE (c b z : 'rV[T]_p) j : (z *m diag_mx c + b) 0 j = c 0 j * z 0 j + b 0 j.
Proof. by rewrite mul_mx_diag !mxE mulrC. Qed.

Lemma rescaledE c b X : rescaled c b X = aff c b X.
Proof. by apply: eq_map => x; apply/rowP => j; rewrite affE mxE. Qed.

Lemma coln_aff c b Z j : coln (aff c b Z) j = [seq c 0 j * x + b 0 j | x <- coln Z j].
Proof. by rewrite /coln /aff -!map_comp; apply: eq_map => z /=; rewrite affE. Qed.

Lemma scales_aff c b Z j : (0 < size Z)%N -> 0 < c 0 j ->
  ogk_scales scale_est (aff c b Z) 0 j = c 0 j * ogk_scales scale_est Z 0 j.
Proof. by move=> Z0 cj; rewrite !mxE coln_aff Hs // size_map. Qed.

Definition shift1 (c b : 'rV[T]_p) Z : 'rV[T]_p :=
  \row_j (b 0 j / (c 0 j * ogk_scales scale_est Z 0 j)).

Lemma Y_aff c b Z : (0 < size Z)%N -> (forall j, 0 < c 0 j) ->
  ogk_Y scale_est (aff c b Z) = [seq y + shift1 c b Z | y <- ogk_Y scale_est Z].
Proof.
move=> Z0 hc; rewrite {1}/ogk_Y {2}/aff /ogk_Y -!map_comp; apply: eq_map => z; apply/rowP => j /=.
have scl (s z0 : 'rV[T]_p) : (z0 *m diag_mx (\row_k (1 / s 0 k))) 0 j = z0 0 j / s 0 j.
  by rewrite mul_mx_diag !mxE div1r.
rewrite scl [in RHS]mxE scl affE scales_aff // mulrDl; congr (_ + _); last by rewrite [RHS]mxE.
by rewrite invfM mulrACA divff ?mul1r // gt_eqF.
Qed.

Lemma coln_shift b Z j : coln [seq z + b | z <- Z] j = [seq 1 * x + b 0 j | x <- coln Z j].
Proof. by rewrite /coln -!map_comp; apply: eq_map => z /=; rewrite mxE mul1r. Qed.

Lemma zip_map2 (A B C : Type) (f : A -> B) (g : A -> C) s :
  zip (map f s) (map g s) = [seq (f x, g x) | x <- s].
Proof. by elim: s => //= x s ->. Qed.

Lemma sum_shift b Y i j : (0 < size Y)%N ->
  scale_sum scale_est [seq y + b | y <- Y] i j = scale_sum scale_est Y i j.
Proof.
move=> Y0; rewrite /scale_sum /coln !zip_map2 -!map_comp.
rewrite -[RHS]mul1r -(@Hs 1 (b 0 i + b 0 j)) ?size_map ?ltr01 // -!map_comp; congr scale_est.
by apply: eq_map => y /=; rewrite !mxE mul1r addrACA.
Qed.

Lemma diff_shift b Y i j : (0 < size Y)%N ->
  scale_diff scale_est [seq y + b | y <- Y] i j = scale_diff scale_est Y i j.
Proof.
move=> Y0; rewrite /scale_diff /coln !zip_map2 -!map_comp.
rewrite -[RHS]mul1r -(@Hs 1 (b 0 i - b 0 j)) ?size_map ?ltr01 // -!map_comp; congr scale_est.
by apply: eq_map => y /=; rewrite !mxE mul1r opprD addrACA.
Qed.

Lemma U_shift b Y : (0 < size Y)%N ->
  ogk_U scale_est [seq y + b | y <- Y] = ogk_U scale_est Y.
Proof. by move=> Y0; apply/matrixP => i j; rewrite !mxE /ogk_cor !sum_shift // !diff_shift. Qed.

Lemma step_aff c b Z : (0 < size Z)%N -> (forall j, 0 < c 0 j) ->
  ogk_step scale_est eigvecs (aff c b Z)
  = rmap (fun q => (diag_mx c *m q.1, [seq z + shift1 c b Z *m rev_cols (eigvecs (ogk_U scale_est (ogk_Y scale_est Z)))
                                      | z <- q.2])) (ogk_step scale_est eigvecs Z).
Proof.
move=> Z0 hc; have Y0 : (0 < size (ogk_Y scale_est Z))%N by rewrite size_map.
have hd : ogk_degenerate scale_est (aff c b Z) = ogk_degenerate scale_est Z.
  rewrite /ogk_degenerate; congr (_ || _).
    by apply: eq_existsb => j; rewrite scales_aff // mulf_eq0 (gt_eqF (hc j)).
  apply: eq_existsb => i; apply: eq_existsb => j.
  by rewrite Y_aff // sum_shift // diff_shift.
rewrite /ogk_step hd; case: ifP => //= _; rewrite Y_aff // U_shift //; congr (Ok (_, _)).
  rewrite mulmxA mulmx_diag; congr (diag_mx _ *m _); apply/rowP => j.
  by rewrite scales_aff // [in RHS]mxE.
by rewrite -!map_comp; apply: eq_map => y /=; rewrite mulmxDl.
Qed.

Definition tr_est c b (mc : 'rV[T]_p * 'M[T]_p) : 'rV[T]_p * 'M[T]_p :=
  (mc.1 *m diag_mx c + b, diag_mx c *m mc.2 *m diag_mx c).

Lemma rescaled_estE c b mc : rescaled_est c b mc = tr_est c b mc.
Proof.
congr (_, _); first by apply/rowP => j; rewrite affE mxE.
by apply/matrixP => i j; rewrite mul_mx_diag mul_diag_mx !mxE.
Qed.

Lemma aff1 b Z : [seq z + b | z <- Z] = aff (const_mx 1) b Z.
Proof. by apply: eq_map => z; rewrite diag_const_mx mulmx1. Qed.

Lemma tr_est1 b mc : tr_est (const_mx 1) b mc = (mc.1 + b, mc.2).
Proof. by rewrite /tr_est diag_const_mx !mulmx1 mul1mx. Qed.

Lemma rec_aff k c b Z : (0 < size Z)%N -> (forall j, 0 < c 0 j) ->
  ogk_rec scale_est loc_est eigvecs k (aff c b Z)
  = rmap (tr_est c b) (ogk_rec scale_est loc_est eigvecs k Z).
Proof.
elim: k c b Z => [|k IH] c b Z Z0 hc.
  rewrite /= /tr_est; congr (Ok (_, _)).
    by apply/rowP => j; rewrite affE !mxE coln_aff Hl // size_map.
  rewrite !mulmx_diag; congr diag_mx; apply/rowP => j; rewrite !mxE coln_aff Hs ?size_map //.
  by rewrite exprMn expr2 mulrAC.
rewrite /= step_aff //; case e: (ogk_step _ _ Z) => [q| |] //=.
have [E [hE q1 q2 hs]] := step_mat Heig e.
have Z0' : (0 < size q.2)%N by rewrite q2 !size_map.
rewrite aff1 IH //; last by move=> j; rewrite mxE ltr01.
case: (ogk_rec _ _ _ k q.2) => [mc| |] //=; rewrite tr_est1 /ogk_back /tr_est /=.
rewrite !trmx_mul tr_diag_mx !mulmxA; congr (Ok (_, _)).
move: e; rewrite /ogk_step; case: ifP => //= _ [eq]; rewrite -eq /=.
set F := rev_cols _; have hF : F *m F^T = 1%:M.
  by apply: mulmx1C; apply: rev_cols_orth; apply: Heig; exact: ogk_U_sym.
rewrite !mulmxDl; congr (_ + _); rewrite trmx_mul tr_diag_mx.
rewrite -!mulmxA [F *m _]mulmxA hF mul1mx mulmx_diag.
apply/rowP => j; rewrite mul_mx_diag !mxE.
have := hs j; rewrite mxE; have := gt_eqF (hc j).
move: (scale_est _) (c 0 j) (b 0 j) => s cj bj c0 s0.
by rewrite [s * cj]mulrC divfK // mulf_neq0 ?c0.
Qed.

Lemma raw_aff k c b Z : (0 < size Z)%N -> (forall j, 0 < c 0 j) ->
  ogk_raw scale_est loc_est eigvecs k (rescaled c b Z)
  = rmap (rescaled_est c b) (ogk_raw scale_est loc_est eigvecs k Z).
Proof.
move=> Z0 hc; rewrite !ogk_rawE rescaledE rec_aff //.
by case: ogk_rec => //= mc; rewrite rescaled_estE.
Qed.

Variable chi2_ppf : T -> nat -> T.

Lemma affT c b Z : aff c b Z = map (tx (diag_mx c) b) Z.
Proof. by apply: eq_map => z; rewrite /tx tr_diag_mx. Qed.

Lemma mask_aff beta c b X mc : (forall j, 0 < c 0 j) ->
  ogk_mask chi2_ppf beta (aff c b X) (tr_est c b mc) = ogk_mask chi2_ppf beta X mc.
Proof.
move=> hc; rewrite /ogk_mask.
have -> : mahalanobis_distance (aff c b X) (tr_est c b mc).1 (tr_est c b mc).2
    = mahalanobis_distance X mc.1 mc.2; last by [].
have uc : diag_mx c \in unitmx by apply: diag_unit => j; rewrite gt_eqF.
by rewrite affT -[RHS](@maha_t _ _ (diag_mx c) b uc) /tx /tm tr_diag_mx.
Qed.

Lemma count_id (m : seq bool) X : size m = size X -> count id m = size (mask m X).
Proof. by move=> h; rewrite size_mask. Qed.

Lemma ogk_aff k rw beta c b X : (0 < size X)%N -> (forall j, 0 < c 0 j) ->
  ogk scale_est loc_est eigvecs chi2_ppf k rw beta (rescaled c b X)
  = rmap (rescaled_est c b) (ogk scale_est loc_est eigvecs chi2_ppf k rw beta X).
Proof.
move=> X0 hc; rewrite /ogk raw_aff //; case: (ogk_raw _ _ _ _ X) => [mc| |] //=.
case: rw => //=; rewrite rescaled_estE rescaledE mask_aff //.
case em: (ogk_mask _ _ _ _) => [m| |] //=; case: ifP => // hcnt /=.
have sm : size m = size X.
  by move: em; rewrite /ogk_mask; case ed: mahalanobis_distance => [d| |] //= [<-]; rewrite size_map (maha_size ed).
have mm : mask m (aff c b X) = map (tx (diag_mx c) b) (mask m X) by rewrite affT map_mask.
rewrite mm cov_t vmean_t; last by rewrite -size_eq0 -count_id // -lt0n; move: hcnt; case: count.
by rewrite rescaled_estE /tr_est /tx /tm tr_diag_mx.
Qed.

(* the default estimators qualify *)
Lemma mad_equivariant : scale_equivariant (@fmad T).
Proof. by move=> a b xs h a0; rewrite fmad_affine // gtr0_norm. Qed.

Lemma med_equivariant : location_equivariant (@fmed T).
Proof. by move=> a b xs h a0; rewrite fmed_affine. Qed.

End Equiv.

Section Classical.
Variables (T : rcfType) (p : nat) (scale_est loc_est : seq T -> T) (eigvecs : 'M[T]_p -> 'M[T]_p).
Hypotheses (Hs : is_std scale_est) (Hl : is_average loc_est) (Hd : correct_eigvecs eigvecs).
Implicit Types (X Z Y : seq 'rV[T]_p).

Lemma Heig : orthonormal_eigvecs eigvecs.
Proof. by move=> U /Hd []. Qed.

(* the sample variance of a linear form of the rows *)
Lemma std_form Z (a : 'rV[T]_p) : (1 < size Z)%N ->
  scale_est [seq dotv z a | z <- Z] ^+ 2 = quad (cov Z) a.
Proof.
move=> Z1; have n0 : ((size Z).-1)%:R != 0 :> T by rewrite pnatr_eq0 -lt0n -ltnS prednK // ltnW.
apply: (mulfI n0); have := Hs (xs := [seq dotv z a | z <- Z]) (m := dotv (vmean Z) a).
rewrite size_map => -> //; last first.
  rewrite /vmean dotvZl mulrA divff ?mul1r; last by rewrite pnatr_eq0 -lt0n ltnW.
  rewrite big_map; elim: (Z) => [|z l IH]; first by rewrite !big_nil dot0v.
  by rewrite !big_cons dotvDl IH.
rewrite big_map /quad /cov -scalemxAr -scalemxAl mxE natr_pred ?(ltnW Z1) // mulrA divff ?mul1r.
  rewrite mulmx_sumr mulmx_suml summxE; apply: eq_bigr => z _.
  rewrite -dotvBl [in RHS]mulmxA -[a *m _ *m _ *m _]mulmxA.
  by rewrite [RHS]mxE big_ord1 -!dotvE expr2 [dotv a _]dotvC.
by move: n0; rewrite natr_pred // ltnW.
Qed.

Lemma coln_form Z j : coln Z j = [seq dotv z (delta_mx 0 j) | z <- Z].
Proof.
apply: eq_map => z; rewrite /dotv (bigD1 j) //= big1 ?addr0; first by rewrite mxE !eqxx mulr1.
by move=> k kj; rewrite mxE eqxx (negbTE kj) mulr0.
Qed.

Lemma quad_delta (S : 'M[T]_p) i j : ((delta_mx 0 i : 'rV[T]_p) *m S *m (delta_mx 0 j : 'rV[T]_p)^T) 0 0 = S i j.
Proof. by rewrite trmx_delta -rowE -colE !mxE. Qed.

Lemma std_col Z j : (1 < size Z)%N -> scale_est (coln Z j) ^+ 2 = cov Z j j.
Proof. by move=> Z1; rewrite coln_form std_form // /quad quad_delta. Qed.

Lemma cov_sym Z : (cov Z)^T = cov Z.
Proof. by have [] := psd_cov Z. Qed.

Lemma std_sum Z i j : (1 < size Z)%N ->
  scale_sum scale_est Z i j ^+ 2 = cov Z i i + cov Z j j + 2%:R * cov Z i j.
Proof.
move=> Z1; rewrite /scale_sum !coln_form zip_map2 -map_comp.
transitivity (scale_est [seq dotv z (delta_mx 0 i + delta_mx 0 j) | z <- Z] ^+ 2).
  by congr (scale_est _ ^+ 2); apply: eq_map => z /=; rewrite dotvDr.
rewrite std_form // /quad -dotvE mulmxDl !dotvDl !dotvDr !dotvE !quad_delta.
have -> : cov Z j i = cov Z i j by rewrite -{1}cov_sym mxE.
by ring.
Qed.

Lemma std_diff Z i j : (1 < size Z)%N ->
  scale_diff scale_est Z i j ^+ 2 = cov Z i i + cov Z j j - 2%:R * cov Z i j.
Proof.
move=> Z1; rewrite /scale_diff !coln_form zip_map2 -map_comp.
transitivity (scale_est [seq dotv z (delta_mx 0 i - delta_mx 0 j) | z <- Z] ^+ 2).
  by congr (scale_est _ ^+ 2); apply: eq_map => z /=; rewrite dotvBr.
rewrite std_form // /quad -dotvE mulmxBl !dotvBl !dotvBr !dotvE !quad_delta.
have -> : cov Z j i = cov Z i j by rewrite -{1}cov_sym mxE.
by ring.
Qed.

Lemma cov_mul Z (A : 'M[T]_p) : cov [seq z *m A | z <- Z] = A^T *m cov Z *m A.
Proof.
have -> : [seq z *m A | z <- Z] = map (tx A^T 0) Z.
  by apply: eq_map => z; rewrite /tx trmxK addr0.
by rewrite cov_t /tm trmxK.
Qed.

Lemma vmean_mul Z (A : 'M[T]_p) : vmean [seq z *m A | z <- Z] = vmean Z *m A.
Proof. by rewrite /vmean size_map big_map -scalemxAl mulmx_suml. Qed.

Lemma dsd (v w : 'rV[T]_p) (S : 'M[T]_p) i j :
  (diag_mx v *m S *m diag_mx w) i j = v 0 i * S i j * w 0 j.
Proof. by rewrite mul_mx_diag mul_diag_mx !mxE. Qed.

(* the covariance of the standardised rows is their correlation, and equals U *)
Lemma U_cov Z : (1 < size Z)%N -> (forall j, ogk_scales scale_est Z 0 j != 0) ->
  ogk_U scale_est (ogk_Y scale_est Z) = cov (ogk_Y scale_est Z) /\
  forall j, cov (ogk_Y scale_est Z) j j = 1.
Proof.
move=> Z1 hs; set Y := ogk_Y scale_est Z.
have Y1 : (1 < size Y)%N by rewrite size_map.
have d1 j : cov Y j j = 1.
  rewrite /Y /ogk_Y cov_mul tr_diag_mx dsd -std_col // !mxE.
  have := hs j; rewrite mxE; move: (scale_est _) => s s0.
  by rewrite div1r expr2 mulrA mulVf // mul1r divff.
split=> //; apply/matrixP => i j; rewrite mxE; case: eqP => [->|_]; first by rewrite d1.
have aux : forall a b : 'I_p, ogk_cor scale_est Y a b = cov Y a b.
  move=> a b; rewrite /ogk_cor std_sum // std_diff // !d1; move: (cov Y a b) => r.
  have -> : 1 + 1 + 2%:R * r + (1 + 1 - 2%:R * r) = 4%:R by ring.
  have -> : 1 + 1 + 2%:R * r - (1 + 1 - 2%:R * r) = 4%:R * r by ring.
  by rewrite mulrAC divff ?mul1r // pnatr_eq0.
by rewrite !aux; case: ifP => // _; rewrite -{1}cov_sym mxE.
Qed.

Lemma step_classical Z : (1 < size Z)%N -> cov Z \in unitmx ->
  exists q, [/\ ogk_step scale_est eigvecs Z = Ok q, q.1 *m cov q.2 *m q.1^T = cov Z,
    vmean q.2 *m q.1^T = vmean Z & [/\ (exists d, cov q.2 = diag_mx d), cov q.2 \in unitmx & (1 < size q.2)%N]].
Proof.
move=> Z1 uZ; have pZ : posdef (cov Z) := psd_unit_posdef (psd_cov Z) uZ.
have hs j : ogk_scales scale_est Z 0 j != 0.
  rewrite -sqrf_eq0 mxE std_col // gt_eqF // -quad_delta; apply: pZ.
  by apply/eqP => /rowP /(_ j); rewrite !mxE !eqxx => /eqP; rewrite oner_eq0.
have [eU d1] := U_cov Z1 hs; set Y := ogk_Y scale_est Z in eU d1.
have Y1 : (1 < size Y)%N by rewrite size_map.
have hd : ogk_degenerate scale_est Z = false.
  apply/negbTE; rewrite negb_or; apply/andP; split; first by apply/existsPn.
  apply/existsPn => i; apply/existsPn => j; rewrite negb_and; apply/orP; right.
  rewrite -/Y std_sum // std_diff // !d1; move: (cov Y i j) => r.
  have -> : 1 + 1 + 2%:R * r + (1 + 1 - 2%:R * r) = 4%:R by ring.
  by rewrite pnatr_eq0.
rewrite /ogk_step hd -/Y; set E := rev_cols _.
have [oE [d dE]] := Hd (ogk_U_sym scale_est Y).
have oF : E^T *m E = 1%:M := rev_cols_orth oE.
have oF' : E *m E^T = 1%:M := mulmx1C oF.
set s := ogk_scales scale_est Z in hs *.
have eY : Y = [seq z *m diag_mx (\row_j (1 / s 0 j)) | z <- Z] by [].
have sd (v : 'rV[T]_p) : (forall j, v 0 j = 1 :> T) -> diag_mx v = 1%:M :> 'M[T]_p.
  by move=> hv; rewrite -diag_const_mx; congr diag_mx; apply/rowP => j; rewrite hv mxE.
have sl : diag_mx (\row_j (1 / s 0 j)) *m diag_mx s = 1%:M.
  by rewrite mulmx_diag; apply: sd => j; rewrite mxE [X in X * _]mxE div1r mulVf.
have sr : diag_mx s *m diag_mx (\row_j (1 / s 0 j)) = 1%:M by exact: mulmx1C.
move: eY sl sr; set Di := diag_mx (\row_j _); set D := diag_mx s => eY sl sr.
have tD : D^T = D by rewrite tr_diag_mx.
have tDi : Di^T = Di by rewrite tr_diag_mx.
have cY : cov Y = Di *m cov Z *m Di by rewrite eY cov_mul tDi.
eexists; split; first by []; rewrite /= ?(cov_mul Y) ?(vmean_mul Y).
- rewrite trmx_mul tD !mulmxA -(mulmxA D E) oF' mulmx1.
  rewrite -(mulmxA (D *m cov Y) E) oF' mulmx1.
  by rewrite cY !mulmxA sr mul1mx -mulmxA sl mulmx1.
- by rewrite trmx_mul tD mulmxA -(mulmxA (vmean Y) E) oF' mulmx1 eY vmean_mul -mulmxA sl mulmx1.
- split; last by rewrite size_map.
  + exists (\row_j d 0 (rev_ord j)); apply/matrixP => i j.
    have := congr1 (fun M : 'M[T]_p => M (rev_ord i) (rev_ord j)) dE; rewrite -eU.
    rewrite [X in _ -> _ = X]mxE [X in _ = X -> _]mxE (inj_eq rev_ord_inj) mxE => <-.
    rewrite [LHS]mxE [RHS]mxE; apply: eq_bigr => k _; rewrite [in LHS]mxE [in RHS]mxE [X in _ * X = _]mxE.
    by congr (_ * _); apply: eq_bigr => l _; rewrite !mxE.
  + have [uE _] := mulmx1_unit oF'.
    have [uD _] := mulmx1_unit sl.
    by rewrite !unitmx_mul unitmx_tr uE cY !unitmx_mul uZ uD.
Qed.

Lemma rec_classical k Z : (1 < size Z)%N -> cov Z \in unitmx ->
  (0 < k)%N \/ (exists d, cov Z = diag_mx d) ->
  ogk_rec scale_est loc_est eigvecs k Z = Ok (vmean Z, cov Z).
Proof.
elim: k Z => [|k IH] Z Z1 uZ.
  case=> // -[d eD] /=; congr (Ok (_, _)).
    apply/rowP => j; rewrite mxE; have n0 : (size Z)%:R != 0 :> T by rewrite pnatr_eq0 -lt0n ltnW.
    apply: (mulfI n0); have := @Hl (coln Z j); rewrite size_map => ->; last by rewrite ltnW.
    have [_ ->] := is_mean_vmean (ltnW Z1); by rewrite big_map.
  rewrite eD; congr diag_mx; apply/rowP => j; rewrite mxE std_col // eD mxE eqxx //.
move=> _; have [q [e cq mq [dq uq sq]]] := step_classical Z1 uZ.
by rewrite /= e /= IH //; [rewrite /ogk_back /= cq mq | right].
Qed.

End Classical.

Section Reweight.
Variables (T : rcfType) (p : nat) (chi2_ppf : T -> nat -> T).
Implicit Types (X : seq 'rV[T]_p) (mc : 'rV[T]_p * 'M[T]_p).

Definition dists X mc : seq T := [seq Num.sqrt (maha_sq (invmx mc.2) mc.1 x) | x <- X].

Lemma maskE beta X mc : psd mc.2 -> mc.2 \in unitmx ->
  ogk_mask chi2_ppf beta X mc = Ok [seq u < Num.sqrt (chi2_ppf beta p / chi2_ppf (1 / 2%:R) p)
     * fmed (dists X mc) | u <- dists X mc].
Proof.
move=> ps us; rewrite /ogk_mask maha_fin //= -/(dists X mc).
have -> : [seq fin u | u <- map (@Fin T) (dists X mc)] = dists X mc.
  by rewrite -map_comp -[RHS]map_id; apply: eq_map.
by rewrite -map_comp.
Qed.

Lemma mask_few beta X mc m : psd mc.2 -> mc.2 \in unitmx ->
  Num.sqrt (chi2_ppf beta p / chi2_ppf (1 / 2%:R) p) <= 1 ->
  ogk_mask chi2_ppf beta X mc = Ok m -> (2 * count id m <= size X)%N.
Proof.
move=> ps us f1; rewrite maskE // => -[<-]; rewrite count_map.
have := fmed_half_ge (dists X mc); set D := dists X mc; set f := Num.sqrt _ in f1 *.
have <- : size D = size X by rewrite size_map.
have hD : 0 <= fmed D by apply: fmed_ge0 => x /mapP[y _ ->]; exact: sqrtr_ge0.
have : (count (preim (fun u => (u < f * fmed D)%R) id) D <= count (fun x => ~~ (fmed D <= x)%R) D)%N.
  apply: sub_count => x /=; rewrite -ltNge => /lt_le_trans; apply.
  by rewrite -[X in _ <= X]mul1r ler_wpmul2r.
have := count_predC (fun x => fmed D <= x) D.
rewrite /predC /preim /=; move: (count _ D) (count _ D) (count _ D) (size D) => a b c n; lia.
Qed.

Lemma mask_half beta X mc m : psd mc.2 -> mc.2 \in unitmx ->
  1 < Num.sqrt (chi2_ppf beta p / chi2_ppf (1 / 2%:R) p) -> 0 < fmed (dists X mc) ->
  ogk_mask chi2_ppf beta X mc = Ok m -> (size X <= 2 * count id m)%N.
Proof.
move=> ps us f1 m0; rewrite maskE // => -[<-]; rewrite count_map.
have := fmed_half_le (dists X mc); move: m0; set D := dists X mc => m0; set f := Num.sqrt _ in f1 *.
have <- : size D = size X by rewrite size_map.
move=> /leq_trans; apply; rewrite leq_mul2l /=; apply: sub_count => x /= /le_lt_trans; apply.
by rewrite -[X in X < _]mul1r ltr_pmul2r.
Qed.

Lemma mask_none beta X mc m : psd mc.2 -> mc.2 \in unitmx -> fmed (dists X mc) = 0 ->
  ogk_mask chi2_ppf beta X mc = Ok m -> count id m = 0%N.
Proof.
move=> ps us m0; rewrite maskE // m0 mulr0 => -[<-]; rewrite count_map.
apply/eqP; rewrite -leqn0 leqNgt -has_count; apply/hasPn => x /mapP[y _ ->] /=.
by rewrite ltNge sqrtr_ge0.
Qed.

End Reweight.
