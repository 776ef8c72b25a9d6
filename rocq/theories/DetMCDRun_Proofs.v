(* Lemmas: DetMCD runs through on data without large coplanar groups. *)
From mathcomp Require Import all_ssreflect all_algebra.
From mathcomp.zify Require Import zify.
From mathcomp.algebra_tactics Require Import ring.
From Verif Require Import RFieldLra Prelude Stats Xnum WMean Qn_Model Qn_Spec Qn_Proofs Tau_Model Tau_Proofs Regr Vec
  LinAlg_Model LinAlg_Proofs PSD MCD_Model MCD_Spec MCD_Proofs MCDRun_Proofs MCDEquiv_Proofs
  OGK_Model OGK_Spec OGK_Proofs Cov_Model Cov_Spec Cov_Proofs DetMCD_Model DetMCD_Spec DetMCD_Proofs.

Set Implicit Arguments.
Unset Strict Implicit.
Unset Printing Implicit Defensive.

Import Order.TTheory GRing.Theory Num.Theory.
Local Open Scope ring_scope.

Section Univ.
Variable T : rcfType.
Implicit Types (s : seq T).

Definition few s : Prop := forall c, (4 * count_mem c s <= size s)%N.

Lemma ties2 s : (2 * count (fun d => d == 0%R) (pair_dists s) + size s = \sum_(x <- s) count_mem x s)%N.
Proof.
elim: s => [|x s IH]; first by rewrite big_nil.
rewrite big_cons /= eqxx count_cat count_map.
have -> : count (preim (fun z => `|x - z|) (fun d => d == 0)) s = count_mem x s.
  by apply: eq_count => z /=; rewrite normr_eq0 subr_eq0 eq_sym.
rewrite big_split /= -IH.
have -> : (\sum_(i <- s) (x == i) = count_mem x s)%N.
  rewrite -sum1_count [RHS]big_mkcond /=; apply: eq_bigr => i _; by rewrite eq_sym; case: eqP.
by move: (count _ _) (count _ _) (size s) => a b n; lia.
Qed.

Lemma few_qn s : (0 < size s)%N -> few s -> 0 < qn_of s.
Proof.
move=> h0 hf; have h4 : (4 <= size s)%N.
  case: s h0 hf => // x s _ /(_ x); rewrite /= eqxx; lia.
have h1 : (1 < size s)%N by lia.
rewrite lt_def qn_of_ge0 andbT qn_of_zero // -ltnNge.
have := ties2 s; set t := count _ _ => et.
have ub : (4 * (\sum_(x <- s) count_mem x s) <= size s * size s)%N.
  have e : forall l : seq T, (4 * (\sum_(x <- l) count_mem x s) <= size l * size s)%N.
    elim=> [|x l IH]; first by rewrite big_nil.
    rewrite big_cons mulnDr /= mulSn; exact: leq_add (hf x) IH.
  exact: e.
rewrite /qn_k /qn_h; move: (size s) t et ub h4 => n t et ub h4.
set h := (n %/ 2 + 1)%N; have hh : (n + 1 <= 2 * h)%N by rewrite /h; lia.
have h2 : (2 * (h * (h - 1) %/ 2) = h * (h - 1))%N.
  by have : (2 %| h * (h - 1))%N; [rewrite dvdn2 oddM; lia|move=> /divnK; lia].
clearbody h; nia.
Qed.

Lemma few_mad s : (0 < size s)%N -> few s -> 0 < fmad s.
Proof.
move=> h0 hf; rewrite lt_def fmad_ge0 andbT; apply/negP => /eqP m0.
have := fmed_half_le [seq `|x - fmed s| | x <- s]; rewrite -/(fmad s) m0 size_map count_map.
have -> : count (preim (fun x => `|x - fmed s|) (fun x => x <= 0)) s = count_mem (fmed s) s.
  by apply: eq_count => x /=; rewrite normr_le0 subr_eq0.
move: h0 (hf (fmed s)); move: (count_mem (fmed s) s) (size s) => c n; lia.
Qed.

Lemma few_tau tau_corr s : 0 < tau_corr -> (0 < size s)%N -> few s -> 0 < tau_of tau_corr s.
Proof.
move=> tc h0 hf; have m0 := few_mad h0 hf; rewrite /tau_of /tau /= divr_gt0 ?sqrtr_gt0 //.
rewrite /tau_raw_scale mulr_gt0 // sqrtr_gt0 mul1r mulr_gt0 ?invr_gt0 ?ltr0n //.
rewrite tau_locationE ?c1_ok //; set l := wmean _ _.
have [x xs xl] : exists2 x, x \in s & x != l.
  apply/hasP; apply/negPn/negP => /hasPn e.
  have : count_mem l s = size s by apply/eqP; rewrite -all_count; apply/allP => x /e /negPn.
  move: h0 (hf l); move: (count_mem l s) (size s) => c n; lia.
have pos (y : T) : 0 <= tau_rho 3%:R (xdiv (xsub (Fin y) (Fin l)) (Fin (fmad s))).
  by rewrite /tau_rho; case: xdiv => // *; try case: ifP => _; rewrite sqr_ge0.
rewrite /fsum; move: xs; elim: s {h0 hf} (fmad s) m0 l xl pos => //= y s IH m m0 l xl pos.
rewrite inE => /orP[/eqP <-|xs]; last first.
  by rewrite ltr_paddl // IH.
rewrite ltr_paddr //.
  elim: (s) => //= z s' IH'; by rewrite addr_ge0.
rewrite /= gt_eqF // /tau_rho; case: ifP => _; last by rewrite exprn_gt0 // ltr0n.
by rewrite exprn_even_gt0 //= mulf_eq0 negb_or subr_eq0 xl invr_eq0 gt_eqF.
Qed.

End Univ.

Section Gen.
Variables (T : rcfType) (p : nat).
Implicit Types (X Y Z : seq 'rV[T]_p) (u : 'rV[T]_p).

Definition gen X : Prop := forall u c, u != 0 -> (4 * count (fun x : 'rV[T]_p => dotv x u == c) X <= size X)%N.

Lemma genE X : hyperplanes_hold_a_quarter X -> gen X.
Proof. by []. Qed.

Lemma gen_few X u : gen X -> u != 0 -> few [seq dotv x u | x <- X].
Proof. by move=> h u0 c; rewrite size_map count_map; exact: h. Qed.

Lemma dotv_mul (x u : 'rV[T]_p) (A : 'M[T]_p) : dotv (x *m A) u = dotv x (u *m A^T).
Proof. by rewrite !dotvE trmx_mul trmxK mulmxA. Qed.

Lemma gen_map X (A : 'M[T]_p) b : A \in unitmx -> gen X -> gen [seq x *m A + b | x <- X].
Proof.
move=> uA h u c u0; rewrite size_map count_map.
rewrite (eq_count (a2 := fun x => dotv x (u *m A^T) == c - dotv b u)); last first.
  by move=> x /=; rewrite dotvDl dotv_mul -[in RHS](inj_eq (addIr (dotv b u))) subrK.
apply: h; apply: contra u0 => /eqP e.
have uT : A^T \in unitmx by rewrite unitmx_tr.
by rewrite -[u](mulmxK uT) e mul0mx.
Qed.

Lemma gen_mul X (A : 'M[T]_p) : A \in unitmx -> gen X -> gen [seq x *m A | x <- X].
Proof.
move=> uA h; have := gen_map 0 uA h.
by rewrite (eq_map (f2 := fun x => x *m A)) // => x; rewrite addr0.
Qed.

Lemma dotv_delta (x : 'rV[T]_p) j : dotv x (delta_mx 0 j) = x 0 j.
Proof.
rewrite /dotv (bigD1 j) //= mxE !eqxx mulr1 big1 ?addr0 // => i ij.
by rewrite mxE (negbTE ij) andbF mulr0.
Qed.

Lemma delta_neq0 (j : 'I_p) : (delta_mx 0 j : 'rV[T]_p) != 0.
Proof. by apply/negP => /eqP/rowP/(_ j); rewrite !mxE !eqxx => /eqP; rewrite oner_eq0. Qed.

Lemma gen_col X j : gen X -> few (coln X j).
Proof. by move=> h; rewrite coln_form; apply: gen_few => //; exact: delta_neq0. Qed.

Lemma gen_size X : X != [::] -> (0 < p)%N -> gen X -> (4 <= size X)%N.
Proof.
move=> X0 p0 h; have := gen_col (Ordinal p0) h; case: X X0 {h} => // x X _ /(_ (x 0 (Ordinal p0))).
by rewrite /= eqxx size_map; lia.
Qed.

(* the covariance of at least half of the rows is positive definite *)
Lemma quad_cov Y u : (u *m cov Y *m u^T) 0 0 = ((size Y)%:R - 1)^-1 * \sum_(y <- Y) dotv (y - vmean Y) u ^+ 2.
Proof.
rewrite /cov -scalemxAr -scalemxAl mxE; congr (_ * _).
rewrite mulmx_sumr mulmx_suml summxE; apply: eq_bigr => y _.
rewrite (mulmxA u) -(mulmxA (u *m _)) mxE big_ord1 expr2; congr (_ * _); last by rewrite dotvE.
by rewrite dotvC dotvE.
Qed.

Lemma cov_posdef X (idx : seq nat) : gen X -> X != [::] -> uniq idx -> (forall i, i \in idx -> (i < size X)%N) ->
  (size X <= 2 * size idx)%N -> posdef (cov (sel 0 X idx)).
Proof.
move=> h X0 ui hi hs u u0; have [_ /(_ u) q0] := psd_cov (sel 0 X idx).
rewrite lt_def q0 andbT; apply/negP => /eqP; rewrite quad_cov size_sel => /eqP.
have p0 : (0 < p)%N by rewrite lt0n; apply: contra u0 => /eqP pz; apply/eqP/rowP => j; have := ltn_ord j; rewrite {2}pz.
have n4 := gen_size X0 p0 h.
have s1 : (size idx)%:R - 1 != 0 :> T by rewrite subr_eq0 (eqr_nat _ _ 1); lia.
rewrite mulf_eq0 invr_eq0 (negbTE s1) /= => /eqP e0.
set m := vmean _ in e0.
have hz i : i \in idx -> dotv (nth 0 X i) u = dotv m u.
  move=> ii; apply/eqP; rewrite -subr_eq0 -dotvBl -sqrf_eq0 eq_le sqr_ge0 andbT -e0.
  rewrite /sel big_map (big_rem i) //= ler_addl; apply: sumr_ge0 => k _; exact: sqr_ge0.
have hu := h u (dotv m u) u0.
suff hc : (size idx <= count (fun x : 'rV[T]_p => dotv x u == dotv m u) X)%N.
  by move: hu hc hs n4; move: (count _ _) (size idx) (size X) => c k n; lia.
rewrite -{1}(mkseq_nth 0 X) /mkseq count_map -size_filter; apply: uniq_leq_size => // i ii.
by rewrite mem_filter /= hz // eqxx mem_iota add0n hi.
Qed.

End Gen.

Section RunOk.
Variables (T : rcfType) (p : nat) (tau_corr : T) (enan : err) (tanh ppf : T -> T).
Variable argsort : seq (xnum T) -> seq nat.
Hypothesis Has : is_xargsort argsort.
Variables eigvecs sqrtm : 'M[T]_p -> 'M[T]_p.
Hypothesis He : correct_eigvecs eigvecs.
Hypothesis Hs : is_sqrtm sqrtm.
Hypothesis p1 : (1 < p)%N.
Implicit Types (X Y Z : seq 'rV[T]_p).

Let p0 : (0 < p)%N. Proof. exact: ltnW. Qed.

Lemma gen_standardize X : 0 < tau_corr -> X != [::] -> gen X ->
  exists2 Z, standardize tau_corr enan X = Ok Z & gen Z /\ size Z = size X.
Proof.
move=> tc X0 h; have n4 := gen_size X0 p0 h.
have hp j : 0 < det_scales tau_corr X 0 j.
  have hc : (0 < size (coln X j))%N by rewrite size_map; lia.
  by rewrite mxE; case: ifP => _; [exact: few_qn (gen_col j h)|exact: few_tau (gen_col j h)].
exists (stdz tau_corr X); first by apply/standardize_ok; split=> //; lia.
split; last exact: size_stdz.
have -> : stdz tau_corr X = [seq x *m diag_mx (\row_j (det_scales tau_corr X 0 j)^-1)
            + \row_j (- fmed (coln X j) / det_scales tau_corr X 0 j) | x <- X].
  apply: eq_map => x; apply/rowP => j; rewrite [RHS]mxE mul_mx_diag [LHS]mxE [X in _ = X + _]mxE.
  rewrite [X in _ = _ * X + _]mxE [X in _ = _ + X]mxE mulrBl mulNr //.
apply: (gen_map _ _ h); apply: diag_unit => j; by rewrite mxE invr_eq0 gt_eqF.
Qed.

Lemma orth_unit (E : 'M[T]_p) : E^T *m E = 1%:M -> E \in unitmx.
Proof. by move=> /mulmx1_unit[]. Qed.

Lemma gen_step Z : Z != [::] -> gen Z -> exists2 q, ogk_step (@qn_of T) eigvecs Z = Ok q & gen q.2 /\ q.2 != [::].
Proof.
move=> Z0 h; have n4 := gen_size Z0 p0 h.
have hsc j : 0 < ogk_scales (@qn_of T) Z 0 j.
  by rewrite mxE few_qn ?size_map //; [lia|exact: gen_col].
have gY : gen (ogk_Y (@qn_of T) Z).
  by apply: gen_mul h; apply: diag_unit => j; rewrite mxE mul1r invr_eq0 gt_eqF.
have sY : size (ogk_Y (@qn_of T) Z) = size Z by rewrite size_map.
rewrite /ogk_step ifF; last first.
  apply/negbTE; rewrite negb_or; apply/andP; split.
    by apply/existsPn => j; rewrite gt_eqF.
  apply/existsPn => i; apply/existsPn => j; rewrite negb_and; apply/orP.
  case: (ltnP j i) => ji; [right|by left].
  have ij : i != j by rewrite -(inj_eq val_inj) /= gtn_eqF.
  set Y := ogk_Y _ _ in gY sY *.
  have e1 : scale_sum (@qn_of T) Y i j = qn_of [seq dotv y (delta_mx 0 i + delta_mx 0 j) | y <- Y].
    rewrite /scale_sum /coln zip_map2 -map_comp; congr qn_of; apply: eq_map => y /=.
    by rewrite dotvDr !dotv_delta.
  rewrite gt_eqF // ltr_paddr ?sqr_ge0 // exprn_even_gt0 //= gt_eqF // e1 few_qn //.
    by rewrite size_map sY; lia.
  apply: gen_few gY _; apply/negP => /eqP/rowP/(_ i).
  by rewrite !mxE !eqxx (negbTE ij) addr0 => /eqP; rewrite oner_eq0.
eexists; first by [].
split=> /=; last by rewrite -size_eq0 size_map sY size_eq0.
apply: gen_mul gY; apply: orth_unit; apply: rev_cols_orth.
by apply: (proj1 (He _)); exact: ogk_U_sym.
Qed.

Lemma gen_S6 Z : Z != [::] -> gen Z -> exists2 S, S6 enan eigvecs Z = Ok S & psd S.
Proof.
move=> Z0 h; have [q1 e1 [h1 n1]] := gen_step Z0 h; have [q2 e2 [h2 n2]] := gen_step n1 h1.
suff [S e] : exists S, S6 enan eigvecs Z = Ok S by exists S => //; exact: S6_psd e.
by rewrite /S6 /ogk_raw /= e1 /= e2 /=; eexists.
Qed.

Definition goodest (r : 'rV[T]_p * 'M[T]_p) : Prop := psd r.2 /\ r.2 \in unitmx.

Lemma gen_estimate Z S : Z != [::] -> gen Z -> S^T = S ->
  exists2 r, det_estimate enan eigvecs sqrtm Z (Some S) = Ok r & goodest r.
Proof.
move=> Z0 h sS; rewrite (det_estimate_ok enan He Hs) ?gtn_eqF //.
have hq : [forall j, 0 < qn_of (coln [seq z *m axes eigvecs S | z <- Z] j)].
  apply/forallP => j; apply: few_qn; first by rewrite !size_map lt0n size_eq0.
  apply: gen_col; apply: gen_mul h; apply: orth_unit; exact: (axes_orth He sS).
rewrite hq; eexists; first by [].
by split; [exact: det_sigma_psd|rewrite (det_sigma_unit He)].
Qed.

Lemma gen_estimates X : 0 < tau_corr -> injective tanh -> increasing01 ppf ->
  X != [::] -> gen X -> (forall x, x \in X -> exists j, x 0 j != fmed (coln X j)) ->
  exists Z es, [/\ det_estimates tau_corr enan tanh ppf argsort eigvecs sqrtm X = Ok (Z, es),
    size Z = size X, (0 < size es)%N & forall r, List.In r es -> goodest r].
Proof.
move=> tc ti pi X0 h hm; have [Z ez [gZ sZ]] := gen_standardize tc X0 h.
have n4 := gen_size X0 p0 h.
have Z0 : Z != [::] by rewrite -size_eq0 sZ size_eq0.
have hv j : varies Z j by exact: stdz_nonconst ez.
have [A1 e1 [[s1 _] _ _]] := S1_matrix ti hv.
have [A2 e2 [[s2 _] _ _]] := S2_matrix hv.
have [A3 e3 [[s3 _] _ _]] := S3_matrix pi hv.
have [A4 e4] : exists A4, S4 Z = Some A4.
  case e: (S4 Z) => [A|]; first by exists A.
  move/S4_none: e => [z]; have /standardize_ok[_ hp ->] := ez.
  move=> /mapP[x xX ->] /rowP z0; have [j /negP[]] := hm x xX.
  have := z0 j; rewrite [LHS]mxE [RHS]mxE => /eqP; rewrite mulf_eq0 invr_eq0 (gt_eqF (hp j)) orbF.
  by rewrite subr_eq0.
have [[s4 _] _] : psd A4 /\ \tr A4 = 1 by apply: S4_trace e4; rewrite sZ; lia.
have [A5 e5] : exists A5, S5 argsort Z = Some A5.
  by rewrite /S5 sZ ifF; [eexists|apply/negbTE; rewrite -leqNgt; move: (size X) n4 => n n4; rewrite uphalf_half; lia].
have s5 : A5^T = A5 by move: e5; rewrite /S5; case: ifP => // _ [<-]; case: (psd_cov (sel 0 Z (half_idx argsort Z))).
have [A6 e6 [s6 _]] := gen_S6 Z0 gZ.
have [r1 f1 g1] := gen_estimate Z0 gZ s1.
have [r2 f2 g2] := gen_estimate Z0 gZ s2.
have [r3 f3 g3] := gen_estimate Z0 gZ s3.
have [r4 f4 g4] := gen_estimate Z0 gZ s4.
have [r5 f5 g5] := gen_estimate Z0 gZ s5.
have [r6 f6 g6] := gen_estimate Z0 gZ s6.
exists Z, [:: r1; r2; r3; r4; r5; r6]; split=> //; last first.
  by move=> r /=; do 6 (case=> [<- //|]); case.
rewrite /det_estimates ez [bind (Ok _) _]/= /estimates_S e6 [bind (Ok _) _]/= e1 e2 e3 e4 e5.
by rewrite /= f1 /= f2 /= f3 /= f4 /= f5 /= f6.
Qed.

Variables (chi2_ppf : T -> nat -> T) (gamma_cdf : T -> T -> T).

Lemma gen_unit X (s : hsubset T p) : gen X -> X != [::] -> wf X s -> (size X <= 2 * size (indices s))%N ->
  scale s \in unitmx.
Proof.
move=> h X0 w hs; have [_ u hi] := w; rewrite (wf_scale w).
by apply: posdef_unit; exact: cov_posdef.
Qed.

Lemma gen_candidates X a h Z es : gen X -> X != [::] -> size Z = size X ->
  get_h a (size X) p = Ok h -> (forall r, List.In r es -> goodest r) ->
  exists2 cands, mapM (det_candidate argsort a X Z) es = Ok cands & size cands = size es.
Proof.
move=> g X0 sZ eh; elim: es => [|r es IH] hr; first by exists [::].
have [cs ecs scs] := IH (fun r' h' => hr r' (or_intror h')).
have [pr ur] := hr r (or_introl erefl).
suff [s es'] : exists s, det_candidate argsort a X Z r = Ok s.
  by exists (s :: cs); rewrite /= ?es' /= ?ecs ?scs.
rewrite /det_candidate (maha_fin _ _ pr ur) [bind (Ok _) _]/= /get_subset gtn_eqF // [bind (Ok _) _]/=.
set d := map _ _; have sd : size d = size X by rewrite !size_map sZ.
have [w sz] := take_argsort_wf Has (uphalf (size X)) 0 sd.
apply: (c_step_ok argsort w _ eh); last by rewrite gtn_eqF.
apply: (gen_unit g X0 w); rewrite /= sz uphalf_half; move: (size X) => n; rewrite /minn; case: ifP => _; lia.
Qed.

Lemma fmed_maha X (s : hsubset T p) : gen X -> X != [::] -> psd (scale s) -> scale s \in unitmx ->
  0 < fmed [seq maha2 (scale s) (location s) x | x <- X].
Proof.
move=> g X0 ps us; have n4 := gen_size X0 p0 g.
have pd := psd_unit_posdef ps us.
have g0 x : 0 <= maha2 (scale s) (location s) x.
  by rewrite maha2E; apply: maha_sq_ge0; exact: psd_inv.
set l := [seq _ | x <- X].
have l0 : 0 <= fmed l by apply: fmed_ge0 => _ /mapP[x _ ->].
rewrite lt_def l0 andbT; apply/negP => /eqP m0.
have := fmed_half_le l; rewrite m0 size_map count_map.
set u : 'rV[T]_p := delta_mx 0 (Ordinal p0).
have hu := g u (dotv (location s) u) (delta_neq0 _ _).
move=> hc; have : (count (preim (fun x => maha2 (scale s) (location s) x) (fun v => (v <= 0)%R)) X
   <= count (fun x : 'rV[T]_p => dotv x u == dotv (location s) u) X)%N.
  apply: sub_count => x /=; rewrite leNgt => /negP hx; apply/eqP; congr dotv; apply/eqP; apply/negPn/negP => ne.
  by apply: hx; rewrite maha2E; exact: maha_sq_gt0.
by move: hc hu n4; move: (count _ _) (count _ _) (size X) => c1 c2 n; lia.
Qed.

Lemma gen_post X (s : hsubset T p) cor rew : gen X -> X != [::] -> 0 < chi2_ppf (c05 T) p ->
  psd (scale s) -> scale s \in unitmx ->
  exists2 o, post chi2_ppf gamma_cdf cor rew X s = Ok o & o_best o = Some s.
Proof.
move=> g X0 hq ps us; rewrite /post.
have [S [-> pS uS]] : exists S, [/\ (if cor then correct_covariance chi2_ppf X s else Ok (scale s)) = Ok S, psd S & S \in unitmx].
  case: cor; last by exists (scale s).
  by have [S [e1 e2 e3 _]] := correct_median ps us X0 (fmed_maha g X0 ps us) hq; exists S.
rewrite [bind (Ok _) _]/=; case: rew; last by eexists.
by rewrite /mcd_mask (maha_fin _ _ pS uS) /=; eexists.
Qed.

Lemma gen_run X a h tol cor rew fuel : 0 < tau_corr -> injective tanh -> increasing01 ppf ->
  0 < chi2_ppf (c05 T) p -> 0 < tol ->
  X != [::] -> gen X -> (forall x, x \in X -> exists j, x 0 j != fmed (coln X j)) ->
  ~~ (alpha_eq a 1 || alpha_eq a (size X)) -> get_h a (size X) p = Ok h ->
  exists o s, [/\ det_mcd_run tau_corr enan tanh ppf argsort eigvecs sqrtm chi2_ppf gamma_cdf fuel.+1 a tol cor rew X = Ok o,
     o_best o = Some s & posdef (scale s)].
Proof.
move=> tc ti pi hq t0 X0 g hm na eh; have n4 := gen_size X0 p0 g.
have [Z [es [ee sZ hes hr]]] := gen_estimates tc ti pi X0 g hm.
have [cands ec sc] := gen_candidates g X0 sZ eh hr.
rewrite /det_mcd_run (det_mcd_unfold Has) // ee [bind (Ok _) _]/= ec [bind (Ok _) _]/=.
have [ce|[h' eh' [_ hc]]] := det_candidates_good Has ec; first by move: sc hes; rewrite ce /= => <-.
have ehh : h' = h by move: eh'; rewrite eh => -[].
have gd (s : hsubset T p) : candb X h s.(n_c_steps) s -> psd (scale s) /\ scale s \in unitmx.
  move=> /and3P[/wfP w _ /eqP sz]; split; first exact: wf_psd w.
  apply: (gen_unit g X0 w); rewrite sz.
  have := get_h_ge eh; rewrite /h_default; move: (size X) => n; rewrite /minn; case: ifP => _; lia.
have hgood : all (fun s : hsubset T p => candb X h (n_c_steps s) s) cands.
  by apply: sub_all hc => s /and3P[w _ z]; rewrite /candb w eqxx -ehh z.
have hdet : all (fun s : hsubset T p => determinant s != 0) cands.
  apply: sub_all hgood => s hs; have [_ us] := gd s hs.
  by move: hs => /and3P[/wfP w _ _]; rewrite (wf_det w) detP.
case: cands ec sc hc hgood hdet => [|c l] ec sc hc hgood hdet; first by move: sc hes => /= <-.
rewrite hdet; set sb := foldl _ _ _.
have hsb : candb X h (n_c_steps sb) sb.
  move: hgood; rewrite /sb /= => /andP[]; clear; elim: l c => //= d l IH c hc /andP[hd hl].
  by case: ifP => _; apply: IH.
have [ps us] := gd sb hsb.
have [o eo hb] := gen_post cor rew g X0 hq ps us.
by exists o, sb; split=> //; exact: psd_unit_posdef.
Qed.

End RunOk.
