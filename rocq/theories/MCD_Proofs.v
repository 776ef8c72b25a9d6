(* Proofs about the model of FastMCD and DetMCD. *)
From mathcomp Require Import all_ssreflect all_algebra.
From mathcomp.zify Require Import zify.
From mathcomp.algebra_tactics Require Import ring.
From Verif Require Import RFieldLra Prelude Stats Xnum RatFloor Qn_Model Regr Regr_Proofs Vec PSD.
From Verif Require Import LinAlg_Model LinAlg_Proofs MCD_Model MCD_Spec.

Set Implicit Arguments.
Unset Strict Implicit.
Unset Printing Implicit Defensive.

Import Order.TTheory GRing.Theory Num.Theory.
Local Open Scope ring_scope.

Section Scatter.
Variables (T : rcfType) (p : nat).
Implicit Types (Y X : seq 'rV[T]_p) (m c : 'rV[T]_p) (S M : 'M[T]_p).

Lemma psd_sum (A : Type) (l : seq A) (f : A -> 'M[T]_p) :
  (forall a, psd (f a)) -> psd (\sum_(a <- l) f a).
Proof.
move=> h; elim: l => [|a l IH]; last by rewrite big_cons; apply: psd_add.
rewrite big_nil; split; first by rewrite linear0.
by move=> x; rewrite mulmx0 mul0mx mxE.
Qed.

Lemma cov_small Y : (size Y <= 1)%N -> cov Y = 0.
Proof.
rewrite /cov; case: Y => [|y [|z Y]] //= _; first by rewrite big_nil scaler0.
by rewrite subrr invr0 scale0r.
Qed.

Lemma psd_cov Y : psd (cov Y).
Proof.
case: (leqP (size Y) 1) => [/cov_small ->|hY].
  by split; [rewrite linear0 | move=> x; rewrite mulmx0 mul0mx mxE].
rewrite /cov; apply: psd_scale; last by apply: psd_sum => y; exact: psd_gram.
by rewrite invr_ge0 subr_ge0 ler1n ltnW.
Qed.

Lemma psd_inv S : psd S -> S \in unitmx -> psd (invmx S).
Proof.
move=> [sS pS] uS; have sI : (invmx S)^T = invmx S by rewrite trmx_inv sS.
split=> // x; have := pS (x *m invmx S).
by rewrite mulmxKV // trmx_mul sI mulmxA.
Qed.

Lemma maha_sq_ge0 M m x : psd M -> 0 <= maha_sq M m x.
Proof. by move=> [_ h]; rewrite maha_sqE. Qed.

Lemma sum_dev Y : \sum_(y <- Y) (y - vmean Y) = 0.
Proof.
rewrite big_split /= big_const_seq count_predT iter_addr_0.
case: Y => [|y0 Y0]; first by rewrite big_nil mulr0n add0r.
set Y := y0 :: Y0; set n := size Y; have n0 : (n%:R : T) != 0 by rewrite pnatr_eq0.
by rewrite mulNrn -scaler_nat /vmean scalerA divff // scale1r subrr.
Qed.

Lemma maha_sqD M m c x : M^T = M -> maha_sq M c x
  = maha_sq M m x + 2%:R * dotv ((m - c) *m M) (x - m) + maha_sq M c m.
Proof.
move=> sM; rewrite /maha_sq -[x - c](subrK (m - c)) (_ : x - c - (m - c) = x - m); last first.
  by rewrite opprB addrA subrK.
move: (x - m) (m - c) => u v; rewrite mulmxDl !dotvDl !dotvDr.
have -> : dotv (u *m M) v = dotv (v *m M) u.
  rewrite !dotvE -[v *m M *m u^T]trmxK [in RHS]mxE !trmx_mul trmxK sM mulmxA //.
by ring.
Qed.

Lemma maha_sum M c Y : M^T = M ->
  \sum_(y <- Y) maha_sq M c y
  = \sum_(y <- Y) maha_sq M (vmean Y) y + (size Y)%:R * maha_sq M c (vmean Y).
Proof.
move=> sM; rewrite (eq_bigr _ (fun y _ => maha_sqD (vmean Y) c y sM)) 2!big_split /=.
rewrite -mulr_sumr big_const_seq count_predT iter_addr_0; congr (_ + _); last by rewrite -[LHS]mulr_natl.
rewrite -[RHS]addr0; congr (_ + _).
have -> : \sum_(y <- Y) dotv ((vmean Y - c) *m M) (y - vmean Y)
        = dotv ((vmean Y - c) *m M) (\sum_(y <- Y) (y - vmean Y)).
  move: (vmean Y) => v; elim: Y => [|y Y IH]; first by rewrite !big_nil dotv0.
  by rewrite !big_cons [RHS]dotvDr IH.
by rewrite sum_dev dotv0 mulr0.
Qed.

Lemma maha_tr M m x : maha_sq M m x = \tr (M *m ((x - m)^T *m (x - m))).
Proof. by rewrite mulmxA mxtrace_mulC mulmxA maha_sqE trace_mx11. Qed.

Lemma maha_sum_tr M Y : \sum_(y <- Y) maha_sq M (vmean Y) y
  = ((size Y)%:R - 1) * \tr (M *m cov Y).
Proof.
case: (ltnP 1 (size Y)) => hY; last first.
  rewrite (cov_small hY) mulmx0 mxtrace0 mulr0.
  case: Y hY => [|y [|z Y]] //= _; first by rewrite big_nil.
  by rewrite big_seq1 /vmean big_seq1 /= invr1 scale1r maha_sq0.
have n0 : ((size Y)%:R - 1 : T) != 0 by rewrite subr_eq0 (eqr_nat _ _ 1) neq_ltn hY orbT.
rewrite /cov -scalemxAr mxtraceZ mulrA divff // mul1r mulmx_sumr.
have -> : \tr (\sum_(y <- Y) M *m ((y - vmean Y)^T *m (y - vmean Y)))
        = \sum_(y <- Y) \tr (M *m ((y - vmean Y)^T *m (y - vmean Y))) by rewrite raddf_sum.
by apply: eq_bigr => y _; exact: maha_tr.
Qed.

(* the heart of the C-step theorem *)
Lemma c_step_ineq Y1 Y2 : size Y1 = size Y2 -> cov Y1 \in unitmx ->
  \sum_(y <- Y2) maha_sq (invmx (cov Y1)) (vmean Y1) y
    <= \sum_(y <- Y1) maha_sq (invmx (cov Y1)) (vmean Y1) y ->
  \det (cov Y2) <= \det (cov Y1).
Proof.
move=> sz uS; set M := invmx _ => hle.
have pS := psd_cov Y1; have pM : psd M := psd_inv pS uS.
case: (ltnP 1 (size Y1)) => h1; last by rewrite !cov_small // -?sz.
apply: det_trace => //; first exact: psd_cov.
have n0 : 0 < (size Y1)%:R - 1 :> T by rewrite subr_gt0 ltr1n.
rewrite -(ler_pmul2l n0) {1}sz -maha_sum_tr.
have -> : ((size Y1)%:R - 1) * p%:R = \sum_(y <- Y1) maha_sq M (vmean Y1) y.
  by rewrite maha_sum_tr mulVmx // mxtrace1.
apply: le_trans hle; rewrite (maha_sum _ Y2 (proj1 pM)) ler_addl.
by rewrite mulr_ge0 ?ler0n // maha_sq_ge0.
Qed.

End Scatter.

Section Links.
Variables (T : rcfType) (p : nat).
Implicit Types (Y X : seq 'rV[T]_p) (m c : 'rV[T]_p) (S M : 'M[T]_p).

Lemma is_mean_vmean Y : (0 < size Y)%N -> is_mean Y (vmean Y).
Proof.
move=> h; split=> // j; rewrite mxE mulrA divff ?pnatr_eq0 -?lt0n // mul1r.
by rewrite summxE.
Qed.

Lemma is_meanE Y m : is_mean Y m -> m = vmean Y.
Proof.
move=> [h hm]; apply/rowP => j; have [_ hv] := is_mean_vmean h.
by apply: (@mulfI _ (size Y)%:R); rewrite ?pnatr_eq0 -?lt0n // hm hv.
Qed.

Lemma natr_pred n : (0 < n)%N -> (n.-1%:R : T) = n%:R - 1.
Proof. by case: n => // n _; rewrite /= -[n.+1]addn1 natrD addrK. Qed.

Lemma cov_entry Y j k : (1 < size Y)%N ->
  ((size Y).-1)%:R * cov Y j k
  = \sum_(y <- Y) (y 0 j - vmean Y 0 j) * (y 0 k - vmean Y 0 k).
Proof.
move=> h; rewrite natr_pred ?(ltnW h) // /cov mxE mulrA divff ?mul1r; last first.
  by rewrite subr_eq0 (eqr_nat _ _ 1) neq_ltn h orbT.
rewrite summxE; apply: eq_bigr => y _; rewrite mxE big_ord1.
by rewrite [_^T j 0]mxE; congr (_ * _); rewrite !mxE.
Qed.

Lemma is_cov_cov Y : (1 < size Y)%N -> is_cov Y (cov Y).
Proof.
move=> h; split=> //; exists (vmean Y); first exact: is_mean_vmean (ltnW h).
by move=> j k; exact: cov_entry.
Qed.

Lemma is_covE Y S : is_cov Y S -> S = cov Y.
Proof.
move=> [h [m /is_meanE -> hS]]; apply/matrixP => j k.
apply: (@mulfI _ ((size Y).-1)%:R); last by rewrite hS cov_entry.
by rewrite pnatr_eq0 -lt0n -ltnS prednK // ltnW.
Qed.

Lemma maha2E S m x : maha2 S m x = maha_sq (invmx S) m x.
Proof. by rewrite maha_sqE. Qed.

Lemma sqrt_le (x y : T) : 0 <= x -> 0 <= y -> Num.sqrt x <= Num.sqrt y -> x <= y.
Proof.
by move=> x0 y0; rewrite -(@ler_pexpn2r _ 2) ?nnegrE ?sqrtr_ge0 // !sqr_sqrtr.
Qed.

Lemma detP n (A : 'M[T]_n) : (\det A != 0) = (A \in unitmx).
Proof. by rewrite unitmxE unitfE. Qed.

(* the distances are finite *)
Lemma maha_fin X m S : psd S -> S \in unitmx -> mahalanobis_distance X m S
  = Ok (map (@Fin T) [seq Num.sqrt (maha_sq (invmx S) m x) | x <- X]).
Proof.
move=> pS uS; rewrite /mahalanobis_distance np_inv_ok //=; congr Ok; rewrite -map_comp.
by apply: eq_map => x; rewrite /= /np_sqrt maha_sq_ge0 //; apply: psd_inv.
Qed.

Lemma maha_sing X m S : S \notin unitmx -> mahalanobis_distance X m S = Err LinAlgError.
Proof. by rewrite /mahalanobis_distance /np_inv => /negbTE ->. Qed.

Lemma maha_size X m S d : mahalanobis_distance X m S = Ok d -> size d = size X.
Proof. by rewrite /mahalanobis_distance /np_inv; case: ifP => //= _ [<-]; rewrite size_map. Qed.

Lemma size_sel (A : Type) (d : A) s idx : size (sel d s idx) = size idx.
Proof. by rewrite size_map. Qed.

Lemma sum_sel X (f : 'rV[T]_p -> T) idx :
  \sum_(y <- sel 0 X idx) f y = fsum [seq f (nth 0 X i) | i <- idx].
Proof. by rewrite fsumE /sel !big_map. Qed.

End Links.

Section HSize.

Lemma get_h_ge a n p h : get_h a n p = Ok h -> (h_default n p <= h)%N.
Proof.
case: a => [|i|q] /=; first by move=> [<-].
  case: ifP => _; first by move=> [<-]; rewrite leq_maxr.
  by rewrite /get_h_prop; case: ifP => // _ [<-]; rewrite leq_maxr.
by rewrite /get_h_prop; case: ifP => // _ [<-]; rewrite leq_maxr.
Qed.

Lemma h_default_ge n p : (0 < n)%N -> (1 < p)%N -> (2 <= h_default n p)%N.
Proof. by move=> n0 p1; rewrite /h_default; lia. Qed.

End HSize.

Section CStep.
Variables (T : rcfType) (p : nat).
Variable argsort : seq (xnum T) -> seq nat.
Hypothesis Has : is_xargsort argsort.
Implicit Types (X : seq 'rV[T]_p) (s : hsubset T p).

Let as' (s : seq T) := argsort (map (@Fin T) s).
Let Has' : is_argsort as'.
Proof.
move=> s; split; last by move=> i j; apply: (proj2 Has).
by have := proj1 Has (map (@Fin T) s); rewrite size_map.
Qed.

(* a subset whose attributes are those of its rows *)
Definition wf X s : Prop :=
  [/\ s = mk_subset X (indices s) (n_c_steps s), uniq (indices s)
    & forall i, i \in indices s -> (i < size X)%N].

Lemma wf_mk X idx k : uniq idx -> (forall i, i \in idx -> (i < size X)%N) -> wf X (mk_subset X idx k).
Proof. by []. Qed.

Lemma wf_scale X s : wf X s -> scale s = cov (sel 0 X (indices s)).
Proof. by case=> -> _ _. Qed.
Lemma wf_loc X s : wf X s -> location s = vmean (sel 0 X (indices s)).
Proof. by case=> -> _ _. Qed.
Lemma wf_det X s : wf X s -> determinant s = \det (scale s).
Proof. by case=> -> _ _. Qed.
Lemma wf_psd X s : wf X s -> psd (scale s).
Proof. by move/wf_scale => ->; exact: psd_cov. Qed.

Lemma take_argsort_wf X (d : seq (xnum T)) h k : size d = size X ->
  wf X (mk_subset X (take h (argsort d)) k) /\
  size (take h (argsort d)) = minn h (size X).
Proof.
move=> sd; have pm := proj1 Has d.
have sa : size (argsort d) = size X by rewrite (perm_size pm) size_iota.
split; last by rewrite size_take sa /minn.
apply: wf_mk; first by rewrite take_uniq // (perm_uniq pm) iota_uniq.
by move=> i /mem_take; rewrite (perm_mem pm) mem_iota add0n sd.
Qed.

Lemma c_step_inv a X s s' : c_step argsort a X s = Ok s' ->
  exists2 h, get_h a (size X) p = Ok h &
  [/\ p != 1%N, scale s \in unitmx, wf X s', n_c_steps s' = (n_c_steps s).+1
    & size (indices s') = minn h (size X)].
Proof.
rewrite /c_step; case ed: mahalanobis_distance => [d| |] //=.
case eh: get_h => [h| |] //=; rewrite /get_subset; case: eqP => // /eqP p1 [<-].
have sd := maha_size ed; have [w sz] := take_argsort_wf h (n_c_steps s).+1 sd.
exists h => //; split=> //.
by move: ed; rewrite /mahalanobis_distance /np_inv; case: ifP.
Qed.

Lemma c_step_ok a X s h : wf X s -> scale s \in unitmx -> get_h a (size X) p = Ok h ->
  p != 1%N -> exists s', c_step argsort a X s = Ok s'.
Proof.
move=> w uS eh p1; rewrite /c_step (maha_fin _ _ (wf_psd w) uS) /= eh /= /get_subset.
by rewrite (negbTE p1); eexists.
Qed.

(* the C-step takes the rows with the smallest distances *)
Lemma c_step_closest a X s s' : wf X s -> c_step argsort a X s = Ok s' ->
  closest X (scale s) (location s) (indices s').
Proof.
move=> w e; have [h eh [p1 uS _ _ _]] := c_step_inv e.
have pS := wf_psd w; have pI := psd_inv pS uS.
move: e; rewrite /c_step (maha_fin _ _ pS uS) /= eh /= /get_subset (negbTE p1) => -[<-] /=.
set D := [seq Num.sqrt _ | _ <- _]; have sD : size D = size X by rewrite size_map.
move=> i j; have -> : argsort (map (@Fin T) D) = as' D by [].
move=> iA js jA; have iD : (i < size X)%N.
  by rewrite -sD -(argsort_mem Has'); exact: mem_take iA.
have nD k : (k < size X)%N -> nth 0 D k = Num.sqrt (maha2 (scale s) (location s) (nth 0 X k)).
  by move=> hk; rewrite /D (nth_map 0) // maha2E.
have : nth 0 D i <= nth 0 D j.
  have jS : j \in as' D by rewrite argsort_mem // sD.
  move: iA => /(nthP 0%N)[x]; rewrite size_take (argsort_size Has') => ha <-.
  have [b hb eb] := nthP 0%N jS; rewrite (argsort_size Has') in hb.
  have ah : (x < h)%N by case: ifP ha => // /negbT; lia.
  rewrite nth_take // -eb; have [_ so] := Has' D; apply: so => //.
  case: (leqP x b) => // ba; move: jA; rewrite -eb -(@nth_take h _ 0%N b) ?mem_nth //; last lia.
  by rewrite size_take (argsort_size Has'); case: ifP => // _; lia.
rewrite !nD // !maha2E; apply: sqrt_le; exact: maha_sq_ge0.
Qed.

Lemma c_step_det a X s s' : wf X s -> c_step argsort a X s = Ok s' ->
  size (indices s) = size (indices s') -> determinant s' <= determinant s.
Proof.
move=> w e sz; have [h eh [p1 uS w' _ sz']] := c_step_inv e.
have pS := wf_psd w; have pI := psd_inv pS uS.
rewrite (wf_det w) (wf_det w') (wf_scale w') (wf_scale w).
apply: c_step_ineq; rewrite ?size_sel // -?(wf_scale w) //.
rewrite -(wf_loc w) !sum_sel.
have [_ us ins] := w.
move: e; rewrite /c_step (maha_fin _ _ pS uS) /= eh /= /get_subset (negbTE p1) => -[<-] /=.
set D := [seq Num.sqrt _ | _ <- _]; have sD : size D = size X by rewrite size_map.
apply: (argsort_optimal Has'); rewrite ?sD //.
- by move=> i j hi hj; rewrite /D !(nth_map 0) //; apply: sqrt_le; exact: maha_sq_ge0.
- by apply/allP => i hi; exact: ins.
- by rewrite sz sz'.
Qed.

Lemma c_steps_inv a X k s s' : c_steps argsort a X k.+1 s = Ok s' ->
  exists2 h, get_h a (size X) p = Ok h &
  [/\ wf X s', n_c_steps s' = (n_c_steps s + k.+1)%N & size (indices s') = minn h (size X)].
Proof.
elim: k s => [|k IH] s /=.
  case e: c_step => [t| |] //= -[<-]; have [h eh [_ _ w n sz]] := c_step_inv e.
  by exists h => //; split=> //; rewrite addn1.
case e: c_step => [t| |] // /IH [h eh [w n sz]]; exists h => //; split=> //.
by rewrite n; have [_ _ [_ _ _ -> _]] := c_step_inv e; rewrite addSnnS.
Qed.

(* one trial of the final loop; with a positive tolerance there is no second one *)
Definition trial (a : alpha_arg) X s : res (hsubset T p) :=
  do new <- c_step argsort a X s;
  if size (indices new) != size (indices s) then Err ValueError else Ok s.

Lemma converge_trial fuel a tol X s : 0 < tol -> wf X s ->
  converge argsort fuel.+1 a tol X s = trial a X s.
Proof.
move=> t0 w /=; rewrite /trial; case e: c_step => [t| |] //=.
case: eqP => //= /esym sz; rewrite (_ : _ - _ < tol) ?orbT //.
by apply: le_lt_trans t0; rewrite subr_le0; apply: c_step_det e sz.
Qed.

Lemma final_loop_trial fuel a tol X best cands : 0 < tol -> (forall c, List.In c cands -> wf X c) ->
  final_loop argsort fuel.+1 a tol X best cands
  = do l <- mapM (trial a X) cands;
    Ok (foldl (fun b c => if determinant c < determinant b then c else b) best l).
Proof.
move=> t0; elim: cands best => [|c cands IH] best hw //.
have -> : final_loop argsort fuel.+1 a tol X best (c :: cands)
  = do s <- converge argsort fuel.+1 a tol X c;
    final_loop argsort fuel.+1 a tol X (if determinant s < determinant best then s else best) cands.
  by [].
rewrite converge_trial //; last by apply: hw; left.
rewrite [mapM _ _]/=; case: (trial a X c) => [s| |] //=.
rewrite IH //=; last by move=> d hd; apply: hw; right.
by case: (mapM _ _).
Qed.

Lemma trial_id a X s t : trial a X s = Ok t -> t = s.
Proof. by rewrite /trial; case: c_step => //= u; case: ifP => // _ [<-]. Qed.

Lemma mapM_trial a X cands l : mapM (trial a X) cands = Ok l -> l = cands.
Proof.
elim: cands l => [|c cands IH] l /=; first by move=> [<-].
case e: trial => [s| |] //=; case e': mapM => [r| |] //= -[<-].
by rewrite (trial_id e) (IH _ e').
Qed.

End CStep.
