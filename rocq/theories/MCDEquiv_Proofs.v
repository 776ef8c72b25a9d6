(* Affine equivariance of FastMCD. *)
From mathcomp Require Import all_ssreflect all_algebra.
From mathcomp.zify Require Import zify.
From mathcomp.algebra_tactics Require Import ring.
From Verif Require Import RFieldLra Prelude Stats Xnum RatFloor Qn_Model Regr Regr_Proofs Vec PSD.
From Verif Require Import LinAlg_Model LinAlg_Proofs LinAlg_Props.
From Verif Require Import MCD_Model MCD_Spec MCD_Proofs MCDRun_Proofs.

Set Implicit Arguments.
Unset Strict Implicit.
Unset Printing Implicit Defensive.

Import Order.TTheory GRing.Theory Num.Theory.
Local Open Scope ring_scope.

Lemma eq_sort_ (A : Type) (e e' : rel A) : e =2 e' -> forall s, sort e s = sort e' s.
Proof.
move=> h; have hm s1 s2 : merge e s1 s2 = merge e' s1 s2.
  elim: s1 s2 => [|x s1 IH1] //; elim=> [|y s2 IH2] //=.
  by rewrite h; case: ifP => _; rewrite ?IH1 //; congr cons; exact: IH2.
have hpu s ss : merge_sort_push e s ss = merge_sort_push e' s ss.
  by elim: ss s => [|s' ss IH] s //; case: s' => [|x s'] //=; rewrite hm IH.
have hpo s ss : merge_sort_pop e s ss = merge_sort_pop e' s ss.
  by elim: ss s => [|s' ss IH] s //=; rewrite hm IH.
move=> s; rewrite /sort; move: [::] => ss.
have [n le] := ubnP (size s); elim: n => // n IH in ss s le *.
move: le; case: s => [|x [|y s]] //= le.
by rewrite h hpu IH // ltnW.
Qed.

Section Equiv.
Variables (T : rcfType) (p : nat) (A : 'M[T]_p) (b : 'rV[T]_p).
Hypothesis uA : A \in unitmx.
Implicit Types (X Y : seq 'rV[T]_p) (s : hsubset T p).

(* x |-> A x + b, for rows *)
Definition tx (x : 'rV[T]_p) : 'rV[T]_p := x *m A^T + b.
Definition tm (S : 'M[T]_p) : 'M[T]_p := A *m S *m A^T.
Definition ts s : hsubset T p :=
  HSubset (indices s) (tx (location s)) (tm (scale s)) (\det A ^+ 2 * determinant s) (n_c_steps s).

Lemma vmean_t Y : Y != [::] -> vmean (map tx Y) = tx (vmean Y).
Proof.
move=> Y0; rewrite /vmean size_map big_map /tx big_split /= big_const_seq count_predT iter_addr_0.
rewrite scalerDr -mulmx_suml -scalemxAl; congr (_ + _).
by rewrite -scaler_nat scalerA mulVf ?scale1r // pnatr_eq0 size_eq0.
Qed.

Lemma cov_t Y : cov (map tx Y) = tm (cov Y).
Proof.
case: (eqVneq Y [::]) => [->|Y0]; first by rewrite !cov_small // /tm mulmx0 mul0mx.
rewrite /cov vmean_t // size_map big_map /tm -scalemxAr -scalemxAl mulmx_sumr mulmx_suml.
congr (_ *: _); apply: eq_bigr => y _; rewrite /tx opprD addrACA subrr addr0 -mulmxBl.
by rewrite trmx_mul trmxK !mulmxA.
Qed.

Lemma det_tm S : \det (tm S) = \det A ^+ 2 * \det S.
Proof. by rewrite /tm !det_mulmx det_tr mulrAC expr2. Qed.

Lemma detA2 : 0 < \det A ^+ 2.
Proof. by rewrite exprn_even_gt0 //= -unitfE -unitmxE. Qed.

Lemma sel_t X (idx : seq nat) : (forall i, i \in idx -> (i < size X)%N) ->
  sel 0 (map tx X) idx = map tx (sel 0 X idx).
Proof.
move=> h; rewrite /sel -map_comp; apply/eq_in_map => i hi /=.
by rewrite (nth_map 0) // h.
Qed.

Lemma mk_subset_t X idx k : idx != [::] -> (forall i, i \in idx -> (i < size X)%N) ->
  mk_subset (map tx X) idx k = ts (mk_subset X idx k).
Proof.
move=> i0 h; rewrite /mk_subset /ts /= sel_t // cov_t det_tm vmean_t //.
by case: (idx) i0.
Qed.

Variable argsort : seq (xnum T) -> seq nat.
Hypothesis Has : is_xargsort argsort.

Lemma maha_t X m S : mahalanobis_distance (map tx X) (tx m) (tm S) = mahalanobis_distance X m S.
Proof. exact: maha_affine_invariant. Qed.

Lemma c_step_t a X s : X != [::] ->
  c_step argsort a (map tx X) (ts s) = rmap ts (c_step argsort a X s).
Proof.
move=> X0; rewrite /c_step /= maha_t size_map.
case ed: mahalanobis_distance => [d| |] //=; case eh: get_h => [h| |] //=.
rewrite /get_subset; case: ifP => // _ /=; congr Ok.
have [[_ _ hin] sz] := take_argsort_wf Has h 0 (maha_size ed).
rewrite mk_subset_t //.
rewrite -size_eq0 sz; have := get_h_ge eh; rewrite /h_default.
move: X0; rewrite -size_eq0 -!lt0n leq_min; move: (size X) => n n0 hh.
rewrite n0 andbT; move: n0 hh; clear; lia.
Qed.

Lemma c_steps_t a X k s : X != [::] ->
  c_steps argsort a (map tx X) k (ts s) = rmap ts (c_steps argsort a X k s).
Proof.
by move=> X0; elim: k s => [|k IH] s //=; rewrite c_step_t //; case: c_step => //= t; rewrite IH.
Qed.

Lemma mapM_rmap (B C : Type) (f : B -> res C) (f' : C -> res C) (g : B -> C) (k : C -> C) l :
  (forall x, f' (g x) = rmap k (f x)) -> mapM f' (map g l) = rmap (map k) (mapM f l).
Proof.
move=> h; elim: l => [|x l IH] //=; rewrite h IH.
by case: (f x) => //= y; case: (mapM f l).
Qed.

Lemma by_det_t l : by_det (map ts l) = map ts (by_det l).
Proof.
rewrite /by_det sort_map; congr map; apply: eq_sort_ => s1 s2 /=.
by rewrite (ler_pmul2l detA2).
Qed.

Variables (G : Type) (choice : G -> nat -> nat -> seq nat * G) (choice1 : G -> seq nat -> nat * G).
Hypotheses (Hc : is_choice choice) (Hc1 : is_choice1 choice1).

Lemma ensure_t fuel g X (idx : seq nat) : (forall i, i \in idx -> (i < size X)%N) -> 
  ensure choice1 fuel g (map tx X) idx = ensure choice1 fuel g X idx.
Proof.
elim: fuel g idx => [|f IH] g idx h /=; rewrite sel_t // cov_t det_tm mulf_eq0;
  rewrite (gt_eqF detA2) /= size_map //.
case: ifP => // _; case er: [seq i <- _ | _] => [//|x r].
apply: IH => i; rewrite mem_rcons inE => /predU1P[->|/h//].
have : (choice1 g (x :: r)).1 \in x :: r by apply: Hc1.
by rewrite -{2}er mem_filter mem_iota add0n => /andP[].
Qed.

Lemma ensure_range fuel g X (idx : seq nat) r : (forall i, i \in idx -> (i < size X)%N) -> idx != [::] ->
  ensure choice1 fuel g X idx = Ok r -> r.1 != [::] /\ forall i, i \in r.1 -> (i < size X)%N.
Proof.
elim: fuel g idx => [|f IH] g idx h i0 /=; (case: ifP => _; last by move=> [<-]).
  by case: [seq i <- _ | _].
case er: [seq i <- _ | _] => [//|x t].
apply: IH; last by case: (idx).
move=> i; rewrite mem_rcons inE => /predU1P[->|/h//].
have : (choice1 g (x :: t)).1 \in x :: t by apply: Hc1.
by rewrite -{2}er mem_filter mem_iota add0n => /andP[].
Qed.

Lemma initial_subset_t fuel g X : initial_subset choice choice1 fuel g (map tx X)
  = rmap (fun r => (ts r.1, r.2)) (initial_subset choice choice1 fuel g X).
Proof.
rewrite /initial_subset size_map; case: ltnP => // hX; case: ifP => // _.
have [_ sz hin] := Hc g hX; set c := choice _ _ _ in sz hin *.
rewrite ensure_t //; case e: ensure => [r| |] //=.
have [|r0 hr] := ensure_range hin _ e; first by rewrite -size_eq0 sz.
by rewrite mk_subset_t.
Qed.

Lemma initial_subsets_t fuel g X k : initial_subsets choice choice1 fuel g (map tx X) k
  = rmap (fun r => (map ts r.1, r.2)) (initial_subsets choice choice1 fuel g X k).
Proof.
elim: k g => [|k IH] g //=; rewrite initial_subset_t.
by case: initial_subset => //= s; rewrite IH; case: initial_subsets.
Qed.

Lemma initial_nil fuel g k r : initial_subsets choice choice1 fuel g ([::] : seq 'rV[T]_p) k = Ok r -> r.1 = [::].
Proof. by case: k => [[<-]|]. Qed.

Lemma per_partition_t fuel a nsub ncs nbest g (parts : seq (seq 'rV[T]_p)) :
  per_partition argsort choice choice1 fuel a nsub ncs nbest g (map (map tx) parts)
  = rmap (map ts) (per_partition argsort choice choice1 fuel a nsub ncs nbest g parts).
Proof.
elim: parts g => [|d parts IH] g //=; rewrite initial_subsets_t.
case e: initial_subsets => [r| |] //=; rewrite IH.
have -> : mapM (c_steps argsort a (map tx d) ncs) (map ts r.1)
        = rmap (map ts) (mapM (c_steps argsort a d ncs) r.1).
  case: (eqVneq d [::]) => [ed|d0]; first by move: e; rewrite ed => /initial_nil ->.
  by apply: mapM_rmap => s; rewrite c_steps_t.
case: (mapM _ _) => //= l; case: (per_partition _ _ _ _ _ _ _ _ _ _) => //= l'.
by rewrite by_det_t -map_take -map_cat.
Qed.

Lemma partition_t np X : partition_data np (map tx X) = rmap (map (map tx)) (partition_data np X).
Proof.
rewrite /partition_data size_map /array_split; case: ifP => // _ /=; congr Ok.
by rewrite size_map map_reshape.
Qed.

Lemma fast_candidates_t fuel a nsub ncs nbest np g X : X != [::] ->
  fast_candidates argsort choice choice1 fuel a nsub ncs nbest np g (map tx X)
  = rmap (map ts) (fast_candidates argsort choice choice1 fuel a nsub ncs nbest np g X).
Proof.
move=> X0; rewrite /fast_candidates partition_t; case: partition_data => //= parts.
rewrite size_map per_partition_t; case: per_partition => //= l.
rewrite (@mapM_rmap _ _ (c_steps argsort a X ncs) _ ts ts); last by move=> s; rewrite c_steps_t.
by case: (mapM _ _) => //= l'; rewrite by_det_t -map_take.
Qed.

Variables (chi2_ppf : T -> nat -> T) (gamma_cdf : T -> T -> T).

Definition to (o : mcd_out T p) : mcd_out T p :=
  McdOut (omap ts (o_best o)) (o_mask o) (tx (o_location o)) (tm (o_scale o)).

Lemma tmZ c S : c *: tm S = tm (c *: S).
Proof. by rewrite /tm -scalemxAr -scalemxAl. Qed.

Lemma post_t cor rew X s o : post chi2_ppf gamma_cdf cor rew X s = Ok o ->
  (forall m, o_mask o = Some m -> has id m) ->
  post chi2_ppf gamma_cdf cor rew (map tx X) (ts s) = Ok (to o).
Proof.
have ec : correct_covariance chi2_ppf (map tx X) (ts s)
        = rmap tm (correct_covariance chi2_ppf X s).
  rewrite /correct_covariance /rescale_factor /= maha_t.
  by case: mahalanobis_distance => //= d; rewrite tmZ.
have -> : post chi2_ppf gamma_cdf cor rew (map tx X) (ts s)
  = do S <- rmap tm (if cor then correct_covariance chi2_ppf X s else Ok (scale s));
    if rew then
      do m <- mcd_mask chi2_ppf (map tx X) (tx (location s)) S;
      let Y := mask m (map tx X) in
      Ok (McdOut (Some (ts s)) (Some m) (vmean Y)
            (if cor then reweight_factor p chi2_ppf gamma_cdf *: cov Y else cov Y))
    else Ok (McdOut (Some (ts s)) None (tx (location s)) S).
  by rewrite /post ec; case: (cor).
rewrite /post; case: (if cor then _ else _) => //= S.
case: rew => [|[<-]//]; rewrite /mcd_mask maha_t.
case ed: mahalanobis_distance => [d| |] //= -[<-] /= hm; congr (Ok _).
have sd := maha_size ed; set m := [seq _ | u <- d] in hm *.
have Y0 : mask m X != [::].
  have := hm m erefl; rewrite has_count -size_eq0 -lt0n size_mask //; first by rewrite /m size_map.
rewrite /to /= -map_mask vmean_t // cov_t; congr McdOut.
by case: cor {ec} => //; rewrite tmZ.
Qed.

Lemma post_err cor rew X s e : post chi2_ppf gamma_cdf cor rew X s = Err e ->
  post chi2_ppf gamma_cdf cor rew (map tx X) (ts s) = Err e.
Proof.
rewrite /post /correct_covariance /rescale_factor /mcd_mask /= maha_t.
case: cor => /=.
  case: mahalanobis_distance => //= d; case: rew => //=.
  by rewrite tmZ maha_t; case: mahalanobis_distance.
by case: rew => //=; rewrite maha_t; case: mahalanobis_distance.
Qed.

End Equiv.
