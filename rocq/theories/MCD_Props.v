(* Property theorems: FastMCD and DetMCD (C61-C66, C96-C99). *)
From mathcomp Require Import all_ssreflect all_algebra.
From mathcomp.zify Require Import zify.
From mathcomp.algebra_tactics Require Import ring.
From Verif Require Import RFieldLra Prelude Stats Xnum RatFloor Qn_Model Regr Regr_Proofs Vec PSD.
From Verif Require Import LinAlg_Model LinAlg_Proofs MCD_Model MCD_Spec.
From Verif Require Import LTSFit_Proofs MCD_Proofs MCDRun_Proofs MCDEquiv_Proofs MCDCase_Proofs.

Set Implicit Arguments.
Unset Strict Implicit.
Unset Printing Implicit Defensive.

Import Order.TTheory GRing.Theory Num.Theory.
Local Open Scope ring_scope.

Section CStep.
Variables (T : rcfType) (p : nat).
Implicit Types (X : seq 'rV[T]_p) (s : hsubset T p).

(* C61, the statistical fact: any set of rows closest to the centre of another set of the same
   size has a covariance determinant at most as large *)
Theorem closest_rows_determinant X h (H1 H2 : seq nat) m1 S1 S2 :
  row_set X h H1 -> row_set X h H2 ->
  is_mean (sel 0 X H1) m1 -> is_cov (sel 0 X H1) S1 -> is_cov (sel 0 X H2) S2 ->
  \det S1 != 0 -> closest X S1 m1 H2 -> \det S2 <= \det S1.
Proof.
move=> [u1 in1 z1] [u2 in2 z2] /is_meanE em /is_covE e1 /is_covE e2 d1 hc.
rewrite e1 e2; apply: c_step_ineq; first by rewrite !size_sel z1.
  by rewrite -e1 -detP.
rewrite -e1 -em !sum_sel.
apply: (@exchange_sum _ (fun i => maha_sq (invmx S1) m1 (nth 0 X i)) (size X)) => //.
  by rewrite z1.
by move=> i j hi hj hn; rewrite -!maha2E; apply: hc.
Qed.

Variable argsort : seq (xnum T) -> seq nat.
Hypothesis Has : is_xargsort argsort.

(* the attributes of an HSubset of h rows *)
Definition is_hsubset X h s : Prop :=
  [/\ row_set X h (indices s), is_mean (sel 0 X (indices s)) (location s),
      is_cov (sel 0 X (indices s)) (scale s) & determinant s = \det (scale s)].

Lemma is_hsubset_wf X h s : is_hsubset X h s -> wf X s /\ size (indices s) = h.
Proof.
case: s => idx l S d k [[u hin sz] /is_meanE /= -> /is_covE /= -> /= ->]; split=> //.
Qed.

Lemma wf_is_hsubset X s : (1 < size (indices s))%N -> wf X s ->
  is_hsubset X (size (indices s)) s.
Proof.
move=> h1 w; have [_ u hin] := w; split=> //.
- by rewrite (wf_loc w); apply: is_mean_vmean; rewrite size_sel ltnW.
- by rewrite (wf_scale w); apply: is_cov_cov; rewrite size_sel.
- exact: wf_det w.
Qed.

(* C61: one C-step of FastMCD or DetMCD from an h-subset succeeds exactly when its covariance is
   non-singular, takes the h rows that are closest and does not increase the determinant *)
Theorem mcd_c_step a X s h : (1 < p)%N -> get_h a (size X) p = Ok h -> is_hsubset X h s ->
  (determinant s = 0 -> c_step argsort a X s = Err LinAlgError) /\
  (determinant s != 0 -> exists s', [/\ c_step argsort a X s = Ok s', is_hsubset X h s',
     n_c_steps s' = (n_c_steps s).+1, closest X (scale s) (location s) (indices s')
     & determinant s' <= determinant s]).
Proof.
move=> p1 eh hs; have [w sz] := is_hsubset_wf hs.
have hd : determinant s = \det (scale s) by case: hs.
split=> d0.
  by rewrite /c_step maha_sing // -detP -hd d0 eqxx.
have uS : scale s \in unitmx by rewrite -detP -hd.
have pn : p != 1%N by rewrite neq_ltn p1 orbT.
have [s' e] := c_step_ok argsort w uS eh pn.
have [h' eh' [_ _ w' n sz']] := c_step_inv Has e.
have ehh : h' = h by move: eh'; rewrite eh => -[].
have hn : (h <= size X)%N.
  case: hs => -[u hin <-] _ _ _; rewrite -(size_iota 0 (size X)); apply: uniq_leq_size => //.
  by move=> i /hin; rewrite mem_iota.
have szz : size (indices s') = h by rewrite sz' ehh; apply/minn_idPl.
have h2 : (1 < h)%N by case: hs => _ _ [] + _ _; rewrite size_sel sz.
exists s'; split=> //.
- by rewrite -szz; apply: wf_is_hsubset; rewrite ?szz.
- exact: c_step_closest w e.
- by apply: (c_step_det Has w e); rewrite sz szz.
Qed.

End CStep.

Section FinalLoop.
Variables (T : rcfType) (p : nat).
Implicit Types (X : seq 'rV[T]_p) (s : hsubset T p) (cands : seq (hsubset T p)).
Variable argsort : seq (xnum T) -> seq nat.
Hypothesis Has : is_xargsort argsort.
Variables (chi2_ppf : T -> nat -> T) (gamma_cdf : T -> T -> T).

(* s is the first of the candidates with the smallest determinant *)
Definition first_smallest cands s : Prop :=
  exists i, [/\ (i < size cands)%N, s = nth s cands i,
    (forall j, (j < size cands)%N -> determinant s <= determinant (nth s cands j))
    & (forall j, (j < i)%N -> determinant s < determinant (nth s cands j))].

Lemma first_foldl (c : hsubset T p) l : first_smallest (c :: l)
  (foldl (fun b c => if determinant c < determinant b then c else b) c l).
Proof.
have [i [h1 h2 h3 h4]] := foldl_first c l; exists i; split=> //.
- by rewrite {1}h2; exact: set_nth_default.
- by move=> j hj; rewrite (set_nth_default c) // h3.
- by move=> j hj; rewrite (set_nth_default c) ?h4 // (ltn_trans hj).
Qed.

(* C62: on candidates that are h-subsets with non-singular covariance the loop "until
   convergence" makes a single trial step for each and keeps the candidates as they are *)
Theorem mcd_final_loop fuel a tol X h cands : (1 < p)%N -> 0 < tol ->
  get_h a (size X) p = Ok h -> cands <> [::] ->
  (forall c, List.In c cands -> is_hsubset X h c /\ determinant c != 0) ->
  exists s, select argsort fuel.+1 a tol X cands = Ok s /\ first_smallest cands s.
Proof.
move=> p1 t0 eh; have pn : p != 1%N by rewrite neq_ltn p1 orbT.
case: cands => [//|c l] _ hc.
have hn k : is_hsubset X h k -> (h <= size X)%N.
  case=> -[u hin <-] _ _ _; rewrite -(size_iota 0 (size X)); apply: uniq_leq_size => //.
  by move=> i /hin; rewrite mem_iota.
have hw : all (wfb X) (c :: l).
  by apply/all_In => d /hc[/is_hsubset_wf[w _] _]; apply/wfP.
rewrite (select_trial Has fuel a t0 hw).
have -> : mapM (trial argsort a X) (c :: l) = Ok (c :: l).
  elim: (c :: l) hc {hw} => [//|d r IH] hc /=.
  have [hd d0] := hc d (or_introl erefl); have [w sz] := is_hsubset_wf hd.
  rewrite (trial_cand Has pn eh (k := n_c_steps d)) ?(negbTE d0) /=; last first.
    rewrite /candb eqxx sz; apply/andP; split; first exact/wfP.
    by rewrite /=; apply/eqP/esym/minn_idPl; exact: hn hd.
  by rewrite IH // => e he; apply: hc; right.
by eexists; split; [reflexivity | exact: first_foldl].
Qed.

Section Fast.
Variables (G : Type) (choice : G -> nat -> nat -> seq nat * G) (choice1 : G -> seq nat -> nat * G).

(* C62 for whole runs of FastMCD: the subset behind the estimates is the best candidate found by
   the 2 * n_initial_c_steps preliminary C-steps *)
Theorem fast_mcd_selected fuel a nsub ncs nbest np tol cor rew g X o :
  0 < tol -> (0 < ncs)%N -> ~~ (alpha_eq a 1 || alpha_eq a (size X)) ->
  fast_mcd argsort chi2_ppf gamma_cdf choice choice1 fuel.+1 a nsub ncs nbest np tol cor rew g X
    = Ok o ->
  exists s l, [/\ fast_candidates argsort choice choice1 fuel.+1 a nsub ncs nbest np g X
                    = Ok (s :: l),
    o_best o = Some s, n_c_steps s = (2 * ncs)%N,
    (forall c, List.In c (s :: l) -> determinant s <= determinant c)
    & (size (s :: l) <= nbest)%N].
Proof.
case: ncs => // ncs t0 _ na; rewrite (fast_mcd_unfold Has) //.
case e: (fast_candidates _ _ _ _ _ _ _ _ _ _ _) => [[|s l]| |] //; rewrite [bind (Ok _) _]/=.
case: ifP => // _ hp; exists s, l; split=> //.
- by move: hp; rewrite /post; case: (if cor then _ else _) => //= S; case: rew => [|[<-]//];
    case: mcd_mask => //= m [<-].
- have [//|[h eh [p1 /= /andP[/and3P[_ /eqP -> _] _]]]] := fast_candidates_good Has e.
  by [].
- exact/all_In/(fast_candidates_sorted e).
- exact: fast_candidates_sizes e.
Qed.

(* C62: the tolerance has no influence *)
Theorem fast_mcd_tolerance_irrelevant fuel a nsub ncs nbest np tol tol' cor rew g X :
  0 < tol -> 0 < tol' -> (0 < ncs)%N ->
  fast_mcd argsort chi2_ppf gamma_cdf choice choice1 fuel.+1 a nsub ncs nbest np tol cor rew g X
  = fast_mcd argsort chi2_ppf gamma_cdf choice choice1 fuel.+1 a nsub ncs nbest np tol' cor rew g X.
Proof.
case: ncs => // ncs t0 t1 _; case: (boolP (alpha_eq a 1 || alpha_eq a (size X))) => na.
  by rewrite /fast_mcd na.
by rewrite !(fast_mcd_unfold Has).
Qed.

(* C98: a candidate that fits exactly, i.e. has a singular covariance, makes the run fail *)
Theorem fast_mcd_exact_fit_fails fuel a nsub ncs nbest np tol cor rew g X cands c :
  0 < tol -> (0 < ncs)%N -> ~~ (alpha_eq a 1 || alpha_eq a (size X)) ->
  fast_candidates argsort choice choice1 fuel.+1 a nsub ncs nbest np g X = Ok cands ->
  List.In c cands -> determinant c = 0 ->
  fast_mcd argsort chi2_ppf gamma_cdf choice choice1 fuel.+1 a nsub ncs nbest np tol cor rew g X
  = Err LinAlgError.
Proof.
case: ncs => // ncs t0 _ na e hc d0; rewrite (fast_mcd_unfold Has) // e [bind (Ok _) _]/=.
case: cands hc {e} => // s l hc; case: ifP => // /all_In /(_ _ hc).
by rewrite d0 eqxx.
Qed.

End Fast.

Section Det.
Variable estimates : seq 'rV[T]_p -> res (seq 'rV[T]_p * seq ('rV[T]_p * 'M[T]_p)).

(* C62 for DetMCD: one C-step for each of the preliminary estimates, and no more *)
Theorem det_mcd_selected fuel a tol cor rew X o :
  0 < tol -> ~~ (alpha_eq a 1 || alpha_eq a (size X)) ->
  det_mcd argsort chi2_ppf gamma_cdf estimates fuel.+1 a tol cor rew X = Ok o ->
  exists Z e cands s, [/\ estimates X = Ok (Z, e),
    mapM (det_candidate argsort a X Z) e = Ok cands, first_smallest cands s,
    o_best o = Some s & n_c_steps s = 1%N].
Proof.
move=> t0 na; rewrite (det_mcd_unfold Has) //.
case ee: estimates => [[Z e]| |] //=.
case em: (mapM _ _) => [[|c l]| |] //; rewrite [bind (Ok _) _]/=; case: ifP => // _ hp.
have hf := first_foldl c l; set s := foldl _ _ _ in hf hp.
exists Z, e, (c :: l), s; split=> //.
- by move: hp; rewrite /post; case: (if cor then _ else _) => //= S; case: rew => [|[<-]//];
    case: mcd_mask => //= m [<-].
- have [//|[h eh [p1 hc]]] := det_candidates_good Has em.
  case: hf => i [hi -> _ _]; have := all_nthP s hc i hi.
  by case/and3P => _ /eqP.
Qed.

Theorem det_mcd_tolerance_irrelevant fuel a tol tol' cor rew X : 0 < tol -> 0 < tol' ->
  det_mcd argsort chi2_ppf gamma_cdf estimates fuel.+1 a tol cor rew X
  = det_mcd argsort chi2_ppf gamma_cdf estimates fuel.+1 a tol' cor rew X.
Proof.
move=> t0 t1; case: (boolP (alpha_eq a 1 || alpha_eq a (size X))) => na.
  by rewrite /det_mcd na.
by rewrite !(det_mcd_unfold Has).
Qed.

(* C98 for DetMCD *)
Theorem det_mcd_exact_fit_fails fuel a tol cor rew X Z e cands c :
  0 < tol -> ~~ (alpha_eq a 1 || alpha_eq a (size X)) -> estimates X = Ok (Z, e) ->
  mapM (det_candidate argsort a X Z) e = Ok cands -> List.In c cands -> determinant c = 0 ->
  det_mcd argsort chi2_ppf gamma_cdf estimates fuel.+1 a tol cor rew X = Err LinAlgError.
Proof.
move=> t0 na ee em hc d0; rewrite (det_mcd_unfold Has) // ee /= em [bind (Ok _) _]/=.
case: cands hc {em} => // s l hc; case: ifP => // /all_In /(_ _ hc).
by rewrite d0 eqxx.
Qed.

End Det.

End FinalLoop.

Section Sizes.

Lemma get_h_prop_nat (v : rat) n p : 0 <= v ->
  exists2 k : nat, k%:R <= v < k.+1%:R & get_h_prop v true n p = Ok (maxn k ((n + p + 1) %/ 2)).
Proof. by move=> v0; have [k [e hk]] := rat_floor_nat v0; exists k; rewrite // /get_h_prop e. Qed.

(* C64: the size of the subsets, for every alpha; DetMCD uses the same function *)
Theorem mcd_h_size n p :
  [/\ get_h ANone n p = Ok ((n + p + 1) %/ 2)%N,
  (forall i : nat, (n <= 2 * i)%N -> (i <= n)%N ->
     get_h (AInt i%:Z) n p = Ok (maxn i ((n + p + 1) %/ 2))),
  (forall q : rat, 1 / 2%:R <= q -> q <= 1 ->
     exists2 k : nat, k%:R <= q * n%:R < k.+1%:R
     & get_h (AFloat q) n p = Ok (maxn k ((n + p + 1) %/ 2)))
  & (forall i : int, ~~ (n%:Z <= 2%:Z * i <= 2%:Z * n%:Z) -> i != 1 ->
      get_h (AInt i) n p = Err ValueError) /\
    (forall q : rat, ~~ (1 / 2%:R <= q <= 1) -> get_h (AFloat q) n p = Err ValueError)].
Proof.
split=> //.
- move=> i h1 h2; rewrite /=; have -> : n%:Z <= 2%:Z * i%:Z by lia.
  by have -> : i%:Z <= n%:Z by lia.
- move=> q h1 h2; rewrite /= h1 h2 /=; apply: get_h_prop_nat.
  by apply: mulr_ge0; rewrite ?ler0n //; apply: le_trans h1.
- split=> [i h1 /negbTE h2|q /negbTE h] /=; last by rewrite h.
  rewrite h2; case: ifP => // /andP[h3 h4]; move: h1; rewrite h3 /=; lia.
Qed.

(* C64: h is at least half of n + p, and at most n exactly if p is *)
Theorem mcd_h_bounds a n p h : get_h a n p = Ok h ->
  (n + p <= 2 * h)%N /\ (h <= n)%N = (p <= n)%N.
Proof.
have aux k : (k <= n)%N -> h = maxn k ((n + p + 1) %/ 2) ->
  (n + p <= 2 * h)%N /\ (h <= n)%N = (p <= n)%N by move=> hk ->; split; lia.
have aux2 (v : rat) ok : 0 <= v -> v <= n%:R -> get_h_prop v ok n p = Ok h ->
    (n + p <= 2 * h)%N /\ (h <= n)%N = (p <= n)%N.
  move=> v0 vn; case: ok => //; have [k /andP[k1 _] ->] := get_h_prop_nat n p v0.
  move=> [/esym]; apply: aux; rewrite -(ler_nat rat_numDomainType); exact: le_trans vn.
case: a => [|i|q].
- by move=> [/esym e]; apply: (aux 0%N) => //; rewrite max0n.
- rewrite /=; case: ifP => [/andP[h1 h2] [/esym]|_]; first by apply: aux; lia.
  by case: eqP => [->|//]; apply: aux2; rewrite mul1r ?ler0n.
- rewrite /=; case: (boolP (_ && _)) => // /andP[h1 h2]; apply: aux2.
    by apply: mulr_ge0; rewrite ?ler0n //; apply: le_trans h1.
  by rewrite -[leRHS]mul1r ler_wpmul2r ?ler0n.
Qed.

(* C66: the partitions *)
Theorem mcd_partitions (A : Type) (X : seq A) (np : option nat) :
  let k := if np is Some k then k else if (600 < size X)%N then 5%N else 1%N in
  (k = 0%N -> partition_data np X = Err ValueError) /\
  ((0 < k)%N -> exists parts, [/\ partition_data np X = Ok parts, size parts = k,
     flatten parts = X & forall i, (i < k)%N ->
       size (nth [::] parts i) = ((size X %/ k) + (i < size X %% k))%N]).
Proof.
move=> k; rewrite /partition_data -/k; split=> [->//|k0].
have [parts e] : exists parts, array_split k X = Ok parts.
  by rewrite /array_split; case: eqP k0 => [->//|_ _]; eexists.
by have [_ h1 h2 h3] := size_parts e; exists parts.
Qed.

End Sizes.

Section Estimates.
Variables (T : rcfType) (p : nat).
Implicit Types (X : seq 'rV[T]_p) (s : hsubset T p).
Variables (chi2_ppf : T -> nat -> T) (gamma_cdf : T -> T -> T).

Lemma is_hsubset_psd X h s : is_hsubset X h s -> determinant s != 0 ->
  psd (scale s) /\ scale s \in unitmx.
Proof.
by move=> [_ _ /is_covE e ed]; rewrite ed detP => ->; rewrite e; split=> //; exact: psd_cov.
Qed.

(* C65: the corrected covariance is the raw one times a positive number, chosen such that the
   median squared distance is the median of the chi-squared distribution *)
Theorem mcd_consistency X h s : is_hsubset X h s -> determinant s != 0 ->
  let md := fmed [seq maha2 (scale s) (location s) x | x <- X] in
  let q := chi2_ppf (1 / 2%:R) p in
  0 < md -> 0 < q ->
  exists S, [/\ correct_covariance chi2_ppf X s = Ok S, S = (md / q) *: scale s, \det S != 0
    & fmed [seq maha2 S (location s) x | x <- X] = q].
Proof.
move=> hs d0 md q m0 q0; have [pS uS] := is_hsubset_psd hs d0.
have X0 : X != [::].
  by case: X hs {md m0} => // -[[_ hin _] _ [/=]]; case: (indices s) hin => // i ? /(_ i (mem_head _ _)).
have [S [e _ uS' em]] := correct_median pS uS X0 m0 q0; exists S; split=> //.
- by move: e; rewrite /correct_covariance (rescale_factorE _ _ pS uS) => -[<-].
- by rewrite detP.
Qed.

(* C99: the reweighted estimates are mean and covariance of the observations whose distance from
   the (corrected) raw estimates is below the 97.5% quantile *)
Theorem mcd_reweighted X h s cor : is_hsubset X h s -> determinant s != 0 ->
  let md := fmed [seq maha2 (scale s) (location s) x | x <- X] in
  let q := chi2_ppf (1 / 2%:R) p in
  0 < md -> 0 < q ->
  let S := if cor then (md / q) *: scale s else scale s in
  let m := [seq Num.sqrt (maha2 S (location s) x) < Num.sqrt (chi2_ppf (975%:R / 1000%:R) p)
           | x <- X] in
  exists o, [/\ post chi2_ppf gamma_cdf cor true X s = Ok o, o_best o = Some s, o_mask o = Some m,
    ((0 < count id m)%N -> is_mean (mask m X) (o_location o))
    & ((1 < count id m)%N -> exists2 C, is_cov (mask m X) C &
        o_scale o = (if cor then 1 / (gamma_cdf (chi2_ppf (975%:R / 1000%:R) p / 2%:R)
                                        (p%:R / 2%:R + 1) / (975%:R / 1000%:R)) else 1) *: C)].
Proof.
move=> hs d0 md q m0 q0 S m; have [pS uS] := is_hsubset_psd hs d0.
have [pS' uS'] : psd S /\ S \in unitmx.
  have f0 : 0 < md / q by rewrite divr_gt0.
  rewrite /S; case: (cor); last by [].
  by split; [apply: psd_scale; rewrite ?ltW | apply: unitmxZ_; rewrite ?gt_eqF].
have e1 : (if cor then correct_covariance chi2_ppf X s else Ok (scale s)) = Ok S.
  by rewrite /S; case: (cor) => //; rewrite /correct_covariance (rescale_factorE _ _ pS uS).
have e2 : mcd_mask chi2_ppf X (location s) S = Ok m.
  rewrite /mcd_mask (maha_fin _ _ pS' uS') /= -!map_comp; congr Ok; apply: eq_map => x /=.
  by rewrite maha2E.
have sm : size (mask m X) = count id m by rewrite size_mask // size_map.
rewrite /post e1 /= e2 /=; eexists; split; first by []; rewrite //=.
- by move=> h0; apply: is_mean_vmean; rewrite sm.
- move=> h1; exists (cov (mask m X)); first by apply: is_cov_cov; rewrite sm.
  by case: (cor); rewrite ?scale1r.
Qed.

(* without reweighting the (corrected) raw estimates are returned *)
Theorem mcd_raw X s : post chi2_ppf gamma_cdf false false X s
  = Ok (McdOut (Some s) None (location s) (scale s)).
Proof. by []. Qed.

End Estimates.

Section Failures.
Variables (T : rcfType) (p : nat).
Variable argsort : seq (xnum T) -> seq nat.
Variables (chi2_ppf : T -> nat -> T) (gamma_cdf : T -> T -> T).
Variables (G : Type) (choice : G -> nat -> nat -> seq nat * G) (choice1 : G -> seq nat -> nat * G).

(* C63: with an integer alpha FastMCD cannot be fitted to more than 600 observations *)
Theorem fast_mcd_integer_alpha_fails fuel (i nsub ncs nbest : nat) tol cor rew g (X : seq 'rV[T]_p) :
  is_choice choice -> is_choice1 choice1 ->
  (600 < size X)%N -> (size X <= 2 * i)%N -> (i < size X)%N -> p != 1%N ->
  (5 <= nsub)%N -> (0 < ncs)%N -> (size X <= fuel)%N ->
  fast_mcd argsort chi2_ppf gamma_cdf choice choice1 fuel (AInt i%:Z) nsub ncs nbest None tol cor
    rew g X = Err ValueError.
Proof.
move=> Hc Hc1 hn hi1 hi2 p1 hs hc hf; rewrite /fast_mcd.
have -> : alpha_eq (AInt i%:Z) 1 || alpha_eq (AInt i%:Z) (size X) = false.
  by apply/negbTE; rewrite negb_or /=; apply/andP; split; apply/eqP; lia.
rewrite /fast_candidates; have [_ h] := mcd_partitions X None; rewrite hn in h.
have [parts [-> sz _ hp]] := h isT; rewrite [bind (Ok _) _]/= sz.
case: parts sz hp => // data parts _ hp.
have sd : size data = (size X %/ 5 + (0 < size X %% 5))%N := hp 0%N isT.
have e5 : (nsub %/ 5 = (nsub %/ 5).-1.+1)%N by move: hs; clear; lia.
rewrite e5; case: ncs hc => // ncs _.
rewrite (per_partition_bad argsort Hc Hc1) //; first by rewrite sd; lia.
apply: (@int_alpha_refused (size X)) => //; last by rewrite sd; lia.
Qed.

(* C63, the other side: a single partition does not change the sample size alpha is compared
   with, and a float alpha is accepted for every partition *)
Theorem mcd_alpha_single_partition (i : nat) (X : seq 'rV[T]_p) (np : option nat) :
  (np = Some 1%N \/ (np = None /\ (size X <= 600)%N)) ->
  partition_data np X = Ok [:: X] /\
  ((size X <= 2 * i)%N -> (i <= size X)%N -> exists h, get_h (AInt i%:Z) (size X) p = Ok h) /\
  (forall q : rat, 1 / 2%:R <= q -> q <= 1 -> forall n, exists h, get_h (AFloat q) n p = Ok h).
Proof.
move=> hnp; have ek : (if np is Some k then k else if (600 < size X)%N then 5%N else 1%N) = 1%N.
  by case: hnp => [->|[-> h]] //; rewrite ltnNge h.
split; last split.
- rewrite /partition_data ek /array_split /= modn1 divn1 /= take_size //.
- by move=> h1 h2; have [_ h _ _] := mcd_h_size (size X) p; rewrite h //; eexists.
- by move=> q h1 h2 n; have [_ _ h _] := mcd_h_size n p; have [k _ ->] := h q h1 h2; eexists.
Qed.

(* C97: FastMCD is affine equivariant, given the same random numbers *)
Theorem fast_mcd_affine_equivariant fuel a nsub ncs nbest np tol cor rew g (X : seq 'rV[T]_p)
    (A : 'M[T]_p) (b : 'rV[T]_p) :
  is_xargsort argsort -> is_choice choice -> is_choice1 choice1 ->
  A \in unitmx -> X != [::] -> 0 < tol -> (0 < ncs)%N ->
  let run Y := fast_mcd argsort chi2_ppf gamma_cdf choice choice1 fuel.+1 a nsub ncs nbest np tol
                 cor rew g Y in
  let X' := [seq x *m A^T + b | x <- X] in
  (forall e, run X = Err e -> run X' = Err e) /\
  (forall o, run X = Ok o -> (forall m, o_mask o = Some m -> has id m) ->
     exists o', [/\ run X' = Ok o', o_location o' = o_location o *m A^T + b,
       o_scale o' = A *m o_scale o *m A^T, o_mask o' = o_mask o
       & omap (@indices T p) (o_best o') = omap (@indices T p) (o_best o)]).
Proof.
move=> Has Hc Hc1 uA X0 t0; case: ncs => // ncs _ run X'.
case: (boolP (alpha_eq a 1 || alpha_eq a (size X))) => na.
  have -> : run X = Ok (classical X) by rewrite /run /fast_mcd na.
  have -> : run X' = Ok (classical X') by rewrite /run /fast_mcd size_map na.
  split=> // o [<-] _; eexists; split; first by []; rewrite //=.
    exact: (vmean_t A b X0).
  exact: (cov_t A b X).
have e : run X' = do cands <- rmap (map (ts A b)) (fast_candidates argsort choice choice1 fuel.+1 a nsub ncs.+1 nbest np g X);
    if cands is c :: _ then
      if all (fun s => determinant s != 0) cands then post chi2_ppf gamma_cdf cor rew X' c
      else Err LinAlgError
    else Err IndexError.
  rewrite /run (fast_mcd_unfold Has) //; last by rewrite size_map.
  by rewrite (fast_candidates_t b uA Has Hc Hc1).
rewrite e {e} /run (fast_mcd_unfold Has) //.
case: (fast_candidates _ _ _ _ _ _ _ _ _ _ _) => [[|c l]| |] //; rewrite [bind (Ok _) _]/= [rmap _ _]/=.
rewrite [bind (Ok _) _]/=.
have ed s : (\det A ^+ 2 * determinant s != 0) = (determinant s != 0).
  by rewrite mulf_eq0 gt_eqF // detA2.
have -> : all (fun s => determinant s != 0) (map (ts A b) l) = all (fun s => determinant s != 0) l.
  by rewrite all_map; apply: eq_all => s; exact: ed.
rewrite ed; case: ifP => [_|_ /=]; last by split=> [e|o] //.
split=> [e er|o ho hm]; first exact: (post_err b uA er).
exists (to A b o); split=> //; first exact: (post_t b uA ho hm).
by rewrite /=; case: (o_best o).
Qed.

End Failures.

(* C96: no MCD estimator can be fitted to a single variable *)
Section Univariate.
Variable T : rcfType.
Variable argsort : seq (xnum T) -> seq nat.
Variables (chi2_ppf : T -> nat -> T) (gamma_cdf : T -> T -> T).
Variables (G : Type) (choice : G -> nat -> nat -> seq nat * G) (choice1 : G -> seq nat -> nat * G).
Implicit Type X : seq 'rV[T]_1.

Theorem fast_mcd_univariate_fails fuel a nsub ncs nbest np tol cor rew g X :
  ~~ (alpha_eq a 1 || alpha_eq a (size X)) ->
  let run := fast_mcd argsort chi2_ppf gamma_cdf choice choice1 fuel a nsub ncs nbest np tol cor
               rew g X in
  (exists e, run = Err e) /\
  ((1 < size X <= 600)%N -> np = None -> (0 < nsub)%N -> run = Err LinAlgError).
Proof.
move=> na; rewrite /fast_mcd (negbTE na) /fast_candidates.
have hi f g' (Y : seq 'rV[T]_1) k : (exists e, initial_subsets choice choice1 f g' Y k.+1 = Err e).
  by rewrite /= /initial_subset; case: ifP => _ /=; eexists.
have hp f n (parts : seq (seq 'rV[T]_1)) g' :
    per_partition argsort choice choice1 f a n ncs nbest g' parts = Ok [::] \/
    exists e, per_partition argsort choice choice1 f a n ncs nbest g' parts = Err e.
  case: n => [|n]; last first.
    case: parts => [|d parts]; first by left.
    rewrite [per_partition _ _ _ _ _ _ _ _ _ _]/= -/(initial_subsets choice choice1 f g' d n.+1).
    by right; have [e ->] := hi f g' d n; exists e.
  by elim: parts g' => [|d parts IH] g'; [left|rewrite /=; case: (IH g') => [->|[e ->]];
    [left; case: (nbest)|right; exists e]].
have e1 : exists e, (do parts <- partition_data np X;
    do subsets <- per_partition argsort choice choice1 fuel a (nsub %/ size parts) ncs nbest g parts;
    do subsets' <- mapM (c_steps argsort a X ncs) subsets;
    Ok (take nbest (by_det subsets'))) = Err e \/ 
    (do parts <- partition_data np X;
    do subsets <- per_partition argsort choice choice1 fuel a (nsub %/ size parts) ncs nbest g parts;
    do subsets' <- mapM (c_steps argsort a X ncs) subsets;
    Ok (take nbest (by_det subsets'))) = Ok [::].
  have [ep|[parts ep]] : partition_data np X = Err ValueError \/ exists parts,
      partition_data np X = Ok parts.
    by rewrite /partition_data /array_split; case: ifP => _; [left|right; eexists].
    by rewrite ep; exists ValueError; left.
  rewrite ep [bind (Ok _) _]/=.
  case: (hp fuel (nsub %/ size parts)%N parts g) => [->|[e ->]]; last by exists e; left.
  by exists ValueError; right.
split; first by case: e1 => e [->|->]; eexists.
move=> /andP[n1 n2] -> h0.
rewrite /partition_data ltnNge n2 /array_split /= modn1 divn1 /= take_size divn1.
by clear e1; case: nsub h0 => // k _; rewrite /= /initial_subset ltnNge n1.
Qed.

(* the same for DetMCD, whatever the preliminary estimates *)
Theorem det_mcd_univariate_fails estimates fuel a tol cor rew X :
  ~~ (alpha_eq a 1 || alpha_eq a (size X)) ->
  forall o, det_mcd argsort chi2_ppf gamma_cdf estimates fuel a tol cor rew X <> Ok o.
Proof.
move=> na o; rewrite /det_mcd (negbTE na); case: estimates => [[Z es]| |] //.
rewrite [bind (Ok _) _]/=; case: es => [|e es] //.
by rewrite /= /det_candidate; case: mahalanobis_distance.
Qed.

End Univariate.

(* Cases: a triangle of rows, and further rows *)
Section Cases.
Variable T : rcfType.
Local Notation tri := [:: (0, 1); (-1, 0); (1, 0)].
Local Notation as_ := (@xargsort T).
Let ax : is_xargsort as_. Proof. exact: xargsortP. Qed.

(* random numbers: the first k rows, the first remaining row *)
Definition ch (g : nat) (n k : nat) : seq nat * nat := (iota 0 k, g.+1).
Definition ch1 (g : nat) (l : seq nat) : nat * nat := (head 0%N l, g.+1).
Example mcd_choice_case : is_choice ch /\ is_choice1 ch1.
Proof.
split; last by move=> g [|i l] //= _; exact: mem_head.
move=> g n k hk /=; split; [exact: iota_uniq | exact: size_iota|].
by move=> i; rewrite mem_iota => /andP[_ h]; apply: leq_trans h hk.
Qed.

Lemma tri_case (q : T * T) :
  maha2 (cov (map (@r2 T) tri)) (vmean (map (@r2 T) tri)) (r2 q)
  = q.1 ^+ 2 + 3%:R * (q.2 - 1 / 3%:R) ^+ 2 /\ \det (cov (map (@r2 T) tri)) = 1 / 3%:R.
Proof.
set L : seq (T * T) := tri; have [m0 m1] := @vm2 T L isT.
have e0 : vmean (map (@r2 T) L) 0 0 = 0 by rewrite m0 !big_cons big_nil /=; flra.
have e1 : vmean (map (@r2 T) L) 0 1 = 1 / 3%:R by rewrite m1 !big_cons big_nil /=; flra.
have c00 : cov (map (@r2 T) L) 0 0 = 1.
  by rewrite cov2 // e0 !big_cons big_nil !mxE /=; flra.
have c01 : cov (map (@r2 T) L) 0 1 = 0.
  by rewrite cov2 // e0 e1 !big_cons big_nil !mxE /=; flra.
have c10 : cov (map (@r2 T) L) 1 0 = 0.
  by rewrite cov2 // e0 e1 !big_cons big_nil !mxE /=; flra.
have c11 : cov (map (@r2 T) L) 1 1 = 1 / 3%:R.
  by rewrite cov2 // e1 !big_cons big_nil !mxE /=; flra.
split; last by rewrite det2 c00 c01 c10 c11; flra.
rewrite maha2_diag ?c00 ?c01 ?c10 ?c11 ?oner_eq0 //; last by rewrite gt_eqF //; flra.
by rewrite e0 e1 !mxE /= subr0 divr1 div1r invrK mulrC.
Qed.

Lemma quad_case (q : T * T) :
  maha2 (cov (map (@r2 T) (rcons tri (0, 0)))) (vmean (map (@r2 T) (rcons tri (0, 0)))) (r2 q)
  = 3%:R / 2%:R * q.1 ^+ 2 + 4%:R * (q.2 - 1 / 4%:R) ^+ 2 /\
  \det (cov (map (@r2 T) (rcons tri (0, 0)))) != 0.
Proof.
set L : seq (T * T) := rcons tri (0, 0); have [m0 m1] := @vm2 T L isT.
have e0 : vmean (map (@r2 T) L) 0 0 = 0 by rewrite m0 !big_cons big_nil /=; flra.
have e1 : vmean (map (@r2 T) L) 0 1 = 1 / 4%:R by rewrite m1 !big_cons big_nil /=; flra.
have c00 : cov (map (@r2 T) L) 0 0 = 2%:R / 3%:R.
  by rewrite cov2 // e0 !big_cons big_nil !mxE /=; flra.
have c01 : cov (map (@r2 T) L) 0 1 = 0.
  by rewrite cov2 // e0 e1 !big_cons big_nil !mxE /=; flra.
have c10 : cov (map (@r2 T) L) 1 0 = 0.
  by rewrite cov2 // e0 e1 !big_cons big_nil !mxE /=; flra.
have c11 : cov (map (@r2 T) L) 1 1 = 1 / 4%:R.
  by rewrite cov2 // e1 !big_cons big_nil !mxE /=; flra.
split; last by rewrite det2 c00 c01 c10 c11 gt_eqF //; flra.
rewrite maha2_diag ?c00 ?c01 ?c10 ?c11 //; try by rewrite gt_eqF //; flra.
by rewrite e0 e1 !mxE /= subr0; flra.
Qed.


(* the triangle and its centre of gravity *)
Definition X4 : seq 'rV[T]_2 := map (@r2 T) (rcons tri (0, 1 / 3%:R)).
Definition s0 := mk_subset X4 [:: 0; 1; 2]%N 0.

Lemma x4_det idx : row_set X4 3 idx ->
  \det (cov (sel 0 X4 idx)) = if 3%N \in idx then 1 / 27%:R else 1 / 3%:R.
Proof.
case: idx => [|i [|j [|k [|? ?]]]] [] // u hin _; move: u.
have := hin i; have := hin j; have := hin k; rewrite !inE !eqxx !orbT /= => /(_ isT) + /(_ isT) + /(_ isT).
have D (P Q R : T * T) v : ((Q.1 - P.1) * (R.2 - P.2) - (R.1 - P.1) * (Q.2 - P.2)) ^+ 2 = 12%:R * v ->
    \det (cov [:: r2 P; r2 Q; r2 R]) = v.
  by rewrite det_cov3 => ->; rewrite mulrC mulrA mulVf ?mul1r // pnatr_eq0.
case: i {hin} => [|[|[|[|//]]]]; case: j => [|[|[|[|//]]]]; case: k => [|[|[|[|//]]]] //= _ _ _ _;
  apply: D => /=; flra.
Qed.

Lemma s0_hsubset : is_hsubset X4 3 s0.
Proof.
by apply: (@wf_is_hsubset _ _ X4 s0) => //; apply: wf_mk => // i; rewrite !inE => /or3P[] /eqP ->.
Qed.

Lemma x4_det_hsubset s : is_hsubset X4 3 s ->
  determinant s = if 3%N \in indices s then 1 / 27%:R else 1 / 3%:R.
Proof. by case=> h _ /is_covE e ->; rewrite e x4_det. Qed.

Lemma x4_det0 s : is_hsubset X4 3 s -> determinant s != 0.
Proof. by move/x4_det_hsubset => ->; case: ifP => _; rewrite gt_eqF //; flra. Qed.

Example mcd_c_step_case :
  [/\ get_h ANone (size X4) 2 = Ok 3%N, is_hsubset X4 3 s0, determinant s0 = 1 / 3%:R
    & exists s', [/\ c_step as_ ANone X4 s0 = Ok s', 3%N \in indices s'
        & determinant s' = 1 / 27%:R]].
Proof.
have h := s0_hsubset; split=> //; first by rewrite (x4_det_hsubset h).
have [_ [|s' [e h' _ hc _]]] := mcd_c_step ax (isT : (1 < 2)%N) (erefl : get_h ANone (size X4) 2 = Ok 3%N) h.
  exact: x4_det0.
have i3 : 3%N \in indices s'.
  have [rs _ _ _] := h'; apply: (take_near rs isT hc) => // j hj j3.
  have e3 (q : T * T) : maha2 (scale s0) (location s0) (r2 q) = q.1 ^+ 2 + 3%:R * (q.2 - 1 / 3%:R) ^+ 2.
    exact: (tri_case q).1.
  by case: j hj j3 => [|[|[|[|//]]]] _ // _; rewrite /= !e3 /=; flra.
by exists s'; split=> //; rewrite (x4_det_hsubset h') i3.
Qed.

(* C62: the subset selected by the loop "until convergence" need not be a fixed point of the
   C-step, nor have the smallest determinant among its C-steps *)
Theorem mcd_not_converged_refuted : exists (X : seq 'rV[T]_2) (s s' : hsubset T 2),
  [/\ is_hsubset X 3 s, (forall fuel tol, 0 < tol -> select as_ fuel.+1 ANone tol X [:: s] = Ok s),
      c_step as_ ANone X s = Ok s', ~~ perm_eq (indices s') (indices s)
    & determinant s' < determinant s].
Proof.
have [eh h d [s' [e i3 d']]] := mcd_c_step_case; exists X4, s0, s'; split=> //.
- move=> fuel tol t0.
  have hall c : List.In c [:: s0] -> is_hsubset X4 3 c /\ determinant c != 0.
    by case=> // <-; split=> //; exact: x4_det0.
  have [//|s [-> [i [hi -> _ _]]]] := mcd_final_loop ax fuel (isT : (1 < 2)%N) t0 eh _ hall.
  by case: i hi.
- by apply/negP => /perm_mem/(_ 3%N); rewrite i3.
- by rewrite d d'; flra.
Qed.

(* whole runs *)
Lemma x4_steps k s : is_hsubset X4 3 s ->
  exists2 s', c_steps as_ ANone X4 k s = Ok s' & is_hsubset X4 3 s'.
Proof.
elim: k s => [|k IH] s h; first by exists s.
have [_ [|s1 [e h1 _ _ _]]] := mcd_c_step ax (isT : (1 < 2)%N) (erefl : get_h ANone (size X4) 2 = Ok 3%N) h.
  exact: x4_det0.
by have [s2 e2 h2] := IH s1 h1; exists s2 => //=; rewrite e.
Qed.

Example fast_mcd_case (chi2_ppf : T -> nat -> T) (gamma_cdf : T -> T -> T) ncs tol : 0 < tol ->
  exists s, is_hsubset X4 3 s /\
  fast_mcd as_ chi2_ppf gamma_cdf ch ch1 5 ANone 1 ncs.+1 10 None tol false false 42%N X4
  = Ok (McdOut (Some s) None (location s) (scale s)).
Proof.
have [s1 e1 h1] := x4_steps ncs.+1 s0_hsubset; have [s2 e2 h2] := x4_steps ncs.+1 h1.
move=> t0; have m1 (f : hsubset T 2 -> res (hsubset T 2)) u v : f u = Ok v -> mapM f [:: u] = Ok [:: v].
  by move=> /= ->.
exists s2; split=> //; rewrite (fast_mcd_unfold ax) //.
have -> : fast_candidates as_ ch ch1 5 ANone 1 ncs.+1 10 None 42%N X4 = Ok [:: s2].
  have -> : fast_candidates as_ ch ch1 5 ANone 1 ncs.+1 10 None 42%N X4
    = do subsets <- per_partition as_ ch ch1 5 ANone 1 ncs.+1 10 42%N [:: X4];
      do subsets' <- mapM (c_steps as_ ANone X4 ncs.+1) subsets;
      Ok (take 10 (by_det subsets')) by [].
  have -> : per_partition as_ ch ch1 5 ANone 1 ncs.+1 10 42%N [:: X4] = Ok [:: s1].
    have -> : per_partition as_ ch ch1 5 ANone 1 ncs.+1 10 42%N [:: X4]
      = do r <- initial_subsets ch ch1 5 42%N X4 1;
        do subsets <- mapM (c_steps as_ ANone X4 ncs.+1) r.1;
        Ok (take 10 (by_det subsets) ++ [::]) by [].
    have -> : initial_subsets ch ch1 5 42%N X4 1 = Ok ([:: s0], 43%N).
      have -> : initial_subsets ch ch1 5 42%N X4 1 = do s <- initial_subset ch ch1 5 42%N X4; Ok ([:: s.1], s.2).
        by rewrite /=; case: initial_subset.
      rewrite /initial_subset /=.
      have d0 : (\det (cov (sel 0 X4 [:: 0; 1; 2]%N)) == 0) = false.
        by have := x4_det0 s0_hsubset => /negbTE.
      by rewrite d0.
    by rewrite -[LHS]/(do l <- mapM (c_steps as_ ANone X4 ncs.+1) [:: s0];
                      Ok (take 10 (by_det l) ++ [::])) (m1 _ _ _ e1).
  by rewrite -[LHS]/(do l <- mapM (c_steps as_ ANone X4 ncs.+1) [:: s1];
                      Ok (take 10 (by_det l))) (m1 _ _ _ e2).
by rewrite /= (x4_det0 h2).
Qed.

(* affine images of the triangle: the same rows are selected *)
Example fast_mcd_affine_case (chi2_ppf : T -> nat -> T) (gamma_cdf : T -> T -> T) tol : 0 < tol ->
  let A : 'M[T]_2 := 2%:R%:M in let b := r2 (5%:R, -7%:R) in
  exists s o', [/\ is_hsubset X4 3 s,
    fast_mcd as_ chi2_ppf gamma_cdf ch ch1 5 ANone 1 2 10 None tol false false 42%N
      [seq x *m A^T + b | x <- X4] = Ok o',
    o_location o' = location s *m A^T + b & o_scale o' = 4%:R *: scale s].
Proof.
move=> t0 A b; have [s [hs e]] := fast_mcd_case chi2_ppf gamma_cdf 1 t0.
have [c1 c2] := mcd_choice_case.
have uA : A \in unitmx by rewrite unitmxE det_scalar unitfE expf_neq0 // pnatr_eq0.
have [_ h] := @fast_mcd_affine_equivariant T 2 as_ chi2_ppf gamma_cdf nat ch ch1 4 ANone 1 2 10 None
   tol false false 42%N X4 A b ax c1 c2 uA isT t0 isT.
have [//|o' [e' el es _ _]] := h _ e; exists s, o'; split=> //.
rewrite es /= tr_scalar_mx mul_mx_scalar mul_scalar_mx scalerA -natrM; exact: erefl.
Qed.

(* C98: four of five rows on a line *)
Definition X5 : seq 'rV[T]_2 := map (@r2 T) (tri ++ [:: (0, 0); (9%:R / 8%:R, 0)]).

Lemma on_line (P : seq (T * T)) idx : (forall i, i \in idx -> (nth (0, 0) P i).2 = 0) ->
  (forall i, i \in idx -> (i < size P)%N) -> (1 < size idx)%N -> \det (cov (sel 0 (map (@r2 T) P) idx)) = 0.
Proof.
move=> h0 hin sz; have -> : sel 0 (map (@r2 T) P) idx = map (@r2 T) [seq nth (0, 0) P i | i <- idx].
  rewrite /sel -map_comp; apply/eq_in_map => i hi /=.
  by rewrite (nth_map (0, 0)) // hin.
set L := map _ idx; have sL : (1 < size L)%N by rewrite size_map.
have hL q : q \in L -> q.2 = 0 by case/mapP => i hi ->; exact: h0.
have m1 : vmean (map (@r2 T) L) 0 1 = 0.
  have [_ ->] := @vm2 T L (ltnW sL); rewrite big1_seq ?mul0r // => q /andP[_ hq]; exact: hL.
have c k : cov (map (@r2 T) L) 1 k = 0.
  rewrite cov2 // big1_seq ?mul0r // => q /andP[_ hq].
  by rewrite m1 mxE /= (hL _ hq) subrr mul0r.
by rewrite det2 !c mulr0 mulr0 subrr.
Qed.

Lemma x5_step1 s : c_step as_ ANone X5 (mk_subset X5 [:: 0; 1; 2]%N 0) = Ok s ->
  [/\ wf X5 s & perm_eq (indices s) [:: 0; 1; 2; 3]%N].
Proof.
set s0' := mk_subset _ _ _.
have w0 : wf X5 s0' by apply: wf_mk => // i; rewrite !inE => /or3P[] /eqP ->.
move=> e; have [h [<-] [_ _ w _ sz]] := c_step_inv ax e.
have hc := c_step_closest ax w0 e; have [_ u hin] := w.
have e3 (q : T * T) : maha2 (scale s0') (location s0') (r2 q) = q.1 ^+ 2 + 3%:R * (q.2 - 1 / 3%:R) ^+ 2.
  exact: (tri_case q).1.
have n4 : 4%N \notin indices s.
  apply: (@drop_far _ _ X5 4 _ _ _ _ _ _ hc) => // j.
  case: j => [|[|[|[|[|//]]]]] _ // _; rewrite /= !e3 /=; flra.
have hs : {subset indices s <= [:: 0; 1; 2; 3]%N}.
  move=> i hi; have := hin _ hi; case: i hi => [|[|[|[|[|//]]]]] // hi.
  by rewrite hi in n4.
by split=> //; apply: uniq_perm => //; have [|_ he] := uniq_min_size u hs; rewrite ?sz.
Qed.

Lemma x5_step2 s s' : wf X5 s -> perm_eq (indices s) [:: 0; 1; 2; 3]%N ->
  c_step as_ ANone X5 s = Ok s' -> determinant s' = 0.
Proof.
move=> ws hp e; have [h [<-] [_ _ w _ sz]] := c_step_inv ax e.
have hc := c_step_closest ax ws e; have [_ u hin] := w.
have e4 (q : T * T) : maha2 (scale s) (location s) (r2 q)
    = 3%:R / 2%:R * q.1 ^+ 2 + 4%:R * (q.2 - 1 / 4%:R) ^+ 2.
  rewrite (wf_scale ws) (wf_loc ws) (vmean_perm X5 hp) (cov_perm X5 hp); exact: (quad_case q).1.
have n0 : 0%N \notin indices s'.
  apply: (@drop_far _ _ X5 4 _ _ _ _ _ _ hc) => // j.
  case: j => [|[|[|[|[|//]]]]] _ // _; rewrite /= !e4 /=; flra.
rewrite (wf_det w) (wf_scale w); apply: on_line; rewrite ?sz //.
move=> i hi; have := hin _ hi; case: i hi => [hi|[|[|[|[|//]]]]] //.
by rewrite hi in n0.
Qed.

Example fast_mcd_exact_fit_case (chi2_ppf : T -> nat -> T) (gamma_cdf : T -> T -> T) tol cor rew :
  0 < tol ->
  exists c, [/\ fast_candidates as_ ch ch1 6 ANone 1 1 10 None 42%N X5 = Ok [:: c], determinant c = 0
    & fast_mcd as_ chi2_ppf gamma_cdf ch ch1 6 ANone 1 1 10 None tol cor rew 42%N X5 = Err LinAlgError].
Proof.
move=> t0; set s0' := mk_subset X5 [:: 0; 1; 2]%N 0.
have w0 : wf X5 s0' by apply: wf_mk => // i; rewrite !inE => /or3P[] /eqP ->.
have d0 : \det (cov (sel 0 X5 [:: 0; 1; 2]%N)) != 0.
  have -> : \det (cov (sel 0 X5 [:: 0; 1; 2]%N)) = 1 / 3%:R := (tri_case (0, 0)).2.
  by rewrite gt_eqF //; flra.
have eh : get_h ANone (size X5) 2 = Ok 4%N by [].
have [s1 e1] : exists s, c_step as_ ANone X5 s0' = Ok s.
  by apply: (c_step_ok as_ w0 _ eh) => //; rewrite -detP.
have [w1 p1] := x5_step1 e1.
have [s2 e2] : exists s, c_step as_ ANone X5 s1 = Ok s.
  apply: (c_step_ok as_ w1 _ eh) => //; rewrite -detP (wf_scale w1) (cov_perm X5 p1).
  exact: (quad_case (0, 0)).2.
have z := x5_step2 w1 p1 e2.
have ec : fast_candidates as_ ch ch1 6 ANone 1 1 10 None 42%N X5 = Ok [:: s2].
  rewrite /fast_candidates /= /initial_subset /= (negbTE d0) /=.
  by rewrite -/s0' e1 /= e2.
exists s2; split=> //.
apply: fast_mcd_exact_fit_fails ec _ z => //; by left.
Qed.

(* preliminary estimates that prefer the first m of m + k rows *)
Definition est (m k : nat) (X : seq 'rV[T]_2) : res (seq 'rV[T]_2 * seq ('rV[T]_2 * 'M[T]_2)) :=
  Ok (nseq m 0 ++ nseq k (r2 (1, 0)), [:: (0, 1%:M)]).

Lemma est_distances m k : mahalanobis_distance (nseq m 0 ++ nseq k (r2 ((1 : T), 0))) 0 1%:M
  = Ok (map (@Fin T) (nseq m 0 ++ nseq k 1)).
Proof.
rewrite maha_fin ?unitmx1 //; last first.
  split; first by rewrite trmx1.
  move=> u; rewrite /quad mulmx1 mxE big_ord_recl; apply: addr_ge0; rewrite ?mxE -?expr2 ?sqr_ge0 //.
  by apply: sumr_ge0 => i _; rewrite mxE -expr2 sqr_ge0.
have m0 : maha_sq (invmx 1%:M) 0 (0 : 'rV[T]_2) = 0.
  by rewrite -maha2E /maha2 subrr mul0mx mul0mx mxE.
have m1 : maha_sq (invmx 1%:M) 0 (r2 ((1 : T), 0)) = 1.
  rewrite -(maha2E (1%:M : 'M[T]_2)) maha2_diag; rewrite ?mxE //= ?oner_eq0 //.
  by rewrite !subr0 !divr1 expr0n /= addr0 expr1n.
by rewrite !map_cat !map_nseq m0 m1 sqrtr0 sqrtr1.
Qed.

Lemma est_rows m k (D := nseq m (0 : T) ++ nseq k 1) :
  perm_eq (take m (as_ (map (@Fin T) D))) (iota 0 m).
Proof.
set I := take m _; have sD : size D = (m + k)%N by rewrite size_cat !size_nseq.
have pm : perm_eq (as_ (map (@Fin T) D)) (iota 0 (m + k)).
  by have := ax.1 (map (@Fin T) D); rewrite size_map sD.
have uI : uniq I by rewrite take_uniq // (perm_uniq pm) iota_uniq.
have sI : size I = m.
  by rewrite size_take (perm_size pm) size_iota; case: ltnP => //; lia.
have hI : {subset I <= iota 0 m}.
  move=> i hi; have imk : (i < m + k)%N by move: (mem_take hi); rewrite (perm_mem pm) mem_iota.
  rewrite mem_iota /=; case: (ltnP i m) => // im.
  have [j hj jn] : exists2 j, (j < m)%N & j \notin I.
    case: (boolP (all (mem I) (iota 0 m))) => [/allP h|/allPn[j]]; last first.
      by rewrite mem_iota => /andP[_ hj] hn; exists j.
    have ui : uniq (i :: iota 0 m) by rewrite cons_uniq iota_uniq mem_iota; lia.
    have sub : {subset i :: iota 0 m <= I} by move=> q; rewrite inE => /orP[/eqP ->|/h].
    by have := uniq_leq_size ui sub; rewrite sI /= size_iota ltnn.
  have jD : (j < size D)%N by rewrite sD; lia.
  have := take_le ax hi jD jn.
  by rewrite /D !nth_cat !nth_nseq !size_nseq hj ltnNge im /= ltn_subLR // imk leNgt ltr01.
by apply: uniq_perm; rewrite ?iota_uniq //; have [|_ he] := uniq_min_size uI hI; rewrite ?sI ?size_iota.
Qed.

(* C62: a run of DetMCD *)
Definition Y5 : seq 'rV[T]_2 := map (@r2 T) (tri ++ [:: (0, 0); (9%:R, 0)]).

Example det_mcd_case (chi2_ppf : T -> nat -> T) (gamma_cdf : T -> T -> T) tol : 0 < tol ->
  exists s, [/\ perm_eq (indices s) [:: 0; 1; 2; 3]%N, is_hsubset Y5 4 s
    & det_mcd as_ chi2_ppf gamma_cdf (est 3 2) 5 ANone tol false false Y5
      = Ok (McdOut (Some s) None (location s) (scale s))].
Proof.
move=> t0; pose I := take 3 (as_ (map (@Fin T) (nseq 3 0 ++ nseq 2 1))).
have pI : perm_eq I [:: 0; 1; 2]%N := est_rows 3 2.
pose H := mk_subset Y5 I 0.
have wH : wf Y5 H.
  apply: wf_mk; first by rewrite (perm_uniq pI).
  by move=> i; rewrite (perm_mem pI) !inE => /or3P[] /eqP ->.
have eh : get_h ANone (size Y5) 2 = Ok 4%N by [].
have [c ec] : exists c, c_step as_ ANone Y5 H = Ok c.
  apply: (c_step_ok as_ wH _ eh) => //; rewrite -detP (wf_scale wH) (cov_perm Y5 pI).
  have -> : \det (cov (sel 0 Y5 [:: 0; 1; 2]%N)) = 1 / 3%:R := (tri_case (0, 0)).2.
  by rewrite gt_eqF //; flra.
have [h [eh4] [_ _ w _ sz]] := c_step_inv ax ec; rewrite -eh4 in sz.
have hc := c_step_closest ax wH ec; have [_ u hin] := w.
have e3 (q : T * T) : maha2 (scale H) (location H) (r2 q) = q.1 ^+ 2 + 3%:R * (q.2 - 1 / 3%:R) ^+ 2.
  rewrite (wf_scale wH) (wf_loc wH) (vmean_perm Y5 pI) (cov_perm Y5 pI); exact: (tri_case q).1.
have n4 : 4%N \notin indices c.
  apply: (@drop_far _ _ Y5 4 _ _ _ _ _ _ hc) => // j.
  case: j => [|[|[|[|[|//]]]]] _ // _; rewrite /= !e3 /=; flra.
have hs : {subset indices c <= [:: 0; 1; 2; 3]%N}.
  move=> i hi; have := hin _ hi; case: i hi => [|[|[|[|[|//]]]]] // hi.
  by rewrite hi in n4.
have pc : perm_eq (indices c) [:: 0; 1; 2; 3]%N.
  by apply: uniq_perm => //; have [|_ he] := uniq_min_size u hs; rewrite ?sz.
have dc : determinant c != 0.
  rewrite (wf_det w) (wf_scale w) (cov_perm Y5 pc); exact: (quad_case (0, 0)).2.
exists c; split=> //.
  by have := @wf_is_hsubset _ _ Y5 c _ w; rewrite sz; apply.
have em : mapM (det_candidate as_ ANone Y5 (nseq 3 0 ++ nseq 2 (r2 (1, 0)))) [:: (0, 1%:M)] = Ok [:: c].
  by rewrite /mapM /det_candidate est_distances [bind (Ok _) _]/= /get_subset /= -/I -/H ec.
rewrite (det_mcd_unfold ax) //.
have -> : est 3 2 Y5 = Ok (nseq 3 0 ++ nseq 2 (r2 (1, 0)), [:: (0, 1%:M)]) by [].
rewrite -[LHS]/(do cands <- mapM (det_candidate as_ ANone Y5 (nseq 3 0 ++ nseq 2 (r2 (1, 0))))
                           [:: (0, 1%:M)]; _) em.
by rewrite /= dc.
Qed.

(* C98 for DetMCD: six of seven rows on a line *)
Definition X7 : seq 'rV[T]_2 :=
  map (@r2 T) (tri ++ [:: (0, 0); (1 / 2%:R, 0); (-1 / 2%:R, 0); (1 / 4%:R, 0)]).

Example det_mcd_exact_fit_case (chi2_ppf : T -> nat -> T) (gamma_cdf : T -> T -> T) tol cor rew :
  0 < tol ->
  exists Z e c, [/\ est 4 3 X7 = Ok (Z, e), mapM (det_candidate as_ ANone X7 Z) e = Ok [:: c],
    determinant c = 0
    & det_mcd as_ chi2_ppf gamma_cdf (est 4 3) 5 ANone tol cor rew X7 = Err LinAlgError].
Proof.
move=> t0; pose I := take 4 (as_ (map (@Fin T) (nseq 4 0 ++ nseq 3 1))).
have pI : perm_eq I [:: 0; 1; 2; 3]%N := est_rows 4 3.
pose H := mk_subset X7 I 0.
have wH : wf X7 H.
  apply: wf_mk; first by rewrite (perm_uniq pI).
  by move=> i; rewrite (perm_mem pI) !inE => /or4P[] /eqP ->.
have eh : get_h ANone (size X7) 2 = Ok 5%N by [].
have [c ec] : exists c, c_step as_ ANone X7 H = Ok c.
  apply: (c_step_ok as_ wH _ eh) => //; rewrite -detP (wf_scale wH) (cov_perm X7 pI).
  exact: (quad_case (0, 0)).2.
have z : determinant c = 0.
  have [h [<-] [_ _ w _ sz]] := c_step_inv ax ec.
  have hc := c_step_closest ax wH ec; have [_ u hin] := w.
  have e4 (q : T * T) : maha2 (scale H) (location H) (r2 q)
      = 3%:R / 2%:R * q.1 ^+ 2 + 4%:R * (q.2 - 1 / 4%:R) ^+ 2.
    rewrite (wf_scale wH) (wf_loc wH) (vmean_perm X7 pI) (cov_perm X7 pI); exact: (quad_case q).1.
  have n0 : 0%N \notin indices c.
    apply: (@drop_far _ _ X7 5 _ _ _ _ _ _ hc) => // j.
    case: j => [|[|[|[|[|[|[|//]]]]]]] _ // _; rewrite /= !e4 /=; flra.
  rewrite (wf_det w) (wf_scale w); apply: on_line; rewrite ?sz //.
  move=> i hi; have := hin _ hi; case: i hi => [hi|[|[|[|[|[|[|//]]]]]]] //.
  by rewrite hi in n0.
have em : mapM (det_candidate as_ ANone X7 (nseq 4 0 ++ nseq 3 (r2 (1, 0)))) [:: (0, 1%:M)] = Ok [:: c].
  by rewrite /mapM /det_candidate est_distances [bind (Ok _) _]/= /get_subset /= -/I -/H ec.
exists (nseq 4 0 ++ nseq 3 (r2 (1, 0))), [:: (0, 1%:M)], c; split=> //.
apply: det_mcd_exact_fit_fails em _ z => //; by left.
Qed.

(* C65, C99: the corners of the triangle have the same distance *)
Example mcd_correction_case (s := mk_subset (map (@r2 T) tri) [:: 0; 1; 2]%N 0)
    (chi2_ppf := fun (a : T) (_ : nat) => 2%:R * a) :
  [/\ is_hsubset (map (@r2 T) tri) 3 s, determinant s != 0,
      fmed [seq maha2 (scale s) (location s) x | x <- map (@r2 T) tri] = 4%:R / 3%:R
    & correct_covariance chi2_ppf (map (@r2 T) tri) s = Ok ((4%:R / 3%:R) *: scale s)].
Proof.
have hs : is_hsubset (map (@r2 T) tri) 3 s.
  by apply: (@wf_is_hsubset _ _ _ s) => //; apply: wf_mk => // i; rewrite !inE => /or3P[] /eqP ->.
have d0 : determinant s != 0.
  have -> : determinant s = 1 / 3%:R := (tri_case (0, 0)).2.
  by rewrite gt_eqF //; flra.
have em : fmed [seq maha2 (scale s) (location s) x | x <- map (@r2 T) tri] = 4%:R / 3%:R.
  have e3 (q : T * T) : maha2 (scale s) (location s) (r2 q) = q.1 ^+ 2 + 3%:R * (q.2 - 1 / 3%:R) ^+ 2.
    exact: (tri_case q).1.
  apply/eqP; rewrite eq_le andbC; apply: fmed_between => //= x.
  rewrite !e3 /= !inE => /or3P[] /eqP ->; apply/andP; split; flra.
split=> //.
have [||S [-> -> _ _]] := @mcd_consistency T 2 chi2_ppf _ 3 s hs d0; rewrite ?em /chi2_ppf; try by flra.
by rewrite mulrCA mulfV ?pnatr_eq0 // mulr1 divr1.
Qed.

End Cases.

(* C63: 700 rows on a parabola *)
Example fast_mcd_integer_alpha_case (T : rcfType) chi2_ppf gamma_cdf cor rew (tol : T) :
  let X := [seq r2 (k%:R, (k * k)%:R) | k <- iota 0 700] in
  fast_mcd (@xargsort T) chi2_ppf gamma_cdf ch ch1 1000 (AInt 400) 500 2 10 None tol cor rew 0%N X
  = Err ValueError /\ get_h (AInt 400) (size X) 2 = Ok 400%N.
Proof.
move=> X; have sX : size X = 700%N by rewrite size_map size_iota.
have [c1 c2] := mcd_choice_case; split; last by rewrite sX.
by apply: (@fast_mcd_integer_alpha_fails T 2 (@xargsort T) chi2_ppf gamma_cdf nat ch ch1 1000 400) => //; rewrite sX.
Qed.

(* C64 *)
Example mcd_h_case : [/\ get_h ANone 10 2 = Ok 6%N, get_h (AInt 8) 10 2 = Ok 8%N,
  get_h (AInt 5) 10 2 = Ok 6%N, get_h (AFloat (3%:R / 4%:R)) 10 2 = Ok 7%N
  & get_h (AInt 3) 10 2 = Err ValueError].
Proof. by split; vm_compute. Qed.

(* C66 *)
Example mcd_partitions_case : partition_data (Some 3%N) (iota 0 8)
  = Ok [:: [:: 0; 1; 2]; [:: 3; 4; 5]; [:: 6; 7]]%N.
Proof. by vm_compute. Qed.

(* C96 *)
Example fast_mcd_univariate_case (T : rcfType) chi2_ppf gamma_cdf cor rew (tol : T) :
  let X : seq 'rV[T]_1 := [seq (k%:R)%:M | k <- iota 0 20] in
  fast_mcd (@xargsort T) chi2_ppf gamma_cdf ch ch1 1000 ANone 500 2 10 None tol cor rew 0%N X
  = Err LinAlgError.
Proof.
move=> X; have [_ h] := @fast_mcd_univariate_fails T (@xargsort T) chi2_ppf gamma_cdf nat ch ch1
  1000 ANone 500 2 10 None tol cor rew 0%N X isT.
by apply: h.
Qed.

Print Assumptions closest_rows_determinant.
Print Assumptions mcd_c_step.
Print Assumptions mcd_final_loop.
Print Assumptions fast_mcd_selected.
Print Assumptions fast_mcd_tolerance_irrelevant.
Print Assumptions fast_mcd_exact_fit_fails.
Print Assumptions det_mcd_selected.
Print Assumptions det_mcd_tolerance_irrelevant.
Print Assumptions det_mcd_exact_fit_fails.
Print Assumptions mcd_not_converged_refuted.
Print Assumptions mcd_h_size.
Print Assumptions mcd_h_bounds.
Print Assumptions mcd_partitions.
Print Assumptions mcd_consistency.
Print Assumptions mcd_reweighted.
Print Assumptions fast_mcd_integer_alpha_fails.
Print Assumptions mcd_alpha_single_partition.
Print Assumptions fast_mcd_affine_equivariant.
Print Assumptions fast_mcd_univariate_fails.
Print Assumptions det_mcd_univariate_fails.
