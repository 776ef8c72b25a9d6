(* Property theorems: FastLTSRegression (C49, C50, C51, C52, C54). *)
From mathcomp Require Import all_ssreflect all_algebra.
From mathcomp.zify Require Import zify.
From mathcomp.algebra_tactics Require Import ring.
From Verif Require Import RFieldLra Prelude Stats RatFloor.
From Verif Require Import Regr Regr_Proofs LTS_Model LTS_Spec LTS_Proofs LTSFit_Proofs.

Set Implicit Arguments.
Unset Strict Implicit.
Unset Printing Implicit Defensive.

Import Order.TTheory GRing.Theory Num.Theory.
Local Open Scope ring_scope.

(* ---- the contracts can be met *)

(* least squares: for every n x p array some model has the smallest sum of squares, and with
   one regressor the textbook formula finds it *)
Theorem least_squares_exists (T : realFieldType) p (X : seq (seq T)) (y : seq T) :
  size X = size y -> rect p X -> exists m, size (coef m) = p /\
  forall m', size (coef m') = p -> sse m X y <= sse m' X y.
Proof. exact: ols_exists. Qed.

Example simple_regression (T : realFieldType) : is_ols 1 (@ols1 T). Proof. exact: ols1P. Qed.

Example an_argsort (T : realFieldType) : is_argsort (@stable_argsort T).
Proof. exact: stable_argsortP. Qed.

Section CSteps.
Variable T : realFieldType.
Variables (ols : seq (seq T) -> seq T -> lin T) (argsort : seq T -> seq nat).
Variables (p : nat) (X : seq (seq T)) (y : seq T).
Hypotheses (Hols : is_ols p ols) (Has : is_argsort argsort).
Hypotheses (szXY : size X = size y) (rX : rect p X).
Let n := size X.

(* C49: the h-subset of a model is optimal for that model *)
Theorem lts_h_subset_optimal m h :
  subset_of n (minn h n) (h_subset argsort m X y h) /\
  forall H, subset_of n (minn h n) H ->
  trimmed_loss m X y (h_subset argsort m X y h) <= trimmed_loss m X y H.
Proof.
by split; [exact: h_subset_sub|move=> H; exact: h_subset_opt].
Qed.

(* C49: a C-step never increases the loss *)
Theorem lts_c_step_monotone m h : (0 < h)%N -> (0 < n)%N -> size (coef m) = p ->
  exists H' m', [/\ c_step ols argsort m X y h = Ok (H', m'),
    subset_of n (minn h n) H', size (coef m') = p,
    (forall m2, size (coef m2) = p -> trimmed_loss m' X y H' <= trimmed_loss m2 X y H') &
    forall H, subset_of n (minn h n) H -> trimmed_loss m' X y H' <= trimmed_loss m X y H].
Proof. exact: c_step_lem. Qed.

(* C50: with a non-negative tolerance the loop stops after at most one C-step more than there
   are h-subsets, and does not return a larger loss than any h-subset had for the start model *)
Theorem lts_c_steps_terminate fuel m prev h tol :
  (0 < h)%N -> (0 < n)%N -> size (coef m) = p -> 0 <= tol -> ('C(n, minn h n) < fuel)%N ->
  exists m' H' l' it, [/\ converge ols argsort fuel m prev X y h tol 0 = Ok (m', H', l', it),
    subset_of n (minn h n) H' /\ size (coef m') = p,
    l' = trimmed_loss m' X y H',
    (forall m2, size (coef m2) = p -> l' <= trimmed_loss m2 X y H') &
    (it <= 'C(n, minn h n))%N /\
    forall H, subset_of n (minn h n) H -> l' <= trimmed_loss m X y H].
Proof.
by move=> h0 n0 sm t0 hf; exact: (@converge_lem T ols argsort Has p Hols X y szXY rX fuel m prev h tol 0).
Qed.

(* C50: with a negative tolerance it never stops *)
Theorem lts_negative_tolerance_diverges fuel m h tol H :
  (0 < h)%N -> (0 < n)%N -> size (coef m) = p -> tol < 0 -> subset_of n (minn h n) H ->
  converge ols argsort fuel m (trimmed_loss m X y H) X y h tol 0 = NoFuel.
Proof. by move=> h0 n0 sm t0 sH; exact: (converge_diverges Has Hols szXY rX fuel 0 h0 n0 sm t0 sH). Qed.

(* C51: the candidate selected is one of the given ones or the result of one of the loops, its
   loss is at most that of every given candidate and of every loop that was run *)
Theorem lts_selects_best fuel h tol nbest cands d b :
  select_best ols argsort fuel X y h tol nbest cands = Ok b ->
  [/\ (forall i, (i < size cands)%N -> b.1.2 <= (nth d cands i).1.2),
   (forall i, i \in take nbest (argsort [seq c.1.2 | c <- cands]) -> exists r,
      converge ols argsort fuel (nth d cands i).1.1 (nth d cands i).1.2 X y h tol 0 = Ok r
      /\ b.1.2 <= r.1.2) &
   exists2 i, (i < size cands)%N & b = nth d cands i \/ exists r,
      converge ols argsort fuel (nth d cands i).1.1 (nth d cands i).1.2 X y h tol 0 = Ok r
      /\ b = (r.1.1.1, r.1.2, r.1.1.2)].
Proof. exact: select_best_lem. Qed.

(* C51: end to end: fit (before reweighting) never fails on valid arguments, and model, loss and
   subset belong together *)
Theorem lts_raw_fit choice alpha nsub ncs nbest tol seed0 fuel iw h :
  is_choice choice -> good_weights p iw -> h_size alpha n p = Ok h -> 0 <= tol ->
  ('C(n, minn h n) < fuel)%N -> (p < n)%N -> (0 < nsub)%N -> (0 < nbest)%N ->
  exists m l H,
  raw_fit ols argsort choice alpha nsub ncs nbest tol seed0 fuel p X y iw = Ok (m, l, H) /\
  [/\ subset_of n (minn h n) H, size (coef m) = p, l = trimmed_loss m X y H,
   ((0 < ncs)%N -> forall m2, size (coef m2) = p -> l <= trimmed_loss m2 X y H) &
   forall seed, (seed0 <= seed < seed0 + nsub)%N ->
     exists m1 l1 H1, initial_one ols argsort choice X y p h ncs iw seed = Ok (m1, l1, H1)
       /\ l <= l1].
Proof.
move=> Hc gw eh t0 hf pn s0 b0.
have [[[m l] H] e] := @raw_fit_total T ols argsort choice Has X y p Hols szXY rX alpha nsub ncs
  nbest tol seed0 fuel iw Hc gw h eh t0 hf pn s0 b0.
exists m, l, H; split => //; exact: (raw_fit_lem Has Hols szXY rX Hc gw eh t0 hf pn e).
Qed.

(* no more observations than regressors, no subset, no model to refine: exceptions *)
Theorem lts_raw_fit_errors choice alpha nsub ncs nbest tol seed0 fuel iw :
  (alpha < 1%:R / 2%:R \/ 1 < alpha ->
   raw_fit ols argsort choice alpha nsub ncs nbest tol seed0 fuel p X y iw = Err ValueError) /\
  (1%:R / 2%:R <= alpha <= 1 ->
   ((n <= p)%N -> (0 < nsub)%N ->
    raw_fit ols argsort choice alpha nsub ncs nbest tol seed0 fuel p X y iw = Err ValueError) /\
   (nsub = 0%N ->
    raw_fit ols argsort choice alpha nsub ncs nbest tol seed0 fuel p X y iw = Err IndexError)).
Proof.
rewrite /raw_fit /h_size -/n; split.
  by case=> [h|h]; rewrite h ?orbT.
move=> /andP[a1 a2]; rewrite !ltNge a1 a2 /=; split => [np s0|->] /=.
  case: nsub s0 => // k _; rewrite /initial_c_steps /= /initial_one /initial_model.
  by rewrite ltnS -/n np.
by rewrite /select_best /=; case: (take _ _).
Qed.
End CSteps.

(* C52: alpha and the subset size *)
Theorem lts_subset_size (alpha : rat) (n p : nat) :
  (alpha < 1%:R / 2%:R \/ 1 < alpha -> h_size alpha n p = Err ValueError) /\
  (1%:R / 2%:R <= alpha <= 1 -> exists h k : nat,
   [/\ h_size alpha n p = Ok h, h = maxn k ((n + p + 1) %/ 2),
     k%:R <= n%:R * alpha < k.+1%:R, (n <= 2 * h)%N & (h <= n)%N = (p <= n)%N]).
Proof.
split; first by rewrite /h_size => -[h|h]; rewrite h ?orbT.
move=> /andP[a1 a2].
have [h eh] : exists h, h_size alpha n p = Ok h.
  by rewrite /h_size !ltNge a1 a2 /=; eexists.
have [k [hk e _]] := h_size_lem eh; have [l1 _ l2] := h_size_le eh.
by exists h, k.
Qed.

Example lts_subset_size_case : h_size (3%:R / 4%:R) 20 2 = Ok 15%N /\ h_size (1%:R / 2%:R) 20 2 = Ok 11%N.
Proof. by split; rewrite /h_size; vm_compute. Qed.

(* ---- a fitted case: seven observations, the first five on a line up to noise *)
Notation Q := rat_realFieldType.
Definition ex_X : seq (seq Q) := [seq [:: (i%:R : Q)] | i <- iota 0 7].
Definition ex_y : seq Q := [:: 0; 1; 2%:R; 3%:R; 5%:R; 40%:R; 50%:R].
Definition ex_choice (seed n k : nat) : seq nat := iota 0 k.

Lemma ex_choiceP : is_choice ex_choice.
Proof.
move=> seed n k kn; split; rewrite ?iota_uniq ?size_iota // => i.
by rewrite mem_iota add0n => /leq_trans; apply.
Qed.

Definition same (A : Type) (f : A -> bool) (r : res A) : bool := if r is Ok a then f a else false.

(* one C-step from a bad model, then the whole raw fit with alpha = 0.5 (h = 4) *)
Example lts_c_step_case :
  [/\ size ex_X = size ex_y, rect 1 ex_X,
    same (fun r => (r.1 == [:: 3; 2; 1; 4]%N) && (loss ex_X ex_y r.1 r.2 < 1))
      (c_step (@ols1 _) (@stable_argsort _) (Lin (2%:R : Q) [:: 1 / 3%:R]) ex_X ex_y 4) &
    loss ex_X ex_y [:: 3; 2; 1; 4]%N (Lin (2%:R : Q) [:: 1 / 3%:R]) == 5%:R / 4%:R].
Proof. split; vm_compute; done. Qed.

Definition ex4_X : seq (seq Q) := [:: [:: 0]; [:: 1]; [:: 2%:R]; [:: 3%:R]].
Definition ex4_y : seq Q := [:: 0; 1; 2%:R; 5%:R].

Example lts_raw_fit_case :
  [/\ h_size (1%:R / 2%:R) 4 1 = Ok 3%N,
    same (fun r => [&& icpt r.1.1 == 0, coef r.1.1 == [:: 1], r.1.2 == 0 & r.2 == [:: 0; 1; 2]%N])
      (raw_fit (@ols1 _) (@stable_argsort _) ex_choice (1%:R / 2%:R) 2 1 1 0 42 5 1 ex4_X ex4_y None) &
    raw_fit (@ols1 _) (@stable_argsort _) ex_choice (1%:R / 2%:R) 0 2 2 0 42 5 1 ex4_X ex4_y None
    = Err IndexError].
Proof.
split; [by vm_compute|by vm_compute|].
have [_ [//|_ h]] := @lts_raw_fit_errors _ (@ols1 Q) (@stable_argsort Q) 1 ex4_X ex4_y ex_choice
  (1%:R / 2%:R) 0 2 2 0 42 5 None.
exact: h.
Qed.

(* a non-converging loop: tolerance -1 *)
Example lts_negative_tolerance_case fuel :
  converge (@ols1 _) (@stable_argsort _) fuel (Lin 0 [:: 1])
    (trimmed_loss (Lin 0 [:: 1]) ex_X ex_y [:: 0; 1; 2; 3]%N) ex_X ex_y 4 (-1%:R) 0 = NoFuel.
Proof.
apply: (lts_negative_tolerance_diverges (@ols1P _) (@stable_argsortP _)) => //.
by split => // i; rewrite !inE => /or4P[] /eqP ->.
Qed.

(* ---- reweighting *)
Section Reweight.
Variable T : rcfType.
Variables (ols : seq (seq T) -> seq T -> lin T) (argsort : seq T -> seq nat).
Variable choice : nat -> nat -> nat -> seq nat.
Variables (factor factor_rw : nat -> nat -> rat -> T) (q : T).
Variables (p : nat) (X : seq (seq T)) (y : seq T).
Hypothesis szXY : size X = size y.

(* C54: fit without reweighting reports the raw model and factor * sqrt(loss) *)
Theorem lts_fit_unweighted alpha nsub ncs nbest tol seed0 fuel iw m l H :
  raw_fit ols argsort choice alpha nsub ncs nbest tol seed0 fuel p X y iw = Ok (m, l, H) ->
  fit ols argsort choice factor factor_rw q alpha nsub ncs nbest false tol seed0 fuel p X y iw
  = Ok (Fitted m H (factor p (size X) alpha * Num.sqrt l)) /\
  fit ols argsort choice factor factor_rw q alpha nsub ncs nbest true tol seed0 fuel p X y iw
  = reweight ols factor_rw q alpha p X y m H.
Proof. by move=> e; rewrite /fit e. Qed.

(* C54: the reweighted model is a least-squares fit on the observations with squared residual at
   most q^2 times the ordinary variance of all residuals; best_h_subset is still the raw one *)
Theorem lts_reweight_result alpha m sub f : 0 <= q -> is_ols p ols -> rect p X ->
  reweight ols factor_rw q alpha p X y m sub = Ok f ->
  let v := fvar (residuals m X y) in
  let kept := [seq i <- iota 0 (size X) | resid2 m X y i <= q ^+ 2 * v] in
  [/\ 0 < v, f_subset f = sub, size (coef (f_model f)) = p,
    (forall m2, size (coef m2) = p ->
       trimmed_loss (f_model f) X y kept <= trimmed_loss m2 X y kept) &
    f_scale f = factor_rw p (size X) alpha * Num.sqrt (trimmed_loss (f_model f) X y kept)].
Proof. by move=> q0 Ho hX; exact: reweight_spec. Qed.

(* C54: k outliers with the same residual M among exactly fitted observations, k between 30%
   and 70% of the data: no observation is rejected, whatever M, and the final model is ordinary
   least squares on all the data; norm.ppf(0.9875) is 2.24 *)
Theorem lts_reweight_keeps_outliers alpha m sub (M : T) k :
  (0 < size X)%N -> 22%:R / 10%:R <= q -> M != 0 ->
  (3 * size X <= 10 * k)%N -> (10 * k <= 7 * size X)%N ->
  perm_eq (residuals m X y) (nseq k M ++ nseq (size X - k) 0) ->
  exists sc, reweight ols factor_rw q alpha p X y m sub = Ok (Fitted (ols X y) sub sc).
Proof. by move=> *; apply: reweight_masked; eassumption. Qed.

(* C54: an exact fit of all observations makes the reweighting step fail *)
Theorem lts_reweight_exact_fit alpha m sub :
  (forall i, (i < size X)%N -> nth 0 y i = predict1 m (nth [::] X i)) ->
  reweight ols factor_rw q alpha p X y m sub = Err ValueError.
Proof. by move=> h; apply: reweight_exact. Qed.
End Reweight.

(* ten observations, four of them shifted by M, on the line y = x *)
Example lts_reweight_keeps_outliers_case (T : rcfType) (M : T) :
  let X : seq (seq T) := [seq [:: i%:R] | i <- iota 0 10] in
  let y := [seq i%:R + (if (i < 4)%N then M else 0) | i <- iota 0 10] in
  [/\ size X = size y, (3 * size X <= 10 * 4)%N, (10 * 4 <= 7 * size X)%N &
  perm_eq (residuals (Lin 0 [:: 1]) X y) (nseq 4 M ++ nseq (size X - 4) 0)].
Proof.
move=> X y; split => //; rewrite /X /y.
suff -> : residuals (Lin 0 [:: 1]) [seq [:: i%:R] | i <- iota 0 10]
   [seq i%:R + (if (i < 4)%N then M else 0) | i <- iota 0 10] = nseq 4 M ++ nseq 6 0 by [].
rewrite /residuals /= /predict1 /dot /=; do ! congr cons; ring.
Qed.

Example lts_reweight_exact_fit_case (T : rcfType) :
  let X : seq (seq T) := [:: [:: 1]; [:: 2%:R]; [:: 5%:R]] in
  let y : seq T := [:: 5%:R; 7%:R; 13%:R] in
  forall i, (i < size X)%N -> nth 0 y i = predict1 (Lin 3%:R [:: 2%:R]) (nth [::] X i).
Proof. by move=> X y; case=> [|[|[|]]] // _; rewrite /predict1 /dot /=; ring. Qed.

Print Assumptions least_squares_exists.
Print Assumptions lts_c_step_monotone.
Print Assumptions lts_c_steps_terminate.
Print Assumptions lts_raw_fit.
Print Assumptions lts_reweight_keeps_outliers.
