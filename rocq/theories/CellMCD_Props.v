(* Properties of the cellwise MCD. *)
From mathcomp Require Import all_ssreflect all_algebra perm.
From mathcomp.zify Require Import zify.
From mathcomp.algebra_tactics Require Import ring.
From Verif Require Import RFieldLra Prelude Stats Xnum RatFloor Vec PSD LinAlg_Model LinAlg_Proofs.
From Verif Require Import MCD_Model MCD_Spec MCD_Proofs MCDCase_Proofs OGK_Model OGK_Proofs Eig2_Proofs.
From Verif Require Import Cov_Model Cov_Spec Cov_Proofs Cov_Props.
From Verif Require Import Gauss_Proofs CellMCD_Model CellMCD_Spec CellMCD_Proofs CellMCD_Step_Proofs.
From Verif Require Import CellMCD_Loop_Proofs CellMCD_More_Proofs RInst.

Set Implicit Arguments.
Unset Strict Implicit.
Unset Printing Implicit Defensive.

Import Order.TTheory GRing.Theory Num.Theory.
Local Open Scope ring_scope.

Section Steps.
Variables (T : rcfType) (n p : nat) (ln : T -> T) (log2pi : T).
Hypothesis L : is_log ln.
Let lnM := proj1 L.
Let ln_le := proj2 L.
Implicit Types (X : 'M[option T]_(n, p)) (W : 'M[bool]_(n, p)) (sigma sigma_inv : 'M[T]_p).
Implicit Types (mu q : 'rV[T]_p) (e : est T p).

(* C72: delta is the increase of minus twice the log-likelihood of the row when the cell becomes
   clean; it is infinite for a missing cell *)
Theorem cellmcd_delta X W sigma sigma_inv mu j :
  pos_def sigma -> sigma *m sigma_inv = 1%:M -> observed X W ->
  exists2 d, calculate_delta ln log2pi X W sigma sigma_inv mu j = Ok d
  & forall i, d i = if X i j then
      Fin (neg2loglik ln log2pi (j |: clean W i) sigma mu (vals X i)
           - neg2loglik ln log2pi (clean W i :\ j) sigma mu (vals X i)) else PInf.
Proof. move=> pS eS oW; exact: deltaE. Qed.

(* C80: the sum over the patterns is the sum over the rows *)
Theorem cellmcd_objective X W sigma sigma_inv mu q :
  pos_def sigma -> sigma *m sigma_inv = 1%:M -> observed X W ->
  objective_function ln log2pi X W mu sigma sigma_inv
    = Ok (Fin (\sum_i neg2loglik ln log2pi (clean W i) sigma mu (vals X i))) /\
  objective ln log2pi X W mu sigma sigma_inv q = Ok (Fin (penalised ln log2pi q X W mu sigma)).
Proof.
move=> pS eS oW; split; last exact: objectiveE.
exact: objective_functionE.
Qed.

(* C73: the new column is optimal among the columns with at least h clean cells *)
Theorem cellmcd_update_column X W sigma sigma_inv mu q h j :
  pos_def sigma -> sigma *m sigma_inv = 1%:M -> observed X W ->
  (forall k, h <= #|[set i | isSome (X i k)]|)%N ->
  exists2 W', (do d <- calculate_delta ln log2pi X W sigma sigma_inv mu j;
               Ok (set_column W j (good_cells d (q 0 j) h))) = Ok W'
  & [/\ observed X W', (h <= #|[set i | W' i j]|)%N, forall i k, k != j -> W' i k = W i k
    & forall W1, observed X W1 -> (h <= #|[set i | W1 i j]|)%N -> (forall i k, k != j -> W1 i k = W i k) ->
      penalised ln log2pi q X W' mu sigma <= penalised ln log2pi q X W1 mu sigma].
Proof.
move=> pS eS oW hc; apply: column_update => // k.
by apply: leq_trans (hc k) _; apply: eq_leq; apply: eq_card => i; rewrite !inE.
Qed.

(* C73: all columns together *)
Theorem cellmcd_update_W X W sigma sigma_inv mu q h :
  pos_def sigma -> sigma *m sigma_inv = 1%:M -> observed X W ->
  (forall k, h <= #|[set i | W i k]|)%N ->
  exists2 W', update_W ln log2pi X W mu sigma sigma_inv q h = Ok W'
  & [/\ observed X W', forall k, (h <= #|[set i | W' i k]|)%N
      & penalised ln log2pi q X W' mu sigma <= penalised ln log2pi q X W mu sigma].
Proof.
move=> pS eS oW hW; apply: update_WE => // k.
apply: leq_trans (hW k) _; apply: subset_leq_card; apply/subsetP => i; rewrite !inE; exact: oW.
Qed.

(* C73: without any hypothesis on the estimates or the data, a column update that succeeds leaves
   h clean cells *)
Theorem cellmcd_update_keeps_h X W sigma sigma_inv mu q h W' : (h <= n)%N ->
  update_W ln log2pi X W mu sigma sigma_inv q h = Ok W' -> forall k, (h <= #|[set i | W' i k]|)%N.
Proof. move=> hn hU k; exact: update_W_cols hU k. Qed.

(* C76: the imputed row and its term in the covariance *)
Theorem cellmcd_imputation X W sigma sigma_inv mu i :
  pos_def sigma -> sigma *m sigma_inv = 1%:M ->
  exists y B, impute_row X W mu sigma sigma_inv i = Ok (y, B)
  /\ [/\ forall k, W i k -> y 0 k = vals X i 0 k,
         forall k, ~~ W i k -> cond_mean (clean W i) sigma mu (vals X i) k (y 0 k),
         forall k l, ~~ W i k -> ~~ W i l -> cond_cov (clean W i) sigma k l (B l k)
       & forall k l, W i k || W i l -> B k l = 0].
Proof. move=> pS eS; exact: impute_row_cond. Qed.

(* C76: the prediction of a cell and its variance are those given the clean cells other than the
   cell itself, when the row has a clean cell *)
Theorem cellmcd_predictions X W sigma sigma_inv mu i k :
  pos_def sigma -> sigma *m sigma_inv = 1%:M -> observed X W -> clean W i != set0 ->
  exists v c, [/\ make_prediction X W mu sigma sigma_inv i k = Ok (Some v, c),
    cond_mean (clean W i :\ k) sigma mu (vals X i) k v & cond_cov (clean W i :\ k) sigma k k c].
Proof.
move=> pS eS oW /negbTE ne; have [v [c [h1 h2]]] := make_predictionE mu pS eS oW i k.
by rewrite ne in h2; have [h3 h4] := h2; exists v, c.
Qed.

(* C76: the spec determines the values *)
Theorem cellmcd_conditional_unique (A : {set 'I_p}) sigma mu x k l v w :
  pos_def sigma ->
  (cond_mean A sigma mu x k v -> cond_mean A sigma mu x k w -> v = w) /\
  (cond_cov A sigma k l v -> cond_cov A sigma k l w -> v = w).
Proof. by move=> pS; split; [exact: cond_mean_unique|exact: cond_cov_unique]. Qed.

(* C77: a row without clean cells *)
Theorem cellmcd_all_missing X W sigma sigma_inv mu i k :
  pos_def sigma -> sigma *m sigma_inv = 1%:M -> observed X W -> clean W i = set0 ->
  [/\ make_prediction X W mu sigma sigma_inv i k = Ok (Some (mu 0 k), sigma_inv k k),
      cond_mean (clean W i :\ k) sigma mu (vals X i) k (mu 0 k)
    & cond_cov (clean W i :\ k) sigma k k (sigma_inv k k) <-> sigma_inv k k = sigma k k].
Proof.
move=> pS eS oW e0; have [v [c [h1 h2]]] := make_predictionE mu pS eS oW i k.
have sD : set0 :\ k = set0 :> {set 'I_p} by apply/setP => l; rewrite !inE andbF.
rewrite e0 eqxx in h2; have [ev ec] := h2; rewrite -{1}ec -{1}ev e0 sD; split=> //; first exact: cond_mean0.
have c0 := cond_cov0 sigma k k; split=> [h|->] //; exact: (cond_cov_unique pS h c0).
Qed.

Variables (eigh : 'M[T]_p -> 'rV[T]_p * 'M[T]_p) (as_ : 'rV[T]_p -> 'I_p -> 'I_p).
Hypothesis He : correct_eigh eigh.
Hypothesis Ha : forall w, injective (as_ w).

(* C106: a C-step from a covariance whose eigenvalues are at least min_eigenvalue does not
   increase the penalised objective, and gives such a covariance again *)
Theorem cellmcd_step_descends X (m : heap n p) r q h a (e : est T p) : (1 < n)%N -> 0 < a ->
  pos_def (e_sigma e) -> e_sigma e *m e_inv e = 1%:M ->
  (forall x : 'rV[T]_p, a * (x *m x^T) 0 0 <= (x *m e_sigma e *m x^T) 0 0) ->
  observed X (m r) -> (forall k, h <= #|[set i | m r i k]|)%N ->
  exists m' mu' S', C_step ln log2pi X m r (e_mu e) (e_sigma e) (e_inv e) q h = Ok (m', r, (mu', S'))
  /\ let S := truncated_covariance eigh as_ S' a in
     [/\ penalised ln log2pi q X (m' r) mu' S <= penalised ln log2pi q X (m r) (e_mu e) (e_sigma e),
         pos_def S, forall x : 'rV[T]_p, a * (x *m x^T) 0 0 <= (x *m S *m x^T) 0 0,
         observed X (m' r) & forall k, (h <= #|[set i | m' r i k]|)%N].
Proof.
move=> n1 a0 pS eS gS oW hW; have gW : good_W X h (m r) by split.
have [W' [e' [eP [oW' hW'] [p' g' _] /(_ n1 gS) l]]] := pure_stepE log2pi lnM ln_le He Ha q a0 pS eS gW.
move: eP; rewrite /pure_step /C_step; case: (update_W _ _ _ _ _ _ _ _ _) => [W1| |] //=.
case: (m_step _ _ _ _ _) => [[mu1 S1]| |] //=; case: (np_inv _) => [I| |] //=.
case: (objective _ _ _ _ _ _ _ _) => [v| |] //= [eW ee ev]; subst W1 e'.
by exists (hset m r W'), mu1, S1; split=> //; rewrite /hset eqxx; split.
Qed.

(* C74: what is returned; the first alternative is the regular one.  In the second one a C-step
   increased the objective: the estimates are those before this step, W is the one of this step *)
Theorem cellmcd_returned_W X alpha (chi99 crit a : T) max_c_steps e0 e W objs :
  let h := py_round (alpha * n%:R) in
  let q := q_vec ln log2pi chi99 (e_inv e0) in
  C_steps_until_convergence ln log2pi eigh as_ X alpha chi99 crit a max_c_steps e0 = Ok (e, W, objs) ->
  exists v0 W',
  trace ln log2pi eigh as_ X q h a (initial_W X) e0 [:: v0] W' e objs /\
  (W = W' \/
   exists e2 v, pure_step ln log2pi eigh as_ X q h a W' e = Ok (W, e2, v) /\ xlt (head NaN objs) v).
Proof.
move=> h q; rewrite /C_steps_until_convergence -/h -/q.
case: (objective _ _ _ _ _ _ _ _) => [v0| |] //= hres; exists v0.
have [_ [W' tr hW]] := c_loopE hres (or_introl erefl); exists W'; split=> //.
by case: hW => [[-> _]|hW]; [left|right].
Qed.

(* C75: the accepted values never increase, at most max_c_steps steps are accepted *)
Theorem cellmcd_objective_values X alpha (chi99 crit a : T) max_c_steps e0 e W objs :
  C_steps_until_convergence ln log2pi eigh as_ X alpha chi99 crit a max_c_steps e0 = Ok (e, W, objs) ->
  (size objs <= max_c_steps.+1)%N /\ sorted (fun v u => ~~ xlt u v) objs.
Proof.
rewrite /C_steps_until_convergence; case: (objective _ _ _ _ _ _ _ _) => [v0| |] //= hres.
have [sz [W' tr _]] := c_loopE hres (or_introl erefl); split=> //.
exact: trace_sorted tr _.
Qed.

(* C75: without a step there is nothing to return *)
Theorem cellmcd_no_step X alpha (chi99 crit a : T) max_c_steps e0 :
  pos_def (e_sigma e0) -> e_sigma e0 *m e_inv e0 = 1%:M -> (max_c_steps = 0%N \/ 1 <= crit) ->
  C_steps_until_convergence ln log2pi eigh as_ X alpha chi99 crit a max_c_steps e0 = Err UnboundLocalError.
Proof. exact: C_steps_unbound. Qed.

(* C74, C75, C106: with positive definite initial estimates and enough observed cells the C-steps
   succeed; the last value belongs to what is returned, unless the very first C-step is rejected,
   and that does not happen when the eigenvalues of the initial covariance are at least
   min_eigenvalue *)
Theorem cellmcd_c_steps X alpha (chi99 crit a : T) max_c_steps e0 : 0 < a -> (1 < n)%N ->
  pos_def (e_sigma e0) -> e_sigma e0 *m e_inv e0 = 1%:M ->
  let h := py_round (alpha * n%:R) in
  let q := q_vec ln log2pi chi99 (e_inv e0) in
  let pen W e := penalised ln log2pi q X W (e_mu e) (e_sigma e) in
  (forall j, h <= #|[set i | isSome (X i j)]|)%N -> (0 < max_c_steps)%N -> crit < 1 ->
  exists e W objs,
  [/\ C_steps_until_convergence ln log2pi eigh as_ X alpha chi99 crit a max_c_steps e0 = Ok (e, W, objs),
      observed X W, forall j, (h <= #|[set i | W i j]|)%N, pos_def (e_sigma e)
    & (head NaN objs = Fin (pen W e) /\ forall x : 'rV[T]_p, a * (x *m x^T) 0 0 <= (x *m e_sigma e *m x^T) 0 0)
      \/ [/\ e = e0, objs = [:: Fin (pen (initial_W X) e0)]
           & ~ forall x : 'rV[T]_p, a * (x *m x^T) 0 0 <= (x *m e_sigma e0 *m x^T) 0 0]].
Proof.
move=> a0 n1 pS eS h q pen hc m0 c1.
have hc' j : (h <= #|[pred i | isSome (X i j)]|)%N.
  by apply: leq_trans (hc j) _; apply: eq_leq; apply: eq_card => i; rewrite !inE.
have [e [W [objs [h1 [h2 h3] h4 h5 h6]]]] := C_stepsE log2pi lnM ln_le He Ha chi99 a0 n1 pS eS hc' m0 c1.
exists e, W, objs; split=> //; first by case: h6 => [[[]]|[->]].
by case: h6 => [[[_ g _] ho]|[h7 h8 h9 _]]; [left|right].
Qed.

(* C78: with a cutoff of at most 3, no cell that is missing or set to missing is declared clean;
   the initial estimates are arbitrary *)
Theorem cellmcd_no_missing_clean (alpha : rat) (cutoff chi99 crit a : T) max_c_steps scaled init alpha' e W objs :
  (1 < n)%N -> 0 < a -> cutoff <= 3%:R ->
  (forall al e0, init al = Ok e0 -> pos_def (e_sigma e0) /\ e_sigma e0 *m e_inv e0 = 1%:M) ->
  fit_core ln log2pi eigh as_ alpha cutoff chi99 crit a max_c_steps scaled init = (alpha', Ok (e, W, objs)) ->
  forall i k, W i k -> exists2 x, scaled i k = Some x & `|x| <= 3%:R.
Proof.
move=> n1 a0 c3 hi; rewrite /fit_core; case ea: (new_alpha alpha n) => [al| |] //= [_].
case ec: (check_data _ _ _) => [u| |] //=; case ei: (init al) => [e0| |] //= hC.
have n0 : (0 < n)%N by lia.
have [/andP[h1 h2] ha _] := new_alphaE n0 ea.
have al0 : 0 <= al by rewrite ha le_maxr (half_ge0 h1).
have hc j := @check_data_cols T n p al cutoff scaled j n0 al0 c3; rewrite ec in hc; case: u ec hc => ec hc.
have [pS eS] := hi _ _ ei.
have [eq|] := boolP (max_c_steps == 0%N).
  by move: hC; rewrite C_steps_unbound //; left; apply/eqP.
rewrite -lt0n => m0; have [c1|c1] := leP 1 crit.
  by move: hC; rewrite C_steps_unbound //; right.
have [e' [W' [objs' [hC' [h3 h4] _ _ _]]]] :=
  C_stepsE log2pi lnM ln_le He Ha chi99 a0 n1 pS eS (fun j => hc j erefl) m0 c1.
move: hC; rewrite hC' => -[_ <- _] i k /h3; rewrite mxE.
case: (scaled i k) => // x; case: ltP => // hx _; by exists x.
Qed.

(* C79: alpha after a fit, whether or not the rest of the fit succeeds *)
Theorem cellmcd_alpha (alpha : rat) (cutoff chi99 crit a : T) max_c_steps (scaled : 'M[option T]_(n, p)) init : (0 < n)%N ->
  1 / 2%:R <= alpha <= 1 ->
  let alpha' := (fit_core ln log2pi eigh as_ alpha cutoff chi99 crit a max_c_steps scaled init).1 in
  [/\ alpha' = Num.max alpha ((n %/ 2).+1%:R / n%:R), 1 / 2%:R <= alpha' <= 1
    & ((n %/ 2).+1 <= py_round (alpha' * n%:R) <= n)%N].
Proof.
move=> n0 ha alpha'; have ea : new_alpha alpha n = Ok (Num.max alpha ((n %/ 2).+1%:R / n%:R)).
  by rewrite /new_alpha ha.
have e : alpha' = Num.max alpha ((n %/ 2).+1%:R / n%:R) by rewrite /alpha' /fit_core ea.
have [/andP[h1 _] _ h3] := new_alphaE n0 ea; split=> //; last by rewrite e; exact: (h_bounds n0 ea).
by rewrite e h3 andbT le_maxr h1.
Qed.

End Steps.

(* C79: a history of fits with the same object on data of different sizes *)
Theorem cellmcd_alpha_history (T : rcfType) (p : nat) (ln : T -> T) log2pi eigh as_ (cutoff chi99 crit a : T)
    max_c_steps (ns : nat -> nat) (data : forall t, 'M[option T]_(ns t, p)) init (al : nat -> rat) :
  (forall t, 0 < ns t)%N -> 1 / 2%:R <= al 0%N <= 1 ->
  (forall t, al t.+1 = (fit_core ln log2pi eigh as_ (al t) cutoff chi99 crit a max_c_steps (data t) init).1) ->
  let b s : rat := (ns s %/ 2).+1%:R / (ns s)%:R in
  forall t, [/\ 1 / 2%:R <= al t <= 1, al 0%N <= al t, forall s, (s < t)%N -> b s <= al t
    & al t = al 0%N \/ exists2 s, (s < t)%N & al t = b s].
Proof.
move=> n0 h0 step b; elim=> [|t [IH1 IH2 IH3 IH4]]; first by split=> //; left.
have [e h _] := cellmcd_alpha ln log2pi eigh as_ cutoff chi99 crit a max_c_steps (data t) init (n0 t) IH1.
rewrite step; split=> //; rewrite e -/(b t).
- by rewrite le_maxr IH2.
- move=> s; rewrite ltnS leq_eqVlt => /orP[/eqP ->|/IH3 hs]; first by rewrite le_maxr lexx orbT.
  by rewrite le_maxr hs.
- case: (leP (al t) (b t)) => hb; first by right; exists t.
  by case: IH4 => [->|[s st ->]]; [left|right; exists s => //; exact: ltnW].
Qed.

Section Cases.
Variables (T : rcfType) (ln : T -> T) (log2pi : T).
Hypothesis L : is_log ln.

(* a covariance with eigenvalues 1 and 3 and its inverse *)
Definition s2 : 'M[T]_2 := mx2 2%:R 1 1 2%:R.
Definition s2i : 'M[T]_2 := mx2 (2%:R / 3%:R) (- (1 / 3%:R)) (- (1 / 3%:R)) (2%:R / 3%:R).

(* three rows, one missing cell *)
Definition x32 : 'M[option T]_(3, 2) :=
  \matrix_(i, k) (if (i == 1) && (k == 0) then None else if k == 0 then Some i%:R else Some (i%:R - 4%:R)).

(* one observed cell flagged *)
Definition w32 : 'M[bool]_(3, 2) := \matrix_(i, k) (isSome (x32 i k) && ~~ ((i == 2%:R) && (k == 1))).

Lemma s2_quad (x : 'rV[T]_2) : (x *m s2 *m x^T) 0 0
  = x 0 0 ^+ 2 + x 0 1 ^+ 2 + (x 0 0 + x 0 1) ^+ 2 /\ (x *m x^T) 0 0 = x 0 0 ^+ 2 + x 0 1 ^+ 2.
Proof.
have z : (ord0 : 'I_2) = 0 by []. have z1 : lift ord0 ord0 = 1 :> 'I_2 by apply/val_inj.
rewrite !mxE !big_ord_recl !big_ord0 !mxE !big_ord_recl !big_ord0 !mxE /= z z1.
by move: (x 0 0) (x 0 1) => u v; split; ring.
Qed.

Example cellmcd_case : [/\ pos_def s2 /\ s2 *m s2i = 1%:M, observed x32 w32,
    forall x : 'rV[T]_2, 1 * (x *m x^T) 0 0 <= (x *m s2 *m x^T) 0 0,
    forall k, (2 <= #|[set i | w32 i k]|)%N & ~ observed x32 (const_mx true)].
Proof.
have lo (x : 'rV[T]_2) : 1 * (x *m x^T) 0 0 <= (x *m s2 *m x^T) 0 0.
  by have [-> ->] := s2_quad x; rewrite mul1r ler_addl sqr_ge0.
split=> //; first split.
- apply: (@geI_spd _ _ 1) => //; [exact: ltr01|by rewrite mx2T].
- have t0 : 3%:R != 0 :> T by rewrite pnatr_eq0.
  by rewrite mx2M -mx2_1; congr mx2; field.
- by move=> i k; rewrite mxE => /andP[].
- move=> k; have : [set 0; 1%R + (if k == 0 then 1 else 0)] \subset [set i | w32 i k].
    apply/subsetP => i; rewrite !inE => /orP[] /eqP ->; rewrite !mxE; case: (ord2 k) => -> //=.
  by move/subset_leq_card; apply: leq_trans; rewrite cards2; case: (ord2 k) => ->.
- by move=> /(_ 1 0); rewrite !mxE => /(_ isT).
Qed.

Let as2 : 'rV[T]_2 -> 'I_2 -> 'I_2 := fun _ j => j.
Let as2_inj w : injective (as2 w) := @inj_id _.

Example cellmcd_delta_case : exists2 d, calculate_delta ln log2pi x32 w32 s2 s2i 0 0 = Ok d
  & d 1 = PInf /\ d 2%:R = Fin (neg2loglik ln log2pi [set 0] s2 0 (vals x32 2%:R) - neg2loglik ln log2pi set0 s2 0 (vals x32 2%:R)).
Proof.
have [[pS eS] oW _ _ _] := cellmcd_case.
have [d e hd] := cellmcd_delta log2pi L 0 0 pS eS oW; exists d => //; split; first by rewrite hd mxE.
have c2 : clean w32 2%:R = [set 0] by apply/setP => k; rewrite !inE !mxE; case: (ord2 k) => ->.
have e1 : 0 |: [set 0] = [set 0] :> {set 'I_2} by rewrite setUid.
have e2 : [set 0] :\ 0 = set0 :> {set 'I_2} by rewrite setDv.
by rewrite hd c2 e1 e2 mxE.
Qed.

(* the C-steps on the three rows *)
Example cellmcd_c_steps_case : exists e W objs,
  C_steps_until_convergence ln log2pi (@eigh2 T) as2 x32 (2%:R / 3%:R) 6%:R (1 / 10%:R) 1 100 (Est 0 s2 s2i)
    = Ok (e, W, objs) /\
  [/\ observed x32 W, forall j, (2 <= #|[set i | W i j]|)%N, (0 < size objs <= 101)%N
    & forall x : 'rV[T]_2, 1 * (x *m x^T) 0 0 <= (x *m e_sigma e *m x^T) 0 0].
Proof.
have c1 : 1 / 10%:R < 1 :> T by rewrite ltr_pdivr_mulr ?ltr0n // mul1r ltr1n.
have [[pS eS] oW lo hW _] := cellmcd_case.
have h2 : py_round (2%:R / 3%:R * 3%:R) = 2%N by [].
have hc j : (py_round (2%:R / 3%:R * 3%:R) <= #|[set i | isSome (x32 i j)]|)%N.
  rewrite h2; apply: leq_trans (hW j) _; apply: subset_leq_card; apply/subsetP => i; rewrite !inE; exact: oW.
have [e [W [objs [h1 o h3 _ h4]]]] := @cellmcd_c_steps T 3 2 ln log2pi L _ _ (@eigh2_correct T) as2_inj x32 (2%:R / 3%:R) 6%:R
  _ 1 100%N (Est 0 s2 s2i) ltr01 (isT : (1 < 3)%N) pS eS hc (isT : (0 < 100)%N) c1.
have [sz _] := cellmcd_objective_values h1.
exists e, W, objs; split; first exact: h1.
case: h4 => [[ho g]|[_ _ []]]; last exact: lo.
rewrite h2 in h3; clear h1 hc; split; [exact: o|exact: h3| |exact: g].
by rewrite sz andbT; case: objs ho {sz}.
Qed.

(* C74: five rows, one cell above its threshold, initial covariance below min_eigenvalue: the
   first C-step is rejected, and W is not the W that the returned value was computed with *)
Theorem cellmcd_returned_W_refuted (a chi99 crit : T) max_c_steps :
  0 < a -> 1 / 2%:R <= chi99 -> crit < 1 ->
  exists (X : 'M[option T]_(5, 2)) e0 W v,
  [/\ pos_def (e_sigma e0) /\ e_sigma e0 *m e_inv e0 = 1%:M,
      C_steps_until_convergence ln log2pi (@eigh2 T) as2 X (3%:R / 4%:R) chi99 crit a max_c_steps.+1 e0
        = Ok (e0, W, [:: Fin v]),
      v = penalised ln log2pi (q_vec ln log2pi chi99 (e_inv e0)) X (initial_W X) (e_mu e0) (e_sigma e0)
    & W != initial_W X].
Proof.
move=> a0 hq c1; have c0 : 0 < a / 2%:R by rewrite divr_gt0 ?ltr0n.
have [W [h1 h2 h3]] := rejected log2pi (proj1 L) (proj2 L) (@eigh2_correct T) as2_inj a0 hq max_c_steps c1.
have pS : pos_def (e_sigma (rej0 a)) by exact: scalar_spd.
have eS : e_sigma (rej0 a) *m e_inv (rej0 a) = 1%:M by rewrite /= -scalar_mxM mulfV // gt_eqF.
exists (rejX a chi99), (rej0 a), W, (penalised ln log2pi (q_vec ln log2pi chi99 (e_inv (rej0 a))) (rejX a chi99)
  (initial_W (rejX a chi99)) (e_mu (rej0 a)) (e_sigma (rej0 a))); split=> //.
by apply/eqP => e; move: h3; rewrite -e h2.
Qed.

(* C77: with covariance 2 I the reported variance is 1/2 *)
Theorem cellmcd_all_missing_refuted :
  exists (X : 'M[option T]_(1, 2)) W sigma sigma_inv mu i k v c,
  [/\ pos_def sigma, sigma *m sigma_inv = 1%:M, observed X W,
      make_prediction X W mu sigma sigma_inv i k = Ok (Some v, c) & ~ cond_cov (clean W i :\ k) sigma k k c].
Proof.
have two : (0 : T) < 2%:R by rewrite ltr0n.
have pS : pos_def ((2%:R)%:M : 'M[T]_2) by exact: scalar_spd.
have eS : (2%:R)%:M *m (2%:R^-1)%:M = 1%:M :> 'M[T]_2 by rewrite -scalar_mxM mulfV // gt_eqF.
pose X : 'M[option T]_(1, 2) := const_mx None; pose W : 'M[bool]_(1, 2) := const_mx false.
have oW : observed X W by move=> i k; rewrite mxE.
have c0 : clean W 0 = set0 by apply/setP => k; rewrite !inE mxE.
exists X, W, (2%:R)%:M, (2%:R^-1)%:M, 0, 0, 0.
have [e1 _ e3] := cellmcd_all_missing 0 0 pS eS oW c0.
eexists; eexists; split; try eassumption; move/e3; rewrite !mxE eqxx !mulr1n => h.
suff : (0 : T) < 0 by rewrite ltxx.
have := mulVf (lt0r_neq0 two); rewrite h -natrM => /eqP; by rewrite (eqr_nat T 4 1).
Qed.

(* five rows with a zero and four times 7/2 *)
Definition x51 : 'M[option T]_(5, 1) := \matrix_(i, k) Some (if i == 0 then 0 else 7%:R / 2%:R).

Lemma x51_ge0 : 0 <= 7%:R / 2%:R :> T.
Proof. by rewrite divr_ge0 ?ler0n. Qed.

Lemma x51_blank i k : blank_outliers x51 i k = if i == 0 then Some 0 else None.
Proof.
have big : 3%:R < 7%:R / 2%:R :> T by rewrite ltr_pdivl_mulr ?ltr0n // -natrM ltr_nat.
rewrite !mxE; case: (i == 0); first by rewrite normr0 ltNge ler0n.
by rewrite (ger0_norm x51_ge0) big.
Qed.

Lemma x51_obs (j : 'I_1) : (#|[pred i | isSome (blank_outliers x51 i j)]| < 3)%N.
Proof.
rewrite (@eq_card _ _ (pred1 0)) ?card1 // => i; rewrite !inE x51_blank; by case: (i == 0).
Qed.

Lemma x51_out b (j : 'I_1) : #|[set i | if x51 i j is Some x then 4%:R < `|x| else b]| = 0%N.
Proof.
apply/eqP; rewrite cards_eq0; apply/eqP/setP => k; rewrite !inE mxE.
case: (k == 0); first by rewrite normr0 ltNge ler0n.
have small : 7%:R / 2%:R <= 4%:R :> T by rewrite ler_pdivr_mulr ?ltr0n // -natrM ler_nat.
by rewrite (ger0_norm x51_ge0) ltNge small.
Qed.

Lemma x51_check : check_data (3%:R / 5%:R) (4%:R : T) x51 = Ok tt.
Proof.
have r0 : (1 - 3%:R / 5%:R < 0 :> rat) = false by [].
rewrite /check_data (_ : [exists j, _] = false); last first.
  by apply/existsP => -[j]; rewrite x51_out mul0r r0.
rewrite (_ : [exists j, _] = false); first reflexivity.
by apply/existsP => -[j]; rewrite x51_out mul0r r0.
Qed.

Lemma x51_alpha : new_alpha (1 / 2%:R) 5 = Ok (3%:R / 5%:R).
Proof.
have r1 : (1 / 2%:R <= 1 / 2%:R :> rat) && (1 / 2%:R <= 1 :> rat) by [].
rewrite /new_alpha r1 (_ : Num.max _ _ = 3%:R / 5%:R) //; exact/eqP.
Qed.

Lemma x51_h : py_round (3%:R / 5%:R * 5%:R) = 3%N.
Proof. by []. Qed.

(* C78: with a cutoff above 3 the check can pass although fewer than h cells remain; then the
   first update of W declares missing cells clean *)
Theorem cellmcd_no_missing_clean_refuted (chi99 : T) :
  exists (scaled : 'M[option T]_(5, 1)) sigma sigma_inv mu W' i,
  let X := blank_outliers scaled in
  [/\ new_alpha (1 / 2%:R) 5 = Ok (3%:R / 5%:R), check_data (3%:R / 5%:R) 4%:R scaled = Ok tt,
      pos_def sigma /\ sigma *m sigma_inv = 1%:M,
      update_W ln log2pi X (initial_W X) mu sigma sigma_inv (q_vec ln log2pi chi99 sigma_inv)
        (py_round (3%:R / 5%:R * 5%:R)) = Ok W'
    & W' i 0 /\ X i 0 = None].
Proof.
set X := blank_outliers x51.
have pS : pos_def (1%:M : 'M[T]_1) by exact: scalar_spd ltr01.
have eS : 1%:M *m 1%:M = 1%:M :> 'M[T]_1 by rewrite mulmx1.
have oW : observed X (initial_W X) by move=> i k; rewrite mxE.
have [d ed hd] := cellmcd_delta log2pi L 0 (0 : 'I_1) pS eS oW.
have eo : column_order (initial_W X) = [:: 0].
  rewrite /column_order; have -> : enum 'I_1 = [:: 0] by apply: (inj_map val_inj); rewrite val_enum_ord.
  by [].
pose q := q_vec ln log2pi chi99 (1%:M : 'M[T]_1).
pose W' := set_column (initial_W X) 0 (good_cells d (q 0 0) 3).
have hU : update_W ln log2pi X (initial_W X) 0 1%:M 1%:M q 3 = Ok W' by rewrite /update_W eo /= ed.
have [i wi xi] := update_W_missing (isT : (3 <= 5)%N) hU (x51_obs 0).
exists x51, 1%:M, 1%:M, 0, W', i; split.
- exact: x51_alpha.
- exact: x51_check.
- exact: (conj pS eS).
- rewrite x51_h; exact: hU.
- exact: (conj wi xi).
Qed.

(* C79: a fit on two rows and then on a hundred rows uses all rows, a fresh fit 51 of them *)
Example cellmcd_alpha_case (cutoff chi99 crit a : T) max_c_steps (d1 : 'M[option T]_(2, 2)) (d2 : 'M[option T]_(100, 2)) init :
  let fit n al (d : 'M[option T]_(n, 2)) := (fit_core ln log2pi (@eigh2 T) as2 al cutoff chi99 crit a max_c_steps d init).1 in
  let refit := fit _ (fit _ (1 / 2%:R) d1) d2 in
  let fresh := fit _ (1 / 2%:R) d2 in
  py_round (refit * 100%:R) = 100%N /\ py_round (fresh * 100%:R) = 51%N.
Proof. by move=> fit refit fresh; rewrite /refit /fresh /fit /fit_core. Qed.

End Cases.

(* the logarithm on the real numbers *)
Example cellmcd_log_exists : exists (T : rcfType) (ln : T -> T), is_log ln.
Proof. by exists R_rcfType, Rpower.ln; exact: ln_is_log. Qed.

Print Assumptions cellmcd_delta.
Print Assumptions cellmcd_objective.
Print Assumptions cellmcd_update_column.
Print Assumptions cellmcd_update_W.
Print Assumptions cellmcd_update_keeps_h.
Print Assumptions cellmcd_imputation.
Print Assumptions cellmcd_predictions.
Print Assumptions cellmcd_conditional_unique.
Print Assumptions cellmcd_all_missing.
Print Assumptions cellmcd_all_missing_refuted.
Print Assumptions cellmcd_step_descends.
Print Assumptions cellmcd_returned_W.
Print Assumptions cellmcd_returned_W_refuted.
Print Assumptions cellmcd_objective_values.
Print Assumptions cellmcd_no_step.
Print Assumptions cellmcd_c_steps.
Print Assumptions cellmcd_no_missing_clean.
Print Assumptions cellmcd_no_missing_clean_refuted.
Print Assumptions cellmcd_alpha.
Print Assumptions cellmcd_alpha_history.
