(* Proofs about the C-steps of the cellwise MCD: the M-step, descent of the objective, the loop. *)
From mathcomp Require Import all_ssreflect all_algebra perm.
From mathcomp.zify Require Import zify.
From mathcomp.algebra_tactics Require Import ring.
From Verif Require Import RFieldLra Prelude Stats Xnum RatFloor Vec PSD LinAlg_Model LinAlg_Proofs.
From Verif Require Import MCD_Model MCD_Spec MCD_Proofs OGK_Model OGK_Proofs Cov_Model Cov_Spec Cov_Proofs.
From Verif Require Import Gauss_Proofs CellMCD_Model CellMCD_Spec CellMCD_Proofs CellMCD_Step_Proofs.

Set Implicit Arguments.
Unset Strict Implicit.
Unset Printing Implicit Defensive.

Import Order.TTheory GRing.Theory Num.Theory.
Local Open Scope ring_scope.

Section Step.
Variables (T : rcfType) (n p : nat) (ln : T -> T) (log2pi : T).
Hypothesis lnM : forall a b, 0 < a -> 0 < b -> ln (a * b) = ln a + ln b.
Hypothesis ln_le : forall a, 0 < a -> ln a <= a - 1.
Variables (eigh : 'M[T]_p -> 'rV[T]_p * 'M[T]_p) (as_ : 'rV[T]_p -> 'I_p -> 'I_p).
Hypothesis He : correct_eigh eigh.
Hypothesis Ha : forall w, injective (as_ w).

Section MStep.
Variables (X : 'M[option T]_(n, p)) (W : 'M[bool]_(n, p)) (sigma sigma_inv : 'M[T]_p) (mu : 'rV[T]_p).
Hypothesis pS : spd sigma.
Hypothesis eS : sigma *m sigma_inv = 1%:M.
Hypothesis oW : observed X W.

Definition imp i : 'rV[T]_p * 'M[T]_p :=
  if impute_row X W mu sigma sigma_inv i is Ok v then v else (0, 0).

Lemma impE i : impute_row X W mu sigma sigma_inv i = Ok (imp i).
Proof. by rewrite /imp; have [y [B [-> _]]] := impute_rowE pS eS X W mu i. Qed.

Lemma impP i : imputed (pos (ones (row i W))) (pos (zeros (row i W))) sigma mu (vals X i) (imp i).1 (imp i).2.
Proof. by rewrite /imp; have [y [B [->]]] := impute_rowE pS eS X W mu i. Qed.

Lemma imputed_sym m q (f : 'I_m -> 'I_p) (g : 'I_q -> 'I_p) x y B :
  perm_eq (codom f ++ codom g) (enum 'I_p) -> imputed f g sigma mu x y B -> B^T = B.
Proof.
move=> fg [_ _ h3 h4]; apply/matrixP => k l; rewrite mxE.
have [kf|nkf] := boolP (k \in codom f); first by rewrite !h4 // kf ?orbT.
have [lf|nlf] := boolP (l \in codom f); first by rewrite !h4 // lf ?orbT.
have ing r : r \notin codom f -> exists b, r = g b.
  move=> nr; apply/codomP; have := mem_enum 'I_p r; rewrite -(perm_mem fg) mem_cat (negbTE nr) /=.
  by move=> ->.
have [b ->] := ing _ nkf; have [c ->] := ing _ nlf.
have e := tr_ccov f g (proj1 pS).
have := congr1 (fun M : 'M_ _ => M c b) h3; rewrite [mxsub _ _ _ _ _]mxE => ->.
have := congr1 (fun M : 'M_ _ => M b c) h3; rewrite [mxsub _ _ _ _ _]mxE => ->.
by rewrite -{1}e mxE.
Qed.

Lemma impute_rowsE rows : impute_rows X W mu sigma sigma_inv rows
  = Ok ([seq (imp i).1 | i <- rows], \sum_(i <- rows) (imp i).2).
Proof.
elim: rows => [|i rows IH] /=; first by rewrite big_nil.
by rewrite impE /= IH /= big_cons.
Qed.

Definition ys := [seq (imp i).1 | i <- enum 'I_n].
Definition new_mu : 'rV[T]_p := vmean ys.
Definition new_sigma : 'M[T]_p := (n.-1%:R / n%:R) *: cov ys + n%:R^-1 *: \sum_(i <- enum 'I_n) (imp i).2.

Lemma m_stepE : m_step X W mu sigma sigma_inv = Ok (new_mu, new_sigma).
Proof.
rewrite /m_step; case: ifP => [/existsP[i /existsP[k /andP[w]]]|_]; first by rewrite (oW w).
by rewrite impute_rowsE.
Qed.

Lemma new_sigma_sym : new_sigma^T = new_sigma.
Proof.
have [sc _] := psd_cov ys.
rewrite /new_sigma raddfD /=; congr (_ + _); first by rewrite linearZ /= sc.
rewrite linearZ /=; congr (_ *: _).
rewrite raddf_sum; apply: eq_bigr => i _.
exact: imputed_sym (ones_zeros (row i W)) (impP i).
Qed.

Hypothesis n1 : (1 < n)%N.

Lemma new_sigma_scatter :
  n%:R *: new_sigma = \sum_(y <- ys) (y - vmean ys)^T *m (y - vmean ys) + \sum_(i <- enum 'I_n) (imp i).2.
Proof.
have n0 : (n%:R : T) != 0 by rewrite pnatr_eq0 -lt0n; lia.
have nn : (n%:R - 1 : T) != 0 by rewrite subr_eq0 (eqr_nat T n 1); lia.
have sy : size ys = n by rewrite size_map size_enum_ord.
rewrite /new_sigma scalerDr !scalerA mulfV // scale1r mulrCA mulfV // mulr1 /cov sy.
by rewrite natr_pred ?mulfV ?scale1r //; lia.
Qed.

(* the M-step and the truncation do not increase the objective *)
Lemma m_step_descent (a : T) : 0 < a -> geI a sigma ->
  \sum_i neg2loglik ln log2pi (clean W i) (truncated_covariance eigh as_ new_sigma a) new_mu (vals X i)
  <= \sum_i neg2loglik ln log2pi (clean W i) sigma mu (vals X i).
Proof.
move=> a0 gS; set St := truncated_covariance _ _ _ _.
have pt : spd St := trunc_spd He Ha new_sigma a0.
have ng S m i : spd S -> neg2loglik ln log2pi (clean W i) S m (vals X i)
    = gterm ln log2pi (pos (ones (row i W))) S m (vals X i).
  by move=> p'; apply: neg2loglikE; rewrite ?ones_uniq // => k; rewrite mem_ones !inE mxE.
rewrite (eq_bigr _ (fun i _ => ng St new_mu i pt)) (eq_bigr _ (fun i _ => ng sigma mu i pS)).
rewrite -subr_le0 -sumrB.
apply: le_trans (_ : \sum_i (qterm ln log2pi St new_mu (imp i).1 (imp i).2
                             - qterm ln log2pi sigma mu (imp i).1 (imp i).2) <= _).
  by apply: ler_sum => i _; apply: em_row => //; [exact: ones_zeros|exact: impP].
rewrite sumrB subr_le0.
pose Y := [seq imp i | i <- enum 'I_n].
have sY : size Y = n by rewrite size_map size_enum_ord.
have Y0 : (0 < size Y)%N by rewrite sY; lia.
have eY : [seq b.1 | b <- Y] = ys by rewrite /Y -map_comp.
have toY S m : \sum_i qterm ln log2pi S m (imp i).1 (imp i).2 = \sum_(b <- Y) qterm ln log2pi S m b.1 b.2.
  by rewrite big_map big_enum.
rewrite !toY (sum_qterm _ _ _ _ Y0) ?(proj1 pt) // (sum_qterm _ _ _ _ Y0) ?(proj1 pS) //.
have eB : \sum_(b <- Y) b.2 = \sum_(i <- enum 'I_n) (imp i).2 by rewrite big_map.
rewrite eY sY eB -new_sigma_scatter -/new_mu subrr !mul0mx [X in _ + _ * X]mxE mulr0 addr0.
rewrite -!scalemxAr !mxtraceZ -!mulrDr.
have n0 : 0 < (n%:R : T) by rewrite ltr0n; lia.
apply: le_trans (_ : n%:R * (ln (\det sigma) + log2pi * p%:R + \tr (invmx sigma *m new_sigma)) <= _).
  rewrite ler_pmul2l //.
  have := trunc_opt lnM ln_le He Ha a0 new_sigma_sym pS gS; rewrite -/St.
  move: (ln _) (\tr _) (ln _) (\tr _) (log2pi * _) => *; flra.
rewrite mulrDr ler_addl mulr_ge0 ?(ltW n0) //.
have [_] := spd_psd (spd_inv pS); exact.
Qed.

End MStep.

(* one C-step without references: the new W, the new estimates and their objective *)
Definition pure_step X (q : 'rV[T]_p) h min_eig W (e : est T p) : res ('M[bool]_(n, p) * est T p * xnum T) :=
  do W' <- update_W ln log2pi X W (e_mu e) (e_sigma e) (e_inv e) q h;
  do m <- m_step X W' (e_mu e) (e_sigma e) (e_inv e);
  let S := truncated_covariance eigh as_ m.2 min_eig in
  do I <- np_inv S;
  do v <- objective ln log2pi X W' m.1 S I q;
  Ok (W', Est m.1 S I, v).

(* accepted C-steps *)
Inductive trace X (q : 'rV[T]_p) h min_eig
  : 'M[bool]_(n, p) -> est T p -> seq (xnum T) -> 'M[bool]_(n, p) -> est T p -> seq (xnum T) -> Prop :=
| Trace0 W e o : trace X q h min_eig W e o W e o
| TraceS W e o W1 e1 v W2 e2 o2 : pure_step X q h min_eig W e = Ok (W1, e1, v) -> ~~ xlt (head NaN o) v ->
    trace X q h min_eig W1 e1 (v :: o) W2 e2 o2 -> trace X q h min_eig W e o W2 e2 o2.

Lemma trace_objs X q h a W e o W' e' o' : trace X q h a W e o W' e' o' -> exists k, o = drop k o' /\ size o' = (k + size o)%N.
Proof.
elim=> [W0 e0 o0|W0 e0 o0 W1 e1 v W2 e2 o2 _ _ _ [k [hk sz]]]; first by exists 0%N; rewrite drop0.
exists k.+1; split; last by rewrite sz /= addnS.
by rewrite -add1n -drop_drop -hk /= drop0.
Qed.

Lemma c_loopE X q h crit a left m r old cur conv objs e W objs' :
  c_loop ln log2pi eigh as_ X q h crit a left m r old cur conv objs = Ok (e, W, objs') ->
  cur = None \/ cur = Some (old, r) ->
  (size objs' <= size objs + left)%N /\
  exists2 W', trace X q h a (m r) old objs W' e objs'
  & (W = W' /\ (cur <> None \/ objs' <> objs))
    \/ exists e2 v, pure_step X q h a W' e = Ok (W, e2, v) /\ xlt (head NaN objs') v.
Proof.
elim: left m r old cur conv objs => [|left IH] m r old cur conv objs /=.
  case: cur => [[e0 r0]|] // [<- <- <-] [//|[-> ->]]; split; first by rewrite addn0.
  by exists (m r); [exact: Trace0|left; split=> //; left].
case: ifP => hc; last first.
  case: cur => [[e0 r0]|] // [<- <- <-] [//|[-> ->]]; split; first by rewrite leq_addr.
  by exists (m r); [exact: Trace0|left; split=> //; left].
rewrite /C_step; case eU: (update_W _ _ _ _ _ _ _ _ _) => [W1| |] //=.
case eM: (m_step _ _ _ _ _) => [[mu1 S1]| |] //=.
case eI: (np_inv _) => [I| |] //=.
have hr : hset m r W1 r = W1 by rewrite /hset eqxx.
rewrite !hr; case eO: (objective _ _ _ _ _ _ _ _) => [v| |] //=.
have eP : pure_step X q h a (m r) old
    = Ok (W1, Est mu1 (truncated_covariance eigh as_ S1 a) I, v).
  by rewrite /pure_step eU /= eM /= eI /= eO.
case: ifP => hv.
  move=> [<- <- <-] _; split; first by rewrite leq_addr.
  by exists (m r); [exact: Trace0|right; exists (Est mu1 (truncated_covariance eigh as_ S1 a) I), v].
move=> /IH []; first by right.
rewrite hr => sz [W' tr hW]; split; first by rewrite addnS -addSn.
exists W'; first by apply: TraceS eP _ tr; rewrite hv.
case: hW => [[-> _]|]; last by right.
left; split=> //; right=> eo; have [k [_ sk]] := trace_objs tr.
by move: sk; rewrite eo /=; lia.
Qed.

(* what is known of the estimates during the loop *)
Definition good_est (a : T) (e : est T p) : Prop :=
  [/\ spd (e_sigma e), geI a (e_sigma e) & e_sigma e *m e_inv e = 1%:M].

Definition good_W (X : 'M[option T]_(n, p)) h (W : 'M[bool]_(n, p)) : Prop := observed X W /\ forall j, (h <= n_clean W j)%N.

Lemma good_W_cols X h W : good_W X h W -> forall j, (h <= #|[pred i | isSome (X i j)]|)%N.
Proof.
move=> [o hh] j; apply: leq_trans (hh j) _; apply: subset_leq_card; apply/subsetP => i.
by rewrite !inE => /o.
Qed.

(* a step from positive definite estimates *)
Lemma pure_stepE X q h a W (e : est T p) : 0 < a -> spd (e_sigma e) -> e_sigma e *m e_inv e = 1%:M ->
  good_W X h W ->
  exists W' e', [/\ pure_step X q h a W e = Ok (W', e', Fin (penalised ln log2pi q X W' (e_mu e') (e_sigma e'))),
    good_W X h W', good_est a e' &
    (1 < n)%N -> geI a (e_sigma e) ->
    penalised ln log2pi q X W' (e_mu e') (e_sigma e') <= penalised ln log2pi q X W (e_mu e) (e_sigma e)].
Proof.
move=> a0 pS eS gW; have [oW hW] := gW.
have [W' hU [o' h' l']] := update_WE log2pi lnM (e_mu e) q pS eS (good_W_cols gW) oW hW.
have eM := m_stepE (e_mu e) pS eS o'.
set m1 := new_mu _ _ _ _ _ in eM; set S1 := new_sigma _ _ _ _ _ in eM.
pose St := truncated_covariance eigh as_ S1 a.
have pt : spd St := trunc_spd He Ha S1 a0; have ut := spd_unit pt.
exists W', (Est m1 St (invmx St)); split.
- rewrite /pure_step hU /= eM /= -/St np_inv_ok //=.
  by rewrite (objectiveE _ _ _ pt (mulmxV ut) o').
- by [].
- split=> //=; [exact: trunc_geI|exact: mulmxV].
- move=> n1 gS; apply: le_trans l'; rewrite /penalised ler_add2r /=.
  exact: m_step_descent.
Qed.


Section Loop.
Variables (X : 'M[option T]_(n, p)) (q : 'rV[T]_p) (h : nat) (a : T).
Hypothesis a0 : 0 < a.
Local Notation pen W e := (penalised ln log2pi q X W (e_mu e) (e_sigma e)).
Local Notation step := (pure_step X q h a).

Lemma good_est_spd e : good_est a e -> spd (e_sigma e) /\ e_sigma e *m e_inv e = 1%:M.
Proof. by case. Qed.

Lemma trace_sorted W e o W' e' o' : trace X q h a W e o W' e' o' ->
  sorted (fun v u => ~~ xlt u v) o -> sorted (fun v u => ~~ xlt u v) o'.
Proof.
elim=> // {W e o W' e' o'} W e o W1 e1 v W2 e2 o2 _ hv _ IH so; apply: IH.
by case: o hv so => //= u o -> ->.
Qed.

Lemma trace_good W e o W' e' o' : trace X q h a W e o W' e' o' ->
  spd (e_sigma e) -> e_sigma e *m e_inv e = 1%:M -> good_W X h W -> head NaN o = Fin (pen W e) ->
  [/\ good_W X h W', head NaN o' = Fin (pen W' e'), spd (e_sigma e') /\ e_sigma e' *m e_inv e' = 1%:M
    & good_est a e' \/ [/\ W' = W, e' = e & o' = o]].
Proof.
elim=> {W e o W' e' o'} [W e o pS eS gW ho|W e o W1 e1 v W2 e2 o2 eP hv _ IH pS eS gW ho].
  by split=> //; right.
have [W1' [e1' [eP' gW' ge _]]] := pure_stepE q a0 pS eS gW.
move: eP; rewrite eP' => -[eW ee ev]; subst W1' e1' v.
have [p1 i1] := good_est_spd ge.
have [gW2 ho2 pe2 _] := IH p1 i1 gW' erefl; split=> //.
left; have [//|[_ -> _]] : good_est a e2 \/ [/\ W2 = W1, e2 = e1 & o2 = Fin (pen W1 e1) :: o].
  by have [_ _ _] := IH p1 i1 gW' erefl.
exact: ge.
Qed.

(* a step from a matrix with eigenvalues at least a is not rejected *)
Lemma step_accepted W e o W1 e1 v : (1 < n)%N -> good_est a e -> good_W X h W ->
  head NaN o = Fin (pen W e) -> step W e = Ok (W1, e1, v) -> ~~ xlt (head NaN o) v.
Proof.
move=> n1 [pS gS eS] gW -> ; have [W1' [e1' [-> _ _ l]]] := pure_stepE q a0 pS eS gW.
by move=> [_ _ <-] /=; rewrite -leNgt l.
Qed.

Lemma c_loop_ok crit left m r old cur conv objs :
  spd (e_sigma old) -> e_sigma old *m e_inv old = 1%:M -> good_W X h (m r) ->
  cur <> None \/ ((0 < left)%N /\ crit < conv) ->
  exists res, c_loop ln log2pi eigh as_ X q h crit a left m r old cur conv objs = Ok res.
Proof.
elim: left m r old cur conv objs => [|left IH] m r old cur conv objs pS eS gW hc /=.
  by case: cur hc => [[e r0] _|[|[]]] //; eexists.
case: ifP => hcc; last first.
  by case: cur hc => [[e r0] _|[|[_]]] //; [eexists|rewrite hcc].
have [W1 [e1 [eP gW1 ge _]]] := pure_stepE q a0 pS eS gW.
move: eP; rewrite /pure_step /C_step; case: (update_W _ _ _ _ _ _ _ _ _) => [W'| |] //=.
case: (m_step _ _ _ _ _) => [[mu1 S1]| |] //=; case: (np_inv _) => [I| |] //=.
have hr : hset m r W' r = W' by rewrite /hset eqxx.
rewrite !hr; case: (objective _ _ _ _ _ _ _ _) => [v| |] //= [eW ee ev].
case: ifP => _; first by eexists.
subst W1 e1; have [p1 i1] := good_est_spd ge; apply: IH => //; last by left.
by rewrite hr.
Qed.

End Loop.

(* the number of observed cells in the columns *)
Lemma initial_W_good (X : 'M[option T]_(n, p)) h : (forall j, (h <= #|[pred i | isSome (X i j)]|)%N) ->
  good_W X h (initial_W X).
Proof.
move=> hc; split=> [i k|j]; first by rewrite mxE.
by apply: leq_trans (hc j) _; apply: eq_leq; apply: eq_card => i; rewrite !inE mxE.
Qed.

(* C74, C75, C78, C106 *)
Lemma C_stepsE (X : 'M[option T]_(n, p)) (alpha : rat) (chi99 crit a : T) max_c_steps (e0 : est T p) : 0 < a -> (1 < n)%N ->
  spd (e_sigma e0) -> e_sigma e0 *m e_inv e0 = 1%:M ->
  (forall j, (py_round (alpha * n%:R) <= #|[pred i | isSome (X i j)]|)%N) ->
  (0 < max_c_steps)%N -> crit < 1 ->
  let h := py_round (alpha * n%:R) in
  let q := q_vec ln log2pi chi99 (e_inv e0) in
  exists e W objs,
  [/\ C_steps_until_convergence ln log2pi eigh as_ X alpha chi99 crit a max_c_steps e0 = Ok (e, W, objs),
      good_W X h W, (size objs <= max_c_steps.+1)%N, sorted (fun v u => ~~ xlt u v) objs
    & (good_est a e /\ head NaN objs = Fin (penalised ln log2pi q X W (e_mu e) (e_sigma e)))
      \/ [/\ e = e0, ~ geI a (e_sigma e0),
             objs = [:: Fin (penalised ln log2pi q X (initial_W X) (e_mu e0) (e_sigma e0))]
           & exists e2 v, pure_step X q h a (initial_W X) e0 = Ok (W, e2, v) /\ xlt (head NaN objs) v]].
Proof.
move=> a0 n1 pS eS hc m0 c1 h q.
have gW := initial_W_good hc; have [oW _] := gW.
rewrite /C_steps_until_convergence -/h -/q (objectiveE _ _ _ pS eS oW) /=.
set o0 := [:: _].
have [[[e W] objs] hres] := @c_loop_ok X q h a a0 crit max_c_steps (fun=> initial_W X) 0 e0 None 1 o0
  pS eS gW (or_intror (conj m0 c1)).
exists e, W, objs; split=> //.
- have [_ [W' tr [[-> _]|[e2 [v [eP _]]]]]] := c_loopE hres (or_introl erefl).
    by have [] := trace_good a0 tr pS eS gW erefl.
  have [gW' _ [p' i'] _] := trace_good a0 tr pS eS gW erefl.
  have [W1 [e1 [eP' gW1 _ _]]] := pure_stepE q a0 p' i' gW'.
  by move: eP; rewrite eP' => -[<- _ _].
- by have [sz _] := c_loopE hres (or_introl erefl).
- have [_ [W' tr _]] := c_loopE hres (or_introl erefl).
  exact: trace_sorted tr _.
have [_ [W' tr hW]] := c_loopE hres (or_introl erefl).
have [gW' ho [p' i'] hg] := trace_good a0 tr pS eS gW erefl.
case: hW => [[eW [//|no]]|[e2 [v [eP hv]]]].
  left; subst W'; case: hg => [ge|[_ _ eo]] //; by case: no.
case: hg => [ge|[eW ee eo]].
  by have := step_accepted a0 n1 ge gW' ho eP; rewrite hv.
right; subst W' e objs; split=> //; last by exists e2, v.
move=> ge; have gg : good_est a e0 by split.
by have := @step_accepted X q h a a0 (initial_W X) e0 o0 W e2 v n1 gg gW erefl eP; rewrite hv.
Qed.

(* C75: the other cases *)
Lemma C_steps_unbound (X : 'M[option T]_(n, p)) (alpha : rat) (chi99 crit a : T) max_c_steps (e0 : est T p) :
  spd (e_sigma e0) -> e_sigma e0 *m e_inv e0 = 1%:M -> (max_c_steps = 0%N \/ 1 <= crit) ->
  C_steps_until_convergence ln log2pi eigh as_ X alpha chi99 crit a max_c_steps e0 = Err UnboundLocalError.
Proof.
move=> pS eS hm; have oW : observed X (initial_W X) by move=> i k; rewrite mxE.
rewrite /C_steps_until_convergence (objectiveE _ _ _ pS eS oW) /=.
by case: hm => [->|c1] //; case: max_c_steps => //= m; rewrite ltNge c1.
Qed.

End Step.

(* rounding *)
Lemma half_lt (F : realFieldType) (u v x : F) : 1 / 2%:R <= x - u -> x <= v -> u < v.
Proof. flra. Qed.
Lemma half_ge0 (F : realFieldType) (a : F) : 1 / 2%:R <= a -> 0 <= a.
Proof. flra. Qed.
Lemma swap_le (F : realFieldType) (u v w : F) : v <= u - w -> w <= u - v.
Proof. flra. Qed.

Lemma floor_bounds (x : rat) : 0 <= x -> (`|rat_floor x|%N%:R <= x) /\ (x < `|rat_floor x|.+1%:R).
Proof.
move=> x0; have /andP[f1 f2] := rat_floorP x0.
have f0 : (0 <= rat_floor x)%R.
  have : (-1 < rat_floor x)%R; last by lia.
  by have := le_lt_trans x0 f2; rewrite (ltr_int rat_numDomainType 0 (rat_floor x + 1)); lia.
have ef : (`|rat_floor x|%N%:R : rat) = (rat_floor x)%:~R by rewrite pmulrn gez0_abs.
split; first by rewrite ef.
by rewrite -addn1 natrD ef; move: f2; rewrite intrD.
Qed.

Lemma py_round_le (x : rat) m : 0 <= x -> x <= m%:R -> (py_round x <= m)%N.
Proof.
move=> x0 xm; have [f1 f2] := floor_bounds x0; rewrite /py_round.
have fm : (`|rat_floor x| <= m)%N by rewrite -(ler_nat rat_numDomainType); exact: le_trans xm.
have up : 1 / 2%:R <= x - `|rat_floor x|%N%:R -> (`|rat_floor x|.+1 <= m)%N.
  move=> hd; rewrite -(ltr_nat rat_numDomainType).
  exact: half_lt hd xm.
case: ltP => // hd; case: ifP => _; first exact: up.
by case: odd => //; exact: up.
Qed.

Lemma py_round_ge (x : rat) m : m%:R <= x -> (m <= py_round x)%N.
Proof.
move=> mx; have x0 : 0 <= x by apply: le_trans mx; rewrite ler0n.
have [f1 f2] := floor_bounds x0; rewrite /py_round.
have fm : (m <= `|rat_floor x|)%N by rewrite -ltnS -(ltr_nat rat_numDomainType); exact: le_lt_trans f2.
by case: ifP => // _; case: ifP => _; [exact: leqW|case: odd => //; exact: leqW].
Qed.

(* C79 *)
Lemma new_alphaE (alpha : rat) n a : (0 < n)%N -> new_alpha alpha n = Ok a ->
  [/\ 1 / 2%:R <= alpha <= 1, a = Num.max alpha ((n %/ 2).+1%:R / n%:R) & a <= 1].
Proof.
move=> n0; rewrite /new_alpha; case: ifP => // h [<-]; split=> //.
rewrite le_maxl (proj2 (andP h)) /= ler_pdivr_mulr ?ltr0n // mul1r ler_nat; lia.
Qed.

Lemma h_bounds (alpha : rat) n a : (0 < n)%N -> new_alpha alpha n = Ok a ->
  ((n %/ 2).+1 <= py_round (a * n%:R) <= n)%N.
Proof.
move=> n0 /(new_alphaE n0)[/andP[h1 h2] -> a1].
have np : 0 < (n%:R : rat) by rewrite ltr0n.
apply/andP; split.
  apply: py_round_ge; rewrite -ler_pdivr_mulr // le_maxr lexx orbT //.
apply: py_round_le.
  rewrite mulr_ge0 ?ler0n // le_maxr; apply/orP; left; exact: half_ge0 h1.
by rewrite -[leRHS]mul1r ler_pmul2r.
Qed.

(* C78: the check of the data leaves h observed cells in every column *)
Lemma check_data_cols (T : rcfType) n p (alpha : rat) (cutoff : T) (X : 'M[option T]_(n, p)) j :
  (0 < n)%N -> 0 <= alpha -> cutoff <= 3%:R -> check_data alpha cutoff X = Ok tt ->
  (py_round (alpha * n%:R) <= #|[pred i | isSome (blank_outliers X i j)]|)%N.
Proof.
move=> n0 al0 c3; rewrite /check_data; case: ifP => // _; case: ifP => // /existsPn /(_ j).
rewrite -leNgt; set b := #|_| => hb _.
have np : 0 < (n%:R : rat) by rewrite ltr0n.
apply: py_round_le; first by rewrite mulr_ge0 ?ler0n.
have e : (n - b <= #|[pred i | isSome (blank_outliers X i j)]|)%N.
  have cb := cardsC [set i | if X i j is Some x then cutoff < `|x| else true].
  rewrite card_ord -/b in cb; rewrite -{1}cb addKn; apply: subset_leq_card; apply/subsetP => i.
  rewrite !inE mxE; case: (X i j) => [x|] //; rewrite -leNgt => hx.
  by rewrite ltNge (le_trans hx c3).
apply: le_trans (_ : (n - b)%:R <= _); last by rewrite ler_nat.
rewrite natrB; last by rewrite -[n in (_ <= n)%N]card_ord; exact: max_card.
move: hb; rewrite ler_pdivr_mulr // mulrBl mul1r; exact: swap_le.
Qed.
