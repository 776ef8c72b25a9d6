(* Property theorems: SRegression (C55, C56, C57, C93, C94). *)
From mathcomp Require Import all_ssreflect all_algebra.
From mathcomp.zify Require Import zify.
From mathcomp.algebra_tactics Require Import ring.
From Verif Require Import RFieldLra Prelude Stats Xnum Rho_Model Rho_Proofs Regr SReg_Model SReg_Spec.
From Verif Require Import SReg_Proofs SRegFit_Proofs.

Set Implicit Arguments.
Unset Strict Implicit.
Unset Printing Implicit Defensive.

Import Order.TTheory GRing.Theory Num.Theory.
Local Open Scope ring_scope.

(* ---- C55: the default arguments, TukeyBisquare(c=1.547) and b = 0.5 *)
Definition default_c (T : rcfType) : T := 1547%:R / 1000%:R.

Lemma default_c_gt0 (T : rcfType) : 0 < default_c T.
Proof. by rewrite divr_gt0 ?ltr0n. Qed.

Lemma default_c_shrinks (T : rcfType) :
  default_c T ^+ 2 / 6%:R <= 1 / 2%:R * (9%:R / 10%:R) ^+ 2 /\ default_c T ^+ 2 / 6%:R < 1 / 2%:R.
Proof.
have h : default_c T <= 155%:R / 100%:R by rewrite /default_c; flra.
have h0 := ltW (default_c_gt0 T).
have h2 : default_c T ^+ 2 <= (155%:R / 100%:R) ^+ 2 by rewrite ler_expn2r // nnegrE //; flra.
by split; rewrite !expr2 in h2 *; flra.
Qed.

(* no scale solves mean(rho(r / s)) = b *)
Theorem s_scale_equation_unsolvable (T : rcfType) (r : seq T) (s : T) : (0 < size r)%N ->
  fmean [seq tukey_rho (default_c T) (u / s) | u <- r] < 1 / 2%:R.
Proof.
by move=> r0; apply: le_lt_trans (proj2 (default_c_shrinks T)); exact: (mrho_le (default_c_gt0 T)).
Qed.

(* the scale returned is at most 0.9 times the starting scale; it is at most 0.9^k times that for
   k = max_scale_iterations, unless the iterates have fallen to the order of scale_tolerance *)
Theorem s_scale_shrinks (T : rcfType) (P : params T) (r : seq T) (s0 : T) :
  b P = 1 / 2%:R -> (0 < max_scale P)%N -> (0 < size r)%N -> 0 <= s0 ->
  exists s, [/\ get_scale (tukey_xrho (default_c T)) P (Fin s0) r = Ok (Fin s), 0 <= s,
    s <= 9%:R / 10%:R * s0 &
    s <= (9%:R / 10%:R) ^+ max_scale P * s0 \/ s <= 9%:R * stol P].
Proof.
move=> hb k0 r0 h0; have b0 : 0 < b P by rewrite hb; flra.
have q0 : (0 : T) <= 9%:R / 10%:R by flra.
have q1 : 9%:R / 10%:R < 1 :> T by flra.
have hq : default_c T ^+ 2 / 6%:R <= b P * (9%:R / 10%:R) ^+ 2 by rewrite hb; exact: (proj1 (default_c_shrinks T)).
have [s [e1 e2 e3 e4 _]] := get_scale_tukey (default_c_gt0 T) b0 r0 q0 q1 hq h0 k0.
by exists s; split => //; case: e4 => [|h]; [left|right; flra].
Qed.

(* default arguments: 500 subsets, 2 i-steps, 5 best subsets, 2 scale iterations *)
Definition default_params (T : rcfType) : params T :=
  Params 500 2 5 2 (1 / 2%:R) true ((10%:R ^+ 7)^-1) ((10%:R ^+ 10)^-1) 101.

Example s_scale_shrinks_case (T : rcfType) :
  [/\ b (default_params T) = 1 / 2%:R, (0 < max_scale (default_params T))%N &
     (0 < size [:: (1 : T); - 3%:R; 10%:R]%R)%N].
Proof. by []. Qed.

(* ---- C57: the scale loop *)
Theorem s_scale_no_iterations (T : rcfType) rho (P : params T) s r :
  max_scale P = 0%N -> get_scale rho P s r = Err UnboundLocalError.
Proof. by rewrite /get_scale => ->. Qed.

(* for any rho: the result is the last iterate; the loop ends early exactly when two iterates
   differ by less than scale_tolerance *)
Theorem s_scale_last_iterate (T : rcfType) rho (P : params T) s r : (0 < max_scale P)%N ->
  let next s := xmul s (xsqrt (xdiv (xmean [seq rho (xdiv (Fin u) s) | u <- r]) (Fin (b P)))) in
  let close i := xlt (xabs (xsub (iter i next s) (iter i.+1 next s))) (Fin (stol P)) in
  exists j, [/\ (j < max_scale P)%N, get_scale rho P s r = Ok (iter j.+1 next s),
    (forall i, (i < j)%N -> ~~ close i) & j.+1 = max_scale P \/ close j].
Proof.
move=> k0 next close; rewrite /get_scale.
have [[|j] [//= jk e h1 h2]] := scale_loopE rho P s None r k0.
exists j; split => //; first by move=> i hi; rewrite /close h1.
Qed.

Theorem s_scale_equivariant (T : rcfType) rho (P P' : params T) (a : T) s r :
  0 < a -> b P' = b P -> stol P' = a * stol P -> max_scale P' = max_scale P ->
  get_scale rho P' (xmul (Fin a) s) [seq a * u | u <- r] = rmap (xmul (Fin a)) (get_scale rho P s r).
Proof. by move=> a0 eb et ek; rewrite /get_scale ek -(scale_loop_equiv _ _ _ None _ a0 eb et). Qed.

(* bisquare: the scale is finite and not negative; it is positive unless all residuals or the
   starting scale are zero; a positive scale is kept iff it solves the M-scale equation *)
Theorem s_scale_nonnegative (T : rcfType) (c : T) (P : params T) (r : seq T) (s : T) :
  0 < c -> 0 < b P -> (0 < size r)%N -> 0 <= s -> (0 < max_scale P)%N ->
  (exists s', [/\ get_scale (tukey_xrho c) P (Fin s) r = Ok (Fin s'), 0 <= s' &
    0 < s -> (exists2 u, u \in r & u != 0) -> 0 < s']) /\
  (0 < s -> new_scale (tukey_xrho c) P (Fin s) r = Fin s <->
            fmean [seq tukey_rho c (u / s) | u <- r] = b P).
Proof.
move=> c0 b0 r0 s0 k0; split; first exact: get_scale_ge0.
move=> sp; rewrite new_scaleE //; have [h1 h2] := tstep_fixed c0 b0 r sp.
by split => [[/h1]|/h2 ->].
Qed.

Example s_scale_nonnegative_case (T : rcfType) :
  exists2 u, u \in [:: 0; 3%:R : T] & u != 0.
Proof. by exists 3%:R; rewrite ?inE ?eqxx ?orbT ?pnatr_eq0. Qed.

(* ---- C56: failing i-steps *)
Section Control.
Variable T : rcfType.
Variables rho psi : xnum T -> xnum T.
Variable wls : seq (xnum T) -> seq (seq T) -> seq T -> res (seq T).
Variable argsort : seq (xnum T) -> seq nat.
Variable choice : nat -> nat -> nat -> seq nat.
Variable P : params T.
Variables (X : seq (seq T)) (y : seq T) (p : nat).

(* one i-step from coefficients and scale; the stopping test *)
Let step (a : seq T * xnum T) := i_step rho psi wls P X y (fitted_minus X y a.1).
Let stop (a a' : seq T * xnum T) := converged P a.1 a'.1.

(* LinAlgError in the very first i-step of the first candidate *)
Theorem s_first_step_failure fuel cands i idxs : (0 < fuel)%N ->
  initial_models rho psi wls choice P X y p (iota (seed0 P) (n_subsets P)) = Ok cands ->
  take (n_best P) (argsort [seq c.2 | c <- cands]) = i :: idxs -> (i < size cands)%N ->
  step (nth ([::], NaN) cands i) = Err LinAlgError ->
  fit_array rho psi wls argsort choice P fuel X y p = Err UnboundLocalError.
Proof.
move=> f0 e1 e2 hi e3; rewrite /fit_array e1 /= e2.
rewrite (@refine_all_unbound _ rho psi wls P X y) //.
by rewrite /get (nth_map ([::], NaN)) // (nth_map ([::], NaN)) //= -surjective_pairing.
Qed.

(* the while loop of one candidate [prev]: it ends with the state in which an i-step converged,
   or with the last state before an i-step failed; n_iter is attached to that model, except when
   the first i-step fails: then the number 0 is attached to the last model of an earlier
   candidate, or there is none and the loop raises UnboundLocalError *)
Theorem s_candidate_outcome fuel H mv prev sprev o : (prev < size H)%N ->
  (forall m, mv = Some m -> (m < size H)%N) ->
  refine rho psi wls P fuel X y H mv prev sprev 0 = Ok o ->
  let a0 := (m_params (get H prev), sprev) in
  let a' := (m_params (get (o_heap o) (o_ref o)), o_scale o) in
  let niter i := m_niter (get (o_heap o) i) in
  exists n, [\/ stops step stop n a0 a' /\ niter (o_ref o) = Some n,
    [/\ breaks step stop n a0 a', (0 < n)%N & niter (o_ref o) = Some n] |
    [/\ breaks step stop n a0 a', n = 0%N, o_ref o = prev &
        exists m, [/\ mv = Some m, niter m = Some 0%N &
                   m != prev -> niter prev = m_niter (get H prev)]]].
Proof.
move=> hp hm e; have [_ _ _ _ [n h]] := refine_lem hp hm e; exists n.
case: h => [[h1 [h2 _ _]]|[h1 [m [h2 h3 h4 h5]]]]; first by apply: Or31; rewrite h2.
case: (posnP n) => [n0|n0].
  have [h6 h7 h8] := h5 n0; apply: Or33; split => //; exists m; split => //.
    by rewrite h3 n0.
  by move=> mp; rewrite h8 // eq_sym.
by apply: Or32; split => //; rewrite -h4.
Qed.

(* the whole fit: every one of the best candidates is followed to its end, and the model and
   scale returned belong to one of these ends, with the smallest scale *)
Theorem s_fit_outcome fuel f : (forall s, all (fun i => (i < size s)%N) (argsort s)) ->
  fit_array rho psi wls argsort choice P fuel X y p = Ok f ->
  exists cands outs : seq (seq T * xnum T),
  let idxs := take (n_best P) (argsort [seq c.2 | c <- cands]) in
  [/\ initial_models rho psi wls choice P X y p (iota (seed0 P) (n_subsets P)) = Ok cands,
    size outs = size idxs,
    forall k, (k < size idxs)%N -> exists n,
      stops step stop n (nth ([::], NaN) cands (nth 0%N idxs k)) (nth ([::], NaN) outs k) \/
      breaks step stop n (nth ([::], NaN) cands (nth 0%N idxs k)) (nth ([::], NaN) outs k) &
    exists k, [/\ (k < size outs)%N, nth ([::], NaN) outs k = (m_params (f_model f), f_scale f) &
      (~~ has (fun o => is_nan o.2) outs ->
       forall j, (j < size outs)%N -> xle (f_scale f) (nth ([::], NaN) outs j).2)]].
Proof. exact: fit_array_lem. Qed.
End Control.

(* cases: a rho function whose weights are NaN, and a solver that fails on them *)
Section Case.
Variable T : rcfType.
Definition cs_wls (w : seq (xnum T)) (X : seq (seq T)) (y : seq T) : res (seq T) :=
  if all (fun u => ~~ is_nan u) w then Ok [:: 2%:R] else Err LinAlgError.
Definition cs_nan (u : xnum T) : xnum T := NaN.
Definition cs_P : params T := Params 1 0 2 1 1 false 0 1 0.
Definition cs_X : seq (seq T) := [:: [:: 1]; [:: 2%:R]; [:: 3%:R]].
Definition cs_y : seq T := [:: 1; 5%:R; 6%:R].

Example s_first_step_failure_case :
  fit_array cs_nan cs_nan cs_wls (fun s => iota 0 (size s)) (fun _ _ k => iota 0 k) cs_P 5 cs_X cs_y 1
  = Err UnboundLocalError.
Proof. by apply: s_first_step_failure. Qed.

(* n_iter of the model found earlier is overwritten *)
Example s_candidate_outcome_case :
  let H := [:: MObj [:: 3%:R] (Some 4%N); MObj [:: 2%:R] None] in
  refine cs_nan cs_nan cs_wls cs_P 5 cs_X cs_y H (Some 0%N) 1 (Fin 7%:R) 0
  = Ok (Outcome [:: MObj [:: 3%:R] (Some 0%N); MObj [:: 2%:R] None] (Some 0%N) 1 (Fin 7%:R)).
Proof. by []. Qed.
End Case.

(* ---- C93: an exactly fitted majority *)
Section Exact.
Variable T : rcfType.
Variables (c : T) (P : params T).
Hypotheses (c0 : 0 < c) (b0 : 0 < b P) (k0 : (0 < max_scale P)%N).
Variable wls : seq (xnum T) -> seq (seq T) -> seq T -> res (seq T).

(* all weights are zero and the scale is zero: the exact fit is thrown away *)
Theorem s_exact_fit_zero_weights X y (r : seq T) :
  (size r < 2 * count (fun u => u == 0%R) r)%N ->
  i_step (tukey_xrho c) (tukey_xpsi c) wls P X y r
  = (do beta <- wls (nseq (size r) (Fin 0)) X y; Ok (beta, Fin 0)).
Proof. by move=> h; exact: i_step_exact. Qed.

(* data exactly on a plane: if least squares with zero weights gives zero coefficients (the
   pseudo-inverse does) and the weights computed from y itself give the plane, then the while
   loop alternates between these two models for ever *)
Theorem s_exact_fit_cycles X y beta sy H mv prev s n0 fuel :
  size X = size y -> (0 < size X)%N -> 0 <= rtol P < 1 -> rtol P ^+ 2 < norm2 beta ->
  (forall i, (i < size X)%N -> dot (nth [::] X i) beta = nth 0 y i) ->
  wls (nseq (size X) (Fin 0)) X y = Ok (nseq (size beta) 0) ->
  get_scale (tukey_xrho c) P (start_scale [seq - u | u <- y]) [seq - u | u <- y] = Ok sy ->
  wls (weights (tukey_xpsi c) [seq - u | u <- y] sy) X y = Ok beta ->
  (prev < size H)%N -> m_params (get H prev) = beta ->
  refine (tukey_xrho c) (tukey_xpsi c) wls P fuel X y H mv prev s n0 = NoFuel.
Proof. by move=> *; apply: (exact_cycle c0 b0); eassumption. Qed.
End Exact.

Example s_exact_fit_case (T : rcfType) :
  (size [:: 0; 0; 7%:R : T]%R < 2 * count (fun u => u == 0%R) [:: 0; 0; 7%:R : T]%R)%N.
Proof. by rewrite /= !eqxx pnatr_eq0. Qed.

(* weighted least squares through the origin with one regressor; 0 when all weights are 0 *)
Definition wls1 (T : rcfType) (w : seq (xnum T)) (X : seq (seq T)) (y : seq T) : res (seq T) :=
  let v := [seq if u is Fin x then x else 0 | u <- w] in
  let x := [seq nth 0 r 0 | r <- X] in
  Ok [:: fsum [seq q.1 * (q.2.1 * q.2.2) | q <- zip v (zip x y)]
         / fsum [seq q.1 * q.2 ^+ 2 | q <- zip v x]].

Example s_exact_fit_cycles_case (T : rcfType) :
  let P := Params 1 2 1 1 (1 / 2%:R) false 0 0 0 in
  let X := [:: [:: 1]; [:: 1]; [:: 1 : T]] in let y := [:: 1; 1; 1] in
  let my := [seq - u | u : T <- y] in
  exists sy, [/\ rtol P ^+ 2 < norm2 [:: 1 : T],
    wls1 (nseq 3 (Fin 0)) X y = Ok [:: 0],
    get_scale (tukey_xrho 2%:R) P (start_scale my) my = Ok sy &
    wls1 (weights (tukey_xpsi 2%:R) my sy) X y = Ok [:: 1]].
Proof.
move=> P X y my.
have c0 : 0 < 2%:R :> T by rewrite ltr0n.
have b0 : 0 < b P by rewrite /=; flra.
have e1 : start_scale my = Fin (2000%:R / 1349%:R).
  rewrite /start_scale; congr Fin; rewrite invf_div.
  suff -> : fmed [seq `|u| | u : T <- my] = 1 by rewrite mul1r.
  apply/eqP; rewrite eq_le andbC; apply: fmed_between => // x.
  by rewrite /my /= !normrN normr1 !inE => /or3P[] /eqP ->; rewrite lexx.
set s0 : T := 2000%:R / 1349%:R in e1.
have s0p : 0 < s0 by rewrite divr_gt0 ?ltr0n.
have s0n : s0 != 0 by rewrite gt_eqF.
set s1 := tstep 2%:R P my s0; exists (Fin s1).
have hx : `|- 1 / s0| <= 2%:R.
  rewrite normrM normrN normr1 mul1r gtr0_norm ?invr_gt0 // /s0 invf_div ler_pdivr_mulr ?ltr0n //.
  by rewrite -natrM ler_nat.
have hrho : s0 ^- 2 / 6%:R <= tukey_rho 2%:R (- 1 / s0).
  rewrite /tukey_rho hx; set x := s0^-1; have x0 : 0 <= x by rewrite invr_ge0 ltW.
  have x2 : x <= 1 by rewrite /x /s0 invf_div ler_pdivr_mulr ?ltr0n // mul1r ler_nat.
  have -> : s0 ^- 2 = x ^+ 2 by rewrite exprVn.
  have -> : - 1 / s0 = - x by rewrite mulN1r.
  set t := x ^+ 2; have t0 : 0 <= t by rewrite sqr_ge0.
  have t1 : t <= 1 by rewrite /t expr_le1.
  have -> : (- x) ^+ 2 = t by rewrite sqrrN.
  have -> : (- x) ^+ 4 = t * t by rewrite /t; ring.
  have -> : (- x) ^+ 6 = t * t * t by rewrite /t; ring.
  have h3 : 0 <= t * t * t by rewrite !mulr_ge0.
  have h2 : t * t <= t by rewrite -[X in _ <= X]mulr1 ler_wpmul2l.
  have -> : (2%:R : T) ^+ 2 = 4%:R by rewrite -natrX.
  have -> : (2%:R : T) ^+ 4 = 16%:R by rewrite -natrX.
  flra.
have hm : mrho 2%:R my s0 = tukey_rho 2%:R (- 1 / s0).
  by rewrite /mrho /fmean /= addr0; set t := tukey_rho _ _; field.
have s1p : 0 <= s1 by apply: tstep_ge0; exact: ltW.
have s1sq : 1 / 3%:R <= s1 ^+ 2.
  rewrite /s1 /tstep (negPf s0n) exprMn sqr_sqrtr; last by rewrite divr_ge0 ?(ltW b0) ?mrho_ge0.
  rewrite hm [b P]/=; have : s0 ^+ 2 * (s0 ^- 2 / 6%:R) <= s0 ^+ 2 * tukey_rho 2%:R (- 1 / s0).
    by rewrite ler_wpmul2l // sqr_ge0.
  by rewrite mulrA divff ?expf_neq0 // mulrA; set t := _ * tukey_rho _ _; flra.
have s1n : s1 != 0 by apply/eqP => e; move: s1sq; rewrite e expr0n /=; flra.
have s1g : 0 < s1 by rewrite lt_neqAle eq_sym s1n.
split.
- by rewrite /norm2 /= expr1n addr0 sqrtr1 expr0n ltr01.
- by rewrite /wls1 /= !mul0r !addr0 mul0r.
- rewrite e1 /get_scale.
  have [[|[|j]] [//= _ -> _ _]] := scale_loopE (tukey_xrho 2%:R) P (Fin s0) None my (k := 1) isT.
  by congr Ok; exact: (iter_new_scaleE c0 b0 (r := my) isT 1 s0).
set w := tukey_psi 2%:R (- 1 / s1) / (- 1 / s1).
have ew : weights (tukey_xpsi 2%:R) my (Fin s1) = nseq 3 (Fin w).
  have n1 : (- 1 == 0 :> T) = false by rewrite oppr_eq0 oner_eq0.
  have n2 : (- 1 / s1 == 0) = false by rewrite mulf_eq0 n1 invr_eq0 (negPf s1n).
  by rewrite /weights /= n1 /= (negPf s1n) /= n2.
have e4 : (2%:R : T) ^+ 2 = 4%:R by rewrite -natrX.
have wp : w != 0.
  have xn : - 1 / s1 != 0 by rewrite mulf_neq0 ?oppr_eq0 ?oner_eq0 ?invr_eq0.
  rewrite /w tukey_weight // expf_neq0 //.
  have hle : `|- 1 / s1| <= 2%:R.
    rewrite normrM normrN normr1 mul1r gtr0_norm ?invr_gt0 // -[X in X <= _]mul1r ler_pdivr_mulr //.
    rewrite -(ler_pexpn2r (n := 2)) ?nnegrE ?mulr_ge0 ?ler0n ?ler01 //.
    by rewrite expr1n exprMn e4; flra.
  have h := tk_p_in c0 hle; apply/eqP => e0; move: h; rewrite e0 mulr0 => /esym/eqP.
  rewrite subr_eq0 => /eqP h.
  have : s1 ^+ 2 * 2%:R ^+ 2 = 1.
    by rewrite h mulN1r sqrrN exprVn divff // expf_neq0.
  by rewrite e4; flra.
by rewrite ew /wls1 /= !expr1n !mulr1 !addr0 divff // -mulr2n -mulrS mulrn_eq0.
Qed.

(* ---- C94: prediction and constant columns *)
Section Columns.
Variable T : rcfType.
Variables rho psi : xnum T -> xnum T.
Variable wls : seq (xnum T) -> seq (seq T) -> seq T -> res (seq T).
Variable argsort : seq (xnum T) -> seq nat.
Variable choice : nat -> nat -> nat -> seq nat.
Variable P : params T.
Hypothesis Hw : forall w q X y beta, rect q X -> (0 < size X)%N -> wls w X y = Ok beta -> size beta = q.
Hypothesis Hc : forall sd n k, (k <= n)%N -> size (choice sd n k) = k /\ all (fun i => (i < n)%N) (choice sd n k).
Hypothesis HA : forall s, all (fun i => (i < size s)%N) (argsort s).

(* some column of X is constant and not zero *)
Definition constant_column (X : seq (seq T)) (p : nat) : Prop :=
  exists j v, [/\ (j < p)%N, v != 0 & forall x, x \in X -> nth 0 x j = v].

(* fitted with intercept on data without a constant column, predict works on such data, and
   raises ValueError on data with one *)
Theorem s_predict_columns fuel X y p f X' : intercept P -> rect p X -> (0 < size X)%N ->
  ~ constant_column X p -> fit rho psi wls argsort choice P fuel X y p = Ok f ->
  (0 < size X')%N ->
  (constant_column X' p -> predict P (Some f) X' p = Err ValueError) /\
  (~ constant_column X' p -> exists b0 beta, [/\ m_params (f_model f) = b0 :: beta, size beta = p &
     predict P (Some f) X' p = Ok [seq b0 + dot x beta | x <- X']]).
Proof.
move=> hi hX n0 nc e n0'.
have := fit_size Hw Hc HA hX n0 e; rewrite hi (introF (const_colP p n0) nc) /= addn1 => sz.
rewrite /predict hi add_constantE //; split => [/(const_colP p n0') ->|nc'] /=.
  by rewrite sz eqn_leq ltnn andbF.
rewrite (introF (const_colP p n0') nc') /= sz eqxx.
case: (m_params _) sz => // b1 beta [sb]; exists b1, beta; split => //.
by rewrite /lin_predict -map_comp; congr Ok; apply: eq_map => x /=; rewrite /dot /= mul1r.
Qed.

(* in particular a single new observation cannot be predicted, unless all its features are 0 *)
Theorem s_predict_single_row_fails fuel X y p f x : intercept P -> rect p X -> (0 < size X)%N ->
  ~ constant_column X p -> fit rho psi wls argsort choice P fuel X y p = Ok f ->
  (exists2 j, (j < p)%N & nth 0 x j != 0) -> predict P (Some f) [:: x] p = Err ValueError.
Proof.
move=> hi hX n0 nc e [j hj hx].
apply: (proj1 (s_predict_columns hi hX n0 nc e (X' := [:: x]) isT)).
by exists j, (nth 0 x j); split => // x'; rewrite inE => /eqP ->.
Qed.

Theorem s_predict_unfitted X p : predict P None X p = Err NotFittedError.
Proof. by []. Qed.
End Columns.

Example s_predict_columns_case (T : rcfType) :
  [/\ rect 2 [:: [:: 1; 2%:R]; [:: 1; 3%:R : T]],
   constant_column [:: [:: 1; 2%:R]; [:: 1; 3%:R : T]] 2 &
   ~ constant_column [:: [:: 0; 2%:R]; [:: 0; 3%:R : T]] 2].
Proof.
split => //.
  exists 0%N, 1; split => //; first exact: oner_neq0.
  by move=> x; rewrite !inE => /orP[] /eqP ->.
move=> [j [v [hj vn h]]]; have h1 := h [:: 0; 2%:R]; have h2 := h [:: 0; 3%:R].
rewrite !inE eqxx in h1; rewrite !inE eqxx orbT in h2.
clear h; case: j hj h1 h2 => [|[|]] // _ /(_ isT) /= h1 /(_ isT) /= h2.
  by rewrite -h1 eqxx in vn.
have : 2%:R = 3%:R :> T by rewrite h1 h2.
by flra.
Qed.

Print Assumptions s_scale_shrinks.
Print Assumptions s_scale_equivariant.
Print Assumptions s_candidate_outcome.
Print Assumptions s_fit_outcome.
Print Assumptions s_exact_fit_cycles.
Print Assumptions s_predict_columns.
