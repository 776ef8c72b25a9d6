(* C58-C60: MM regression.  mm.py is modelled in MM_Model.v. *)
From mathcomp Require Import all_ssreflect all_algebra.
From mathcomp.zify Require Import zify.
From mathcomp.algebra_tactics Require Import ring.
From Verif Require Import RFieldLra Prelude Stats Xnum Rho_Model Regr Regr_Proofs SReg_Model MM_Model MM_Spec MM_Proofs.

Set Implicit Arguments.
Unset Strict Implicit.
Unset Printing Implicit Defensive.

Import Order.TTheory GRing.Theory Num.Theory.
Local Open Scope ring_scope.

(* ---- C58: what a reweighting step minimises *)
Section Step.
Variable T : rcfType.
Variable ols : seq (seq T) -> seq T -> lin T.
Variable p : nat.
Hypothesis Ho : is_ols p ols.
Implicit Types (X : seq (seq T)) (y w b : seq T).

(* a step that succeeds has finite weights w >= 0, and its model minimises the sum of squares in
   which the intercept is left without weight *)
Theorem mm_step_criterion (w : seq (xnum T)) X y l : size w = size y -> size X = size y ->
  (0 < size y)%N -> rect p X -> wfit ols w X y = Ok l ->
  exists2 v : seq T, w = [seq Fin u | u <- v] & all (fun u => 0 <= u) v /\
    minimises p (fun m => usse v m X y) l.
Proof. by move=> h1 h2 h3 h4 h5; exact: (wfit_ok Ho h1 h2 h3 h4 h5). Qed.

(* equal weights v: the slopes are those of least squares, the intercept is sqrt(v) times that of
   least squares; with v = 1 the step is least squares *)
Theorem mm_step_equal_weights (v : T) X y l : 0 < v -> size X = size y -> (0 < size y)%N -> rect p X ->
  wfit ols (nseq (size y) (Fin v)) X y = Ok l ->
  minimises p (fun m => sse m X y) (Lin (icpt l / Num.sqrt v) (coef l)).
Proof.
move=> v0 eX y0 hX e.
have [||||v' ev [_ [h1 h2]]] := mm_step_criterion _ _ _ _ e; rewrite ?size_nseq //.
have {}ev : v' = nseq (size y) v.
  have inj : injective (fun u : T => Fin u) by move=> a c [].
  by apply: (inj_map inj); rewrite -ev map_nseq.
have s0 : Num.sqrt v != 0 by rewrite sqrtr_eq0 -ltNge.
split => // m hm.
have := h2 (Lin (icpt m * Num.sqrt v) (coef m)) hm; rewrite ev !usse_equal //= mulfK //.
by rewrite ler_pmul2l //; case: m {hm}.
Qed.

(* adding a plane through the origin to y adds it to the slopes *)
Theorem mm_step_slope_equivariant (w : seq (xnum T)) X y b l : size w = size y -> size X = size y ->
  (0 < size y)%N -> rect p X -> size b = p -> wfit ols w X y = Ok l ->
  exists l', wfit ols w X (add_plane X y b) = Ok l' /\
  exists2 v : seq T, w = [seq Fin u | u <- v] &
    minimises p (fun m => usse v m X (add_plane X y b)) (add_slopes l b) /\
    usse v l' X (add_plane X y b) = usse v (add_slopes l b) X (add_plane X y b).
Proof.
move=> ew eX y0 hX eb e; have sy := size_add_plane b eX.
have : exists l', wfit ols w X (add_plane X y b) = Ok l'.
  move: e; rewrite !wfitE ?sy //; case: ifP => // _ _; by eexists.
case=> l' e'; exists l'; split => //.
have [v ev [_ [h1 h2]]] := mm_step_criterion ew eX y0 hX e; exists v => //.
have [|||v' ev' [_ [h1' h2']]] := mm_step_criterion _ _ _ hX e'; rewrite ?sy //.
have {ev'} ev' : v' = v.
  have inj : injective (fun u : T => Fin u) by move=> a c [].
  by apply: (inj_map inj); rewrite -ev'.
rewrite ev' in h2'; have sl : size (coef (add_slopes l b)) = p by rewrite size_map size_zip h1 eb minnn.
have hm : minimises p (fun m => usse v m X (add_plane X y b)) (add_slopes l b).
  split => // m hm; rewrite usse_plane ?h1 //.
  set m' := Lin (icpt m) [seq q.1 - q.2 | q <- zip (coef m) b].
  have sm' : size (coef m') = p by rewrite size_map size_zip hm eb minnn.
  suff -> : m = add_slopes m' b by rewrite usse_plane ?sm' //; exact: h2.
  case: m hm @m' sm' => a c /= hc _; rewrite /add_slopes /=; congr Lin.
  have : size c = size b by rewrite hc.
  by elim: c b {e' sy eb sl h1' h2' e hc} => [|u c IH] [|d b] //= [/IH <-]; rewrite subrK.
by split => //; apply/eqP; rewrite eq_le h2' //=; apply: (proj2 hm).
Qed.
End Step.

(* the witnesses: three points with abscissae 0, 1, 2 on a horizontal line, weights 1, 1/4, 1 *)
Definition wit_w (T : rcfType) : seq T := [:: 1; 1 / 4%:R; 1].
Definition wit_X (T : rcfType) : seq (seq T) := [:: [:: 0]; [:: 1]; [:: 2%:R]].
Definition wit_y (T : rcfType) (c : T) : seq T := [:: c; c; c].

Lemma wit_usse (T : rcfType) (a d c : T) : usse (wit_w T) (Lin a [:: d]) (wit_X T) (wit_y c)
  = (c - a) ^+ 2 + (c / 2%:R - a - d / 2%:R) ^+ 2 + (c - a - 2%:R * d) ^+ 2.
Proof.
have s4 : Num.sqrt (1 / 4%:R : T) = 1 / 2%:R.
  have -> : (1 / 4%:R : T) = (1 / 2%:R) ^+ 2 by field.
  by rewrite sqrtr_sqr ger0_norm //; flra.
by rewrite /usse !big_ord_recl !big_ord0 /= s4 !sqrtr1 /dot /=; field.
Qed.

Lemma wit_wsse (T : rcfType) (a d c : T) : wsse (wit_w T) (Lin a [:: d]) (wit_X T) (wit_y c)
  = (c - a) ^+ 2 + (c - a - d) ^+ 2 / 4%:R + (c - a - 2%:R * d) ^+ 2.
Proof. by rewrite /wsse !big_ord_recl !big_ord0 /= /dot /=; field. Qed.

Lemma wit_fit (T : rcfType) (ols : seq (seq T) -> seq T -> lin T) (c : T) : is_ols 1 ols ->
  exists a d : T, wfit ols [seq Fin u | u <- wit_w T] (wit_X T) (wit_y c) = Ok (Lin a [:: d]) /\
  forall a' d', usse (wit_w T) (Lin a [:: d]) (wit_X T) (wit_y c)
                <= usse (wit_w T) (Lin a' [:: d']) (wit_X T) (wit_y c).
Proof.
move=> ho; have hw : all (@good T) [seq Fin u | u <- wit_w T] by rewrite /= ler01 !andbT /=; flra.
have [l hl] : exists l, wfit ols [seq Fin u | u <- wit_w T] (wit_X T) (wit_y c) = Ok l.
  by rewrite wfitE // hw; eexists.
have [//|//|//|//|v ev [_ [h1 h2]]] := mm_step_criterion ho _ _ _ _ hl.
have {}ev : v = wit_w T.
  have inj : injective (fun u : T => Fin u) by move=> x z [].
  by apply: (inj_map inj); rewrite -ev.
rewrite {v}ev in h2; case: l h1 h2 hl => a [|d [|]] //= _ h2 hl.
by exists a, d; split => // a' d'; exact: h2.
Qed.

(* the weighted least-squares line of data on y = 1 is that line; the step returns another one,
   whatever the solver *)
Theorem mm_step_weighted_refuted (T : rcfType) (ols : seq (seq T) -> seq T -> lin T) : is_ols 1 ols ->
  exists (w : seq T) X y l, [/\ all (fun u => 0 < u) w, size w = 3%N, size X = 3%N, size y = 3%N &
   wfit ols [seq Fin u | u <- w] X y = Ok l] /\ ~ minimises 1 (fun m => wsse w m X y) l.
Proof.
move=> ho; have [a [d [hl h]]] := wit_fit 1 ho.
exists (wit_w T), (wit_X T), (wit_y 1), (Lin a [:: d]); split.
  by split => //=; rewrite ltr01 !andbT /=; flra.
case=> _ /(_ (Lin 1 [:: 0]) erefl); have := h (10%:R / 13%:R) (1 / 13%:R).
rewrite !wit_wsse !wit_usse => h1 h2.
have e1 := sqr_ge0 (1 - a); have e2 := sqr_ge0 (1 - a - d); have e3 := sqr_ge0 (1 - a - 2%:R * d).
have ea : (1 - a) ^+ 2 = 0 by apply/eqP; rewrite eq_le e1 andbT; move: h2 e2 e3; fnra.
have ed : (1 - a - 2%:R * d) ^+ 2 = 0 by apply/eqP; rewrite eq_le e3 andbT; move: h2 e2 e1; fnra.
move/eqP: ea; rewrite sqrf_eq0 subr_eq0 => /eqP ea; subst a.
move/eqP: ed; rewrite sqrf_eq0 subrr sub0r oppr_eq0 mulf_eq0 pnatr_eq0 /= => /eqP ed; subst d.
by move: h1; fnra.
Qed.

(* adding 1 to y changes the slope *)
Theorem mm_step_shift_refuted (T : rcfType) (ols : seq (seq T) -> seq T -> lin T) : is_ols 1 ols ->
  exists (w : seq T) X y l l', [/\ all (fun u => 0 < u) w, size w = 3%N, size X = 3%N, size y = 3%N &
   wfit ols [seq Fin u | u <- w] X y = Ok l] /\
  wfit ols [seq Fin u | u <- w] X [seq 1 + u | u <- y] = Ok l' /\ coef l <> coef l'.
Proof.
move=> ho; have [a [d [hl h]]] := wit_fit 0 ho; have [a' [d' [hl' h']]] := wit_fit 1 ho.
exists (wit_w T), (wit_X T), (wit_y 0), (Lin a [:: d]), (Lin a' [:: d']); split.
  by split => //=; rewrite ltr01 !andbT /=; flra.
split; first by rewrite /= addr0.
case=> ed; have := h 0 0; have := h' (10%:R / 13%:R) (1 / 13%:R); rewrite !wit_usse => h1 h2.
have e1 := sqr_ge0 (0 - a); have e2 := sqr_ge0 (0 / 2%:R - a - d / 2%:R); have e3 := sqr_ge0 (0 - a - 2%:R * d).
have ea : (0 - a) ^+ 2 = 0 by apply/eqP; rewrite eq_le e1 andbT; move: h2 e2 e3; fnra.
have e4 : (0 - a - 2%:R * d) ^+ 2 = 0 by apply/eqP; rewrite eq_le e3 andbT; move: h2 e2 e1; fnra.
move/eqP: ea; rewrite sqrf_eq0 sub0r oppr_eq0 => /eqP ea; subst a.
move/eqP: e4; rewrite sqrf_eq0 subrr sub0r oppr_eq0 mulf_eq0 pnatr_eq0 /= => /eqP e4; subst d.
subst d'; have e5 := sqr_ge0 (a' - 5%:R / 6%:R).
by move: h1 e5; fnra.
Qed.

(* the hypotheses hold for a solver; its line is 10/13 + x/13 instead of 1 *)
Example mm_step_case (T : rcfType) : [/\ is_ols 1 (@ols1 T), rect 1 (wit_X T) &
  wfit (@ols1 T) [seq Fin u | u <- wit_w T] (wit_X T) (wit_y 1)
  = Ok (Lin (10%:R / 13%:R) [:: 1 / 13%:R])].
Proof.
split => //; first exact: ols1P.
have hw : all (@good T) [seq Fin u | u <- wit_w T] by rewrite /= ler01 !andbT /=; flra.
have s4 : Num.sqrt (1 / 4%:R : T) = 1 / 2%:R.
  have -> : (1 / 4%:R : T) = (1 / 2%:R) ^+ 2 by field.
  by rewrite sqrtr_sqr ger0_norm //; flra.
rewrite wfitE // hw /= /scX /scy /= s4 !sqrtr1 /ols1 /fmean /=; congr (Ok (Lin _ [:: _])); by field.
Qed.

Section Fit.
Variable T : rcfType.
Variable E : Type.
Variable est_fit : E -> seq (seq T) -> seq T -> E * res unit.
Variable est_predict : E -> seq (seq T) -> res (seq T).
Variable est_scale : E -> res (xnum T).
Variable e0 : E.
Variable psi : xnum T -> xnum T.
Variable ols : seq (seq T) -> seq T -> lin T.
Variable p : nat.
Implicit Types (X : seq (seq T)) (y : seq T) (o : mm T).
Notation mm_fit := (mm_fit est_fit est_predict est_scale e0 psi ols).
Notation run := (run est_fit est_predict est_scale e0 psi ols).

(* a fit that succeeds: the scale is that of the initial estimator; models l_1 ... l_n with n =
   n_iter <= max_iterations, each minimising the criterion above with weights psi(r/s)/(r/s)
   from the residuals of its predecessor; the last is the model; the loop stops before
   max_iterations exactly when the predictions change by less than epsilon *)
Theorem mm_fit_trace es o X y es' o' : is_ols p ols -> size X = size y -> (0 < size y)%N -> rect p X ->
  (forall e f, est_predict e X = Ok f -> size f = size X) ->
  mm_fit es o X y = (es', o', Ok tt) ->
  exists e' s (ls : seq (lin T)),
  [/\ est_fit (nth e0 es (m_init o)) X y = (e', Ok tt), est_scale e' = Ok s, m_scale o' = Some s,
      m_niter o' = Some (size ls) & (size ls <= m_max o)%N] /\
  m_model o' = Some (last (EstRef _ (m_init o)) [seq Linear l | l <- ls]) /\
  ((0 < m_max o)%N -> (0 < size ls)%N /\ exists f0, est_predict e' X = Ok f0 /\
   let f j := nth [::] (f0 :: [seq [seq icpt l + dot (coef l) x | x <- X] | l <- ls]) j in
   let r j := [seq q.1 - q.2 | q <- zip y (f j)] in
   let change j := fmax [seq `|q.1 - q.2| | q <- zip (r j.+1) (r j)] in
   [/\ forall j, (j < size ls)%N -> exists v : seq T,
        [/\ [seq xdiv (psi (xdiv (Fin u) s)) (xdiv (Fin u) s) | u <- r j] = [seq Fin u | u <- v],
            all (fun u => 0 <= u) v &
            minimises p (fun m => usse v m X y) (nth (Lin 0 [::]) ls j)],
       forall j, (j.+1 < size ls)%N -> m_eps o <= change j &
       (size ls < m_max o)%N -> change (size ls).-1 < m_eps o]).
Proof.
move=> ho eX y0 hX hp hf; have [e' [s [h1 h2 h3 h4]]] := mm_fit_ok hf; rewrite h3 in h4.
have [ls [k1 k2 k3 k4 k5]] := mm_loop_ok h4.
exists e', s, ls; split.
  split => //; last by rewrite k4; case: (ls).
  have := mm_loop_frame est_predict e0 psi ols (m_max o) 0 (set_nth e0 es (m_init o) e')
    (EstRef _ (m_init o)) s (set_scale (set_model o (EstRef _ (m_init o))) s) X y.
  by rewrite h4 /= => -[_ _ _ ->].
split; first by rewrite k3; case: (ls) => //= l ls'; rewrite last_map.
move=> k0; split; first exact: k2.
have [f0 [e1 e2 e3 e4]] := k5 k0; exists f0; split; first by move: e1; rewrite /= nth_set_nth /= eqxx.
move=> f r change; split.
- move=> j hj; have sf : size (f j) = size y.
    rewrite -eX /f; case: j hj => [|j] hj /=; first exact: hp e1.
    by rewrite (nth_map (Lin 0 [::])) ?size_map // ltnW.
  have [|||v ev [v0 hm]] := wfit_ok ho _ _ _ hX (e2 j hj); rewrite ?size_weights ?size_minus //.
  by exists v.
- by move=> j hj; exact: e3.
by move=> hs; have := e4 hs; have := k2 k0; rewrite /change /r /f; case: (ls).
Qed.

(* ---- C59: exactly fitted observations *)
(* in a fit that succeeds no residual was zero at the start of any iteration *)
Theorem mm_fit_no_zero_residual es o X y es' o' : psi (Fin 0) = Fin 0 -> size X = size y ->
  (forall e f, est_predict e X = Ok f -> size f = size X) ->
  mm_fit es o X y = (es', o', Ok tt) -> (0 < m_max o)%N ->
  exists e' f0 (ls : seq (lin T)),
  [/\ est_fit (nth e0 es (m_init o)) X y = (e', Ok tt), est_predict e' X = Ok f0,
      m_niter o' = Some (size ls) &
  forall j i, (j < size ls)%N -> (i < size y)%N ->
    nth 0 y i != nth 0 (nth [::] (f0 :: [seq [seq icpt l + dot (coef l) x | x <- X] | l <- ls]) j) i].
Proof.
move=> h0 eX hp hf k0; have [e' [s [h1 h2 h3 h4]]] := mm_fit_ok hf; rewrite h3 in h4.
have [ls [k1 k2 k3 k4 k5]] := mm_loop_ok h4; have [f0 [e1 e2 _ _]] := k5 k0.
have e1' : est_predict e' X = Ok f0 by move: e1; rewrite /= nth_set_nth /= eqxx.
exists e', f0, ls; split => //; first by rewrite k4; case: (ls) (k2 k0).
move=> j i hj hi; set f := nth [::] _ j; apply/negP => /eqP hz.
have sf : size f = size y.
  rewrite -eX /f; case: j hj @f hz => [|j] hj f hz /=; first exact: hp e1.
  by rewrite (nth_map (Lin 0 [::])) ?size_map // ltnW.
have := e2 j hj; rewrite wfitE ?size_weights ?size_minus // weight_zero //.
apply/(nthP 0); exists i; rewrite ?size_minus //.
by rewrite (nth_map (0, 0)) ?size_zip ?sf ?minnn // nth_zip //= -/f hz subrr.
Qed.

(* if the initial estimator fits one observation exactly, fit raises ValueError, whatever its
   scale; the object is left with the estimator itself as its model and n_iter = 0 *)
Theorem mm_fit_exact_observation_fails es o X y e' s f0 i : psi (Fin 0) = Fin 0 ->
  est_fit (nth e0 es (m_init o)) X y = (e', Ok tt) -> est_scale e' = Ok s ->
  est_predict e' X = Ok f0 -> size f0 = size y -> size X = size y -> (0 < m_max o)%N ->
  (i < size y)%N -> nth 0 f0 i = nth 0 y i ->
  mm_fit es o X y = (set_nth e0 es (m_init o) e',
    MM (m_init o) (m_max o) (m_eps o) (Some (EstRef _ (m_init o))) (Some s) (Some 0%N), Err ValueError).
Proof.
move=> h0 h1 h2 h3 sf eX k0 hi hz; rewrite /MM_Model.mm_fit h1 /= h2.
case ek: (m_max o) k0 => [//|k] _ /=; rewrite nth_set_nth /= eqxx h3.
rewrite wfitE ?size_weights ?size_minus // weight_zero //; first by rewrite /set_scale /set_model /= ek.
apply/(nthP 0); exists i; rewrite ?size_minus //.
by rewrite (nth_map (0, 0)) ?size_zip ?sf ?minnn // nth_zip //= hz subrr.
Qed.

(* ---- C60: the shared initial estimator *)
(* after a successful fit with max_iterations >= 1 the object predicts the same values, and
   reports the same scale, whatever other objects are fitted *)
Theorem mm_fitted_is_independent w i X y es' o' cs : (i < size (w_mm w))%N ->
  mm_fit (w_es w) (obj w i) X y = (es', o', Ok tt) -> (0 < m_max (obj w i))%N ->
  all (fun c => ~~ fits i c) cs ->
  exists l, forall X',
  let w' := run w (FitMM i X y :: cs) in
  mm_predict est_predict e0 (w_es w') (obj w' i) X' = Ok [seq icpt l + dot (coef l) x | x <- X'] /\
  m_scale (obj w' i) = m_scale o'.
Proof.
move=> hi hf k0 hc; set w1 := run1 est_fit est_predict est_scale e0 psi ols w (FitMM i X y).
have e1 : obj w1 i = o' by rewrite /w1 /= hi hf /obj /= nth_set_nth /= eqxx.
have h1 : (i < size (w_mm w1))%N by rewrite /w1 /= hi /= size_set_nth leq_max ltnSn.
have [e2 h2] := run_obj est_fit est_predict est_scale e0 psi ols h1 hc.
have [e' [s [_ _ _ h4]]] := mm_fit_ok hf; have [ls [_ k2 k3 _ _]] := mm_loop_ok h4.
move: (k2 k0) k3; case: (ls) => // l ls' _ /= k3; exists (last l ls') => X'.
rewrite [run _ _]/= -/w1 -/(run w1 cs) e2 e1; split => //.
by rewrite /mm_predict k3.
Qed.

(* with max_iterations = 0, or after a fit that failed in its first iteration, the object
   predicts with the estimator it shares: any later fit of that estimator shows *)
Theorem mm_shares_estimator w i cs X' : (i < size (w_mm w))%N -> all (fun c => ~~ fits i c) cs ->
  m_model (obj w i) = Some (EstRef _ (m_init (obj w i))) ->
  let w' := run w cs in
  mm_predict est_predict e0 (w_es w') (obj w' i) X'
  = est_predict (nth e0 (w_es w') (m_init (obj w i))) X'.
Proof.
move=> hi hc hm w'; have [e _] := run_obj est_fit est_predict est_scale e0 psi ols hi hc.
by rewrite /mm_predict -/w' in e *; rewrite e hm.
Qed.

Theorem mm_zero_iterations_keeps_estimator es o X y es' o' : m_max o = 0%N ->
  mm_fit es o X y = (es', o', Ok tt) ->
  m_model o' = Some (EstRef _ (m_init o')) /\ m_niter o' = Some 0%N.
Proof.
move=> k0 hf; have [e' [s [_ _ _]]] := mm_fit_ok hf.
by rewrite k0 /= => -[<-].
Qed.

(* all objects made with default arguments share estimator 0, and a fit changes exactly that one *)
Theorem mm_default_estimator_shared k k' (eps eps' : T) :
  m_init (new_mm k eps) = m_init (new_mm (T := T) k' eps') /\
  forall es o X y j, let q := mm_fit es o X y in
    m_init q.1.2 = m_init o /\
    nth e0 q.1.1 j = if j == m_init o then (est_fit (nth e0 es (m_init o)) X y).1 else nth e0 es j.
Proof.
split => // es o X y j; have [h1 _ _ h4] := mm_fit_frame est_fit est_predict est_scale e0 psi ols es o X y.
by rewrite /= h1 h4 nth_set_nth.
Qed.

Theorem mm_predict_unfitted es k eps X : mm_predict est_predict e0 es (new_mm k eps) X = Err NotFittedError.
Proof. by []. Qed.
End Fit.

(* a whole fit with the bisquare: y = 1 everywhere, the initial estimator predicts 0 with scale 1;
   all weights are 9/16 and one iteration gives the constant 3/4, although the constant 1 fits
   exactly *)
Section Cases.
Variable T : rcfType.
Let ef (e : unit) (X : seq (seq T)) (y : seq T) := (e, @Ok unit tt).
Let ep (e : unit) (X : seq (seq T)) : res (seq T) := Ok (nseq (size X) 0).
Let esc (e : unit) : res (xnum T) := Ok (Fin 1).

Example mm_fit_trace_case :
  mm_fit ef ep esc tt (tukey_xpsi 2%:R) (@ols1 T) [:: tt] (new_mm 1 0) (wit_X T) (wit_y 1)
  = ([:: tt], MM 0 1 0 (Some (Linear (Lin (3%:R / 4%:R) [:: 0]))) (Some (Fin 1)) (Some 1%N), Ok tt).
Proof.
have e1 : minus (wit_y (1 : T)) (nseq 3 0) = nseq 3 1 by rewrite /minus /= subr0.
have n10 : (1 == 0 :> T) = false by rewrite oner_eq0.
have e2 : mm_weights (tukey_xpsi 2%:R) (Fin 1) (nseq 3 (1 : T)) = nseq 3 (Fin ((3%:R / 4%:R) ^+ 2)).
  rewrite /mm_weights /= n10 !divr1 /= n10 divr1 /tukey_psi normr1 ler1n /=.
  by do 3! (congr (_ :: _); first by congr Fin; field).
have s4 : Num.sqrt ((3%:R / 4%:R) ^+ 2 : T) = 3%:R / 4%:R by rewrite sqrtr_sqr ger0_norm //; flra.
have e3 : wfit (@ols1 T) (nseq 3 (Fin ((3%:R / 4%:R) ^+ 2))) (wit_X T) (wit_y 1)
          = Ok (Lin (3%:R / 4%:R) [:: 0]).
  rewrite wfitE // (_ : all _ _ = true) /=; last by rewrite sqr_ge0.
  rewrite /scX /scy /= s4 /ols1 /fmean /=; congr (Ok (Lin _ [:: _])); by field.
rewrite -e2 -e1 in e3; rewrite /mm_fit /=.
by rewrite (_ : wfit _ _ _ _ = Ok (Lin (3%:R / 4%:R) [:: 0])) /=; [case: ifP | exact: e3].
Qed.

(* an initial estimator that fits the first observation exactly *)
Let ep1 (e : unit) (X : seq (seq T)) : res (seq T) := Ok [:: 1; 0; 0].
Example mm_fit_exact_case :
  (mm_fit ef ep1 esc tt (tukey_xpsi 2%:R) (@ols1 T) [:: tt] (new_mm 500 0) (wit_X T) (wit_y 1)).2
  = Err ValueError.
Proof.
rewrite (@mm_fit_exact_observation_fails T unit ef ep1 esc tt _ _ [:: tt] _ _ _ tt (Fin 1) [:: 1; 0; 0] 0) //=.
by rewrite /tukey_psi normr0 ler0n mul0r.
Qed.

(* two objects with max_iterations = 0, least squares as shared estimator: the second fit changes
   the predictions of the first object *)
Let lf (e : lin T) (X : seq (seq T)) (y : seq T) := (ols1 X y, @Ok unit tt).
Let lp (e : lin T) (X : seq (seq T)) : res (seq T) := Ok [seq predict1 e x | x <- X].
Let lsc (e : lin T) : res (xnum T) := Ok (Fin 1).
Let ld : lin T := Lin 0 [:: 0].
Let two := World [:: ld] [:: new_mm 0 (0 : T); new_mm 0 0].
Let rn := run lf lp lsc ld (tukey_xpsi 2%:R) (@ols1 T).

Example mm_shared_case : let w1 := rn two [:: FitMM 0 (wit_X T) (wit_y 1)] in
  let w2 := rn two [:: FitMM 0 (wit_X T) (wit_y 1); FitMM 1 (wit_X T) (wit_y 0)] in
  mm_predict lp ld (w_es w1) (obj w1 0) [:: [:: 0]] = Ok [:: 1] /\
  mm_predict lp ld (w_es w2) (obj w2 0) [:: [:: 0]] = Ok [:: 0].
Proof. by split; rewrite /mm_predict /= /lp /= /predict1 /= /dot /ols1 /fmean /=; congr (Ok [:: _]); field. Qed.
End Cases.

Print Assumptions mm_step_criterion.
Print Assumptions mm_step_equal_weights.
Print Assumptions mm_step_slope_equivariant.
Print Assumptions mm_step_weighted_refuted.
Print Assumptions mm_step_shift_refuted.
Print Assumptions mm_fit_trace.
Print Assumptions mm_fit_exact_observation_fails.
Print Assumptions mm_fitted_is_independent.
Print Assumptions mm_shares_estimator.
