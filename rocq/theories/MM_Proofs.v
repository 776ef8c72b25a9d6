(* Lemmas about the model of MMRegression. *)
From mathcomp Require Import all_ssreflect all_algebra.
From mathcomp.zify Require Import zify.
From mathcomp.algebra_tactics Require Import ring.
From Verif Require Import RFieldLra Prelude Stats Xnum Rho_Model Regr Regr_Proofs SReg_Model MM_Model MM_Spec.

Set Implicit Arguments.
Unset Strict Implicit.
Unset Printing Implicit Defensive.

Import Order.TTheory GRing.Theory Num.Theory.
Local Open Scope ring_scope.

Section Step.
Variable T : rcfType.
Implicit Types (X : seq (seq T)) (y w b : seq T) (m : lin T).

Lemma dotM (v : T) (a x : seq T) : dot a [seq v * u | u <- x] = v * dot a x.
Proof.
elim: x a => [|u x IH] [|c a] /=; try by rewrite /dot /= mulr0.
by rewrite !dot_cons IH mulrDr mulrCA.
Qed.

Lemma sse_nth m X y : size X = size y ->
  sse m X y = \sum_(i < size y) (nth 0 y i - (icpt m + dot (coef m) (nth [::] X i))) ^+ 2.
Proof.
move=> e; rewrite /sse fsum_nth size_map size_residuals // e; apply: eq_bigr => i _.
by rewrite (nth_map 0) ?size_residuals ?e // nth_residuals ?e.
Qed.

(* scaled data *)
Definition scX w X : seq (seq T) := [seq [seq Num.sqrt q.1 * u | u <- q.2] | q <- zip w X].
Definition scy w y : seq T := [seq Num.sqrt q.1 * q.2 | q <- zip w y].

Lemma size_scX w X : size w = size X -> size (scX w X) = size X.
Proof. by move=> e; rewrite size_map size_zip e minnn. Qed.

Lemma size_scy w y : size w = size y -> size (scy w y) = size y.
Proof. by move=> e; rewrite size_map size_zip e minnn. Qed.

Lemma usseE w m X y : size w = size y -> size X = size y ->
  usse w m X y = sse m (scX w X) (scy w y).
Proof.
move=> ew eX; rewrite sse_nth ?size_scX ?size_scy ?ew //.
apply: eq_bigr => i _.
by rewrite (nth_map (0, 0)) ?size_zip ?ew ?minnn // (nth_map (0, [::])) ?size_zip ?ew ?eX ?minnn //
  !nth_zip ?ew //= dotM.
Qed.

Variable ols : seq (seq T) -> seq T -> lin T.

Lemma rect_scX p w X : size w = size X -> rect p X -> rect p (scX w X).
Proof.
elim: X w => [|x X IH] [|u w] //= [e] /andP[/eqP hx hX].
by rewrite size_map hx eqxx (IH w).
Qed.

Definition good (u : xnum T) : bool := if u is Fin x then 0 <= x else false.

Lemma good_mul (w : xnum T) (u : T) : is_fin (xmul (xsqrt w) (Fin u)) = good w.
Proof.
case: w => [x||| ] //=; last first.
  by rewrite /inf_sign; case: ifP => //; case: ifP.
by case: (0 <= x).
Qed.

Lemma wfitE (w : seq (xnum T)) X y : size w = size y -> size X = size y ->
  wfit ols w X y = if all good w then let v := [seq val u | u <- w] in Ok (ols (scX v X) (scy v y))
                   else Err ValueError.
Proof.
move=> ew eX; rewrite /wfit /lin_fit.
have h1 : all (@is_fin T) [seq xmul (xsqrt q.1) (Fin q.2) | q <- zip w y] = all good w.
  by elim: w y ew {eX} => [|u w IH] [|v y] //= [e]; rewrite good_mul IH.
have h2 : all good w -> all (all (@is_fin T)) [seq [seq xmul (xsqrt q.1) (Fin u) | u <- q.2] | q <- zip w X].
  have : size w = size X by rewrite ew.
  elim: w X {ew eX h1} => [|u w IH] [|x X] //= [e] /andP[hu /IH ->] //; rewrite andbT.
  by elim: x => //= v x ->; rewrite good_mul hu.
rewrite h1; case hg: (all good w); last by rewrite andbF.
rewrite h2 //=; congr (Ok (ols _ _)).
  have : size w = size X by rewrite ew.
  elim: w X hg {ew eX h1 h2} => [|u w IH] [|x X] //= /andP[hu /IH h] [/h ->]; congr (_ :: _).
  by case: u hu => //= u hu; elim: x => //= v x ->; rewrite hu.
elim: w y hg ew {eX h1 h2} => [|u w IH] [|v y] //= /andP[hu /IH h] [/h ->]; congr (_ :: _).
by case: u hu => //= u ->.
Qed.

Lemma wfit_ok p (w : seq (xnum T)) X y l : is_ols p ols -> size w = size y -> size X = size y ->
  (0 < size y)%N -> rect p X -> wfit ols w X y = Ok l ->
  exists2 v : seq T, w = [seq Fin u | u <- v] & all (fun u => 0 <= u) v /\
    minimises p (fun m => usse v m X y) l.
Proof.
move=> ho ew eX y0 hX; rewrite wfitE //; case: ifP => // hg [<-].
set v := [seq val u | u <- w]; exists v.
  rewrite /v -map_comp; elim: w hg {ew v} => //= u w IH /andP[hu /IH <-].
  by case: u hu.
have ev : size v = size y by rewrite size_map.
split; first by rewrite /v; elim: w hg {ew v ev} => //= u w IH /andP[hu /IH ->]; case: u hu => //= u ->.
have [||| hs hm] := ho (scX v X) (scy v y).
- by rewrite size_scX ?size_scy ?ev.
- by rewrite size_scX ?ev ?eX.
- by rewrite rect_scX ?ev.
by split => // m hm'; rewrite !usseE //; exact: hm.
Qed.

(* equal weights: the intercept is scaled *)
Lemma usse_equal (v : T) m X y : 0 < v -> size X = size y ->
  usse (nseq (size y) v) m X y = v * sse (Lin (icpt m / Num.sqrt v) (coef m)) X y.
Proof.
move=> v0 eX; have s0 : Num.sqrt v != 0 by rewrite sqrtr_eq0 -ltNge.
rewrite sse_nth // big_distrr /=; apply: eq_bigr => i _; rewrite nth_nseq ltn_ord.
rewrite -[X in _ = X * _](sqr_sqrtr (ltW v0)) -exprMn mulrBr mulrDr mulrCA divff // mulr1.
by [].
Qed.

Lemma dot_add (a b x : seq T) : size a = size b ->
  dot [seq q.1 + q.2 | q <- zip a b] x = dot a x + dot b x.
Proof.
elim: a b x => [|u a IH] [|v b] [|w x] //=; try by rewrite /dot /= addr0.
by case=> e; rewrite !dot_cons IH // mulrDl addrACA.
Qed.

Lemma size_add_plane X y b : size X = size y -> size (add_plane X y b) = size y.
Proof. by move=> e; rewrite size_map size_zip e minnn. Qed.

Lemma usse_plane w m X y b : size X = size y -> size (coef m) = size b ->
  usse w (add_slopes m b) X (add_plane X y b) = usse w m X y.
Proof.
move=> eX eb; rewrite /usse size_add_plane //; apply: eq_bigr => i _.
rewrite (nth_map ([::], 0)) ?size_zip ?eX ?minnn // nth_zip //= dot_add //.
have aux (g a c d e : T) : g * (a + e) - (c + g * (d + e)) = g * a - (c + g * d) by ring.
by congr (_ ^+ 2); exact: aux.
Qed.

End Step.

Section Fit.
Variable T : rcfType.
Variable E : Type.
Variable est_fit : E -> seq (seq T) -> seq T -> E * res unit.
Variable est_predict : E -> seq (seq T) -> res (seq T).
Variable est_scale : E -> res (xnum T).
Variable e0 : E.
Variable psi : xnum T -> xnum T.
Variable ols : seq (seq T) -> seq T -> lin T.
Implicit Types (X : seq (seq T)) (y r : seq T) (o : mm T).

Notation mm_loop := (mm_loop est_predict e0 psi ols).
Notation mm_fit := (mm_fit est_fit est_predict est_scale e0 psi ols).

(* attributes that the loop never touches *)
Lemma mm_loop_frame k i es m s o X y : let o' := (mm_loop k i es m s o X y).1 in
  [/\ m_init o' = m_init o, m_max o' = m_max o, m_eps o' = m_eps o & m_scale o' = m_scale o].
Proof.
elim: k i m o => [|k IH] i m o //=.
case: (model_predict _ _ es m X) => [f|e|] //=.
case: (wfit _ _ _ _) => [l|e|] //=.
case: ifP => _ //=.
by have [-> -> -> ->] := IH i.+1 (Linear l) (MM_Model.set_niter (set_model o (Linear l)) i.+1).
Qed.

Definition preds X (l : lin T) : seq T := [seq predict1 l x | x <- X].

(* a run of the loop that does not raise *)
Lemma mm_loop_ok k i es m s o X y o' :
  mm_loop k i es m s o X y = (o', Ok tt) -> exists ls : seq (lin T),
  [/\ (size ls <= k)%N, (0 < k -> 0 < size ls)%N,
      m_model o' = (if ls is l :: ls' then Some (Linear (last l ls')) else m_model o),
      m_niter o' = (if ls is l :: ls' then Some (i + size ls)%N else m_niter o) &
   ((0 < k)%N -> exists f0, [/\ model_predict est_predict e0 es m X = Ok f0,
      (forall j, (j < size ls)%N ->
        wfit ols (mm_weights psi s (minus y (nth [::] (f0 :: map (preds X) ls) j))) X y
        = Ok (nth (Lin 0 [::]) ls j)),
      (forall j, (j.+1 < size ls)%N -> m_eps o <=
        max_change (minus y (nth [::] (map (preds X) ls) j)) (minus y (nth [::] (f0 :: map (preds X) ls) j))) &
      (size ls < k)%N -> let j := (size ls).-1 in
        max_change (minus y (nth [::] (map (preds X) ls) j)) (minus y (nth [::] (f0 :: map (preds X) ls) j)) < m_eps o])].
Proof.
elim: k i m o => [|k IH] i m o /=.
  by case=> <-; exists [::]; split.
case em : (model_predict _ _ es m X) => [f|e|] //=.
case ew : (wfit _ _ _ _) => [l|e|] //=; case: ifP => hc.
  case=> <-; exists [:: l]; split => //=; first by rewrite addn1.
  move=> _; exists f; split => // -[|j] //.
set o1 := MM_Model.set_niter _ _ => /IH[ls [h1 h2 h3 h4 h5]].
exists (l :: ls); split => //=.
- by rewrite h3; case: (ls).
- by rewrite h4; case: (ls) => [|l' ls'] /=; rewrite ?addn1 // addSnnS.
move=> _; exists f; split => //.
- move=> [|j] //= hj; have k0 : (0 < k)%N by move: hj h1; clear; lia.
  have [f0 [e1 e2 _ _]] := h5 k0; move: e1 => /= [e1].
  by have := e2 j hj; rewrite -e1; case: j {hj}.
- move=> [|j] /= hj; first by rewrite leNgt hc.
  have k0 : (0 < k)%N by move: hj h1; clear; lia.
  have [f0 [e1 _ e3 _]] := h5 k0; move: e1 => /= [e1].
  by have := e3 j hj; rewrite -e1; case: j {hj}.
rewrite ltnS => hlt; have k0 : (0 < k)%N by move: hlt; clear; lia.
have [f0 [e1 _ _ e4]] := h5 k0; move: e1 => /= [e1].
have := e4 hlt; have := h2 k0; rewrite -e1; case: (ls) => //= l' ls' _.
Qed.

(* a zero residual: psi(0/s)/(0/s) is NaN for every s *)
Lemma weight_zero s r : psi (Fin 0) = Fin 0 -> 0 \in r -> all (@good T) (mm_weights psi s r) = false.
Proof.
move=> h0; elim: r => //= u r IH; rewrite inE => /orP[/eqP <-|/IH ->]; last by rewrite andbF.
suff -> : xdiv (psi (xdiv (Fin 0) s)) (xdiv (Fin 0) s) = NaN by [].
case: s {IH} => [v||| ] /=; rewrite ?h0 /= ?eqxx ?/inf_sign ?ltxx //.
  case: eqP => _ /=; first by rewrite xdiv_nan_r.
  by rewrite mul0r h0 /= eqxx /inf_sign ltxx.
by rewrite xdiv_nan_r.
Qed.

Lemma size_weights s r : size (mm_weights psi s r) = size r.
Proof. exact: size_map. Qed.

Lemma size_minus y (f : seq T) : size f = size y -> size (minus y f) = size y.
Proof. by move=> e; rewrite size_map size_zip e minnn. Qed.

Lemma mm_fit_ok es o X y es' o' : mm_fit es o X y = (es', o', Ok tt) -> exists e' s,
  [/\ est_fit (nth e0 es (m_init o)) X y = (e', Ok tt), est_scale e' = Ok s,
      es' = set_nth e0 es (m_init o) e' &
      mm_loop (m_max o) 0 es' (EstRef _ (m_init o)) s (set_scale (set_model o (EstRef _ (m_init o))) s) X y
      = (o', Ok tt)].
Proof.
rewrite /MM_Model.mm_fit; case: (est_fit _ X y) => e' [[]|e|] //=.
case es1: (est_scale e') => [s|e|] //=; set q := MM_Model.mm_loop _ _ _ _ _ _ _ _ _ _ _ _ => -[<- <- h].
exists e', s; split => //; rewrite -h; exact: surjective_pairing.
Qed.

Lemma mm_fit_frame es o X y : let q := mm_fit es o X y in
  [/\ m_init q.1.2 = m_init o, m_max q.1.2 = m_max o, m_eps q.1.2 = m_eps o &
      q.1.1 = set_nth e0 es (m_init o) (est_fit (nth e0 es (m_init o)) X y).1].
Proof.
rewrite /MM_Model.mm_fit; case: (est_fit _ X y) => e' [u|e|] //=.
case es1: (est_scale e') => [s|e|] //=.
by have /= [-> -> ->] := mm_loop_frame (m_max o) 0 (set_nth e0 es (m_init o) e') (EstRef _ (m_init o)) s
  (set_scale (set_model o (EstRef _ (m_init o))) s) X y.
Qed.

End Fit.

Section World.
Variable T : rcfType.
Variable E : Type.
Variable est_fit : E -> seq (seq T) -> seq T -> E * res unit.
Variable est_predict : E -> seq (seq T) -> res (seq T).
Variable est_scale : E -> res (xnum T).
Variable e0 : E.
Variable psi : xnum T -> xnum T.
Variable ols : seq (seq T) -> seq T -> lin T.
Notation run1 := (run1 est_fit est_predict est_scale e0 psi ols).
Notation run := (run est_fit est_predict est_scale e0 psi ols).

Definition fits (i : nat) (c : call T) : bool := if c is FitMM j _ _ then j == i else false.

(* only its own fit changes an object *)
Lemma run1_obj w c i : (i < size (w_mm w))%N -> ~~ fits i c ->
  obj (run1 w c) i = obj w i /\ (i < size (w_mm (run1 w c)))%N.
Proof.
move=> hi; case: c => [j X y|k X y|k eps] //= hf; last by rewrite /obj /= nth_rcons size_rcons hi leqW.
case: ifP => // hj; rewrite /obj /= nth_set_nth /= eq_sym (negPf hf) size_set_nth; split => //.
by rewrite leq_max hi orbT.
Qed.

Lemma run_obj w cs i : (i < size (w_mm w))%N -> all (fun c => ~~ fits i c) cs ->
  obj (run w cs) i = obj w i /\ (i < size (w_mm (run w cs)))%N.
Proof.
elim: cs w => //= c cs IH w hi /andP[hc hcs].
by have [e h] := run1_obj hi hc; rewrite -e; exact: IH.
Qed.

End World.
