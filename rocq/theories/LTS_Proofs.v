(* Proofs about the model of FastLTSRegression. *)
From mathcomp Require Import all_ssreflect all_algebra.
From mathcomp.zify Require Import zify.
From mathcomp.algebra_tactics Require Import ring.
From Verif Require Import RFieldLra Prelude Stats RatFloor Qn_Model DDCFit_Proofs DDCMore_Proofs.
From Verif Require Import Regr Regr_Proofs LTS_Model LTS_Spec.

Set Implicit Arguments.
Unset Strict Implicit.
Unset Printing Implicit Defensive.

Import Order.TTheory GRing.Theory Num.Theory.
Local Open Scope ring_scope.

Section CSteps.
Variable T : realFieldType.
Implicit Types (X : seq (seq T)) (y : seq T) (m : lin T) (H : seq nat).

Lemma trimmed_lossE m X y H : size X = size y -> {in H, forall i, (i < size X)%N} ->
  loss X y H m = trimmed_loss m X y H.
Proof.
move=> e hi; have ha : all (fun i => (i < size X)%N) H by apply/allP.
rewrite /loss /trimmed_loss sse_sel // fsumE big_map; congr (_ / _).
by apply: eq_big_seq => i /hi his; rewrite /resid2 nth_residuals.
Qed.

Lemma trimmed_loss_perm m X y H H' : perm_eq H H' ->
  trimmed_loss m X y H = trimmed_loss m X y H'.
Proof. by move=> hp; rewrite /trimmed_loss (perm_size hp) (perm_big _ hp). Qed.

Lemma trimmed_loss_ge0 m X y H : 0 <= trimmed_loss m X y H.
Proof. by rewrite /trimmed_loss divr_ge0 ?ler0n // sumr_ge0 // => i _; apply: sqr_ge0. Qed.

Variables (ols : seq (seq T) -> seq T -> lin T) (argsort : seq T -> seq nat).
Variable choice : nat -> nat -> nat -> seq nat.
Hypothesis Has : is_argsort argsort.

Lemma h_subset_sub m X y h : size X = size y ->
  subset_of (size X) (minn h (size X)) (h_subset argsort m X y h).
Proof.
move=> e; rewrite /h_subset; split.
- by rewrite take_uniq // argsort_uniq.
- by move=> i /mem_take; rewrite argsort_mem // size_map size_residuals.
- by rewrite size_take argsort_size // size_map size_residuals.
Qed.

Lemma h_subset_opt m X y h H : size X = size y -> subset_of (size X) (minn h (size X)) H ->
  trimmed_loss m X y (h_subset argsort m X y h) <= trimmed_loss m X y H.
Proof.
move=> e [uH iH sH]; have [_ iS sS] := h_subset_sub m h e.
rewrite /trimmed_loss sH sS; apply: ler_wpmul2r; first by rewrite invr_ge0 ler0n.
have := @argsort_optimal T argsort Has [seq `|r| | r : T <- residuals m X y]
   (resid2 m X y) h H; rewrite !fsumE !big_map size_map size_residuals //; apply => //.
  move=> i j hi hj; rewrite !(nth_map 0) ?size_residuals // !nth_residuals // => hle.
  rewrite /resid2 -[X in X <= _]real_normK ?num_real // -[X in _ <= X]real_normK ?num_real //.
  by rewrite ler_expn2r ?nnegrE ?normr_ge0.
by apply/allP.
Qed.

Variable p : nat.
Hypothesis Hols : is_ols p ols.
Variables (X : seq (seq T)) (y : seq T).
Hypothesis (szXY : size X = size y) (rX : rect p X).

Definition refit H : lin T := ols (sel [::] X H) (sel 0 y H).

Lemma refit_min H k : subset_of (size X) k H -> (0 < k)%N ->
  size (coef (refit H)) = p /\
  forall m, size (coef m) = p -> trimmed_loss (refit H) X y H <= trimmed_loss m X y H.
Proof.
move=> [uH iH sH] k0; have ha : all (fun i => (i < size X)%N) H by apply/allP.
have [] := Hols (X := sel [::] X H) (y := sel 0 y H).
- by rewrite !size_map.
- by rewrite size_map sH.
- exact: rect_sel.
move=> h1 h2; split => // m sm; rewrite -!trimmed_lossE // /loss.
by apply: ler_wpmul2r; [rewrite invr_ge0 ler0n|apply: h2].
Qed.

Lemma refit_perm H H' k : subset_of (size X) k H -> subset_of (size X) k H' -> (0 < k)%N ->
  perm_eq H H' -> trimmed_loss (refit H) X y H = trimmed_loss (refit H') X y H'.
Proof.
move=> sH sH' k0 hp; have [z1 m1] := refit_min sH k0; have [z2 m2] := refit_min sH' k0.
apply: le_anti; apply/andP; split.
  by rewrite -(trimmed_loss_perm _ _ _ hp); apply: m1.
by rewrite (trimmed_loss_perm _ _ _ hp); apply: m2.
Qed.

Lemma c_stepE m h : (0 < h)%N -> (0 < size X)%N ->
  c_step ols argsort m X y h =
  Ok (h_subset argsort m X y h, refit (h_subset argsort m X y h)).
Proof.
move=> h0 n0; rewrite /c_step; have [_ _ sS] := h_subset_sub m h szXY.
have: (0 < size (sel [::] X (h_subset argsort m X y h)))%N.
  by rewrite size_map sS leq_min h0.
by rewrite /lr_fit /refit; case: (sel [::] X _).
Qed.

Lemma c_step_lem m h : (0 < h)%N -> (0 < size X)%N -> size (coef m) = p ->
  exists H' m', [/\ c_step ols argsort m X y h = Ok (H', m'),
    subset_of (size X) (minn h (size X)) H', size (coef m') = p,
    (forall m2, size (coef m2) = p -> trimmed_loss m' X y H' <= trimmed_loss m2 X y H') &
    forall H, subset_of (size X) (minn h (size X)) H ->
      trimmed_loss m' X y H' <= trimmed_loss m X y H].
Proof.
move=> h0 n0 sm; have sS := h_subset_sub m h szXY.
have k0 : (0 < minn h (size X))%N by rewrite leq_min h0.
have [z mn] := refit_min sS k0.
exists (h_subset argsort m X y h), (refit (h_subset argsort m X y h)); split => //.
  exact: c_stepE.
by move=> H sH; apply: le_trans (mn _ sm) _; apply: h_subset_opt.
Qed.

(* ------------------------------------------------------- termination *)
Let n := size X.
Definition as_set H : {set 'I_n} := [set i : 'I_n | val i \in H].

Lemma as_set_card k H : subset_of n k H -> #|as_set H| = k.
Proof.
move=> [uH iH <-]; pose L := pmap (@insub nat (fun i => i < n)%N [subType of 'I_n]) H.
have eL : [seq val i | i <- L] = H.
  rewrite /L; elim: (H) iH => //= i s IH hi; have hin := hi i (mem_head _ _).
  rewrite insubT /= IH // => j hj; apply: hi; by rewrite inE hj orbT.
have uL : uniq L by rewrite -(map_inj_uniq val_inj) eL.
rewrite -{2}eL size_map -(card_uniqP uL); apply: eq_card => i.
by rewrite inE -{1}eL (mem_map val_inj).
Qed.

Lemma as_set_inj k H H' : subset_of n k H -> subset_of n k H' -> as_set H = as_set H' ->
  perm_eq H H'.
Proof.
move=> [uH iH _] [uH' iH' _] e; apply: uniq_perm => // i.
have [hi|hi] := ltnP i n.
  by have := congr1 (fun S : {set 'I_n} => Ordinal hi \in S) e; rewrite /= !inE.
apply/idP/idP => [/iH|/iH']; by rewrite ltnNge hi.
Qed.

Lemma vis_bound k (vis : seq {set 'I_n}) : uniq vis -> all (fun S : {set 'I_n} => #|S| == k) vis ->
  (size vis <= 'C(n, k))%N.
Proof.
move=> uv hv; rewrite -[n in 'C(n, _)]card_ord -cardsT -(cards_draws [set: 'I_n]).
rewrite cardE; apply: uniq_leq_size => // S /(allP hv)/eqP hS.
by rewrite mem_enum inE subsetT hS eqxx.
Qed.

Lemma converge_lem fuel m prev h tol it :
  (0 < h)%N -> (0 < n)%N -> size (coef m) = p -> 0 <= tol ->
  ('C(n, minn h n) < fuel)%N ->
  exists m' H' l' it', [/\ converge ols argsort fuel m prev X y h tol it = Ok (m', H', l', it'),
    subset_of n (minn h n) H' /\ size (coef m') = p,
    l' = trimmed_loss m' X y H',
    (forall m2, size (coef m2) = p -> l' <= trimmed_loss m2 X y H') &
    (it' <= it + 'C(n, minn h n))%N /\
    forall H, subset_of n (minn h n) H -> l' <= trimmed_loss m X y H].
Proof.
move=> h0 n0 sm t0 hf; set k := minn h n.
have k0 : (0 < k)%N by rewrite leq_min h0.
suff gen (vis : seq {set 'I_n}) : uniq vis -> all (fun S : {set 'I_n} => #|S| == k) vis ->
   (forall H, subset_of n k H -> as_set H \in vis -> prev <= trimmed_loss (refit H) X y H) ->
   ('C(n, k) < size vis + fuel)%N ->
  exists m' H' l' it', [/\ converge ols argsort fuel m prev X y h tol it = Ok (m', H', l', it'),
    subset_of n k H' /\ size (coef m') = p,
    l' = trimmed_loss m' X y H',
    (forall m2, size (coef m2) = p -> l' <= trimmed_loss m2 X y H') &
    (it' + size vis <= it + 'C(n, k))%N /\
    forall H, subset_of n k H -> l' <= trimmed_loss m X y H].
  have [||||m' [H' [l' [it' [? ? ? ? [e5 ?]]]]]] := gen [::] => //.
  by exists m', H', l', it'; split => //; split => //; move: e5; rewrite addn0.
elim: fuel m prev it vis sm {hf} => [|f IH] m prev it vis sm uv cv hv hf.
  by have := vis_bound uv cv; rewrite addn0 in hf; rewrite leqNgt hf.
rewrite /=; have := c_stepE m h0 n0; set S := h_subset argsort m X y h => ->.
rewrite [bind _ _]/=; have sS : subset_of n k S := h_subset_sub m h szXY.
have [sz mn] := refit_min sS k0.
have opt H : subset_of n k H -> trimmed_loss (refit S) X y S <= trimmed_loss m X y H.
  by move=> sH; apply: le_trans (mn _ sm) _; apply: h_subset_opt.
have iS := let: And3 _ i _ := sS in i.
rewrite trimmed_lossE //; case: ifP => hle.
  exists (refit S), S, (trimmed_loss (refit S) X y S), it; split => //; split => //.
  by rewrite leq_add2l; apply: vis_bound.
have lt : trimmed_loss (refit S) X y S < prev.
  by rewrite -subr_gt0; apply: le_lt_trans t0 _; rewrite ltNge hle.
have nv : as_set S \notin vis.
  by apply/negP => /(hv _ sS); rewrite leNgt lt.
have [|||||m' [H' [l' [it' [e1 [e2 e2'] e3 e4 [e5 e6]]]]]] :=
   IH (refit S) (trimmed_loss (refit S) X y S) it.+1 (as_set S :: vis) => //.
- by rewrite /= nv.
- by rewrite /= cv (as_set_card sS) eqxx.
- move=> H sH; rewrite inE => /orP[/eqP eH|hH]; last by apply: le_trans (ltW lt) (hv _ sH hH).
  by rewrite (refit_perm sH sS k0) ?lexx //; apply: (as_set_inj sH sS eH).
- by rewrite /= addSnnS.
exists m', H', l', it'; split => //; split; first by move: e5 => /=; lia.
by move=> H sH; apply: le_trans (e6 _ sS) (opt _ sH).
Qed.

Lemma converge_diverges fuel m prev h tol it H :
  (0 < h)%N -> (0 < n)%N -> size (coef m) = p -> tol < 0 ->
  subset_of n (minn h n) H -> prev = trimmed_loss m X y H ->
  converge ols argsort fuel m prev X y h tol it = NoFuel.
Proof.
move=> h0 n0; elim: fuel m prev it H => // f IH m prev it H sm t0 sH ->.
rewrite /=; have [H' [m' [-> sH' sm' mn opt]]] := c_step_lem h0 n0 sm.
rewrite [bind _ _]/=; have iS := let: And3 _ i _ := sH' in i.
rewrite trimmed_lossE // ifF; last first.
  by apply/negbTE; rewrite -ltNge; apply: lt_le_trans t0 _; rewrite subr_ge0; apply: opt.
by apply: (IH _ _ _ H').
Qed.

End CSteps.
