(* Proofs about the model of FastLTSRegression: selection of the best candidate, subset size,
   reweighting. *)
From mathcomp Require Import all_ssreflect all_algebra.
From mathcomp.zify Require Import zify.
From mathcomp.algebra_tactics Require Import ring.
From Verif Require Import RFieldLra Prelude Stats RatFloor Qn_Model DDCFit_Proofs DDCMore_Proofs.
From Verif Require Import Regr Regr_Proofs LTS_Model LTS_Spec LTS_Proofs.

Set Implicit Arguments.
Unset Strict Implicit.
Unset Printing Implicit Defensive.

Import Order.TTheory GRing.Theory Num.Theory.
Local Open Scope ring_scope.

(* ------------------------------------------------------------ subset size *)
Lemma rat_floor_nat (x : rat) : 0 <= x -> exists k : nat, rat_floor x = k%:Z /\
  k%:R <= x < (k.+1)%:R.
Proof.
move=> x0; have /andP[h1 h2] := rat_floorP x0.
have : (-1)%:~R < (rat_floor x)%:~R :> rat.
  rewrite rmorphD /= in h2; rewrite [(-1)%:~R]/=.
  rewrite rmorphN /=; flra.
rewrite ltr_int; case e : (rat_floor x) => [k|k] // _; exists k; split => //.
by move: h1 h2; rewrite e -PoszD addn1 -!pmulrn => -> ->.
Qed.

Lemma h_size_lem (alpha : rat) (n p h : nat) : h_size alpha n p = Ok h ->
  exists k : nat, [/\ k%:R <= n%:R * alpha < k.+1%:R, h = maxn k ((n + p + 1) %/ 2) &
    1%:R / 2%:R <= alpha <= 1].
Proof.
rewrite /h_size; case: ifP => // /norP[]; rewrite -!leNgt => a1 a2 [<-].
have x0 : 0 <= n%:R * alpha :> rat.
  by apply: mulr_ge0; rewrite ?ler0n //; apply: le_trans a1; rewrite divr_ge0 ?ler0n.
have [k [-> hk]] := rat_floor_nat x0; exists k; split; rewrite ?a1 ?a2 //.
Qed.

Lemma h_size_le (alpha : rat) (n p h : nat) : h_size alpha n p = Ok h ->
  [/\ (n <= 2 * h)%N, (0 < h)%N = (0 < n + p)%N & (h <= n)%N = (p <= n)%N].
Proof.
case/h_size_lem => k [/andP[hk1 hk2] -> /andP[a1 a2]].
have kn : (k <= n)%N.
  rewrite -(ler_nat rat_numDomainType); apply: le_trans hk1 _.
  by rewrite ler_pimulr ?ler0n.
split; [lia| |lia]; apply/idP/idP; last by lia.
by rewrite leq_max => /orP[|]; lia.
Qed.

Section Select.
Variable T : realFieldType.
Implicit Types (m : lin T).
Variables (ols : seq (seq T) -> seq T -> lin T) (argsort : seq T -> seq nat).
Variable choice : nat -> nat -> nat -> seq nat.
Hypothesis Has : is_argsort argsort.
Variables (X : seq (seq T)) (y : seq T).

Lemma refine_all_lem fuel h tol cands d best idxs b :
  refine_all ols argsort fuel X y h tol cands d best idxs = Ok b ->
  [/\ b.1.2 <= best.1.2,
   (forall i, i \in idxs -> exists r,
      converge ols argsort fuel (nth d cands i).1.1 (nth d cands i).1.2 X y h tol 0 = Ok r
      /\ b.1.2 <= r.1.2) &
   b = best \/ exists i r, [/\ i \in idxs,
      converge ols argsort fuel (nth d cands i).1.1 (nth d cands i).1.2 X y h tol 0 = Ok r &
      b = (r.1.1.1, r.1.2, r.1.1.2)]].
Proof.
elim: idxs best => [|i idxs IH] best /=; first by case=> <-; split => //; left.
rewrite {1}/refine; case er : (converge _ _ _ _ _ _ _ _ _ _) => [r| |] //=.
have [lt|ge] := ltP r.1.2 best.1.2 => /=.
  case/IH => h1 h2 h3; split.
  - exact: le_trans h1 (ltW lt).
  - move=> j; rewrite inE => /orP[/eqP ->|/h2 //]; exists r; split => //.
  - right; case: h3 => [->|[j [r' [hj er' eb]]]]; first by exists i, r; rewrite mem_head.
    by exists j, r'; rewrite inE hj orbT.
case/IH => h1 h2 h3; split => //.
- move=> j; rewrite inE => /orP[/eqP ->|/h2 //]; exists r; split => //; exact: le_trans h1 ge.
- case: h3 => [->|[j [r' [hj er' eb]]]]; first by left.
  by right; exists j, r'; rewrite inE hj orbT.
Qed.

Lemma select_best_lem fuel h tol nbest cands d b :
  select_best ols argsort fuel X y h tol nbest cands = Ok b ->
  [/\ (forall i, (i < size cands)%N -> b.1.2 <= (nth d cands i).1.2),
   (forall i, i \in take nbest (argsort [seq c.1.2 | c <- cands]) -> exists r,
      converge ols argsort fuel (nth d cands i).1.1 (nth d cands i).1.2 X y h tol 0 = Ok r
      /\ b.1.2 <= r.1.2) &
   exists2 i, (i < size cands)%N & b = nth d cands i \/ exists r,
      converge ols argsort fuel (nth d cands i).1.1 (nth d cands i).1.2 X y h tol 0 = Ok r
      /\ b = (r.1.1.1, r.1.2, r.1.1.2)].
Proof.
rewrite /select_best; set ls := [seq c.1.2 | c <- cands].
case ei : (take nbest (argsort ls)) => [|i0 idxs] //; case ec : cands => [|d0 cs] //.
rewrite -ec -ei => hr.
have inr i : i \in take nbest (argsort ls) -> (i < size cands)%N.
  by move/mem_take; rewrite argsort_mem // size_map.
have i0in : i0 \in take nbest (argsort ls) by rewrite ei mem_head.
have nd i : (i < size cands)%N -> nth d0 cands i = nth d cands i.
  by move=> hi; apply: set_nth_default.
have [h1 h2 h3] := refine_all_lem hr.
have min0 i : (i < size cands)%N -> (nth d cands i0).1.2 <= (nth d cands i).1.2.
  move=> hi; have [_ so] := Has ls.
  have : i \in argsort ls by rewrite argsort_mem // size_map.
  case/(nthP 0%N) => a; rewrite argsort_size // => ha ea.
  have e0 : nth 0%N (argsort ls) 0 = i0.
    have nb0 : (0 < nbest)%N by case: (nbest) ei => //; rewrite take0.
    by rewrite -(nth_take 0%N nb0) ei.
  have := so 0%N a (leq0n _) ha; rewrite e0 ea /ls !(nth_map d) //; exact: inr.
split.
- by move=> i hi; apply: le_trans h1 _; rewrite nd ?inr // min0.
- by move=> i hi; have := h2 i hi; rewrite nd ?inr.
- case: h3 => [->|[i [r [hi er ->]]]].
    by exists i0; rewrite ?inr //; left; rewrite nd ?inr.
  by exists i; rewrite ?inr //; right; exists r; rewrite -nd ?inr.
Qed.

Variable p : nat.
Hypothesis Hols : is_ols p ols.
Hypothesis (szXY : size X = size y) (rX : rect p X).
Let n := size X.

Lemma initial_model_lem seed m : is_choice choice -> initial_model ols choice X y p seed = Ok m ->
  size (coef m) = p /\ (p < n)%N.
Proof.
move=> Hc; rewrite /initial_model; case: ltnP => // pn.
have [] := @refit_min T ols p Hols X y szXY rX _ _ (Hc seed n p.+1 pn) (ltn0Sn _).
rewrite /refit /lr_fit; move=> h _; case: (sel [::] X _) h => // r R h [<-]; by split.
Qed.

(* what every candidate satisfies *)
Definition good_cand k (c : candidate T) : Prop :=
  [/\ subset_of n k c.2, size (coef c.1.1) = p & c.1.2 = trimmed_loss c.1.1 X y c.2].

Lemma c_steps_lem j im h : (0 < h)%N -> (0 < n)%N ->
  subset_of n (minn h n) im.1 -> size (coef im.2) = p ->
  exists im', [/\ c_steps ols argsort j im X y h = Ok im', subset_of n (minn h n) im'.1,
    size (coef im'.2) = p, trimmed_loss im'.2 X y im'.1 <= trimmed_loss im.2 X y im.1 &
    (0 < j)%N -> forall m2, size (coef m2) = p ->
      trimmed_loss im'.2 X y im'.1 <= trimmed_loss m2 X y im'.1].
Proof.
move=> h0 n0; elim: j im => [|j IH] im s1 s2; first by exists im.
have [H' [m' [e sH' sm' mn opt]]] := @c_step_lem T ols argsort Has p Hols X y szXY rX im.2 h h0 n0 s2.
have [im' [e1 e2 e3 e4 e5]] := IH (H', m') sH' sm'.
exists im'; rewrite /= e /=; split => //.
  exact: le_trans e4 (opt _ s1).
move=> _; case: j IH e1 e5 => [_ [<-] _ //|j _ _ e5]; exact: e5.
Qed.

Lemma initial_one_total ncs iw seed h : is_choice choice -> good_weights p iw ->
  (0 < h)%N -> (p < n)%N ->
  exists c, [/\ initial_one ols argsort choice X y p h ncs iw seed = Ok c,
    good_cand (minn h n) c &
    (0 < ncs)%N -> forall m2, size (coef m2) = p -> c.1.2 <= trimmed_loss m2 X y c.2].
Proof.
move=> Hc gw h0 pn; have n0 : (0 < n)%N by apply: leq_ltn_trans pn.
rewrite /initial_one /initial_model ltnNge pn /=.
have [] := @refit_min T ols p Hols X y szXY rX _ _ (Hc seed n p.+1 pn) (ltn0Sn _).
rewrite /refit /lr_fit; have : (0 < size (sel [::] X (choice seed n p.+1)))%N.
  by rewrite size_map; have [_ _ ->] := Hc seed n p.+1 pn.
case: (sel [::] X _) => // r R _; set m0 := ols _ _ => sm0 _ /=.
have [m em sm] : exists2 m, override iw p m0 = Ok m & size (coef m) = p.
  case: iw gw => [[|w0 w]|] //= gw; last by exists m0.
  by case: gw => ew; rewrite ew eqxx; exists (Lin w0 w).
rewrite em /=.
have [im' [e1 e2 e3 e4 e5]] := @c_steps_lem ncs (h_subset argsort m X y h, m) h h0 n0
  (h_subset_sub Has m h szXY) sm.
rewrite e1 /=; have iS := let: And3 _ i _ := e2 in i.
have le : loss X y im'.1 im'.2 = trimmed_loss im'.2 X y im'.1 by rewrite trimmed_lossE.
exists (im'.2, loss X y im'.1 im'.2, im'.1); split => //.
by move=> c0 m2 hm; rewrite [_.1.2]/= le; apply: e5.
Qed.

Lemma mapM_nth' (A B : Type) (f : A -> res B) l s x0 y0 k : mapM f l = Ok s -> (k < size s)%N ->
  f (nth x0 l k) = Ok (nth y0 s k).
Proof. by move=> h hk; apply: (mapM_nth _ _ h); rewrite -(mapM_size h). Qed.

Variables (alpha : rat) (nsub ncs nbest : nat) (tol : T) (seed0 fuel : nat) (iw : option (seq T)).
Hypothesis (Hc : is_choice choice) (gw : good_weights p iw).

Notation raw := (raw_fit ols argsort choice alpha nsub ncs nbest tol seed0 fuel p X y iw).

Lemma raw_fit_lem h m l H : h_size alpha n p = Ok h -> 0 <= tol ->
  ('C(n, minn h n) < fuel)%N -> (p < n)%N ->
  raw = Ok (m, l, H) ->
  [/\ subset_of n (minn h n) H, size (coef m) = p, l = trimmed_loss m X y H,
   ((0 < ncs)%N -> forall m2, size (coef m2) = p -> l <= trimmed_loss m2 X y H) &
   forall seed, (seed0 <= seed < seed0 + nsub)%N ->
     exists m1 l1 H1, initial_one ols argsort choice X y p h ncs iw seed = Ok (m1, l1, H1)
       /\ l <= l1].
Proof.
move=> eh t0 hf pn; rewrite /raw_fit eh /=.
have n0 : (0 < n)%N by apply: leq_ltn_trans pn.
have h0 : (0 < h)%N by have [_ -> _] := h_size_le eh; rewrite addn_gt0 n0.
case ec : (initial_c_steps _ _ _ _ _ _ _ _ _ _ _) => [cands|e|] //=.
have d : candidate T := (Lin 0 [::], 0, [::]).
move=> hs; have [h1 h2 [i hi h3]] := select_best_lem d hs; rewrite /= in h1 h2 h3.
have sz : size cands = nsub by rewrite (mapM_size ec) size_iota.
have good j : (j < nsub)%N ->
   [/\ initial_one ols argsort choice X y p h ncs iw (seed0 + j) = Ok (nth d cands j),
     good_cand (minn h n) (nth d cands j) &
     (0 < ncs)%N -> forall m2, size (coef m2) = p ->
       (nth d cands j).1.2 <= trimmed_loss m2 X y (nth d cands j).2].
  move=> hj; have [c [e1 e2 e3]] := @initial_one_total ncs iw (seed0 + j)%N h Hc gw h0 pn.
  have := @mapM_nth' _ _ _ _ _ 0%N d j ec; rewrite sz nth_iota // => /(_ hj).
  by rewrite e1 => -[<-].
have hin : (i < nsub)%N by rewrite -sz.
have [ei [g1 g2 g3] g4] := good i hin.
have last (seed : nat) : (seed0 <= seed < seed0 + nsub)%N ->
   exists m1 l1 H1, initial_one ols argsort choice X y p h ncs iw seed = Ok (m1, l1, H1) /\ l <= l1.
  move=> /andP[s1 s2]; have hj : (seed - seed0 < nsub)%N by lia.
  have [e1 _ _] := good _ hj; rewrite subnKC // in e1.
  case ej : (nth d cands (seed - seed0)) e1 => [[m1 l1] H1] e1; exists m1, l1, H1; split => //.
  by have := h1 (seed - seed0)%N; rewrite sz ej => /(_ hj).
case: h3 => [e|[r [er e]]].
  by rewrite -e in g1 g2 g3 g4; split.
have [m' [H' [l' [it' [e1 [e2 e2'] e3 e4 _]]]]] :=
  @converge_lem T ols argsort Has p Hols X y szXY rX fuel (nth d cands i).1.1
    (nth d cands i).1.2 h tol 0 h0 n0 g2 t0 hf.
move: e; rewrite e1 in er; case: er => <- /= e; case: e last => -> -> -> last; split => //.
Qed.

Lemma raw_fit_total h : h_size alpha n p = Ok h -> 0 <= tol ->
  ('C(n, minn h n) < fuel)%N -> (p < n)%N -> (0 < nsub)%N -> (0 < nbest)%N ->
  exists b, raw = Ok b.
Proof.
move=> eh t0 hf pn s0 b0; rewrite /raw_fit eh /=.
have n0 : (0 < n)%N by apply: leq_ltn_trans pn.
have h0 : (0 < h)%N by have [_ -> _] := h_size_le eh; rewrite addn_gt0 n0.
have [cands ec] : exists cands, initial_c_steps ols argsort choice X y p h ncs iw seed0 nsub = Ok cands.
  apply: mapM_total => seed; have [c [e1 _ _]] := @initial_one_total ncs iw seed h Hc gw h0 pn.
  by exists c.
rewrite ec /=; have d : candidate T := (Lin 0 [::], 0, [::]).
have sz : size cands = nsub by rewrite (mapM_size ec) size_iota.
rewrite /select_best; set ls := [seq c.1.2 | c <- cands].
case ei : (take nbest (argsort ls)) => [|i0 idxs].
  by have := congr1 size ei; rewrite size_take argsort_size // size_map sz /=; case: ltnP; lia.
have inr i : i \in take nbest (argsort ls) -> (i < size cands)%N.
  by move/mem_take; rewrite argsort_mem // size_map.
case ecs : cands sz => [|d0 cs] sz; first by move: sz s0 => /= <-.
rewrite -ecs -ei; move: (nth d0 cands i0) => best; rewrite -ecs in sz.
have tot i : i \in take nbest (argsort ls) -> exists r, converge ols argsort fuel (nth d0 cands i).1.1
   (nth d0 cands i).1.2 X y h tol 0 = Ok r.
  move=> /inr hi; have := @mapM_nth' _ _ _ _ _ 0%N d0 i ec hi.
  have [c [e1 [_ g2 _] _]] := @initial_one_total ncs iw (nth 0%N (iota seed0 nsub) i) h Hc gw h0 pn.
  rewrite e1 => -[<-].
  have [m' [H' [l' [it' [e2 _ _ _ _]]]]] :=
  @converge_lem T ols argsort Has p Hols X y szXY rX fuel c.1.1 c.1.2 h tol 0 h0 n0 g2 t0 hf.
  by rewrite e2; eexists.
elim: (take _ _) best tot => [|i l IH] best tot /=; first by exists best.
rewrite /refine; have [r ->] := tot i (mem_head _ _).
by rewrite /=; case: ifP => _ /=; apply: IH => j hj; apply: tot; rewrite inE hj orbT.
Qed.

End Select.

(* ------------------------------------------------------------ reweighting *)
Section Reweight.
Variable T : rcfType.
Implicit Types (r : seq T).

Lemma mask_no_spread (q : T) r : fvar r = 0 -> reweight_mask q r = nseq (size r) false.
Proof.
move=> e; rewrite /reweight_mask e sqrtr0 eqxx /=.
by elim: r {e} => //= u r ->.
Qed.

Lemma mask_spread (q : T) r : 0 < fvar r -> 0 <= q ->
  reweight_mask q r = [seq u ^+ 2 <= q ^+ 2 * fvar r | u : T <- r].
Proof.
move=> v0 q0; rewrite /reweight_mask.
have s0 : 0 < Num.sqrt (fvar r) by rewrite sqrtr_gt0.
apply: eq_map => u; rewrite gt_eqF //= normrM [`|_^-1|]gtr0_norm ?invr_gt0 //.
rewrite ler_pdivr_mulr // -[in LHS](ler_pexpn2r (n := 2)) ?nnegrE ?normr_ge0 ?mulr_ge0 ?sqrtr_ge0 //.
have v1 := ltW v0; by rewrite exprMn sqr_sqrtr // real_normK ?num_real.
Qed.

(* k residuals equal to M, the other ones zero *)
Lemma var_two (M : T) k n : (k <= n)%N -> (0 < n)%N ->
  fvar (nseq k M ++ nseq (n - k) 0) * n%:R ^+ 2 = (k * (n - k))%:R * M ^+ 2.
Proof.
move=> kn n0; have N0 : n%:R != 0 :> T by rewrite pnatr_eq0 -lt0n.
have sm (f : T -> T) : fsum [seq f u | u : T <- nseq k M ++ nseq (n - k) 0]
   = k%:R * f M + (n - k)%:R * f 0.
  have ns j (c : T) : fsum [seq f u | u : T <- nseq j c] = j%:R * f c.
    by elim: j => [|j IH] /=; rewrite ?mul0r // IH mulrSr; ring.
  by rewrite map_cat fsum_cat !ns.
have sz : size (nseq k M ++ nseq (n - k) 0) = n by rewrite size_cat !size_nseq subnKC.
have em : fmean (nseq k M ++ nseq (n - k) 0) = k%:R * M / n%:R.
  by rewrite /fmean sz; have := sm id; rewrite map_id => ->; rewrite mulr0 addr0.
rewrite /fvar em {1}/fmean size_map sz sm natrM natrB //; field.
by [].
Qed.

End Reweight.

Section Reweight2.
Variable T : rcfType.
Implicit Types (X : seq (seq T)) (y r : seq T).
Variable ols : seq (seq T) -> seq T -> lin T.
Variable factor_rw : nat -> nat -> rat -> T.
Variable q : T.

Lemma fvar_perm r r' : perm_eq r r' -> fvar r = fvar r'.
Proof.
move=> hp; rewrite /fvar (fmean_perm hp) /fmean !size_map (perm_size hp).
by rewrite (fsum_perm (perm_map _ hp)).
Qed.

Lemma mask_all_kept (M : T) k n r : 22%:R / 10%:R <= q -> M != 0 ->
  (3 * n <= 10 * k)%N -> (10 * k <= 7 * n)%N -> (0 < n)%N ->
  perm_eq r (nseq k M ++ nseq (n - k) 0) -> reweight_mask q r = nseq n true.
Proof.
move=> hq M0 k1 k2 n0 hp; have kn : (k <= n)%N by lia.
have sz : size r = n by rewrite (perm_size hp) size_cat !size_nseq subnKC.
have N0 : 0 < n%:R :> T by rewrite ltr0n.
have M2 : 0 < M ^+ 2 by rewrite lt_neqAle eq_sym sqrf_eq0 M0 sqr_ge0.
have ev := @var_two T M k n kn n0; rewrite -(fvar_perm hp) in ev.
have hk : 21%:R * n%:R ^+ 2 <= 100%:R * (k * (n - k))%:R :> T.
  rewrite -natrX -!natrM ler_nat; nia.
have v1 : 21%:R * M ^+ 2 <= 100%:R * fvar r.
  rewrite -(ler_pmul2r (exprn_gt0 2 N0)) -[X in _ <= X]mulrA ev.
  have := ler_wpmul2r (ltW M2) hk => h; rewrite [X in _ <= X]mulrA.
  apply: (le_trans _ h).
  by rewrite mulrAC.
have v0 : 0 < fvar r by flra.
have q0 : 0 <= q by flra.
have q2 : 484%:R <= 100%:R * q ^+ 2.
  have : (22%:R / 10%:R) ^+ 2 <= q ^+ 2 by rewrite ler_expn2r ?nnegrE ?divr_ge0 ?ler0n.
  rewrite expr_div_n -!natrX; set u := q ^+ 2; rewrite ler_pdivr_mulr ?ltr0n //.
  rewrite (_ : (22 ^ 2)%N = 484%N) // (_ : (10 ^ 2)%N = 100%N) // mulrC; exact: id.
rewrite (mask_spread v0 q0) -sz.
have all1 : all (fun u : T => u ^+ 2 <= q ^+ 2 * fvar r) r.
  apply/allP => u; rewrite (perm_mem hp) mem_cat !mem_nseq.
  have hM : M ^+ 2 <= q ^+ 2 * fvar r.
    have h1 : 484%:R * fvar r <= 100%:R * q ^+ 2 * fvar r by rewrite ler_wpmul2r // ltW.
    rewrite -mulrA in h1; set w := q ^+ 2 * fvar r in h1 *; flra.
  by case/orP => /andP[_ /eqP ->] //; rewrite expr0n /= mulr_ge0 ?sqr_ge0 // ltW.
move: (q ^+ 2 * fvar r) all1 => c; elim: (r) => //= u r' IH /andP[-> h1].
by rewrite IH.
Qed.

Lemma reweight_masked alpha p X y m sub (M : T) k :
  size X = size y -> (0 < size X)%N -> 22%:R / 10%:R <= q -> M != 0 ->
  (3 * size X <= 10 * k)%N -> (10 * k <= 7 * size X)%N ->
  perm_eq (residuals m X y) (nseq k M ++ nseq (size X - k) 0) ->
  exists sc, reweight ols factor_rw q alpha p X y m sub = Ok (Fitted (ols X y) sub sc).
Proof.
move=> e n0 hq M0 k1 k2 hp; rewrite /reweight (mask_all_kept hq M0 k1 k2 n0 hp).
rewrite !mask_true ?size_iota // -?e // /lr_fit; case: X n0 {e k1 k2 hp} => // a X' _.
by eexists.
Qed.

Lemma reweight_exact alpha p X y m sub : size X = size y ->
  (forall i, (i < size X)%N -> nth 0 y i = predict1 m (nth [::] X i)) ->
  reweight ols factor_rw q alpha p X y m sub = Err ValueError.
Proof.
move=> e h; rewrite /reweight mask_no_spread ?mask_false //.
have -> : residuals m X y = nseq (size X) 0.
  apply: (@eq_from_nth _ 0); rewrite size_residuals ?size_nseq // => i hi.
  by rewrite nth_residuals // h // subrr nth_nseq hi.
rewrite /fvar /fmean.
have s0 (z : T) j : z = 0 -> fsum (nseq j z) = 0 by move=> ->; elim: j => //= j ->; rewrite addr0.
by rewrite [fsum (nseq _ _)]s0 // mul0r map_nseq subr0 expr0n /= s0 // mul0r.
Qed.

Lemma reweight_spec alpha p X y m sub f : size X = size y -> 0 <= q -> is_ols p ols -> rect p X ->
  reweight ols factor_rw q alpha p X y m sub = Ok f ->
  let kept := [seq i <- iota 0 (size X) |
     resid2 m X y i <= q ^+ 2 * fvar (residuals m X y)] in
  [/\ 0 < fvar (residuals m X y), f_subset f = sub, size (coef (f_model f)) = p,
    (forall m2, size (coef m2) = p ->
       trimmed_loss (f_model f) X y kept <= trimmed_loss m2 X y kept) &
    f_scale f = factor_rw p (size X) alpha * Num.sqrt (trimmed_loss (f_model f) X y kept)].
Proof.
move=> e q0 Ho hX; rewrite /reweight; set r := residuals m X y.
have szr : size r = size X by rewrite size_residuals.
have [v0|v0] := ltP 0 (fvar r); last first.
  have v00 : fvar r = 0.
    apply: le_anti; rewrite v0 /= /fvar /fmean divr_ge0 ?ler0n //.
    by apply: fsum_ge0; rewrite all_map; apply/allP => u _; apply: sqr_ge0.
  by rewrite mask_no_spread // mask_false.
rewrite (mask_spread v0 q0) => h.
set kept := [seq i <- _ | _].
pose P i := resid2 m X y i <= q ^+ 2 * fvar r.
have eP : [seq u ^+ 2 <= q ^+ 2 * fvar r | u : T <- r] = map P (iota 0 (size X)).
  apply: (@eq_from_nth _ false); rewrite ?(size_map _ r) ?szr ?size_map ?size_iota // => i hi.
  rewrite (nth_map 0) ?szr // (nth_map 0%N) ?size_iota // nth_iota // add0n.
  by rewrite /P /resid2 nth_residuals.
have ek : mask (map P (iota 0 (size X))) (iota 0 (size X)) = kept by rewrite -filter_mask.
have esel (A : Type) (d : A) (s : seq A) : size s = size X ->
   mask (map P (iota 0 (size X))) s = sel d s kept.
  move=> es; rewrite -ek /sel map_mask; congr (mask _ _).
  by rewrite -{1}(mkseq_nth d s) /mkseq es.
move: h; rewrite eP ek (esel _ [::]) // (esel _ 0) // /lr_fit.
have hk : subset_of (size X) (size kept) kept.
  split => //; first by rewrite filter_uniq // iota_uniq.
  by move=> i; rewrite mem_filter mem_iota add0n => /andP[_ /andP[]].
case es : (sel [::] X kept) => [|a A] //=; rewrite -es => -[<-] /=.
have k0 : (0 < size kept)%N by have := congr1 size es; rewrite size_map => ->.
have [sz mn] := @refit_min T ols p Ho X y e hX kept _ hk k0.
have ik := let: And3 _ i _ := hk in i.
by rewrite trimmed_lossE.
Qed.

End Reweight2.
