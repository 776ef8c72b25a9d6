(* Proofs about the L1-median iteration. *)
From mathcomp Require Import all_ssreflect all_algebra.
From mathcomp.zify Require Import zify.
From mathcomp.algebra_tactics Require Import ring.
From Verif Require Import RFieldLra Prelude Stats Xnum Vec WMean L1Median_Model.

Set Implicit Arguments.
Unset Strict Implicit.
Unset Printing Implicit Defensive.

Import Order.TTheory GRing.Theory Num.Theory.
Local Open Scope ring_scope.

Section L1.
Variables (T : rcfType) (p : nat).
Implicit Types (X : seq 'rV[T]_p) (m x y v : 'rV[T]_p) (mu : 'rV[xnum T]_p).

(* a finite centre *)
Definition fin m : 'rV[xnum T]_p := map_mx (@Fin T) m.

Definition wt m x : T := (vnorm (x - m))^-1.

(* one iteration in exact arithmetic *)
Definition step X m : 'rV[T]_p :=
  \row_j (fsum [seq wt m x * x 0 j | x : 'rV_p <- X] / fsum [seq wt m x | x : 'rV_p <- X]).

Lemma fsum_enum (f : 'I_p -> T) : fsum [seq f j | j <- enum 'I_p] = \sum_j f j.
Proof. by rewrite fsumE big_map big_enum. Qed.

Lemma dist_fin m x : l1_dist (fin m) x = Fin (vnorm (x - m)).
Proof.
rewrite /l1_dist.
have -> : [seq xmul (xsub (Fin (x 0 j)) (fin m 0 j)) (xsub (Fin (x 0 j)) (fin m 0 j)) | j <- enum 'I_p]
  = [seq Fin u | u <- [seq (x 0 j - m 0 j) * (x 0 j - m 0 j) | j <- enum 'I_p]].
  by rewrite -map_comp; apply: eq_map => j; rewrite !mxE.
rewrite xsum_fin fsum_enum /vnorm /dotv /=; congr (Fin (Num.sqrt _)).
by apply: eq_bigr => j _; rewrite !mxE.
Qed.

Lemma weight_fin m x : x != m -> l1_weight (fin m) x = Fin (wt m x).
Proof. by move=> h; rewrite /l1_weight dist_fin /= vnorm_eq0 subr_eq0 (negbTE h) div1r. Qed.

Lemma wt_gt0 m x : x != m -> 0 < wt m x.
Proof. by move=> h; rewrite invr_gt0 vnorm_gt0 subr_eq0. Qed.

Lemma wts_gt0 X m : m \notin X -> (0 < size X)%N -> 0 < fsum [seq wt m x | x <- X].
Proof.
elim: X => // x X IH; rewrite inE negb_or => /andP[h1 h2] _ /=.
have h3 : 0 < wt m x by apply: wt_gt0; rewrite eq_sym.
case: X IH h2 => [|x' X] IH h2; first by rewrite /= addr0.
by rewrite addr_gt0 // IH.
Qed.

Lemma step_fin X m : m \notin X -> (0 < size X)%N -> l1_step X (fin m) = fin (step X m).
Proof.
move=> hm h0; apply/rowP => j; rewrite !mxE.
have ne x : x \in X -> x != m by move=> xX; apply: contra hm => /eqP <-.
have hw : [seq l1_weight (fin m) x | x <- X] = [seq Fin u | u <- [seq wt m x | x <- X]].
  by rewrite -map_comp; apply/eq_in_map => x /ne /weight_fin.
rewrite hw xsum_fin; set sw := fsum _.
have sp : 0 < sw by exact: wts_gt0.
have -> : [seq xdiv (xmul (Fin (x 0 j)) (l1_weight (fin m) x)) (Fin sw) | x : 'rV_p <- X]
        = [seq Fin u | u <- [seq sw^-1 * (wt m x * x 0 j) | x : 'rV_p <- X]].
  rewrite -map_comp; apply/eq_in_map => x /ne /weight_fin hx; rewrite hx /= (gt_eqF sp).
  by congr Fin; ring.
by rewrite xsum_fin fsum_map_mul mulrC.
Qed.

(* -------- a centre that is an observation *)

Lemma xsum_nan_in (A : eqType) (f : A -> xnum T) (s : seq A) a :
  a \in s -> is_nan (f a) -> xsum [seq f b | b <- s] = NaN.
Proof. by move=> h1 h2; apply: xsum_nan; rewrite has_map; apply/hasP; exists a. Qed.

Definition all_nan : 'rV[xnum T]_p := const_mx NaN.

Definition pinf_or_fin (u : xnum T) : bool := match u with Fin _ | PInf => true | _ => false end.

Lemma xsum_pinf_or_fin (s : seq (xnum T)) : all pinf_or_fin s -> pinf_or_fin (xsum s).
Proof. by elim: s => //= u s IH /andP[hu /IH]; case: u hu => // [x|] _; case: (xsum s). Qed.

(* sum of positive weights one of which is infinite *)
Lemma xsum_pinf (s : seq (xnum T)) : all pinf_or_fin s ->
  has (fun u => if u is PInf then true else false) s -> xsum s = PInf.
Proof.
elim: s => //= u s IH /andP[hu hs] /orP[h|/(IH hs) ->]; last by case: u hu.
by have := xsum_pinf_or_fin hs; case: u h {hu} => // _; case: (xsum s).
Qed.

Lemma weight_obs m : l1_weight (fin m) m = PInf.
Proof. by rewrite /l1_weight dist_fin /= subrr vnorm_eq0 eqxx /inf_sign ltr01. Qed.

Lemma step_obs X m : m \in X -> l1_step X (fin m) = all_nan.
Proof.
move=> hm; apply/rowP => j; rewrite !mxE.
rewrite (@xsum_pinf [seq l1_weight (fin m) x | x <- X]).
- apply: (xsum_nan_in hm); rewrite weight_obs /= /inf_sign.
  by case: ltrP => // _; case: ltrP.
- rewrite all_map; apply/allP => x _ /=; have [->|h] := eqVneq x m; first by rewrite weight_obs.
  by rewrite weight_fin.
- by rewrite has_map; apply/hasP; exists m => //=; rewrite weight_obs.
Qed.

Lemma step_nan X mu : (0 < p)%N -> (0 < size X)%N -> (exists j, is_nan (mu 0 j)) ->
  l1_step X mu = all_nan.
Proof.
move=> hp; case: X => // x X _ [k hk].
have hd y : l1_dist mu y = NaN.
  rewrite /l1_dist (@xsum_nan_in _ (fun j => xmul (xsub (Fin (y 0 j)) (mu 0 j)) (xsub (Fin (y 0 j)) (mu 0 j))) _ k) //.
    by rewrite mem_enum.
  by case: (mu 0 k) hk.
have hw y : l1_weight mu y = NaN by rewrite /l1_weight hd.
by apply/rowP => j; rewrite !mxE /= hw.
Qed.

Lemma close_nan eps mu0 : (0 < p)%N -> l1_close eps mu0 all_nan = false.
Proof.
move=> hp; rewrite /l1_close (@xsum_nan_in _ (fun j => xabs (xsub (mu0 0 j) (all_nan 0 j))) _ (Ordinal hp)) //.
  by rewrite mem_enum.
by rewrite !mxE; case: (mu0 0 _).
Qed.

Lemma loop_nan X fuel eps : (0 < p)%N -> (0 < size X)%N -> l1_loop fuel eps X all_nan = NoFuel.
Proof.
move=> hp h0; elim: fuel => //= fuel IH.
have e : l1_step X all_nan = all_nan.
  by apply: step_nan => //; exists (Ordinal hp); rewrite mxE.
by rewrite e close_nan.
Qed.

Lemma loop_obs X fuel eps m : (0 < p)%N -> m \in X -> l1_loop fuel eps X (fin m) = NoFuel.
Proof.
move=> hp hm; case: fuel => //= fuel; rewrite step_obs // close_nan // loop_nan //.
by case: X hm.
Qed.

(* -------- the start *)
Definition mean X : 'rV[T]_p := \row_j fmean [seq x 0 j | x : 'rV_p <- X].

Lemma start_fin X : (0 < size X)%N -> l1_start X = fin (mean X).
Proof.
move=> h0; apply/rowP => j; rewrite !mxE /= pnatr_eq0 (gtn_eqF h0).
by rewrite /fmean size_map.
Qed.

(* -------- descent *)
Definition obj X m : T := fsum [seq vnorm (x - m) | x : 'rV_p <- X].

Lemma fsum_mulr (A : Type) (f : A -> T) (c : T) l : fsum [seq f a * c | a <- l] = fsum [seq f a | a <- l] * c.
Proof. by rewrite [RHS]mulrC -fsum_map_mul; congr fsum; apply: eq_map => a; rewrite mulrC. Qed.

Lemma fsum_dotv X (w : 'rV[T]_p -> T) y :
  fsum [seq w x * dotv x y | x : 'rV_p <- X] = dotv (\row_j fsum [seq w x * x 0 j | x : 'rV_p <- X]) y.
Proof.
elim: X => [|x X IH] /=.
  by rewrite (_ : \row_j 0 = 0) ?dot0v //; apply/rowP => j; rewrite !mxE.
rewrite IH -dotvZl -dotvDl; congr (dotv _ y).
by apply/rowP => j; rewrite !mxE.
Qed.

Lemma wsq_min X m y : m \notin X -> (0 < size X)%N ->
  fsum [seq wt m x * dotv (x - step X m) (x - step X m) | x : 'rV_p <- X]
  <= fsum [seq wt m x * dotv (x - y) (x - y) | x : 'rV_p <- X].
Proof.
move=> hm h0; set s := step X m.
have sp := wts_gt0 hm h0; set sw := fsum _ in sp.
(* sum w (x-y)^2 = sum w (x-s)^2 + 2 (sum w (x - s)).(s-y) + sw |s-y|^2 *)
have e x : wt m x * dotv (x - y) (x - y)
   = wt m x * dotv (x - s) (x - s) + (wt m x * dotv x (2%:R *: (s - y)) + wt m x * (dotv (s - y) (s - y) - 2%:R * dotv s (s - y))).
  have -> : x - y = (x - s) + (s - y) by rewrite addrA subrK.
  rewrite dotv_sqD dotvZr (dotvBl x s (s - y)); ring.
have -> : [seq wt m x * dotv (x - y) (x - y) | x <- X] = [seq wt m x * dotv (x - s) (x - s)
   + (wt m x * dotv x (2%:R *: (s - y)) + wt m x * (dotv (s - y) (s - y) - 2%:R * dotv s (s - y))) | x <- X].
  by apply: eq_map => x; exact: e.
rewrite fsum_map_add ler_addl fsum_map_add fsum_mulr -/sw fsum_dotv.
have -> : \row_j fsum [seq wt m x * x 0 j | x : 'rV_p <- X] = sw *: s.
  by apply/rowP => j; rewrite !mxE mulrC divfK // gt_eqF.
rewrite dotvZl dotvZr.
have -> : sw * (2%:R * dotv s (s - y)) + sw * (dotv (s - y) (s - y) - 2%:R * dotv s (s - y))
   = sw * dotv (s - y) (s - y) by ring.
by rewrite mulr_ge0 ?dotv_ge0 // ltW.
Qed.

Lemma descent X m : m \notin X -> (0 < size X)%N -> obj X (step X m) <= obj X m.
Proof.
move=> hm h0; set s := step X m.
have ne x : x \in X -> x != m by move=> xX; apply: contra hm => /eqP <-.
have h1 : fsum [seq 2%:R * vnorm (x - s) + - vnorm (x - m) | x : 'rV_p <- X]
   <= fsum [seq wt m x * dotv (x - s) (x - s) | x : 'rV_p <- X].
  apply: fsum_map_le => x /ne xm.
  have d0 : 0 < vnorm (x - m) by rewrite vnorm_gt0 subr_eq0.
  rewrite /wt [X in _ <= X]mulrC ler_pdivl_mulr // -vnormK.
  have := sqr_ge0 (vnorm (x - s) - vnorm (x - m)).
  move: (vnorm (x - s)) (vnorm (x - m)) => a b; rewrite sqrrB.
  have -> : (2%:R * a - b) * b = a * b *+ 2 - b ^+ 2 by ring.
  flra.
have h2 : fsum [seq wt m x * dotv (x - m) (x - m) | x : 'rV_p <- X] = obj X m.
  apply: fsum_map_eq => x /ne xm.
  by rewrite -vnormK /wt expr2 mulKf // vnorm_eq0 subr_eq0.
have h3 := wsq_min m hm h0; rewrite h2 in h3.
have h4 : fsum [seq 2%:R * vnorm (x - s) + - vnorm (x - m) | x : 'rV_p <- X] = 2%:R * obj X s - obj X m.
  rewrite fsum_map_add fsum_map_mul; congr (_ + _).
  have -> : [seq - vnorm (x - m) | x <- X] = [seq -1 * vnorm (x - m) | x <- X].
    by apply: eq_map => x; rewrite mulN1r.
  by rewrite fsum_map_mul mulN1r.
have := le_trans h1 h3; rewrite h4; flra.
Qed.

(* -------- bounds *)
Lemma step_between X m j lo hi : m \notin X -> (0 < size X)%N ->
  (forall x, x \in X -> lo <= x 0 j <= hi) -> lo <= step X m 0 j <= hi.
Proof.
move=> hm h0 h; rewrite mxE; have sp := wts_gt0 hm h0.
have ne x : x \in X -> x != m by move=> xX; apply: contra hm => /eqP <-.
rewrite ler_pdivl_mulr // ler_pdivr_mulr // -!fsum_map_mul; apply/andP; split;
  apply: fsum_map_le => x xX; have /andP[h1 h2] := h x xX; have hw := ltW (wt_gt0 (ne x xX)).
  by rewrite mulrC ler_wpmul2l.
by rewrite [X in _ <= X]mulrC ler_wpmul2l.
Qed.

Lemma mean_between X j lo hi : (0 < size X)%N ->
  (forall x, x \in X -> lo <= x 0 j <= hi) -> lo <= mean X 0 j <= hi.
Proof.
move=> h0 h; rewrite mxE; apply: fmean_between; first by rewrite size_map.
by move=> _ /mapP[x xX ->]; exact: h.
Qed.

(* -------- returned values *)
Lemma loop_returns X fuel eps m r : (0 < p)%N -> (0 < size X)%N ->
  l1_loop fuel eps X (fin m) = Ok r ->
  exists m', [/\ r = fin m', obj X m' <= obj X m
    & forall j lo hi, (forall x, x \in X -> lo <= x 0 j <= hi) -> lo <= m' 0 j <= hi].
Proof.
move=> hp h0; elim: fuel m => // fuel IH m.
have [hm|hm] := boolP (m \in X); first by rewrite loop_obs.
rewrite /= step_fin //; case: ifP => _; last first.
  by move=> /IH [m' [-> h1 h2]]; exists m'; split=> //; apply: (le_trans h1); exact: descent.
move=> [<-]; exists (step X m); split=> //; first exact: descent.
by move=> j lo hi; apply: step_between.
Qed.

(* -------- translation *)
Definition xshift v mu : 'rV[xnum T]_p := \row_j xadd (mu 0 j) (Fin (v 0 j)).

Lemma shift_fin v m : xshift v (fin m) = fin (m + v).
Proof. by apply/rowP => j; rewrite !mxE. Qed.

Lemma step_shift X m v : m \notin X -> (0 < size X)%N ->
  step [seq x + v | x <- X] (m + v) = step X m + v.
Proof.
move=> hm h0; have sp := wts_gt0 hm h0.
have ew x : wt (m + v) (x + v) = wt m x by rewrite /wt opprD addrACA subrr addr0.
have e1 : fsum [seq wt (m + v) x | x <- [seq x + v | x <- X]] = fsum [seq wt m x | x <- X].
  by rewrite -map_comp; congr fsum; apply: eq_map => x /=.
have e2 j : fsum [seq wt (m + v) x * x 0 j | x : 'rV_p <- [seq x + v | x <- X]]
    = fsum [seq wt m x * x 0 j + v 0 j * wt m x | x : 'rV_p <- X].
  by rewrite -map_comp; congr fsum; apply: eq_map => x /=; rewrite ew mxE mulrDr (mulrC (wt m x) (v 0 j)).
apply/rowP => j; rewrite mxE e1 e2 !mxE.
by rewrite fsum_map_add fsum_map_mul mulrDl mulfK // gt_eqF.
Qed.

Lemma mem_shift X m v : (m + v \in [seq x + v | x <- X]) = (m \in X).
Proof. by apply: (mem_map (f := fun x => x + v)); exact: addIr. Qed.

Lemma close_shift eps m0 m1 v :
  l1_close eps (fin (m0 + v)) (fin (m1 + v)) = l1_close eps (fin m0) (fin m1).
Proof.
rewrite /l1_close; congr (xlt (xsum _) _); apply: eq_map => j; rewrite !mxE /=.
by rewrite opprD addrACA subrr addr0.
Qed.

Lemma loop_shift X fuel eps m v : (0 < p)%N -> (0 < size X)%N ->
  l1_loop fuel eps [seq x + v | x <- X] (fin (m + v))
  = rmap (xshift v) (l1_loop fuel eps X (fin m)).
Proof.
move=> hp h0; elim: fuel m => // fuel IH m.
have [hm|hm] := boolP (m \in X); first by rewrite !loop_obs ?mem_shift.
rewrite /= !step_fin ?mem_shift ?size_map // step_shift // close_shift.
by case: ifP => _ /=; rewrite ?shift_fin ?IH.
Qed.

Lemma mean_shift X v : (0 < size X)%N -> mean [seq x + v | x <- X] = mean X + v.
Proof.
move=> h0; apply/rowP => j; rewrite !mxE.
have -> : [seq x 0 j | x : 'rV_p <- [seq x + v | x <- X]] = [seq 1 * u + v 0 j | u <- [seq x 0 j | x : 'rV_p <- X]].
  by rewrite -!map_comp; apply: eq_map => x /=; rewrite mxE mul1r.
by rewrite fmean_affine ?size_map // mul1r.
Qed.

End L1.
