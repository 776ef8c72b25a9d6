(* Proofs about the Stahel-Donoho outlyingness. *)
From mathcomp Require Import all_ssreflect all_algebra.
From mathcomp.zify Require Import zify.
From mathcomp.algebra_tactics Require Import ring.
From Verif Require Import RFieldLra Prelude Stats Xnum Qn_Model Vec OneStepM_Proofs SD_Model.

Set Implicit Arguments.
Unset Strict Implicit.
Unset Printing Implicit Defensive.

Import Order.TTheory GRing.Theory Num.Theory.
Local Open Scope ring_scope.

Section XMax.
Variable T : rcfType.
Implicit Types (u v : xnum T).

Lemma xmax2xx u : xmax2 u u = u.
Proof. by case: u => [x|||] //=; rewrite /xmax2 /= lexx. Qed.

Lemma xmaxs_nseq n u : (0 < n)%N -> xmaxs (nseq n u) = u.
Proof.
case: n => // n _; rewrite /xmaxs /=.
have -> : foldr (@xmax2 T) u (nseq n u) = u by elim: n => //= n ->; exact: xmax2xx.
exact: xmax2xx.
Qed.

Lemma xmax2_nan u v : is_nan u || is_nan v -> xmax2 u v = NaN.
Proof. by rewrite /xmax2 => ->. Qed.

Lemma xmaxs_nan (s : seq (xnum T)) : has (@is_nan T) s -> xmaxs s = NaN.
Proof.
rewrite /xmaxs; elim: s (head _ _) => //= u s IH d /orP[h|/IH ->].
  by apply: xmax2_nan; rewrite h.
by apply: xmax2_nan; rewrite /= orbT.
Qed.

Lemma xmaxs_fin (s : seq T) : (0 < size s)%N -> xmaxs [seq Fin x | x <- s] = Fin (fmax s).
Proof.
case: s => // y s _; rewrite /xmaxs /fmax.
have h (l : seq T) (d : T) :
  foldr (@xmax2 T) (Fin d) [seq Fin x | x <- l] = Fin (foldr Num.max d l).
  by elim: l => //= x l ->; rewrite /xmax2 /=; case: leP.
exact: (h (y :: s) y).
Qed.

End XMax.

Section SD.
Variables (T : rcfType) (p : nat).
Notation vec := 'rV[T]_p.
Variable seeded : nat -> nat -> nat -> seq nat.
Variable entropy : nat -> nat -> nat -> seq nat.
Variable svd_last : seq vec -> vec.
Implicit Types (X : seq vec) (D : seq (option vec)).
Notation direction := (get_random_direction seeded entropy svd_last).
Notation sd := (stahel_donoho seeded entropy svd_last).

Lemma direction_seed X k r call : direction X k (Some r) call = direction X k (Some r) 0%N.
Proof. by []. Qed.

Lemma mapM_const (A B : Type) (f : A -> res B) (g : res B) (l : seq A) :
  (forall a, f a = g) -> (0 < size l)%N ->
  mapM f l = rmap (fun b => nseq (size l) b) g.
Proof.
move=> h; case: l => // a l _; elim: l a => [|a' l IH] a.
  by rewrite /= h; case: g h.
by move: (IH a'); rewrite /= !h; case: g {h IH} => //= b ->.
Qed.

Lemma sd_seed X k n r : (0 < n)%N -> sd X k n (Some r) = sd X k 1 (Some r).
Proof.
move=> n0; rewrite /stahel_donoho (@mapM_const _ _ _ (direction X k (Some r) 0)) ?size_iota //.
rewrite (@mapM_const _ _ _ (direction X k (Some r) 0)) ?size_iota //.
case: (direction X k (Some r) 0) => //= d; case: n n0 => // n _ /=; congr Ok.
apply: eq_map => x; rewrite /= map_nseq; transitivity (dir_outlyingness X d x).
  exact: (@xmaxs_nseq _ n.+1).
by symmetry; exact: (@xmaxs_nseq _ 1).
Qed.

(* the finite per-direction outlyingness *)
Definition ratio X (d x : vec) : T :=
  `|dotv x d - fmed (projections X d)| / fmad (projections X d).

Lemma dir_fin X d x : 0 < fmad (projections X d) ->
  dir_outlyingness X (Some d) x = Fin (ratio X d x).
Proof. by move=> h; rewrite /dir_outlyingness /= (gt_eqF h). Qed.

Lemma outlyingness_fin X (D : seq vec) : (0 < size D)%N ->
  (forall d, d \in D -> 0 < fmad (projections X d)) ->
  outlyingness X (map Some D) = [seq Fin (fmax [seq ratio X d x | d <- D]) | x <- X].
Proof.
move=> h0 h; apply: eq_map => x; rewrite -map_comp.
transitivity (xmaxs [seq Fin u | u <- [seq ratio X d x | d <- D]]).
  by congr xmaxs; rewrite -map_comp; apply/eq_in_map => d hd; exact: (dir_fin _ (h d hd)).
by rewrite xmaxs_fin // size_map.
Qed.

Lemma ratio_half X d : (0 < fmad (projections X d)) ->
  (size X <= 2 * count (fun x => (ratio X d x <= 1)%R) X)%N.
Proof.
move=> h; have := half_within_mad (projections X d).
rewrite size_map count_map; congr (_ <= 2 * _)%N; apply: eq_count => x /=.
by rewrite /ratio ler_pdivr_mulr // mul1r.
Qed.

Section Affine.
Variables (a : T) (b : vec).
Hypothesis a0 : a != 0.
Let g (x : vec) := a *: x + b.

(* two directions that agree up to sign *)
Definition same_line (d d' : option vec) : Prop :=
  match d, d' with
  | Some u, Some v => v = u \/ v = - u
  | None, None => True
  | _, _ => False
  end.

Lemma projections_affine X (e : T) (d : vec) :
  projections (map g X) (e *: d) = [seq (e * a) * u + e * dotv b d | u : T <- projections X d].
Proof.
rewrite /projections -!map_comp; apply: eq_map => x /=.
by rewrite dotvZr /g dotvDl dotvZl mulrDr mulrA.
Qed.

Lemma dir_affine X (e : T) d x : `|e| = 1 -> (0 < size X)%N ->
  dir_outlyingness (map g X) (Some (e *: d)) (g x) = dir_outlyingness X (Some d) x.
Proof.
move=> he h0; rewrite /dir_outlyingness projections_affine fmed_affine ?size_map // fmad_affine ?size_map //.
rewrite normrM he mul1r /g dotvDl dotvZl !dotvZr.
set m := fmed _; set s := fmad _.
have -> : a * (e * dotv x d) + e * dotv b d - (e * a * m + e * dotv b d) = e * (a * (dotv x d - m)) by ring.
rewrite normrM he mul1r normrM /=.
rewrite mulf_eq0 normr_eq0 (negbTE a0) /=; case: eqP => _; last by congr Fin; rewrite -mulf_div divff ?mul1r ?normr_eq0.
by rewrite /inf_sign pmulr_rgt0 ?normr_gt0 // pmulr_rlt0 ?normr_gt0.
Qed.

Lemma dir_same_line X d d' x : same_line d d' -> (0 < size X)%N ->
  dir_outlyingness (map g X) d' (g x) = dir_outlyingness X d x.
Proof.
case: d d' => [u|] [v|] //= h h0.
have [e he ->] : exists2 e : T, `|e| = 1 & v = e *: u.
  by case: h => ->; [exists 1; rewrite ?normr1 ?scale1r|exists (-1); rewrite ?normrN1 ?scaleN1r].
exact: dir_affine.
Qed.

Lemma outlyingness_affine X D D' : size D = size D' ->
  (forall i, same_line (nth None D i) (nth None D' i)) ->
  outlyingness (map g X) D' = outlyingness X D.
Proof.
move=> hs h; rewrite /outlyingness -map_comp.
case: (posnP (size X)) => [/size0nil -> //|X0].
apply: eq_map => x /=; congr xmaxs.
apply: (@eq_from_nth _ NaN); rewrite !size_map // => i hi.
by rewrite !(nth_map None) ?hs //; apply: dir_same_line.
Qed.

Lemma normalize_line (d : vec) : same_line (normalize d) (normalize (a *: d)).
Proof.
rewrite /normalize vnormZ mulf_eq0 normr_eq0 (negbTE a0) /=; case: eqP => // /eqP d0 /=.
case: (ltrP a 0) => ha; [right|left].
  rewrite ltr0_norm // scalerA -scaleNr; congr (_ *: _).
  by rewrite invfM invrN mulNr mulNr mulrAC mulVf // mul1r.
by rewrite ger0_norm // scalerA invfM mulrAC mulVf // mul1r.
Qed.

Lemma direction_affine X k seed call :
  (k != 2%N -> forall s : seq vec, exists e : T, `|e| = 1 /\ svd_last [seq a *: v | v <- s] = e *: svd_last s) ->
  (forall r n, size (seeded r n k) = k) -> (forall c n, size (entropy c n k) = k) ->
  (forall r n, all (fun i => i < n)%N (seeded r n k)) ->
  (forall c n, all (fun i => i < n)%N (entropy c n k)) ->
  match direction X k seed call, direction (map g X) k seed call with
  | Ok d, Ok d' => same_line d d'
  | Err e, Err e' => e = e'
  | _, _ => False
  end.
Proof.
move=> hsvd s1 s2 r1 r2; rewrite /get_random_direction /choose size_map.
case: ifP => // _ /=.
set idx := (X in [seq nth 0 _ i | i <- X]).
have sz : size idx = k by rewrite /idx; case: (seed).
have rg : all (fun i => i < size X)%N idx by rewrite /idx; case: (seed).
have e : [seq nth 0 (map g X) i | i <- idx] = map g [seq nth 0 X i | i <- idx].
  by rewrite -map_comp; apply/eq_in_map => i /(allP rg) hi /=; rewrite (nth_map 0).
rewrite e; set pts := [seq nth 0 X i | i <- idx].
have szp : size pts = k by rewrite size_map.
case: eqP => [k2|/eqP k2].
  rewrite !(nth_map 0) ?szp ?k2 // /g.
  have -> : a *: nth 0 pts 0 + b - (a *: nth 0 pts 1 + b) = a *: (nth 0 pts 0 - nth 0 pts 1).
    by rewrite opprD addrACA subrr addr0 scalerBr.
  exact: normalize_line.
case ek : k => [//|k'] /=.
have -> : [seq x - nth 0 (map g pts) 0 | x <- map g pts]
        = [seq a *: v | v <- [seq x - nth 0 pts 0 | x <- pts]].
  rewrite (nth_map 0) ?szp ?ek //; move: (nth 0 pts 0) => o.
  rewrite -[LHS]map_comp -[RHS]map_comp; apply: eq_map => x /=; rewrite /g.
  by rewrite opprD addrACA subrr addr0 scalerBr.
have [z [hz ->]] := hsvd k2 [seq x - nth 0 pts 0 | x <- pts].
rewrite /normalize vnormZ hz mul1r; case: eqP => //= _.
have := eqr_norml z 1; rewrite hz eqxx ler01 andbT => /esym /orP[] /eqP ->.
  by left; rewrite scale1r.
by right; rewrite scaleN1r scalerN.
Qed.

Lemma mapM_rel (A B : Type) (R : B -> B -> Prop) (f f' : A -> res B) (l : seq A) :
  (forall x, match f x, f' x with Ok u, Ok v => R u v | Err e, Err e' => e = e' | _, _ => False end) ->
  match mapM f l, mapM f' l with
  | Ok s, Ok s' => size s = size s' /\ (forall d, R d d -> forall i, R (nth d s i) (nth d s' i))
  | Err e, Err e' => e = e'
  | _, _ => False
  end.
Proof.
move=> h; elim: l => [|x l IH] /=; first by split=> // d hd i; rewrite !nth_nil.
move: (h x); case: (f x) => [u|e|]; case: (f' x) => [v|e'|] //=.
move: IH; case: (mapM f l) => [s|e|]; case: (mapM f' l) => [s'|e'|] //= [hs hr] huv.
by split=> [|d hd [|i]] /=; rewrite ?hs //; apply: hr.
Qed.

Lemma sd_affine X k n seed :
  (k != 2%N -> forall s : seq vec, exists e : T, `|e| = 1 /\ svd_last [seq a *: v | v <- s] = e *: svd_last s) ->
  (forall r n, size (seeded r n k) = k) -> (forall c n, size (entropy c n k) = k) ->
  (forall r n, all (fun i => i < n)%N (seeded r n k)) ->
  (forall c n, all (fun i => i < n)%N (entropy c n k)) ->
  sd (map g X) k n seed = sd X k n seed.
Proof.
move=> hsvd s1 s2 r1 r2; rewrite /stahel_donoho.
have := @mapM_rel _ _ same_line (direction X k seed) (direction (map g X) k seed) (iota 0 n).
move=> /(_ (fun c => direction_affine _ _ _ hsvd s1 s2 r1 r2)).
case: (mapM _ _) => [D|e|]; case: (mapM _ _) => [D'|e'|] //=; last by move=> ->.
case=> hs hr; have hl := outlyingness_affine X hs (hr None I).
by case: D D' hs {hr} hl => [|d D] [|d' D'] //= _ ->.
Qed.

End Affine.

Lemma mapM_has_nan X k seed n D c : mapM (direction X k seed) (iota 0 n) = Ok D ->
  (c < n)%N -> direction X k seed c = Ok None -> nth (Some 0) D c = None.
Proof.
have h s : forall D c, mapM (direction X k seed) (iota s n) = Ok D -> (c < n)%N ->
   direction X k seed (s + c) = Ok None -> nth (Some 0) D c = None.
  elim: n s => // n IH s D' c' /=.
  case e1 : (direction X k seed s) => [d|//|//] /=.
  case e2 : (mapM _ _) => [r|//|//] /= -[<-].
  case: c' => [|c'] /=; first by rewrite addn0 e1 => _ -[].
  by rewrite ltnS addnS -addSn => hc; apply: IH.
exact: (h 0%N).
Qed.

Lemma sd_duplicate X n seed c i j rest out : (c < n)%N ->
  choose seeded entropy seed c (size X) 2 = Ok [:: i, j & rest] -> nth 0 X i = nth 0 X j ->
  sd X 2 n seed = Ok out -> out = [seq NaN | x <- X].
Proof.
move=> hc hch eij; rewrite /stahel_donoho; case e : (mapM _ _) => [D|//|//] /=.
have hn : nth (Some 0) D c = None.
  by apply: (mapM_has_nan e hc); rewrite /get_random_direction hch /= eij subrr /normalize vnorm_eq0 eqxx.
have hs : (c < size D)%N.
  by case: (ltnP c (size D)) => // /(nth_default (Some 0)); rewrite hn.
case: D e hn hs => // d D _ hn hs [<-]; apply: eq_map => x; apply: xmaxs_nan.
rewrite has_map; apply/(has_nthP (Some 0)); exists c => //=.
by rewrite hn.
Qed.

End SD.
