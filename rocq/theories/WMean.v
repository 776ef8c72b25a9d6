(* Weighted means of lists: np.sum(weights * X) / np.sum(weights), the expression
   shared by onestep_m.py:57, onestep_m.py:118 and tau.py:45. *)
From mathcomp Require Import all_ssreflect all_algebra.
From mathcomp.zify Require Import zify.
From mathcomp.algebra_tactics Require Import ring.
From Verif Require Import RFieldLra Prelude Stats.

Set Implicit Arguments.
Unset Strict Implicit.
Unset Printing Implicit Defensive.

Import Order.TTheory GRing.Theory Num.Theory.
Local Open Scope ring_scope.

Section WMean.
Variable T : realFieldType.
Implicit Types (s : seq T) (w : T -> T) (x y : T).

(* the weights of onestep_m.py:56, onestep_m.py:117 and tau.py:44 are computed
   elementwise, so the weight array is a function applied to every observation *)
Definition wsum w s : T := fsum [seq w x | x : T <- s].
Definition wmean w s : T := fsum [seq w x * x | x : T <- s] / wsum w s.

Lemma wsum_ge0 w s : (forall x, x \in s -> 0 <= w x) -> 0 <= wsum w s.
Proof.
move=> h; apply: fsum_ge0; apply/allP => y /mapP[x xs ->]; exact: h.
Qed.

Lemma wsum_ge w s x : (forall y, y \in s -> 0 <= w y) -> x \in s -> w x <= wsum w s.
Proof.
move=> h xs; rewrite /wsum (fsum_perm (perm_map w (perm_to_rem xs))) /=.
rewrite ler_addl; apply: fsum_ge0; apply/allP => y /mapP[z /mem_rem zs ->]; exact: h.
Qed.

Lemma wsum_gt0 w s x : (forall y, y \in s -> 0 <= w y) -> x \in s -> 0 < w x -> 0 < wsum w s.
Proof. by move=> h xs hx; apply: (lt_le_trans hx); exact: wsum_ge. Qed.

Lemma wmean_between w s lo hi :
  (forall x, x \in s -> 0 <= w x) -> 0 < wsum w s ->
  (forall x, x \in s -> 0 < w x -> lo <= x <= hi) ->
  lo <= wmean w s <= hi.
Proof.
move=> w0 W hb; rewrite /wmean ler_pdivl_mulr // ler_pdivr_mulr //.
rewrite /wsum -!fsum_map_mul; apply/andP; split; apply: fsum_map_le => x xs /=.
all: have h := w0 x xs; have [->|hx] := eqVneq (w x) 0; first by rewrite ?mulr0 ?mul0r.
all: have wp : 0 < w x by rewrite lt_neqAle eq_sym hx.
all: have /andP[h1 h2] := hb x xs wp; rewrite [w x * x]mulrC ler_pmul2r //.
Qed.

Lemma wsum_map w f s : wsum w [seq f x | x : T <- s] = wsum (fun x => w (f x)) s.
Proof. by rewrite /wsum -map_comp. Qed.

Lemma eq_wsum w v s : {in s, w =1 v} -> wsum w s = wsum v s.
Proof. by move=> h; rewrite /wsum; congr fsum; apply/eq_in_map. Qed.

Lemma eq_wmean w v s : {in s, w =1 v} -> wmean w s = wmean v s.
Proof.
move=> h; rewrite /wmean (eq_wsum h); congr (fsum _ / _).
by apply/eq_in_map => x xs; rewrite h.
Qed.

Lemma wmean_affine w (a b : T) s : wsum (fun x => w (a * x + b)) s != 0 ->
  wmean w [seq a * x + b | x : T <- s] = a * wmean (fun x => w (a * x + b)) s + b.
Proof.
move=> W; rewrite /wmean wsum_map -map_comp; set S := wsum _ _ in W *.
have -> : fsum [seq ((fun x => w x * x) \o (fun x => a * x + b)) x | x <- s] =
          a * fsum [seq w (a * x + b) * x | x : T <- s] + b * S.
  rewrite /S /wsum -!fsum_map_mul -fsum_map_add; congr fsum; apply: eq_map => x /=; ring.
by rewrite mulrDl mulfK // -mulrA.
Qed.

Lemma wsum_count w (p : pred T) s :
  (forall x, x \in s -> 0 <= w x) -> (forall x, x \in s -> p x -> 1 <= w x) ->
  (count p s)%:R <= wsum w s.
Proof.
rewrite /wsum; elim: s => [|x s IH] //= h1 h2.
have h3 : (count p s)%:R <= fsum [seq w x | x <- s].
  by apply: IH => y ys; [apply: h1|apply: h2]; rewrite inE ys orbT.
rewrite natrD; apply: ler_add h3; case hp: (p x) => /=.
  by apply: h2 => //; rewrite mem_head.
by apply: h1; rewrite mem_head.
Qed.

Lemma fsum_map_norm_le (f : T -> T) (b : T) s :
  (forall x, x \in s -> `|f x| <= b) -> `|fsum [seq f x | x : T <- s]| <= (size s)%:R * b.
Proof.
elim: s => [|x s IH] h /=; first by rewrite normr0 mul0r.
apply: (le_trans (ler_norm_add _ _)); rewrite -addn1 natrD mulrDl mul1r [X in _ <= X]addrC.
apply: ler_add; first by apply: h; rewrite mem_head.
by apply: IH => y ys; apply: h; rewrite inE ys orbT.
Qed.

End WMean.
