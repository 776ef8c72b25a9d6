(* Row vectors with the Euclidean inner product. *)
From mathcomp Require Import all_ssreflect all_algebra.
From mathcomp.algebra_tactics Require Import ring.
From Verif Require Import RFieldLra Prelude.

Set Implicit Arguments.
Unset Strict Implicit.
Unset Printing Implicit Defensive.

Import Order.TTheory GRing.Theory Num.Theory.
Local Open Scope ring_scope.

Section Dot.
Variables (T : realFieldType) (p : nat).
Implicit Types (x y z : 'rV[T]_p) (a : T).

(* x @ y for one-dimensional arrays, e.g. the row sums of robpy/utils/distance.py:24 *)
Definition dotv x y : T := \sum_i x 0 i * y 0 i.

Lemma dotvC x y : dotv x y = dotv y x.
Proof. by apply: eq_bigr => i _; rewrite mulrC. Qed.

Lemma dotvDl x y z : dotv (x + y) z = dotv x z + dotv y z.
Proof. by rewrite /dotv -big_split; apply: eq_bigr => i _; rewrite mxE mulrDl. Qed.

Lemma dotvDr x y z : dotv x (y + z) = dotv x y + dotv x z.
Proof. by rewrite dotvC dotvDl !(dotvC x). Qed.

Lemma dotvZl a x y : dotv (a *: x) y = a * dotv x y.
Proof. by rewrite /dotv mulr_sumr; apply: eq_bigr => i _; rewrite mxE mulrA. Qed.

Lemma dotvZr a x y : dotv x (a *: y) = a * dotv x y.
Proof. by rewrite dotvC dotvZl dotvC. Qed.

Lemma dotvNl x y : dotv (- x) y = - dotv x y.
Proof. by rewrite -scaleN1r dotvZl mulN1r. Qed.

Lemma dotvNr x y : dotv x (- y) = - dotv x y.
Proof. by rewrite dotvC dotvNl dotvC. Qed.

Lemma dotvBl x y z : dotv (x - y) z = dotv x z - dotv y z.
Proof. by rewrite dotvDl dotvNl. Qed.

Lemma dotvBr x y z : dotv x (y - z) = dotv x y - dotv x z.
Proof. by rewrite dotvDr dotvNr. Qed.

Lemma dot0v x : dotv 0 x = 0.
Proof. by rewrite /dotv big1 // => i _; rewrite mxE mul0r. Qed.

Lemma dotv0 x : dotv x 0 = 0.
Proof. by rewrite dotvC dot0v. Qed.

Lemma dotv_ge0 x : 0 <= dotv x x.
Proof. by apply: sumr_ge0 => i _; rewrite -expr2 sqr_ge0. Qed.

Lemma dotv_eq0 x : (dotv x x == 0) = (x == 0).
Proof.
rewrite /dotv psumr_eq0 => [|i _]; last by rewrite -expr2 sqr_ge0.
apply/allP/eqP => [h|-> i _]; last by rewrite /= mxE mul0r eqxx.
apply/rowP => i; rewrite mxE.
by have := h i (mem_index_enum i) => /=; rewrite mulf_eq0 orbb => /eqP.
Qed.

Lemma dotv_gt0 x : (0 < dotv x x) = (x != 0).
Proof. by rewrite lt_neqAle dotv_ge0 andbT eq_sym dotv_eq0. Qed.

Lemma dotvE x y : dotv x y = (x *m y^T) 0 0.
Proof. by rewrite [RHS]mxE; apply: eq_bigr => i _; rewrite [(_^T) _ _]mxE. Qed.

Lemma dotv_sqD x y : dotv (x + y) (x + y) = dotv x x + 2%:R * dotv x y + dotv y y.
Proof. rewrite dotvDl !dotvDr (dotvC y x); ring. Qed.

(* Cauchy-Schwarz *)
Lemma dotv_CS x y : dotv x y ^+ 2 <= dotv x x * dotv y y.
Proof.
have [->|y0] := eqVneq y 0; first by rewrite !dotv0 expr0n mulr0.
have yp : 0 < dotv y y by rewrite dotv_gt0.
have := dotv_ge0 (dotv y y *: x - dotv x y *: y).
rewrite dotvBl !dotvBr !dotvZl !dotvZr (dotvC y x).
set A := dotv x x; set B := dotv x y; set C := dotv y y in yp *.
move=> h; have : 0 <= C * (A * C - B ^+ 2) by apply: (le_trans h); rewrite le_eqVlt; apply/orP; left; apply/eqP; ring.
by rewrite pmulr_rge0 // subr_ge0.
Qed.

End Dot.

Section Norm.
Variables (T : rcfType) (p : nat).
Implicit Types (x y : 'rV[T]_p) (a : T).

(* np.linalg.norm of a one-dimensional array, e.g. robpy/pca/base.py:79, robpy/utils/outlyingness.py:81 *)
Definition vnorm x : T := Num.sqrt (dotv x x).

Lemma vnorm_ge0 x : 0 <= vnorm x.
Proof. exact: sqrtr_ge0. Qed.

Lemma vnorm_eq0 x : (vnorm x == 0) = (x == 0).
Proof. by rewrite sqrtr_eq0 -dotv_eq0 eq_le dotv_ge0 andbT. Qed.

Lemma vnorm_gt0 x : (0 < vnorm x) = (x != 0).
Proof. by rewrite sqrtr_gt0 dotv_gt0. Qed.

Lemma vnormK x : vnorm x ^+ 2 = dotv x x.
Proof. by rewrite sqr_sqrtr // dotv_ge0. Qed.

Lemma vnormZ a x : vnorm (a *: x) = `|a| * vnorm x.
Proof. by rewrite /vnorm dotvZl dotvZr mulrA -expr2 sqrtrM ?sqr_ge0 // sqrtr_sqr. Qed.

Lemma vnormN x : vnorm (- x) = vnorm x.
Proof. by rewrite -scaleN1r vnormZ normrN1 mul1r. Qed.

Lemma dotv_le_norm x y : dotv x y <= vnorm x * vnorm y.
Proof.
apply: (le_trans (ler_norm _)); rewrite -(@ler_pexpn2r _ 2) // ?nnegrE ?normr_ge0 ?mulr_ge0 ?vnorm_ge0 //.
by rewrite sqr_normr exprMn !vnormK dotv_CS.
Qed.

Lemma vnorm_triangle x y : vnorm (x + y) <= vnorm x + vnorm y.
Proof.
rewrite -(@ler_pexpn2r _ 2) // ?nnegrE ?addr_ge0 ?vnorm_ge0 //.
rewrite vnormK dotvDl !dotvDr (dotvC y x) sqrrD !vnormK.
have := dotv_le_norm x y; flra.
Qed.

End Norm.
