(* An exact eigen-decomposition of symmetric 2 x 2 matrices over a real closed field: a witness
   that the contract of np.linalg.eigh can be met. *)
From mathcomp Require Import all_ssreflect all_algebra.
From mathcomp.algebra_tactics Require Import ring.
From Verif Require Import RFieldLra.

Set Implicit Arguments.
Unset Strict Implicit.
Unset Printing Implicit Defensive.

Import Order.TTheory GRing.Theory Num.Theory.
Local Open Scope ring_scope.

Section Eig2.
Variable T : rcfType.

(* the 2 x 2 matrix with the given rows *)
Definition mx2 (a b c d : T) : 'M[T]_2 :=
  \matrix_(i, j) if i == 0 then (if j == 0 then a else b) else (if j == 0 then c else d).

Lemma ord2 (i : 'I_2) : i = 0 \/ i = 1.
Proof. by case: i => [[|[|//]] h]; [left|right]; apply: val_inj. Qed.

Lemma mx2P (A B : 'M[T]_2) : A 0 0 = B 0 0 -> A 0 1 = B 0 1 -> A 1 0 = B 1 0 -> A 1 1 = B 1 1 -> A = B.
Proof.
move=> h1 h2 h3 h4; apply/matrixP => i j.
by case: (ord2 i) => ->; case: (ord2 j) => ->.
Qed.

Lemma mx2E (A : 'M[T]_2) : A = mx2 (A 0 0) (A 0 1) (A 1 0) (A 1 1).
Proof. by apply: mx2P; rewrite mxE. Qed.

Lemma mx2M a b c d a' b' c' d' : mx2 a b c d *m mx2 a' b' c' d'
  = mx2 (a * a' + b * c') (a * b' + b * d') (c * a' + d * c') (c * b' + d * d').
Proof. by apply: mx2P; rewrite !mxE !big_ord_recl big_ord0 !mxE /= addr0. Qed.

Lemma mx2T a b c d : (mx2 a b c d)^T = mx2 a c b d.
Proof. by apply: mx2P; rewrite !mxE. Qed.

Lemma mx2_1 : mx2 1 0 0 1 = 1%:M.
Proof. by apply: mx2P; rewrite !mxE. Qed.

Lemma mx2_diag a d : mx2 a 0 0 d = diag_mx (\row_j (if j == 0 then a else d)).
Proof. by apply: mx2P; rewrite !mxE. Qed.

(* a rotation that diagonalises [[a, b], [b, c]] *)
Definition eig2 (A : 'M[T]_2) : 'M[T]_2 :=
  let a := A 0 0 in let b := A 0 1 in let c := A 1 1 in
  if b == 0 then 1%:M else
  let r := Num.sqrt ((a - c) ^+ 2 + 4%:R * b ^+ 2) in
  let v := (c - a + r) / 2%:R in
  let n := Num.sqrt (b ^+ 2 + v ^+ 2) in
  mx2 (b / n) (- (v / n)) (v / n) (b / n).

Lemma eig2P (A : 'M[T]_2) : A^T = A ->
  (eig2 A)^T *m eig2 A = 1%:M /\ exists d, (eig2 A)^T *m A *m eig2 A = diag_mx d.
Proof.
move=> sA; have s10 : A 1 0 = A 0 1 by rewrite -{1}sA mxE.
rewrite {4}(mx2E A) s10 /eig2; move: (A 0 0) (A 0 1) (A 1 1) => a b c.
case: (eqVneq b 0) => [->|b0].
  by rewrite trmx1 !mulmx1 mul1mx mx2_diag; split=> //; eexists.
set r := Num.sqrt (_ + 4%:R * _); set v := (c - a + r) / 2%:R; set n := Num.sqrt _.
have two : 2%:R != 0 :> T by rewrite pnatr_eq0.
have r2 : r ^+ 2 = (a - c) ^+ 2 + 4%:R * b ^+ 2.
  by rewrite sqr_sqrtr // addr_ge0 ?sqr_ge0 // mulr_ge0 ?sqr_ge0 ?ler0n.
have n2 : n ^+ 2 = b ^+ 2 + v ^+ 2 by rewrite sqr_sqrtr // addr_ge0 ?sqr_ge0.
have n0 : n != 0.
  rewrite -sqrf_eq0 n2 gt_eqF // ltr_paddr ?sqr_ge0 //.
  by rewrite lt_neqAle sqr_ge0 eq_sym sqrf_eq0 b0.
have root : v ^+ 2 + (a - c) * v - b ^+ 2 = 0.
  have e : 2%:R * v = c - a + r by rewrite mulrC divfK.
  have e2 : 4%:R * (v ^+ 2 + (a - c) * v - b ^+ 2) = (2%:R * v) ^+ 2 + 2%:R * (a - c) * (2%:R * v) - 4%:R * b ^+ 2 by ring.
  have : 4%:R * (v ^+ 2 + (a - c) * v - b ^+ 2) = 0.
    rewrite e2 e; have -> : (c - a + r) ^+ 2 + 2%:R * (a - c) * (c - a + r) - 4%:R * b ^+ 2
      = r ^+ 2 - ((a - c) ^+ 2 + 4%:R * b ^+ 2) by ring.
    by rewrite r2 subrr.
  by move/eqP; rewrite mulf_eq0 pnatr_eq0 => /eqP.
have un : b / n * (b / n) + v / n * (v / n) = 1.
  transitivity ((b ^+ 2 + v ^+ 2) / n ^+ 2); last by rewrite -n2 divff // sqrf_eq0.
  by move: (v) (n) n0 => v' n' n0; field.
rewrite mx2T !mx2M; split.
  rewrite -mx2_1; congr mx2; [exact: un|by ring|by ring|].
  by rewrite mulNr mulrN opprK addrC un.
set x := _ + _; set y := _ + _; set z := _ + _; set w := _ + _.
have y0 : y = 0.
  rewrite /y; transitivity (- b * (v ^+ 2 + (a - c) * v - b ^+ 2) / n ^+ 2).
    by field.
  by rewrite root mulr0 mul0r.
have z0 : z = 0.
  rewrite -y0 /z /y; by ring.
by rewrite y0 z0 mx2_diag; eexists.
Qed.

End Eig2.
