(* The spectral theorem for symmetric matrices over a real closed field: a correct np.linalg.eigh
   exists for every size. *)
From mathcomp Require Import all_ssreflect all_algebra.
From mathcomp.real_closed Require Import complex.
From mathcomp.algebra_tactics Require Import ring.
From Verif Require Import RFieldLra Prelude Vec Cov_Spec.

Set Implicit Arguments.
Unset Strict Implicit.
Unset Printing Implicit Defensive.

Import Order.TTheory GRing.Theory Num.Theory.
Local Open Scope ring_scope.
Local Open Scope complex_scope.

Section Spectral.
Variable T : rcfType.

Lemma ReM (u : T[i]) (t : T) : complex.Re (u * t%:C) = complex.Re u * t.
Proof. by case: u => a b /=; rewrite mulr0 subr0. Qed.

Lemma ImM (u : T[i]) (t : T) : complex.Im (u * t%:C) = complex.Im u * t.
Proof. by case: u => a b /=; rewrite mulr0 add0r. Qed.

Lemma Re_sum (I : Type) (s : seq I) (f : I -> T[i]) : complex.Re (\sum_(i <- s) f i) = \sum_(i <- s) complex.Re (f i).
Proof. by elim: s => [|i s IH]; rewrite ?big_nil // !big_cons -IH; case: (f i) => a b; case: (\sum_(_ <- _) _). Qed.

Lemma Im_sum (I : Type) (s : seq I) (f : I -> T[i]) : complex.Im (\sum_(i <- s) f i) = \sum_(i <- s) complex.Im (f i).
Proof. by elim: s => [|i s IH]; rewrite ?big_nil // !big_cons -IH; case: (f i) => a b; case: (\sum_(_ <- _) _). Qed.

Lemma dotv_sym_mx p (A : 'M[T]_p) (x y : 'rV[T]_p) : A^T = A -> dotv (x *m A) y = dotv x (y *m A).
Proof. by move=> sA; rewrite !dotvE trmx_mul sA mulmxA. Qed.

Lemma real_eigen p (A : 'M[T]_p.+1) : A^T = A -> exists (a : T) (v : 'rV[T]_p.+1), v != 0 /\ v *m A = a *: v.
Proof.
move=> sA; pose B : 'M[T[i]]_p.+1 := map_mx (real_complex T) A.
have [l hl] : exists l, root (char_poly B) l.
  by apply/closed_rootP; rewrite size_char_poly.
have [z ez z0] : exists2 z : 'rV[T[i]]_p.+1, z *m B = l *: z & z != 0.
  by apply/eigenvalueP; rewrite eigenvalue_root_char.
pose x : 'rV[T]_p.+1 := map_mx (@complex.Re T) z; pose y : 'rV[T]_p.+1 := map_mx (@complex.Im T) z.
case: l hl ez => a b _ ez.
have ex : x *m A = a *: x - b *: y.
  apply/rowP => j; move/rowP: ez => /(_ j); rewrite !mxE => /(congr1 (@complex.Re T)).
  rewrite Re_sum (eq_bigr (fun i => x 0 i * A i j)) => [->|i _]; last by rewrite [B _ _]mxE ReM mxE.
  by case: (z 0 j).
have ey : y *m A = b *: x + a *: y.
  apply/rowP => j; move/rowP: ez => /(_ j); rewrite !mxE => /(congr1 (@complex.Im T)).
  rewrite Im_sum (eq_bigr (fun i => y 0 i * A i j)) => [->|i _]; last by rewrite [B _ _]mxE ImM mxE.
  by case: (z 0 j) => c d /=; rewrite addrC.
have b0 : b * (dotv x x + dotv y y) = 0.
  have := dotv_sym_mx x y sA.
  rewrite ex ey dotvBl dotvDr !dotvZl !dotvZr => h; rewrite mulrDr; flra.
have [x0|x0] := eqVneq x 0; last first.
  exists a, x; split=> //; have : b = 0.
    move/eqP: b0; rewrite mulf_eq0 => /orP[/eqP //|/eqP h].
    have := dotv_ge0 y; have := x0; rewrite -dotv_gt0; flra.
  by move=> e; rewrite ex e scale0r subr0.
have y0 : y != 0.
  apply: contra z0 => /eqP y0; apply/eqP/rowP => j; move/rowP: x0 => /(_ j); move/rowP: y0 => /(_ j).
  by rewrite !mxE; case: (z 0 j) => c d /= -> ->.
by exists a, y; split=> //; rewrite ey x0 scaler0 add0r.
Qed.

(* the Householder reflection exchanging e0 and a unit vector *)
Lemma householder p (v : 'rV[T]_p.+1) : dotv v v = 1 ->
  exists H : 'M[T]_p.+1, [/\ H^T = H, H *m H = 1%:M & delta_mx 0 0 *m H = v].
Proof.
move=> v1; pose e : 'rV[T]_p.+1 := delta_mx 0 0; pose u := e - v.
have [u0|u0] := eqVneq u 0.
  exists 1%:M; split; rewrite ?trmx1 ?mulmx1 //; by apply/eqP; rewrite -subr_eq0; apply/eqP; exact: u0.
have uu : dotv u u != 0 by rewrite dotv_eq0.
have e1 : dotv e e = 1.
  rewrite /dotv (bigD1 0) //= big1 ?addr0 => [|j j0]; rewrite !mxE ?eqxx ?mulr1 //.
  by rewrite (negbTE j0) andbF mulr0.
pose c := 2%:R / dotv u u; pose M := u^T *m u.
have MM : M *m M = dotv u u *: M.
  rewrite /M mulmxA -[u^T *m u *m u^T]mulmxA.
  have -> : u *m u^T = (dotv u u)%:M by rewrite [LHS]mx11_scalar dotvE.
  by rewrite mul_mx_scalar scalemxAl.
exists (1%:M - c *: M); split.
- by rewrite linearB /= trmx1 linearZ /= /M trmx_mul trmxK.
- rewrite mulmxBl mul1mx mulmxBr mulmx1 -scalemxAl -scalemxAr MM !scalerA.
  have -> : c * c * dotv u u = c + c by rewrite -mulrA /c divfK //; ring.
  rewrite scalerDl; move: (c *: M) => N.
  have -> : N - (N + N) = - N by rewrite opprD addNKr.
  by rewrite opprK subrK.
rewrite mulmxBr mulmx1 -scalemxAr /M mulmxA.
have -> : e *m u^T = (dotv e u)%:M by rewrite [LHS]mx11_scalar dotvE.
rewrite mul_scalar_mx scalerA.
have -> : c * dotv e u = 1.
  have uE : dotv u u = 2%:R * dotv e u.
    by rewrite /u !dotvBl !dotvBr e1 v1 (dotvC v e); ring.
  by rewrite /c mulrAC -uE divff.
by rewrite scale1r /u opprB addrC subrK.
Qed.

Lemma spectral p (A : 'M[T]_p) : A^T = A ->
  exists q : 'rV[T]_p * 'M[T]_p, (q.2^T *m q.2 == 1%:M) && (A == q.2 *m diag_mx q.1 *m q.2^T).
Proof.
elim: p A => [|p IH] A sA.
  by exists (0, 1%:M); rewrite [X in X == _]flatmx0 [X in _ == X]flatmx0 eqxx [A]flatmx0 [X in _ == X]flatmx0 eqxx.
have [a [w [w0 ew]]] := real_eigen sA.
pose v := (vnorm w)^-1 *: w.
have nw : vnorm w != 0 by rewrite vnorm_eq0.
have v1 : dotv v v = 1 by rewrite /v dotvZl dotvZr -vnormK; move: (vnorm w) nw => r r0; field.
have ev : v *m A = a *: v by rewrite /v -scalemxAl ew !scalerA mulrC.
have [H [sH HH eH]] := householder v1.
pose e : 'rV[T]_p.+1 := delta_mx 0 0; pose B := H *m A *m H.
have sB : B^T = B by rewrite /B trmx_mul trmx_mul sH sA mulmxA.
have eB : e *m B = a *: e.
  by rewrite /B !mulmxA eH ev -scalemxAl -eH -mulmxA HH mulmx1.
have eA : A = H *m B *m H by rewrite /B !mulmxA HH mul1mx -mulmxA HH mulmx1.
clearbody B.
have B0 j : B 0 j = a * (j == 0)%:R.
  by move/rowP: eB => /(_ j); rewrite -rowE !mxE eqxx.
have B0' j : B j 0 = a * (j == 0)%:R by rewrite -B0 -[in RHS]sB [RHS]mxE.
pose A' : 'M[T]_p := drsubmx (B : 'M_(1 + p)).
have l0 (i : 'I_1) : lshift p i = 0 by apply: val_inj; rewrite /= ord1.
have r0 (i : 'I_p) : (rshift 1 i == 0 :> 'I_p.+1) = false by [].
have BE : B = block_mx a%:M 0 0 A' :> 'M_(1 + p).
  rewrite -[B](@submxK _ 1 p 1 p); congr block_mx; apply/matrixP => i j.
  - by rewrite !mxE l0 l0 B0 eqxx mulr1 !ord1 eqxx mulr1n.
  - by rewrite !mxE l0 B0 r0 mulr0.
  - by rewrite !mxE l0 B0' r0 mulr0.
have sA' : A'^T = A' by rewrite /A' trmx_drsub sB.
have [[d V] /= /andP[/eqP oV /eqP eV]] := IH _ sA'.
pose V1 : 'M[T]_(1 + p) := block_mx 1%:M 0 0 V.
have oV1 : V1^T *m V1 = 1%:M.
  rewrite /V1 tr_block_mx mulmx_block !trmx0 trmx1 !(mul0mx, mulmx0, mulmx1, addr0, add0r) oV.
  by rewrite -scalar_mx_block.
have BV : B = V1 *m diag_mx (row_mx a%:M d) *m V1^T.
  rewrite BE /V1 diag_mx_row tr_block_mx !mulmx_block !trmx0 trmx1.
  rewrite !(mul0mx, mulmx0, mulmx1, mul1mx, addr0, add0r) -eV.
  suff -> : diag_mx (a%:M : 'rV_1) = a%:M by [].
  by apply/matrixP => i j; rewrite !ord1 !mxE eqxx.
exists (row_mx a%:M d : 'rV_(1 + p), H *m V1) => /=; apply/andP; split.
  by rewrite trmx_mul sH mulmxA -[V1^T *m H *m H]mulmxA HH mulmx1 oV1.
rewrite trmx_mul sH; apply/eqP.
by rewrite eA BV !mulmxA.
Qed.

(* a correct eigh; arbitrary on matrices that are not symmetric *)
Definition eigh_of p (A : 'M[T]_p) : 'rV[T]_p * 'M[T]_p :=
  match @eqP _ A^T A with ReflectT e => xchoose (spectral e) | ReflectF _ => (0, 1%:M) end.

Lemma eigh_of_correct p : correct_eigh (@eigh_of p).
Proof.
move=> A sA; rewrite /eigh_of; case: eqP => // e.
by have /andP[/eqP h1 /eqP h2] := xchooseP (spectral e).
Qed.

(* an ascending order of the entries of a vector *)
Definition eig_order q (w : 'rV[T]_q) (i : 'I_q) : 'I_q :=
  nth i (sort (fun a b => w 0 a <= w 0 b) (enum 'I_q)) i.

Lemma eig_order_inj q (w : 'rV[T]_q) : injective (eig_order w).
Proof.
move=> i j; rewrite /eig_order; set s := sort _ _.
have sz : size s = q by rewrite size_sort size_enum_ord.
have u : uniq s by rewrite sort_uniq enum_uniq.
rewrite (set_nth_default j) ?sz // => /eqP; rewrite nth_uniq ?sz // => /eqP; exact: val_inj.
Qed.

Lemma eig_order_le q (w : 'rV[T]_q) (i j : 'I_q) : (i <= j)%N -> w 0 (eig_order w i) <= w 0 (eig_order w j).
Proof.
rewrite /eig_order; set s := sort _ _ => ij.
have sz : size s = q by rewrite size_sort size_enum_ord.
have tr : transitive (fun a b : 'I_q => w 0 a <= w 0 b) by move=> b a c; exact: le_trans.
have so : sorted (fun a b : 'I_q => w 0 a <= w 0 b) s by apply: sort_sorted => a b; exact: le_total.
rewrite [nth j s j](set_nth_default i) ?sz //.
by have := sorted_leq_nth tr _ i so; apply; rewrite ?inE ?sz.
Qed.

(* the eigenvalues in ascending order, as np.linalg.eigh returns them *)
Definition eigh_asc p (A : 'M[T]_p) : 'rV[T]_p * 'M[T]_p :=
  let E := eigh_of A in
  (\row_j E.1 0 (eig_order E.1 j), \matrix_(i, j) E.2 i (eig_order E.1 j)).

Lemma eigh_asc_correct p : correct_eigh (@eigh_asc p).
Proof.
move=> A sA; have [oE eE] := eigh_of_correct sA; rewrite /eigh_asc; set E := eigh_of A in oE eE *.
have inj := @eig_order_inj _ E.1; split=> /=.
  apply/matrixP => i j; transitivity ((E.2^T *m E.2) (eig_order E.1 i) (eig_order E.1 j)).
    by rewrite !mxE; apply: eq_bigr => l _; rewrite !mxE.
  by rewrite oE !mxE (inj_eq inj).
rewrite {1}eE; apply/matrixP => i j; rewrite !mxE (reindex_inj inj) /=; apply: eq_bigr => l _.
by rewrite !mul_mx_diag !mxE.
Qed.

Lemma eigh_asc_le p (A : 'M[T]_p) (i j : 'I_p) : (i <= j)%N -> (eigh_asc A).1 0 i <= (eigh_asc A).1 0 j.
Proof. by move=> ij; rewrite !mxE; exact: eig_order_le. Qed.

End Spectral.

Print Assumptions eigh_of_correct.
