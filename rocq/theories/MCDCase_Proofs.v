(* Sums over exchanged subsets, and the covariance of three points in the plane. *)
From mathcomp Require Import all_ssreflect all_algebra.
From mathcomp.zify Require Import zify.
From mathcomp.algebra_tactics Require Import ring.
From Verif Require Import RFieldLra Prelude Stats Xnum RatFloor Qn_Model Regr Regr_Proofs Vec PSD.
From Verif Require Import LinAlg_Model LinAlg_Proofs MCD_Model MCD_Spec MCD_Proofs.

Set Implicit Arguments.
Unset Strict Implicit.
Unset Printing Implicit Defensive.

Import Order.TTheory GRing.Theory Num.Theory.
Local Open Scope ring_scope.

Section Exchange.
Variable T : realFieldType.

(* a set A whose values are at most those outside A has the smallest sum for its size *)
Lemma exchange_sum (v : nat -> T) n (A H : seq nat) : uniq A -> uniq H -> size A = size H ->
  (forall i, i \in H -> (i < n)%N) ->
  (forall i j, i \in A -> (j < n)%N -> j \notin A -> v i <= v j) ->
  fsum (map v A) <= fsum (map v H).
Proof.
move=> uA uH szA inH key.
rewrite (fsum_filter_split (mem H) v A) (fsum_filter_split (mem A) v H).
have pAH : perm_eq [seq i <- A | mem H i] [seq i <- H | mem A i].
  by apply: uniq_perm; rewrite ?filter_uniq // => i; rewrite !mem_filter /= andbC.
rewrite (fsum_perm (perm_map v pAH)) ler_add2l.
have sz' : size [seq i <- A | predC (mem H) i] = size [seq i <- H | predC (mem A) i].
  have e1 := count_predC (mem H) A; have e2 := count_predC (mem A) H.
  have e3 := perm_size pAH; rewrite !size_filter in e3 *.
  by apply: (@addnI (count (mem H) A)); rewrite e1 e3 e2.
case eF : [seq i <- A | predC (mem H) i] sz' => [|a F] sz'.
  by move: sz' => /esym/size0nil ->.
have fb b : b \in [seq i <- H | predC (mem A) i] -> (b < n)%N && (b \notin A).
  by rewrite mem_filter /= => /andP[-> /inH ->].
case eG : [seq i <- H | predC (mem A) i] sz' => [|b0 G] sz' //.
rewrite -eF -eG; rewrite -eF -eG in sz'.
pose t := fmin (map v [seq i <- H | predC (mem A) i]).
have hlow : fsum (map v [seq i <- A | predC (mem H) i])
            <= fsum (map (fun _ => t) [seq i <- A | predC (mem H) i]).
  apply: fsum_map_le => i; rewrite mem_filter => /andP[_ iA].
  have : t \in map v [seq i <- H | predC (mem A) i] by apply: fmin_mem; rewrite eG.
  by case/mapP => j /fb /andP[js jA] ->; apply: key.
have hup : fsum (map (fun _ => t) [seq i <- H | predC (mem A) i])
            <= fsum (map v [seq i <- H | predC (mem A) i]).
  by apply: fsum_map_le => j jH; apply: fmin_le; apply: map_f.
apply: le_trans hlow (le_trans _ hup); rewrite !fsum_map_const sz'; exact: lexx.
Qed.

End Exchange.

Section Triangle.
Variable T : rcfType.

Definition r2 (q : T * T) : 'rV[T]_2 := \row_j (if j == 0 then q.1 else q.2).

Lemma det2 (A : 'M[T]_2) : \det A = A 0 0 * A 1 1 - A 0 1 * A 1 0.
Proof.
rewrite (expand_det_row _ 0) !big_ord_recl big_ord0 addr0 /cofactor !det_mx11 !mxE /=.
have e1 : lift 0 0 = 1 :> 'I_2 by apply: val_inj.
have e2 : lift 1 0 = 0 :> 'I_2 by apply: val_inj.
by rewrite ?e1 ?e2 /bump /= !expr0 !expr1 !mul1r mulN1r mulrN.
Qed.

(* three points: the determinant is the squared double area over 12 *)
Lemma det_cov3 (P Q R : T * T) : \det (cov [:: r2 P; r2 Q; r2 R])
  = ((Q.1 - P.1) * (R.2 - P.2) - (R.1 - P.1) * (Q.2 - P.2)) ^+ 2 / 12%:R.
Proof.
set Y := [:: _; _; _].
have m j : vmean Y 0 j = (r2 P 0 j + r2 Q 0 j + r2 R 0 j) / 3%:R.
  by rewrite mxE summxE !big_cons big_nil addr0 mulrC addrA.
have e j k : cov Y j k = \sum_(y <- Y) (y 0 j - vmean Y 0 j) * (y 0 k - vmean Y 0 k) / 2%:R.
  have := @cov_entry T 2 Y j k isT; rewrite -mulr_suml => <-.
  by rewrite mulrC mulrA mulVf ?mul1r // pnatr_eq0.
rewrite det2 !e !big_cons !big_nil !m !mxE /=.
case: P Q R {Y m e} => [a b] [c d] [f g] /=.
by field.
Qed.

End Triangle.

(* the cases of MCD_Props.v *)
Section Pick.
Variables (T : rcfType) (p : nat).
Implicit Types (X : seq 'rV[T]_p) (S : 'M[T]_p) (m : 'rV[T]_p).

Lemma missing idx n : uniq idx -> (size idx < n)%N -> exists2 j, (j < n)%N & j \notin idx.
Proof.
move=> u sz; case: (boolP (all (mem idx) (iota 0 n))) => [/allP h|/allPn[j]].
  have := uniq_leq_size (iota_uniq 0 n) h; rewrite size_iota; lia.
by rewrite mem_iota => /andP[_ hj] hn; exists j.
Qed.

Lemma drop_far X h idx S m k : row_set X h idx -> (h < size X)%N -> closest X S m idx ->
  (forall j, (j < size X)%N -> j != k -> maha2 S m (nth 0 X j) < maha2 S m (nth 0 X k)) ->
  k \notin idx.
Proof.
move=> [u hin sz] hn hc hk; apply/negP => ki.
have [j hj jn] : exists2 j, (j < size X)%N & j \notin idx by apply: missing; rewrite ?sz.
have := hc k j ki hj jn; rewrite leNgt hk //; apply: contraNneq jn => ->; exact: ki.
Qed.

Lemma take_near X h idx S m k : row_set X h idx -> (0 < h)%N -> closest X S m idx ->
  (k < size X)%N ->
  (forall j, (j < size X)%N -> j != k -> maha2 S m (nth 0 X k) < maha2 S m (nth 0 X j)) ->
  k \in idx.
Proof.
move=> [u hin sz] h0 hc kX hk; case: (boolP (k \in idx)) => // kn.
case: idx sz u hin hc kn => [|i idx] sz u hin hc kn; first by rewrite -sz in h0.
have ii : i \in i :: idx by rewrite mem_head.
have := hc i k ii kX kn; rewrite leNgt hk ?hin //; apply: contraNneq kn => <-; exact: ii.
Qed.

Lemma vmean_perm X (s t : seq nat) : perm_eq s t -> vmean (sel 0 X s) = vmean (sel 0 X t).
Proof.
move=> h; have h' : perm_eq (sel 0 X s) (sel 0 X t) by exact: perm_map.
by rewrite /vmean (perm_size h') (perm_big _ h').
Qed.

Lemma cov_perm X (s t : seq nat) : perm_eq s t -> cov (sel 0 X s) = cov (sel 0 X t).
Proof.
move=> h; have h' : perm_eq (sel 0 X s) (sel 0 X t) by exact: perm_map.
by rewrite /cov (vmean_perm X h) (perm_size h') (perm_big _ h').
Qed.

Lemma take_le argsort (D : seq T) h i j : is_xargsort argsort ->
  i \in take h (argsort (map (@Fin T) D)) -> (j < size D)%N ->
  j \notin take h (argsort (map (@Fin T) D)) -> nth 0 D i <= nth 0 D j.
Proof.
move=> [h1 so] iA js jA; have pm := h1 (map (@Fin T) D); rewrite size_map in pm.
have sA : size (argsort (map (@Fin T) D)) = size D by rewrite (perm_size pm) size_iota.
have jS : j \in argsort (map (@Fin T) D) by rewrite (perm_mem pm) mem_iota.
move: iA => /(nthP 0%N)[x]; rewrite size_take sA => ha <-.
have [b hb eb] := nthP 0%N jS; rewrite sA in hb.
have ah : (x < h)%N by case: ifP ha => // /negbT; lia.
rewrite nth_take // -eb; apply: so => //.
case: (leqP x b) => // ba; move: jA; rewrite -eb -(@nth_take h _ 0%N b) ?mem_nth //; last lia.
by rewrite size_take sA; case: ifP => // _; lia.
Qed.

(* an argsort *)
Definition xargsort (s : seq (xnum T)) : seq nat := stable_argsort (map (@fin T) s).
Lemma xargsortP : is_xargsort xargsort.
Proof.
have [hs1 hs2] : (forall s : seq T, perm_eq (stable_argsort s) (iota 0 (size s))) /\
  forall (s : seq T) i j, (i <= j)%N -> (j < size s)%N ->
  nth 0 s (nth 0%N (stable_argsort s) i) <= nth 0 s (nth 0%N (stable_argsort s) j).
  by split=> s; have [] := stable_argsortP s.
split=> [s|s i j hij hj]; first by have := hs1 (map (@fin T) s); rewrite size_map.
by rewrite /xargsort -map_comp; have -> : map (@fin T \o @Fin T) s = s; [exact: map_id | exact: hs2].
Qed.

End Pick.

Section Plane.
Variable T : rcfType.
Implicit Types (S : 'M[T]_2) (m x : 'rV[T]_2).

Lemma maha2_diag S m x : S 0 1 = 0 -> S 1 0 = 0 -> S 0 0 != 0 -> S 1 1 != 0 ->
  maha2 S m x = (x 0 0 - m 0 0) ^+ 2 / S 0 0 + (x 0 1 - m 0 1) ^+ 2 / S 1 1.
Proof.
move=> h01 h10 h0 h1.
pose V : 'M[T]_2 := \matrix_(i, j) if i == j then (S i i)^-1 else 0.
have hV : S *m V = 1%:M.
  have o1 : lift 0 0 = 1 :> 'I_2 by apply: val_inj.
  apply/matrixP => i j; rewrite !mxE !big_ord_recl big_ord0 addr0 !mxE o1.
  have ci (q : 'I_2) : q = 0 \/ q = 1.
    by case: q => -[|[|//]] hq; [left|right]; apply: val_inj.
  by case: (ci i) => ->; case: (ci j) => ->; rewrite /= ?h01 ?h10 ?mulfV // ?mulr0 ?mul0r ?addr0 ?add0r.
have eV : invmx S = V by rewrite -(mulKmx (proj1 (mulmx1_unit hV)) V) hV mulmx1.
have o1 : lift 0 0 = 1 :> 'I_2 by apply: val_inj.
rewrite /maha2 eV !mxE !big_ord_recl big_ord0 addr0 !mxE !big_ord_recl !big_ord0 !addr0 !mxE o1 /=.
by rewrite !mulr0 addr0 add0r; congr (_ + _); rewrite mulrAC expr2.
Qed.

Lemma vm2 (L : seq (T * T)) : (0 < size L)%N ->
  vmean (map (@r2 T) L) 0 0 = (\sum_(q <- L) q.1) / (size L)%:R /\
  vmean (map (@r2 T) L) 0 1 = (\sum_(q <- L) q.2) / (size L)%:R.
Proof.
move=> s0; rewrite /vmean size_map; split; rewrite !mxE summxE big_map mulrC; congr (_ / _);
  by apply: eq_bigr => q _; rewrite mxE.
Qed.

Lemma cov2 (L : seq (T * T)) j k : (1 < size L)%N ->
  cov (map (@r2 T) L) j k
  = (\sum_(q <- L) (r2 q 0 j - vmean (map (@r2 T) L) 0 j) * (r2 q 0 k - vmean (map (@r2 T) L) 0 k))
    / ((size L).-1)%:R.
Proof.
move=> s1; have := @cov_entry T 2 (map (@r2 T) L) j k; rewrite size_map => /(_ s1); rewrite big_map => <-.
by rewrite mulrC mulrA mulVf ?mul1r // pnatr_eq0; lia.
Qed.

End Plane.
