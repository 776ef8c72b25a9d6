(* Proofs about InitialDDCW. *)
From mathcomp Require Import all_ssreflect all_algebra.
From mathcomp.zify Require Import zify.
From mathcomp.algebra_tactics Require Import ring.
From Verif Require Import RFieldLra Prelude Stats Xnum Vec PSD LinAlg_Model LinAlg_Proofs.
From Verif Require Import OGK_Proofs Cov_Model Cov_Spec Cov_Proofs Gauss_Proofs CellMCD_Step_Proofs.
From Verif Require Import InitDDCW_Model InitDDCW_Spec.

Set Implicit Arguments.
Unset Strict Implicit.
Unset Printing Implicit Defensive.

Import Order.TTheory GRing.Theory Num.Theory.
Local Open Scope ring_scope.

Lemma split_sorted (A : eqType) (leT : rel A) (P : pred A) (L : seq A) : transitive leT ->
  (forall x y, leT x y -> P y -> P x) -> sorted leT L -> L = filter P L ++ filter (predC P) L.
Proof.
move=> tr up; elim: L => //= x L IH sL; have sL' := path_sorted sL.
case: ifP => px /=; first by rewrite -IH.
have nP : all (predC P) L.
  apply/allP => y hy /=; apply/negP => py; have /allP/(_ _ hy) lxy := order_path_min tr sL.
  by rewrite (up _ _ lxy py) in px.
rewrite (_ : filter P L = [::]) /=; first by rewrite (all_filterP nP).
by apply/eqP; rewrite -size_eq0 size_filter -leqn0 leqNgt -has_count; apply/hasP => -[y hy py]; move/allP: nP => /(_ _ hy) /=; rewrite py.
Qed.

Lemma cap_bound (F : realFieldType) (alpha N k : F) : 0 <= N -> 4%:R * k <= N -> alpha <= 3%:R / 4%:R ->
  k <= (1 - alpha) * N.
Proof.
move=> N0 hk ha; have : 0 <= (3%:R / 4%:R - alpha) * N by rewrite mulr_ge0 ?subr_ge0.
have -> : (3%:R / 4%:R - alpha) * N = (1 - alpha) * N - N / 4%:R.
  have f4 : (4%:R : F) != 0 by rewrite pnatr_eq0.
  by field.
by move: hk; move: (_ * N) => u; flra.
Qed.

Lemma ord_gt0 n (i : 'I_n) : (0 < n)%N.
Proof. exact: leq_ltn_trans (leq0n i) (ltn_ord i). Qed.

Section Cap.
Variables (T : rcfType) (n : nat).
Variables (resid : 'I_n -> option T) (ordering : seq 'I_n) (cutoff : T).
Hypothesis ho : is_argsort resid ordering.

Local Notation L := (rev ordering).
Local Notation flags := (ddc_flags cutoff resid).
Local Notation nan := (fun i => ~~ isSome (resid i)).
Let ge i j := abs_le (resid j) (resid i).

Lemma abs_le_trans : transitive (@abs_le T).
Proof. by move=> [x|] [y|] [z|] //=; exact: le_trans. Qed.

Lemma ge_trans : transitive ge.
Proof. by move=> x y z h1 h2; exact: abs_le_trans h2 h1. Qed.

Lemma ge_sorted : sorted ge L.
Proof. by case: ho => _; rewrite rev_sorted. Qed.

Lemma L_perm : perm_eq L (enum 'I_n).
Proof. by case: ho => h _; rewrite perm_rev. Qed.

Lemma L_uniq : uniq L.
Proof. by rewrite (perm_uniq L_perm) enum_uniq. Qed.

Lemma L_size : size L = n.
Proof. by rewrite (perm_size L_perm) size_enum_ord. Qed.

Lemma card_filter_L (P : pred 'I_n) : #|[set i | P i]| = size (filter P L).
Proof.
rewrite cardE; apply: perm_size; apply: uniq_perm; rewrite ?enum_uniq ?filter_uniq ?L_uniq // => i.
by rewrite mem_enum inE mem_filter (perm_mem L_perm) mem_enum andbT.
Qed.

Lemma card_take k (P : pred 'I_n) : #|[set i | P i && (i \in take k L)]| = size (filter P (take k L)).
Proof.
rewrite cardE; apply: perm_size; apply: uniq_perm; rewrite ?enum_uniq ?filter_uniq ?take_uniq ?L_uniq // => i.
by rewrite mem_enum inE mem_filter.
Qed.

(* NaN first, then the flagged cells *)
Lemma L_split : exists rest, [/\ L = filter nan L ++ filter flags L ++ rest & all (predC flags) rest].
Proof.
pose Q i := nan i || flags i.
have sQ : L = filter Q L ++ filter (predC Q) L.
  apply: (split_sorted ge_trans) ge_sorted => x y; rewrite /ge /Q /ddc_flags.
  by case: (resid x) (resid y) => [u|] [v|] //=; exact: (fun h1 h2 => lt_le_trans h2 h1).
have sN : filter Q L = filter nan (filter Q L) ++ filter (predC nan) (filter Q L).
  apply: (split_sorted ge_trans); last by apply: sorted_filter; [exact: ge_trans|exact: ge_sorted].
  by move=> x y; rewrite /ge; case: (resid x) (resid y) => [u|] [v|].
exists (filter (predC Q) L); split.
  rewrite {1}sQ sN -catA; congr (_ ++ (_ ++ _)); rewrite -filter_predI; apply: eq_filter => i /=.
    by rewrite /Q; case: isSome.
  by rewrite /Q /ddc_flags; case: (resid i).
by apply/allP => i; rewrite mem_filter /= /Q negb_or => /andP[/andP[]].
Qed.

(* flagged cells among the first k *)
Lemma flagged_in_take k : #|[set i | flags i && (i \in take k L)]|
  = minn (k - #|[set i | nan i]|) #|[set i | flags i]|.
Proof.
have [rest [eL nr]] := L_split; rewrite card_take !card_filter_L.
set N := filter nan L in eL *; set F := filter flags L in eL *.
have fN : filter flags N = [::].
  apply/eqP; rewrite -size_eq0 size_filter -leqn0 leqNgt -has_count; apply/hasP => -[i].
  by rewrite mem_filter /ddc_flags => /andP[]; case: (resid i).
have fF : filter flags F = F by apply/all_filterP; apply/allP => i; rewrite mem_filter => /andP[].
have fR : filter flags rest = [::].
  apply/eqP; rewrite -size_eq0 size_filter -leqn0 leqNgt -has_count; apply/hasP => -[i hi fi].
  by move/allP: nr => /(_ _ hi) /=; rewrite fi.
have fsub s m : filter flags s = [::] -> filter flags (take m s) = [::].
  move=> h; apply/eqP; rewrite -size_eq0 size_filter -leqn0 leqNgt -has_count; apply/hasP => -[i /mem_take hi fi].
  by have : i \in filter flags s; [rewrite mem_filter fi|rewrite h].
have fsF m : filter flags (take m F) = take m F.
  by apply/all_filterP; apply/allP => i /mem_take; rewrite mem_filter => /andP[].
rewrite eL take_cat; case: ltnP => hk.
  by rewrite fsub // (_ : (k - size N = 0)%N) ?min0n //; apply/eqP; rewrite subn_eq0 ltnW.
rewrite filter_cat fN cat0s take_cat; case: ltnP => hk2.
  by rewrite fsF size_take hk2; move: hk2; lia.
by rewrite filter_cat fF fsub // cats0; move: hk2; lia.
Qed.

Lemma size_take_L k : (k <= n)%N -> #|[set i | i \in take k L]| = k.
Proof.
move=> kn; have := card_take k predT; rewrite filter_predT size_take L_size => h.
transitivity (#|[set i | predT i && (i \in take k L)]|); first by apply: eq_card => i; rewrite !inE.
by rewrite h; case: ltnP => //; move: kn; lia.
Qed.

(* the first k have the largest absolute residuals *)
Lemma take_largest k i j : i \in take k L -> j \notin take k L -> abs_le (resid j) (resid i).
Proof.
move=> hi hj.
have : sorted ge (take k L ++ drop k L) by rewrite cat_take_drop; exact: ge_sorted.
rewrite (sorted_pairwise ge_trans) pairwise_cat => /and3P[/allrelP h _ _]; apply: (h i j) => //.
have : j \in take k L ++ drop k L by rewrite cat_take_drop (perm_mem L_perm) mem_enum.
by rewrite mem_cat (negbTE hj).
Qed.

End Cap.

Section Outlying.
Variables (T : rcfType) (n p : nat).

Lemma case_rdE (S_inv : 'M[T]_p) (Z : 'M[option T]_(n, p)) i : psd S_inv -> (forall k, Z i k) ->
  case_rd S_inv Z i = Fin (maha_sq S_inv 0 (\row_k clip2 (odflt 0 (Z i k)))).
Proof.
move=> [_ pS] hz; rewrite /case_rd (_ : [forall k, isSome (Z i k)]); last exact/forallP.
set v := maha_sq _ _ _; have v0 : 0 <= v by rewrite /v /maha_sq dotvE; exact: pS.
by rewrite /np_sqrt v0 /= -expr2 sqr_sqrtr.
Qed.

Lemma x_median_fin (s : seq T) : x_median [seq Fin u | u <- s] = Fin (fmed s).
Proof.
rewrite /x_median (_ : has _ _ = false); last by rewrite has_map; apply/hasP => -[].
by rewrite -map_comp map_id_in.
Qed.

Lemma x_median_nan (f : 'I_n -> xnum T) i : is_nan (f i) -> x_median [seq f i | i <- enum 'I_n] = NaN.
Proof.
move=> h; rewrite /x_median (_ : has _ _ = true) // has_map; apply/hasP; exists i => //; by rewrite mem_enum.
Qed.

End Outlying.
