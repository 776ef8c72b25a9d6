(* What DDC's data check rejects: counting distinct values. *)
From mathcomp Require Import all_ssreflect all_algebra.
From Verif Require Import RFieldLra Prelude Xnum Qn_Model DDC_Model DDC_Spec.

Set Implicit Arguments.
Unset Strict Implicit.
Unset Printing Implicit Defensive.

Import Order.TTheory GRing.Theory Num.Theory.
Local Open Scope ring_scope.

Section Check.
Variable T : rcfType.
Notation num := (xnum T).
Implicit Types (s L : seq num).

(* extended numbers as a type with decidable equality *)
Definition code (u : num) : option (T + bool) :=
  match u with Fin x => Some (inl x) | PInf => Some (inr true) | NInf => Some (inr false) | NaN => None end.

Lemma code_inj : injective code.
Proof. by case=> [x||| ] [y||| ] //= [->]. Qed.

Lemma has_code u s : ~~ is_nan u -> has (xeqb u) s = (code u \in [seq code v | v <- s & ~~ is_nan v]).
Proof.
move=> hu; elim: s => //= v s IH; case: v => [y||| ] /=; rewrite ?inE IH; case: u hu {IH} => [x||| ] //=.
Qed.

Lemma nuniqueE s : nunique s = size (undup [seq code v | v <- s & ~~ is_nan v]).
Proof.
elim: s => //= u s ->; case hu: (is_nan u) => //=.
by rewrite has_code ?hu //; case: ifP.
Qed.

(* at most k different values other than NaN: they can be listed in a list of length k *)
Lemma nunique_cover s k : (nunique s <= k)%N <-> exists L, size L = k /\
  forall i, (i < size s)%N -> ~~ is_nan (nth NaN s i) ->
    exists2 j, (j < k)%N & nth NaN s i = nth NaN L j.
Proof.
rewrite nuniqueE; set C := [seq code v | v <- s & _]; split => [hk|[L [sL hL]]].
  pose dec (c : option (T + bool)) : num :=
    match c with Some (inl x) => Fin x | Some (inr true) => PInf | Some (inr false) => NInf | None => NaN end.
  have dk u : dec (code u) = u by case: u.
  exists (mkseq (nth NaN (map dec (undup C))) k); rewrite size_mkseq; split => // i hi hn.
  have : code (nth NaN s i) \in undup C.
    rewrite mem_undup; apply/(nthP None).
    have hm : has (xeqb (nth NaN s i)) s.
      apply/(has_nthP NaN); exists i => //; case: (nth NaN s i) hn => //= x _.
    by move: hm; rewrite has_code // => /(nthP None).
  case/(nthP None) => j hj e; exists j; first exact: leq_trans hj hk.
  rewrite nth_mkseq ?(leq_trans hj hk) // (nth_map None) // e dk //.
rewrite -sL -(size_map code); apply: uniq_leq_size; first exact: undup_uniq.
move=> c; rewrite mem_undup => /(nthP None) [i]; rewrite size_map => hi <-.
rewrite (nth_map NaN) //; set u := nth NaN _ i.
have : has (xeqb u) s /\ ~~ is_nan u.
  have : all (fun v => has (xeqb v) s && ~~ is_nan v) [seq v <- s | ~~ is_nan v].
    apply/(all_nthP NaN) => k' hk'.
    have hn : ~~ is_nan (nth NaN [seq v <- s | ~~ is_nan v] k').
      exact: (all_nthP NaN (filter_all (fun v => ~~ is_nan v) s)).
    rewrite hn andbT has_code //; apply/(nthP None); exists k'; rewrite ?size_map // (nth_map NaN) //.
  by move/(all_nthP NaN)/(_ i hi)/andP.
case=> /(has_nthP NaN) [k' hk' he] hu.
have eu : u = nth NaN s k' by move: he hu; case: (u) (nth NaN s k') => [x||| ] [y||| ] //= /eqP ->.
have [|j hj ej] := hL k' hk'; first by rewrite -eu.
rewrite eu ej; apply/(nthP None); exists j; rewrite ?size_map ?sL // (nth_map NaN) ?sL //.
Qed.

Lemma check_data_cases (X : table T) : check_data X = Ok tt \/ check_data X = Err ValueError.
Proof. by rewrite /check_data; case: ifP => _; [right|case: ifP => _; [right|left]]. Qed.

Lemma check_data_ok (X : table T) : check_data X = Ok tt <-> numeric X /\
  forall j, (j < ncol X)%N -> (3 < nunique (col (rows X) j))%N.
Proof.
rewrite /check_data; case: (numeric X) => /=; last by split => [//|[]].
case: hasP => [[j hj h]|h]; split => //.
  by move=> [_ H]; move: hj h; rewrite mem_iota /= => /H; rewrite ltnNge => /negP.
move=> _; split => // j hj; rewrite ltnNge; apply/negP => h'; apply: h; exists j => //.
by rewrite mem_iota.
Qed.

End Check.
