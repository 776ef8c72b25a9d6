(* Proofs about DataCleaner.fit: which columns it reports. *)
From mathcomp Require Import all_ssreflect all_algebra.
From mathcomp.zify Require Import zify.
From Verif Require Import RFieldLra Prelude Stats Xnum Cleaner_Model Cleaner_Proofs.

Set Implicit Arguments.
Unset Strict Implicit.
Unset Printing Implicit Defensive.

Import Order.TTheory GRing.Theory Num.Theory.
Local Open Scope ring_scope.

Section Fit.
Variables (T : realFieldType) (S CL RL : eqType).
Variable parse : S -> option T.
Notation cell := (cell T S).
Notation table := (table T S CL RL).
Notation na := (Num S (@NaN T)).
Implicit Types (X Y : table) (s : seq cell) (c : cell).

Lemma cell_eqbP c d : ~~ isna c -> reflect (c = d) (cell_eqb c d).
Proof.
case: c => [[x| | |]|t] // _; case: d => [[x'| | |]|t'] /=; try by constructor.
  by apply: (iffP eqP) => [->|[]].
by apply: (iffP eqP) => [->|[]].
Qed.

(* the distinct values of a list without missing cells *)
Lemma distinct_sub s j : (j < size (distinct s))%N -> exists2 i, (i < size s)%N &
  nth na (distinct s) j = nth na s i.
Proof.
elim: s j => [|c s IH] j //=; case: ifP => _; last case: j => [|j] /= hj.
- by move/IH => [i hi e]; exists i.+1.
- by exists 0%N.
- by have [i hi e] := IH j hj; exists i.+1.
Qed.

Lemma distinct_cover s i : all (fun c => ~~ isna c) s -> (i < size s)%N ->
  exists2 j, (j < size (distinct s))%N & nth na s i = nth na (distinct s) j.
Proof.
elim: s i => [|c s IH] i //= /andP[hc hs]; case: i => [|i] hi /=.
  case: ifP => [/(has_nthP na)[j hj /(cell_eqbP _ hc) e]|_]; first by exists j.
  by exists 0%N.
have [j hj e] := IH i hs hi; case: ifP => _; first by exists j.
by exists j.+1.
Qed.

Lemma distinct_inj s i j : all (fun c => ~~ isna c) s -> (i < j < size (distinct s))%N ->
  nth na (distinct s) i <> nth na (distinct s) j.
Proof.
elim: s i j => [|c s IH] i j /=; first by rewrite ltn0 andbF.
move=> /andP[hc hs]; case: ifP => hh; first exact: IH.
case: j => [|j]; rewrite ?ltn0 //; case: i => [|i] /= hij; last exact: IH.
move=> e; move/negP: hh; apply; apply/(has_nthP na); exists j => //.
exact/cell_eqbP.
Qed.

Lemma nunique_le s k : (nunique s <= k)%N <->
  exists2 L : seq cell, (size L <= k)%N &
    forall i, (i < size s)%N -> ~~ isna (nth na s i) ->
    exists2 l, (l < size L)%N & nth na L l = nth na s i.
Proof.
set f := [seq c <- s | ~~ isna c].
have hf : all (fun c => ~~ isna c) f by rewrite filter_all.
have inf i : (i < size s)%N -> ~~ isna (nth na s i) ->
   exists2 j, (j < size f)%N & nth na f j = nth na s i.
  rewrite /f; elim: (s) i => [|c s' IH] [|i] //= hi hn.
    by rewrite hn; exists 0%N.
  have [j hj e] := IH i hi hn; case: ifP => _; last by exists j.
  by exists j.+1.
have outf j : (j < size f)%N -> exists2 i, (i < size s)%N & nth na s i = nth na f j.
  rewrite /f; elim: (s) j => [|c s' IH] j //=; case: ifP => _; last first.
    by move/IH => [i hi e]; exists i.+1.
  case: j => [|j] /= hj; first by exists 0%N.
  by have [i hi e] := IH j hj; exists i.+1.
rewrite /nunique -/f; split => [h|[L hL cov]].
  exists (distinct f) => // i hi hn; have [j hj <-] := inf i hi hn.
  by have [l hl ->] := distinct_cover hf hj; exists l.
apply: leq_trans hL.
pose g j := find (cell_eqb (nth na (distinct f) j)) L.
have nn j : (j < size (distinct f))%N -> ~~ isna (nth na (distinct f) j).
  by move=> hj; have [i hi ->] := distinct_sub hj; apply: (all_nthP na hf).
have hg j : (j < size (distinct f))%N -> (g j < size L)%N /\ nth na L (g j) = nth na (distinct f) j.
  move=> hj; have hn := nn j hj.
  have hh : has (cell_eqb (nth na (distinct f) j)) L.
    have [i hi e] := distinct_sub hj; have [k' hk ek] := outf i hi.
    rewrite -ek in e; have [|l hl el] := cov k' hk; first by rewrite -e.
    by apply/(has_nthP na); exists l => //; apply/cell_eqbP; rewrite // el.
  split; first by rewrite -has_find.
  by symmetry; apply/(cell_eqbP _ hn); apply: nth_find.
have ug : uniq (map g (iota 0 (size (distinct f)))).
  rewrite map_inj_in_uniq ?iota_uniq // => i j; rewrite !mem_iota !add0n => hi hj e.
  have [_ e1] := hg i hi; have [_ e2] := hg j hj; rewrite e e2 in e1.
  case: (ltngtP i j) => // hij.
    by case: (@distinct_inj f i j hf); rewrite ?hij.
  by case: (@distinct_inj f j i hf); rewrite ?hij.
rewrite -[X in (X <= _)%N](size_iota 0) -(size_map g) -[X in (_ <= X)%N](size_iota 0).
apply: uniq_leq_size => // x /mapP[j]; rewrite !mem_iota !add0n => hj ->.
by have [] := hg j hj.
Qed.

(* names of the columns passing a test *)
Lemma sub_names (A : Type) (p : CL * A -> bool) (cs : seq (CL * A)) a :
  a \in [seq c.1 | c <- [seq c <- cs | p c]] -> a \in map fst cs.
Proof.
elim: cs => //= c cs IH; case: (p c) => /=; rewrite !inE; last by move/IH => ->; rewrite orbT.
by case/orP => [->//|/IH ->]; rewrite orbT.
Qed.

Lemma mem_names (A : Type) (p : CL * A -> bool) (cs : seq (CL * A)) d i :
  uniq (map fst cs) -> (i < size cs)%N ->
  ((nth d cs i).1 \in [seq c.1 | c <- [seq c <- cs | p c]]) = p (nth d cs i).
Proof.
elim: cs i => [|c cs IH] i //= /andP[nc uc]; case: i => [|i] /= hi.
  case: ifP => [|hp]; first by rewrite mem_head.
  by apply/negbTE; apply: contra nc; apply: sub_names.
have hin : (nth d cs i).1 \in map fst cs.
  by rewrite -(nth_map _ d.1) // mem_nth // size_map.
have ne : ((nth d cs i).1 == c.1) = false.
  by apply/eqP => e; move: nc; rewrite -e hin.
by case: ifP => _; rewrite ?inE ?ne IH.
Qed.

Lemma fit_lists_lem P st X : uniq (map fst (columns X)) ->
  exists st' nn cd bs, [/\ fit parse P st X = Ok st', non_numeric_cols st' = Some nn,
    cols_discrete st' = Some cd, cols_bad_scale st' = Some bs &
    forall d i, (i < size (columns X))%N -> let col := nth d (columns X) i in
    [/\ (col.1 \in nn) = is_non_numeric parse col.2,
        (col.1 \in cd) = (nunique col.2 <= min_unique_values P)%N &
        (col.1 \in bs) = [&& bad_scale parse (min_abs_scale P) col.2,
                             col.1 \notin nn & col.1 \notin cd]]].
Proof.
move=> uX; rewrite /fit; set nn := names_of _ X; set cd := names_of _ X.
have hd : drop_columns (nn ++ cd) X
   = Ok (Table (index X) [seq c <- columns X | c.1 \notin nn ++ cd]).
  rewrite /drop_columns ifT // all_cat; apply/andP; split; apply/allP => a; exact: sub_names.
rewrite hd /=; eexists; exists nn, cd; eexists; split; try reflexivity.
move=> d i hi; split; [by rewrite mem_names|by rewrite mem_names|].
by rewrite /names_of /= -filter_predI mem_names //= mem_cat negb_or.
Qed.

Lemma non_numericP (col : seq cell) : is_non_numeric parse col <->
  exists j t, [/\ (j < size col)%N, nth na col j = Txt T t & parse t = None].
Proof.
split => [/(has_nthP na)[j hj]|[j [t [hj e ep]]]].
  by case e : (nth na col j) => [//|t] /eqP ep; exists j, t.
by apply/(has_nthP na); exists j => //; rewrite e ep.
Qed.

End Fit.
