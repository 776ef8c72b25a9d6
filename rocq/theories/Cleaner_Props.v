(* Property theorems: DataCleaner (C39, C40, C41, C92). *)
From mathcomp Require Import all_ssreflect all_algebra.
From mathcomp.zify Require Import zify.
From Verif Require Import RFieldLra Prelude Stats Xnum Cleaner_Model Cleaner_Proofs CleanerFit_Proofs.

Set Implicit Arguments.
Unset Strict Implicit.
Unset Printing Implicit Defensive.

Import Order.TTheory GRing.Theory Num.Theory.
Local Open Scope ring_scope.

Section Props.
Variables (T : realFieldType) (S CL RL : eqType).
Notation cell := (cell T S).
Notation table := (table T S CL RL).
Notation state := (state CL RL).
Implicit Types (X Y : table) (st : state) (P : params T).

(* an infinite number becomes missing, every other cell is kept *)
Let no_inf (c : cell) : cell := match c with Num PInf | Num NInf => Num S NaN | _ => c end.

(* C39 *)
Theorem cleaner_subtable P st X Y st' : transform P st X = (Ok Y, st') ->
  exists cols rows,
  [/\ dropped_columns st' = Ok cols, dropped_rows st' = Ok rows,
      index Y = [seq r <- index X | r \notin rows]
    & columns Y = [seq (c.1, mask [seq r \notin rows | r <- index X] (map no_inf c.2))
                  | c <- columns X & c.1 \notin cols]].
Proof. by move=> /transform_ok[cols [rows [h1 h2 ->]]]; exists cols, rows. Qed.

Theorem cleaner_min_rows P st X : (size (index X) < min_n_rows P)%N ->
  transform P st X = (Err ValueError, st).
Proof. exact: clean_transform_short. Qed.

(* C40: rows first, on an object that has not transformed anything yet: kept columns have
   few missing values among the kept rows *)
Theorem cleaner_rows_first_columns P st X Y st' :
  cols_missings st = None -> rows_missings st = None ->
  (clean_na_first st = RowsFirst
   \/ clean_na_first st = Automatic /\ (size (columns X) < 5 * size (index X))%N) ->
  transform P st X = (Ok Y, st') ->
  all (fun c => (0 < size c.2)%N ==>
         ((count (@isna T S) c.2)%:R / (size c.2)%:R < max_missing_frac_cols P)) (columns Y).
Proof.
move=> nc nr h ht; apply: sub_all (transform_rows_first nc nr _ ht); last first.
  by case: h => [h|[h h']]; rewrite /resolve h //= leqNgt h'.
move=> c; rewrite /mean_ge !size_map negb_and -ltNge count_map => /orP[h0|h1].
  by rewrite (negbTE h0).
by apply/implyP => _; exact: h1.
Qed.

(* C40: columns first: kept rows have few missing values among the columns that were
   checked (not rejected by fit) and kept *)
Theorem cleaner_columns_first_rows P st X Y st' :
  cols_missings st = None -> rows_missings st = None ->
  (clean_na_first st = ColumnsFirst
   \/ clean_na_first st = Automatic /\ (5 * size (index X) <= size (columns X))%N) ->
  transform P st X = (Ok Y, st') ->
  exists fitl cm rows,
  [/\ fit_lists st = Ok fitl, cols_missings st' = Some cm, dropped_rows st' = Ok rows
    & forall i r0, (i < size (index X))%N -> nth r0 (index X) i \notin rows ->
      let cells := [seq no_inf (nth (Num S NaN) c.2 i) | c <- columns X & c.1 \notin fitl ++ cm] in
      (0 < size cells)%N ->
      (count (@isna T S) cells)%:R / (size cells)%:R < max_missing_frac_rows P].
Proof.
move=> nc nr h ht.
have hr : clean_na_first (resolve st X) = ColumnsFirst.
  by case: h => [h|[h h']]; rewrite /resolve h //= h'.
have [l [a [rl [h1 h2 h3 h4]]]] := transform_columns_first nc nr hr ht.
exists l, a, rl; split=> // i r0 hi hn cells hc.
have := h4 i r0 hi hn.
have -> : [seq isna (nth (Num S NaN) (map (@inf_to_nan T S) c.2) i) | c <- columns X & c.1 \notin l ++ a]
  = map (@isna T S) cells.
  rewrite /cells -map_comp; apply: eq_map => c /=.
  case: (ltnP i (size c.2)) => hs; first by rewrite (nth_map (Num S NaN)).
  by rewrite !nth_default ?size_map.
by rewrite /mean_ge size_map hc /= count_map -ltNge.
Qed.

(* C41: 'automatic' is resolved by the first sufficiently long table, whatever follows *)
Theorem cleaner_automatic_once P st X (Xs : seq table) :
  clean_na_first st = Automatic -> (min_n_rows P <= size (index X))%N ->
  clean_na_first (transforms P st (X :: Xs))
  = if (5 * size (index X) <= size (columns X))%N then ColumnsFirst else RowsFirst.
Proof.
move=> h hn; rewrite /transforms /= -/(transforms _ _ _).
have e : clean_na_first (transform P st X).2
  = if (5 * size (index X) <= size (columns X))%N then ColumnsFirst else RowsFirst.
  by rewrite clean_transform // /resolve h.
by rewrite clean_transforms // e; case: ifP.
Qed.

(* C41: columns first: a row label left over from an earlier table that the new table does
   not have raises KeyError *)
Theorem cleaner_stale_rows_keyerror P st X rl r :
  clean_na_first st = ColumnsFirst -> rows_missings st = Some rl ->
  r \in rl -> r \notin index X ->
  (exists2 l, fit_lists st = Ok l & all (fun a => a \in map fst (columns X)) l) ->
  (min_n_rows P <= size (index X))%N -> (transform P st X).1 = Err KeyError.
Proof.
move=> hc hr h1 h2 [l hl ha] hn.
have hl' n : fit_lists (set_rownumbers st n) = Ok l by [].
rewrite /transform ltnNge hn /= /set_missing resolve_fit_lists hl' /= {1}/drop_columns.
have -> : all (fun a => a \in [seq i.1 | i <- columns (clean_inf (clean_inf X))]) l.
  by move: ha; rewrite /= -!map_comp.
rewrite /resolve /= hc /= hc /seq2 /step_cols /= hr /drop_rows /=.
by case: allP => // /(_ r h1); rewrite (negbTE h2).
Qed.

(* C41: rows first: the same with column labels *)
Theorem cleaner_stale_columns_keyerror P st X cm a :
  clean_na_first st = RowsFirst -> cols_missings st = Some cm ->
  a \in cm -> a \notin map fst (columns X) ->
  (exists2 l, fit_lists st = Ok l & all (fun b => b \in map fst (columns X)) l) ->
  (min_n_rows P <= size (index X))%N -> (transform P st X).1 = Err KeyError.
Proof.
move=> hc hr h1 h2 [l hl ha] hn.
have hl' n : fit_lists (set_rownumbers st n) = Ok l by [].
rewrite /transform ltnNge hn /= /set_missing resolve_fit_lists hl' /= {1}/drop_columns.
have -> : all (fun a => a \in [seq i.1 | i <- columns (clean_inf (clean_inf X))]) l.
  by move: ha; rewrite /= -!map_comp.
rewrite /resolve /= hc /= hc /seq2 /step_rows /= hr /drop_columns /=.
case: allP => // /(_ a h1) hin.
have : a \in map fst (columns X).
  move: hin; rewrite -map_comp; elim: (columns X) => //= d s IH.
  case: ifP => _ /=; rewrite ?in_cons; last by move=> /IH ->; rewrite orbT.
  by move=> /orP[->|/IH ->]; rewrite ?orbT.
by rewrite (negbTE h2).
Qed.

(* C92: fit never fails and reports three lists: the columns with a text that is no number; the
   columns whose non-missing cells take at most min_unique_values different values; and, among
   the other columns, those whose finite values have a MAD of at most min_abs_scale *)
Theorem cleaner_fit_lists (parse : S -> option T) P st X : uniq (map fst (columns X)) ->
  exists st' nn cd bs, [/\ fit parse P st X = Ok st', non_numeric_cols st' = Some nn,
    cols_discrete st' = Some cd, cols_bad_scale st' = Some bs &
    forall d i, (i < size (columns X))%N ->
    let name := (nth d (columns X) i).1 in let cells := (nth d (columns X) i).2 in
    [/\ name \in nn <-> (exists j t, [/\ (j < size cells)%N,
          nth (Num S NaN) cells j = Txt T t & parse t = None]),
        name \in cd <-> (exists2 L : seq cell, (size L <= min_unique_values P)%N &
          forall j, (j < size cells)%N -> ~~ isna (nth (Num S NaN) cells j) ->
          exists2 l, (l < size L)%N & nth (Num S NaN) L l = nth (Num S NaN) cells j) &
        name \in bs <-> [/\ name \notin nn, name \notin cd,
          (0 < size (finite_values parse cells))%N
          & fmad (finite_values parse cells) <= min_abs_scale P]]].
Proof.
move=> uX; have [st' [nn [cd [bs [h1 h2 h3 h4 h5]]]]] := fit_lists_lem parse P st uX.
exists st', nn, cd, bs; split => // d i hi name cells.
have [e1 e2 e3] := h5 d i hi; split.
- by rewrite e1; exact: non_numericP.
- by rewrite e2; exact: nunique_le.
- rewrite e3 /bad_scale; split => [/and3P[/andP[? ?] ? ?] //|[? ? ? ?]].
  by apply/and3P; split => //; apply/andP.
Qed.
End Props.

(* ---- concrete tables *)
Definition err_of (A : Type) (r : res A) : option err := if r is Err e then Some e else None.

Section Witness.
Notation Q := rat_realFieldType.
Notation N := nat_eqType.
Notation tab := (table Q N N N).
Notation num x := (Num N (Fin (x%:R : Q))).
Notation na := (Num N (@NaN Q)).

Definition dflt : params Q := Params (2%:R^-1) (2%:R^-1) 3 0 3.
Definition no_text : N -> option Q := fun=> None.

(* 8 rows, 5 columns: row 0 misses columns 0 and 1; the other three columns miss half *)
Definition tab1 : tab := Table (iota 0 8)
 [:: (0, [:: na; num 11; num 12; num 13; num 14; num 15; num 16; num 17]);
     (1, [:: na; num 21; num 22; num 23; num 24; num 25; num 26; num 27]);
     (2, [:: num 30; na; num 32; na; na; num 35; na; num 37]);
     (3, [:: num 40; na; na; num 43; na; na; num 46; num 47]);
     (4, [:: num 50; num 51; na; na; num 54; na; na; num 57])]%N.

Definition fitted (X : tab) (c : clean) : state N N :=
  if fit no_text dflt (new_cleaner N N c) X is Ok st then st else new_cleaner N N c.

Lemma fitted_ok X c : is_ok (fit no_text dflt (new_cleaner N N c) X) ->
  fit no_text dflt (new_cleaner N N c) X = Ok (fitted X c).
Proof. by rewrite /fitted; case: (fit _ _ _ _). Qed.

(* all columns of tab1 pass fit *)
Example tab1_fit : fit_lists (fitted tab1 Automatic) = Ok [::].
Proof. by vm_compute. Qed.

Definition run1 : res tab * state N N := transform dflt (fitted tab1 Automatic) tab1.
Definition out1 : tab := if run1.1 is Ok Y then Y else Table [::] [::].

Lemma run1E : is_ok run1.1 -> (transform dflt (fitted tab1 Automatic) tab1).1 = Ok out1.
Proof. by rewrite /out1 -/run1; case: (run1.1). Qed.

Example run1_ok : is_ok run1.1 /\ index out1 = iota 0 8 /\ map fst (columns out1) = [:: 0; 1]%N
   /\ clean_na_first run1.2 = RowsFirst.
Proof. by vm_compute. Qed.

(* C40: with rows-first cleaning a kept row can be entirely missing *)
Theorem cleaner_rows_first_rows_refuted :
  exists (X : tab) P st, [/\ fit no_text P (new_cleaner N N Automatic) X = Ok st,
    (transform P st X).1 = Ok out1, (0 < size (columns out1))%N & all (@isna Q N) (row out1 0)].
Proof.
exists tab1, dflt, (fitted tab1 Automatic); split.
- by apply: fitted_ok; vm_compute.
- by apply: run1E; vm_compute.
- by vm_compute.
- by vm_compute.
Qed.

(* C40: with columns-first cleaning the guarantee for rows does not hold for the output,
   because columns equal to the row numbers are counted but not returned *)
Definition tab2 : tab := Table (iota 0 4)
 [:: (0, [:: num 0; num 1; num 2; num 3]); (1, [:: na; num 5; num 9; num 14])]%N.
Definition par2 : params Q := Params (3%:R / 4%:R) (3%:R / 4%:R) 2 0 3.
Definition st2 : state N N :=
  if fit no_text par2 (new_cleaner N N ColumnsFirst) tab2 is Ok st then st
  else new_cleaner N N Bad.
Definition out2 : tab := if (transform par2 st2 tab2).1 is Ok Y then Y else Table [::] [::].

Lemma st2E : is_ok (fit no_text par2 (new_cleaner N N ColumnsFirst) tab2) ->
  fit no_text par2 (new_cleaner N N ColumnsFirst) tab2 = Ok st2.
Proof. by rewrite /st2; case: (fit _ _ _ _). Qed.
Lemma out2E : is_ok (transform par2 st2 tab2).1 -> (transform par2 st2 tab2).1 = Ok out2.
Proof. by rewrite /out2; case: (transform _ _ _).1. Qed.

Theorem cleaner_columns_first_output_refuted :
  exists (X : tab) P st, [/\ fit no_text P (new_cleaner N N ColumnsFirst) X = Ok st,
    (transform P st X).1 = Ok out2, (0 < size (columns out2))%N & all (@isna Q N) (row out2 0)].
Proof.
exists tab2, par2, st2; split.
- by apply: st2E; vm_compute.
- by apply: out2E; vm_compute.
- by vm_compute.
- by vm_compute.
Qed.

(* C41: the same object transforms the same table differently the second time: row 0 is
   dropped now *)
Definition run1b : res tab * state N N := transform dflt run1.2 tab1.
Definition out1b : tab := if run1b.1 is Ok Y then Y else Table [::] [::].

Theorem cleaner_second_transform_differs :
  [/\ is_ok run1.1, is_ok run1b.1, index out1 = iota 0 8 & index out1b = iota 1 7].
Proof. by vm_compute. Qed.

(* C41: transforming a table without the earlier rejected columns raises KeyError *)
Definition tab3 : tab := Table (iota 0 8) (take 2 (columns tab1)).
Example cleaner_other_table_keyerror :
  is_ok (transform dflt (fitted tab1 Automatic) tab3).1
  /\ err_of (transform dflt run1.2 tab3).1 = Some KeyError.
Proof. by vm_compute. Qed.

(* C92: a table with a discrete, a constant and a text column: column 1 takes two values and
   misses one, column 2 has MAD zero but five values, column 3 is a text *)
Definition tab5 : tab := Table (iota 0 6)
 [:: (0, [:: num 1; num 2; num 4; num 7; num 11; num 16]);
     (1, [:: num 3; num 5; na; num 3; num 5; num 5]);
     (2, [:: num 9; num 9; num 9; num 9; num 2; num 4]);
     (3, [:: Txt Q 0; num 1; num 2; num 3; num 4; num 5])]%N.
Example cleaner_fit_lists_case :
  let st := if fit no_text (Params (2%:R^-1) (2%:R^-1) 2 0 3) (new_cleaner N N Automatic) tab5
            is Ok st then st else new_cleaner N N Automatic in
  [/\ uniq (map fst (columns tab5)), non_numeric_cols st = Some [:: 3]%N,
      cols_discrete st = Some [:: 1]%N & cols_bad_scale st = Some [:: 2]%N].
Proof. by vm_compute. Qed.

(* columns first with a left-over row label *)
Definition st4 : state N N := State ColumnsFirst (Some [::]) (Some [::]) (Some [::]) None None (Some [:: 9%N]).
Example cleaner_stale_rows_case : err_of (transform dflt st4 tab1).1 = Some KeyError
  /\ is_ok (transform dflt (fitted tab1 ColumnsFirst) tab1).1.
Proof. by vm_compute. Qed.

Example cleaner_short : (transform dflt st4 (Table [:: 0; 1]%N [::] : tab)).1 = Err ValueError.
Proof. by []. Qed.
End Witness.

Print Assumptions cleaner_subtable.
Print Assumptions cleaner_rows_first_columns.
Print Assumptions cleaner_columns_first_rows.
Print Assumptions cleaner_rows_first_rows_refuted.
Print Assumptions cleaner_automatic_once.
Print Assumptions cleaner_stale_columns_keyerror.
Print Assumptions cleaner_fit_lists.
