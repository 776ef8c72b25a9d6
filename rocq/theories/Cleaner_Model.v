(* Model of robpy/preprocessing/data_cleaner.py. *)
From mathcomp Require Import all_ssreflect all_algebra.
From Verif Require Import RFieldLra Prelude Stats Xnum.

Set Implicit Arguments.
Unset Strict Implicit.
Unset Printing Implicit Defensive.

Import Order.TTheory GRing.Theory Num.Theory.
Local Open Scope ring_scope.

Section Model.
(* numbers, texts, column labels, row labels *)
Variables (T : realFieldType) (S CL RL : eqType).

(* data_cleaner.py:62, 76: the cells of a DataFrame: a number (possibly inf or NaN; None
   and booleans count as numbers here) or a text *)
Inductive cell : Type := Num of xnum T | Txt of S.

(* data_cleaner.py:62, 76: the DataFrame: row labels, and labelled columns with one cell
   per row.  Column labels are assumed distinct. *)
Record table := Table { index : seq RL; columns : seq (CL * seq cell) }.

(* data_cleaner.py:54-59, the constructor arguments *)
Record params := Params {
  max_missing_frac_cols : T; max_missing_frac_rows : T; min_unique_values : nat;
  min_abs_scale : T; min_n_rows : nat }.

(* data_cleaner.py:58, clean_na_first; Bad is any other string *)
Inductive clean := Automatic | ColumnsFirst | RowsFirst | Bad.

(* the mutable attributes: clean_na_first (data_cleaner.py:58, 171) and the lists set by fit
   (data_cleaner.py:160, 190, 195) and transform (data_cleaner.py:166, 208, 214); None before they exist *)
Record state := State {
  clean_na_first : clean;
  non_numeric_cols : option (seq CL); cols_discrete : option (seq CL);
  cols_bad_scale : option (seq CL);
  cols_rownumbers : option (seq CL); cols_missings : option (seq CL);
  rows_missings : option (seq RL) }.

(* X.isna(), e.g. data_cleaner.py:208 *)
Definition isna (c : cell) : bool := if c is Num NaN then true else false.

(* X.replace([np.inf, -np.inf], np.nan), data_cleaner.py:86 and 173 *)
Definition inf_to_nan (c : cell) : cell :=
  match c with Num PInf | Num NInf => Num NaN | _ => c end.
(* the replacement on a whole DataFrame, data_cleaner.py:86 and 173 *)
Definition clean_inf (X : table) : table :=
  Table (index X) [seq (c.1, map inf_to_nan c.2) | c <- columns X].

(* DataFrame.drop(columns=...), e.g. data_cleaner.py:90; an unknown label raises KeyError *)
Definition drop_columns (names : seq CL) (X : table) : res table :=
  if all (fun a => a \in map fst (columns X)) names
  then Ok (Table (index X) [seq c <- columns X | c.1 \notin names])
  else Err KeyError.

(* DataFrame.drop(index=...), e.g. data_cleaner.py:100 *)
Definition drop_rows (names : seq RL) (X : table) : res table :=
  if all (fun a => a \in index X) names
  then let keep := [seq r \notin names | r <- index X] in
       Ok (Table (mask keep (index X)) [seq (c.1, mask keep c.2) | c <- columns X])
  else Err KeyError.

(* mean of a boolean array >= threshold; the mean of no entries is NaN
   (data_cleaner.py:208, 214) *)
Definition mean_ge (b : seq bool) (f : T) : bool :=
  (0 < size b)%N && (f <= (count id b)%:R / (size b)%:R).

(* data_cleaner.py:166; a text never equals a number *)
Definition is_rownumber (col : seq cell) : bool :=
  all (fun ic => if ic.2 is Num (Fin x) then x == ic.1%:R else false)
      (zip (iota 0 (size col)) col).

(* ---- fit *)

(* pd.to_numeric of a text (data_cleaner.py:161, 194), a parameter: None when it cannot
   be parsed *)
Variable parse : S -> option T.

(* data_cleaner.py:158-162 *)
Definition is_non_numeric (col : seq cell) : bool :=
  has (fun c => if c is Txt s then parse s == None else false) col.

(* nunique counts the distinct values that are not missing (data_cleaner.py:190) *)
Definition cell_eqb (c d : cell) : bool :=
  match c, d with
  | Txt s, Txt t => s == t
  | Num (Fin x), Num (Fin y) => x == y
  | Num PInf, Num PInf | Num NInf, Num NInf => true
  | _, _ => false
  end.
(* the distinct values behind X.nunique(), data_cleaner.py:190 *)
Fixpoint distinct (s : seq cell) : seq cell :=
  match s with
  | [::] => [::]
  | c :: s' => let r := distinct s' in if has (cell_eqb c) r then r else c :: r
  end.
(* data_cleaner.py:190 *)
Definition nunique (col : seq cell) : nat := size (distinct [seq c <- col | ~~ isna c]).

(* data_cleaner.py:194-202: the finite numbers of a column, and its scale test.  The
   replacement of True/False by NaN (line 197) is not modelled; a column without finite
   numbers has scale NaN and is not reported. *)
Fixpoint finite_values (col : seq cell) : seq T :=
  match col with
  | [::] => [::]
  | Num (Fin x) :: col' => x :: finite_values col'
  | Txt s :: col' => if parse s is Some x then x :: finite_values col' else finite_values col'
  | _ :: col' => finite_values col'
  end.
(* the scale test of one column, data_cleaner.py:195-202 *)
Definition bad_scale (min_abs : T) (col : seq cell) : bool :=
  (0 < size (finite_values col))%N && (fmad (finite_values col) <= min_abs).

(* names of the columns satisfying a test, X.columns[...].tolist()
   (data_cleaner.py:160, 190, 195, 208) *)
Definition names_of (p : seq cell -> bool) (X : table) : seq CL :=
  [seq c.1 | c <- [seq c <- columns X | p c.2]].

(* data_cleaner.py:62-74 *)
Definition fit (P : params) (st : state) (X : table) : res state :=
  let nn := names_of is_non_numeric X in
  let cd := names_of (fun col => nunique col <= min_unique_values P)%N X in
  do Y <- drop_columns (nn ++ cd) X;
  let bs := names_of (bad_scale (min_abs_scale P)) Y in
  Ok (State (clean_na_first st) (Some nn) (Some cd) (Some bs)
            (cols_rownumbers st) (cols_missings st) (rows_missings st)).

(* ---- transform *)

(* assignment to clean_na_first, data_cleaner.py:171 *)
Definition set_clean (st : state) (c : clean) : state :=
  State c (non_numeric_cols st) (cols_discrete st) (cols_bad_scale st)
        (cols_rownumbers st) (cols_missings st) (rows_missings st).
(* assignment to cols_rownumbers, data_cleaner.py:166 *)
Definition set_rownumbers (st : state) (l : seq CL) : state :=
  State (clean_na_first st) (non_numeric_cols st) (cols_discrete st) (cols_bad_scale st)
        (Some l) (cols_missings st) (rows_missings st).
(* assignment to cols_missings, data_cleaner.py:208 *)
Definition set_cols_missings (st : state) (l : seq CL) : state :=
  State (clean_na_first st) (non_numeric_cols st) (cols_discrete st) (cols_bad_scale st)
        (cols_rownumbers st) (Some l) (rows_missings st).
(* assignment to rows_missings, data_cleaner.py:214 *)
Definition set_rows_missings (st : state) (l : seq RL) : state :=
  State (clean_na_first st) (non_numeric_cols st) (cols_discrete st) (cols_bad_scale st)
        (cols_rownumbers st) (cols_missings st) (Some l).

(* data_cleaner.py:174, the lists of fit; without fit the attribute access raises *)
Definition fit_lists (st : state) : res (seq CL) :=
  match non_numeric_cols st, cols_discrete st, cols_bad_scale st with
  | Some a, Some b, Some c => Ok (a ++ b ++ c)
  | _, _, _ => Err AttributeError
  end.

(* the cells of row number i, as in X.isna().mean(axis=1), data_cleaner.py:214 *)
Definition row (X : table) (i : nat) : seq cell := [seq nth (Num NaN) c.2 i | c <- columns X].

(* data_cleaner.py:204-208 *)
Definition step_cols (P : params) (st : state) (X : table) : res unit * state :=
  match (if rows_missings st is Some l then drop_rows l X else Ok X) with
  | Ok Y => (Ok tt, set_cols_missings st
               (names_of (fun col => mean_ge (map isna col) (max_missing_frac_cols P)) Y))
  | Err e => (Err e, st)
  | NoFuel => (NoFuel, st)
  end.

(* data_cleaner.py:210-214 *)
Definition step_rows (P : params) (st : state) (X : table) : res unit * state :=
  match (if cols_missings st is Some l then drop_columns l X else Ok X) with
  | Ok Y => (Ok tt, set_rows_missings st
               (mask [seq mean_ge (map isna (row Y i)) (max_missing_frac_rows P)
                     | i <- iota 0 (size (index Y))] (index Y)))
  | Err e => (Err e, st)
  | NoFuel => (NoFuel, st)
  end.

(* two statements after each other, the first of which can raise: data_cleaner.py:177-178, 180-181 *)
Definition seq2 (f g : state -> res unit * state) (st : state) : res unit * state :=
  let '(r, st1) := f st in
  match r with Ok _ => g st1 | Err e => (Err e, st1) | NoFuel => (NoFuel, st1) end.

(* data_cleaner.py:170-171 *)
Definition resolve (st : state) (X : table) : state :=
  match clean_na_first st with
  | Automatic =>
      set_clean st (if (5 * size (index X) <= size (columns X))%N then ColumnsFirst else RowsFirst)
  | _ => st
  end.

(* data_cleaner.py:168-186 *)
Definition set_missing (P : params) (st : state) (X : table) : res unit * state :=
  let st1 := resolve st X in
  match (do l <- fit_lists st1; drop_columns l (clean_inf X)) with
  | Ok Y =>
      match clean_na_first st1 with
      | ColumnsFirst => seq2 (fun s => step_cols P s Y) (fun s => step_rows P s Y) st1
      | RowsFirst => seq2 (fun s => step_rows P s Y) (fun s => step_cols P s Y) st1
      | _ => (Err ValueError, st1)
      end
  | Err e => (Err e, st1)
  | NoFuel => (NoFuel, st1)
  end.

(* data_cleaner.py:90-98: all column labels to drop *)
Definition all_dropped (st : state) : res (seq CL) :=
  do l <- fit_lists st;
  match cols_rownumbers st, cols_missings st with
  | Some a, Some b => Ok (l ++ a ++ b)
  | _, _ => Err AttributeError
  end.

(* data_cleaner.py:76-104: the outcome and the object afterwards *)
Definition transform (P : params) (st : state) (X : table) : res table * state :=
  if (size (index X) < min_n_rows P)%N then (Err ValueError, st)
  else
    let X1 := clean_inf X in
    let st1 := set_rownumbers st (names_of is_rownumber X1) in
    let '(r, st2) := set_missing P st1 X1 in
    match r with
    | Ok _ =>
        ((do l <- all_dropped st2;
          do Y <- drop_columns l X1;
          drop_rows (if rows_missings st2 is Some l then l else [::]) Y), st2)
    | Err e => (Err e, st2)
    | NoFuel => (NoFuel, st2)
    end.

(* data_cleaner.py:106-148, the properties *)
Definition dropped_columns (st : state) : res (seq CL) :=
  match non_numeric_cols st, cols_rownumbers st, cols_discrete st, cols_bad_scale st,
        cols_missings st with
  | Some a, Some b, Some c, Some d, Some e => Ok (a ++ b ++ c ++ d ++ e)
  | _, _, _, _, _ => Err NotFittedError
  end.
(* the property dropped_rows, data_cleaner.py:135-148 *)
Definition dropped_rows (st : state) : res (seq RL) :=
  if rows_missings st is Some l then Ok l else Err NotFittedError.

(* a history of transform calls (data_cleaner.py:76-104) on one object, exceptions caught by the
   caller *)
Definition transforms (P : params) (st : state) (Xs : seq table) : state :=
  foldl (fun st X => (transform P st X).2) st Xs.

(* data_cleaner.py:54-60, a new object *)
Definition new_cleaner (c : clean) : state := State c None None None None None None.

End Model.
