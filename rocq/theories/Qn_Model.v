(* Model of robpy/univariate/qn.py. *)
From mathcomp Require Import all_ssreflect all_algebra.
From Verif Require Import RFieldLra Prelude WeightedMedian_Model.

Set Implicit Arguments.
Unset Strict Implicit.
Unset Printing Implicit Defensive.

Import Order.TTheory GRing.Theory Num.Theory.
Local Open Scope ring_scope.

(* a list comprehension or loop whose body can raise (qn.py:76-79) *)
Fixpoint mapM {A B : Type} (f : A -> res B) (l : seq A) : res (seq B) :=
  match l with
  | [::] => Ok [::]
  | a :: l' => do b <- f a; do r <- mapM f l'; Ok (b :: r)
  end.

Section Model.
Variable T : realFieldType.

(* Indexing of a NumPy array with a Python integer (qn.py:61, 79): negative indices wrap around
   once, anything else out of range raises IndexError. *)
Definition pyget (s : seq T) (i : int) : res T :=
  match i with
  | Posz m => if (m < size s)%N then Ok (nth 0 s m) else Err IndexError
  | Negz m => if (m < size s)%N then Ok (nth 0 s (size s - m.+1)) else Err IndexError
  end.

(* np.searchsorted(a, v, "left"/"right") on an ascending array (the sorter
   argument np.arange(n) of qn.py:63-64 is the identity) *)
Definition searchsorted_left (a : seq T) (v : T) : nat := count (fun z => z < v) a.
(* np.searchsorted(a, v, "right"), qn.py:64 *)
Definition searchsorted_right (a : seq T) (v : T) : nat := count (fun z => z <= v) a.

(* qn.py:59-61, weight, jhelp and work; i runs over the rows *)
Definition qn_weight (left right : seq nat) (i : nat) : int :=
  (nth 0%N right i)%:Z - (nth 0%N left i)%:Z + 1.

(* qn.py:60-61, jhelp and work of row i *)
Definition qn_work_row (y : seq T) (left right : seq nat) (i : nat) : res T :=
  let jhelp := (nth 0%N left i)%:Z + divz (qn_weight left right i) 2 in
  do v <- pyget y ((size y)%:Z - jhelp);
  Ok (nth 0 y i - v).

(* qn.py:63-64, with a = -np.flip(y) *)
Definition qn_P (y : seq T) (trial : T) : seq nat :=
  [seq searchsorted_left [seq - z | z <- rev y] (trial - yi) | yi <- y].
(* qn.py:64, with a = -np.flip(y) *)
Definition qn_Q (y : seq T) (trial : T) : seq nat :=
  [seq (searchsorted_right [seq - z | z <- rev y] (trial - yi)).+1 | yi <- y].

(* what the while loop (qn.py:58-73) leaves behind: either Qn (found = True, lines 72-73) or
   the arrays left, right and nL (found = False) *)
Inductive qn_state : Type :=
| QFound of T
| QExit of seq nat & seq nat & nat.

(* qn.py:58-73.  n = len(y); [nR - nL > n] is written without subtraction.
   np.sum(Q) - n (lines 68, 70) is a natural number because all entries of Q are
   at least 1.  The integer weights are passed to weighted_median as elements of
   T (an order embedding). *)
Fixpoint qn_loop (fuel : nat) (y : seq T) (knew : nat) (left right : seq nat)
    (nL nR : nat) : res qn_state :=
  match fuel with
  | 0 => NoFuel
  | fuel'.+1 =>
    let n := size y in
    if (n + nL < nR)%N then
      do work <- mapM (qn_work_row y left right) (iota 0 n);
      do trial <- weighted_median work [seq (qn_weight left right i)%:~R | i <- iota 0 n];
      let P := qn_P y trial in
      let Q := qn_Q y trial in
      if (knew <= sumn P)%N then qn_loop fuel' y knew left P nL (sumn P)
      else if (sumn Q - n < knew)%N then qn_loop fuel' y knew Q right (sumn Q - n)%N nR
      else Ok (QFound trial)
    else Ok (QExit left right nL)
  end.

(* qn.py:75-79: the remaining candidate differences; the index n - jj - 1 + 1
   is a Python integer *)
Definition qn_enum (y : seq T) (left right : seq nat) : res (seq T) :=
  let n := size y in
  do rows <- mapM (fun i =>
      let l := nth 0%N left i in
      let r := nth 0%N right i in
      if (l <= r)%N then
        mapM (fun jj => do v <- pyget y (n%:Z - jj%:Z - 1 + 1); Ok (nth 0 y i - v))
             (iota l (r + 1 - l))
      else Ok [::]) (iota 1 (n - 1));
  Ok (flatten rows).

(* qn.py:80-81: np.partition(work, k-1)[:k].max(); for k < 1 or k > len(work)
   NumPy raises ValueError (kth out of bounds, or max of an empty slice); a negative k
   does not occur (nL < knew, see the proofs) *)
Definition partition_max (work : seq T) (k : nat) : res T :=
  if (0 < k <= size work)%N then Ok (kth_smallest work k) else Err ValueError.

(* qn.py:46-56, initial values *)
Definition qn_h (n : nat) : nat := (n %/ 2 + 1)%N.
(* qn.py:48 *)
Definition qn_k (n : nat) : nat := (qn_h n * (qn_h n - 1) %/ 2)%N.
(* qn.py:52 *)
Definition qn_jhelp (n : nat) : nat := (n * (n + 1) %/ 2)%N.
(* qn.py:50 *)
Definition qn_left0 (n : nat) : seq nat := [seq (n + 1 - i)%N | i <- iota 0 n].
(* qn.py:51 *)
Definition qn_right0 (n : nat) : seq nat := nseq n n.

(* qn.py:46-81, the uncorrected scale.  The fuel n*n+1 is proved sufficient. *)
Definition qn_raw (X : seq T) : res T :=
  let n := size X in
  let y := fsort X in
  let knew := (qn_k n + qn_jhelp n)%N in
  do st <- qn_loop (n * n).+1 y knew (qn_left0 n) (qn_right0 n) (qn_jhelp n) (n * n)%N;
  match st with
  | QFound t => Ok t
  | QExit lft rgt nL =>
      do work <- qn_enum y lft rgt;
      partition_max work (knew - nL)
  end.

(* a decimal literal num/10^e (qn.py:87, 104-117) *)
Definition dec (num : nat) (e : nat) : T := num%:R / (10 ^ e)%:R.

(* qn.py:94-117.  DNDICT.get(n) gives None outside 2..9 (n <= 9); None * Qn would be a
   TypeError, represented by None here *)
Definition small_sample_dn (n : nat) : option T :=
  if (n <= 9)%N then
    nth None [:: None; None; Some (dec 399 3); Some (dec 994 3); Some (dec 512 3);
              Some (dec 844 3); Some (dec 611 3); Some (dec 857 3); Some (dec 669 3);
              Some (dec 872 3)] n
  else if odd n then Some (n%:R / (n%:R + dec 14 1))
  else Some (n%:R / (n%:R + dec 38 1)).

(* the consistency factor c = 2.219144 of qn.py:87 *)
Definition qn_c : T := 2%:R + dec 219 3 + dec 144 6.

(* qn.py:39-90: scale_ computed by Qn._calculate *)
Definition qn_scale (finite_correction consistency_correction : bool) (X : seq T) : res T :=
  do q <- qn_raw X;
  do q1 <- (if finite_correction then
              match small_sample_dn (size X) with
              | Some d => Ok (d * q)
              | None => Err TypeError
              end
            else Ok q);
  Ok (if consistency_correction then qn_c * q1 else q1).

End Model.
