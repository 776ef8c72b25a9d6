(* Model of robpy/utils/median.py: weighted_median. *)
From mathcomp Require Import all_ssreflect all_algebra.
From Verif Require Import RFieldLra Prelude.

Set Implicit Arguments.
Unset Strict Implicit.
Unset Printing Implicit Defensive.

Import Order.TTheory GRing.Theory Num.Theory.
Local Open Scope ring_scope.

Section Model.
Variable T : realFieldType.

(* robpy/utils/median.py:47-68, the [while True] loop.  State: the current
   [X] (= [Xcand] at the loop head, lines 46 and 66), [weights], [wrest],
   [wtotal]; [n] is len(X) (lines 43, 68).  [mask [seq ..] s] is NumPy's boolean
   indexing.  Exact numbers instead of floats; NaN data are not modelled.
   One unit of fuel per iteration. *)
Fixpoint wm_loop (fuel : nat) (X ws : seq T) (wrest wtotal : T) : res T :=
  match fuel with
  | 0 => NoFuel
  | fuel'.+1 =>
    let n := size X in
    let k := uphalf n in
    if (1 < n)%N then
      let trial := kth_smallest X k in
      if size ws != n then Err IndexError else
      let wleft := fsum (mask [seq x < trial | x <- X] ws) in
      let wmid := fsum (mask [seq x == trial | x <- X] ws) in
      if wtotal < 2%:R * (wrest + wleft) then
        wm_loop fuel' (mask [seq x < trial | x <- X] X)
          (mask [seq x < trial | x <- X] ws) wrest wtotal
      else if wtotal < 2%:R * (wrest + wleft + wmid) then Ok trial
      else
        wm_loop fuel' (mask [seq trial < x | x <- X] X)
          (mask [seq trial < x | x <- X] ws) (wrest + wleft + wmid) wtotal
    else
      if X is x :: _ then Ok x else Err IndexError
  end.

(* robpy/utils/median.py:28-68.  The fuel is proved sufficient for every
   input (theorem weighted_median_terminates). *)
Definition weighted_median (X ws : seq T) : res T :=
  wm_loop (size X).+1 X ws 0 (fsum ws).

End Model.
