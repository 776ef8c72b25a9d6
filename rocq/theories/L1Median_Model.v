(* Model of l1median (robpy/utils/median.py:4-25). *)
From mathcomp Require Import all_ssreflect all_algebra.
From Verif Require Import RFieldLra Prelude Xnum.

Set Implicit Arguments.
Unset Strict Implicit.
Unset Printing Implicit Defensive.

Import Order.TTheory GRing.Theory Num.Theory.
Local Open Scope ring_scope.

Section Model.
Variables (T : rcfType) (p : nat).
(* finite data, one row vector per observation; centres may contain NaN or infinities *)
Implicit Types (X : seq 'rV[T]_p) (mu : 'rV[xnum T]_p).

(* np.sqrt (median.py:19); only called on sums of squares *)
Definition xsqrt (u : xnum T) : xnum T := xmap Num.sqrt u.

(* median.py:18-19, the distance of one row *)
Definition l1_dist mu (x : 'rV[T]_p) : xnum T :=
  xsqrt (xsum [seq xmul (xsub (Fin (x 0 j)) (mu 0 j)) (xsub (Fin (x 0 j)) (mu 0 j))
              | j <- enum 'I_p]).

(* median.py:20 *)
Definition l1_weight mu (x : 'rV[T]_p) : xnum T := xdiv (Fin 1) (l1_dist mu x).

(* median.py:21 *)
Definition l1_step X mu : 'rV[xnum T]_p :=
  let sw := xsum [seq l1_weight mu x | x <- X] in
  \row_j xsum [seq xdiv (xmul (Fin (x 0 j)) (l1_weight mu x)) sw | x : 'rV[T]_p <- X].

(* median.py:22 *)
Definition l1_close (eps : T) mu0 mu1 : bool :=
  xlt (xsum [seq xabs (xsub (mu0 0 j) (mu1 0 j)) | j <- enum 'I_p]) (Fin eps).

(* median.py:17-25; [NoFuel] after [fuel] iterations without a return *)
Fixpoint l1_loop (fuel : nat) (eps : T) X mu0 : res 'rV[xnum T]_p :=
  if fuel is fuel'.+1 then
    let mu1 := l1_step X mu0 in
    if l1_close eps mu0 mu1 then Ok mu1 else l1_loop fuel' eps X mu1
  else NoFuel.

(* median.py:16; np.mean of no rows is NaN *)
Definition l1_start X : 'rV[xnum T]_p :=
  \row_j xdiv (Fin (fsum [seq x 0 j | x : 'rV_p <- X])) (Fin (size X)%:R).

(* median.py:4-25; the code has eps = 1e-7 *)
Definition l1median (fuel : nat) (eps : T) X : res 'rV[xnum T]_p :=
  l1_loop fuel eps X (l1_start X).

End Model.
