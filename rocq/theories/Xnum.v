(* Numbers with the IEEE special values, for the places where robpy's control
   flow or results depend on NaN or infinities.  Zero is unsigned and taken
   as +0 when divided by. *)
From mathcomp Require Import all_ssreflect all_algebra.
From Verif Require Import RFieldLra Prelude.

Set Implicit Arguments.
Unset Strict Implicit.
Unset Printing Implicit Defensive.

Import Order.TTheory GRing.Theory Num.Theory.
Local Open Scope ring_scope.

(* a float64 in exact arithmetic: a number, an infinity or NaN (cells of the data, e.g.
   robpy/univariate/base.py:24-32) *)
Inductive xnum (A : Type) : Type := Fin of A | PInf | NInf | NaN.
Arguments PInf {A}.
Arguments NInf {A}.
Arguments NaN {A}.

Section Xnum.
Variable T : realFieldType.
Implicit Types (u v : xnum T).

(* np.isnan, e.g. robpy/univariate/base.py:29-32 *)
Definition is_nan u : bool := if u is NaN then true else false.

(* unary minus, e.g. robpy/covariance/cellmcd.py:198 *)
Definition xopp u : xnum T :=
  match u with Fin x => Fin (- x) | PInf => NInf | NInf => PInf | NaN => NaN end.

(* addition of floats, e.g. robpy/preprocessing/scaling.py:65 *)
Definition xadd u v : xnum T :=
  match u, v with
  | NaN, _ | _, NaN => NaN
  | Fin x, Fin y => Fin (x + y)
  | PInf, NInf | NInf, PInf => NaN
  | PInf, _ | _, PInf => PInf
  | NInf, _ | _, NInf => NInf
  end.

(* subtraction of floats, e.g. robpy/preprocessing/scaling.py:57 *)
Definition xsub u v := xadd u (xopp v).

(* an infinity with the sign of x, NaN when x = 0: inf * x and x / 0, e.g.
   robpy/utils/median.py:20-21 *)
Definition inf_sign (x : T) : xnum T :=
  if 0 < x then PInf else if x < 0 then NInf else NaN.

(* multiplication of floats, e.g. robpy/preprocessing/scaling.py:65 *)
Definition xmul u v : xnum T :=
  match u, v with
  | NaN, _ | _, NaN => NaN
  | Fin x, Fin y => Fin (x * y)
  | PInf, Fin y => inf_sign y
  | NInf, Fin y => inf_sign (- y)
  | Fin x, PInf => inf_sign x
  | Fin x, NInf => inf_sign (- x)
  | PInf, PInf | NInf, NInf => PInf
  | PInf, NInf | NInf, PInf => NInf
  end.

(* division of floats, e.g. robpy/preprocessing/scaling.py:57: 0/0 = NaN, x/0 = +-inf, x/inf = 0 *)
Definition xdiv u v : xnum T :=
  match u, v with
  | NaN, _ | _, NaN => NaN
  | Fin x, Fin y => if y == 0 then inf_sign x else Fin (x / y)
  | Fin _, _ => Fin 0
  | PInf, Fin y => if 0 <= y then PInf else NInf
  | NInf, Fin y => if 0 <= y then NInf else PInf
  | _, _ => NaN
  end.

(* the comparison <, e.g. robpy/univariate/mcd.py:67; anything involving NaN is false *)
Definition xlt u v : bool :=
  match u, v with
  | NaN, _ | _, NaN => false
  | Fin x, Fin y => x < y
  | NInf, NInf => false
  | NInf, _ => true
  | _, NInf => false
  | PInf, _ => false
  | _, PInf => true
  end.

(* the comparison <=, e.g. robpy/univariate/onestep_m.py:125-127; anything involving NaN is false *)
Definition xle u v : bool :=
  match u, v with
  | NaN, _ | _, NaN => false
  | Fin x, Fin y => x <= y
  | NInf, _ => true
  | _, PInf => true
  | _, NInf => false
  | PInf, _ => false
  end.

(* np.abs, e.g. robpy/univariate/onestep_m.py:125 *)
Definition xabs u : xnum T :=
  match u with Fin x => Fin `|x| | PInf | NInf => PInf | NaN => NaN end.

(* apply a function to the finite values only, e.g. np.sqrt in robpy/utils/median.py:19 *)
Definition xmap (f : T -> T) u : xnum T := if u is Fin x then Fin (f x) else u.

(* np.sum over values that may be NaN or infinite, e.g. robpy/utils/median.py:19-22 *)
Definition xsum (s : seq (xnum T)) : xnum T := foldr xadd (Fin 0) s.

Lemma xadd_nan_l v : xadd NaN v = NaN. Proof. by []. Qed.
Lemma xadd_nan_r u : xadd u NaN = NaN. Proof. by case: u. Qed.
Lemma xmul_nan_l v : xmul NaN v = NaN. Proof. by []. Qed.
Lemma xmul_nan_r u : xmul u NaN = NaN. Proof. by case: u. Qed.
Lemma xdiv_nan_l v : xdiv NaN v = NaN. Proof. by []. Qed.
Lemma xdiv_nan_r u : xdiv u NaN = NaN. Proof. by case: u. Qed.
Lemma xlt_nan_l v : xlt NaN v = false. Proof. by []. Qed.
Lemma xlt_nan_r u : xlt u NaN = false. Proof. by case: u. Qed.

Lemma xsum_nan s : has is_nan s -> xsum s = NaN.
Proof.
elim: s => //= u s IH /orP[|/IH ->]; first by case: u.
by rewrite xadd_nan_r.
Qed.

Lemma xsum_fin (s : seq T) : xsum [seq Fin x | x <- s] = Fin (fsum s).
Proof. by elim: s => //= x s ->. Qed.

End Xnum.
