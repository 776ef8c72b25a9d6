(* Real numbers (Coq.Reals) with the IEEE special values, and the NumPy
   functions on them that the power transformations use.  Zero is unsigned and
   taken as +0 when divided by. *)
From Coq Require Import Reals Lra.
From mathcomp Require Import all_ssreflect.

Set Implicit Arguments.
Unset Strict Implicit.
Unset Printing Implicit Defensive.

Local Open Scope R_scope.

(* a NumPy float64: a (rounding-free) number, an infinity or NaN; used for the
   entries of the arrays in robpy/preprocessing/transfo.py 50-586 *)
Inductive xr : Type := XF of R | XP | XN | XNaN.

(* comparisons of real numbers as booleans; the operators <, <=, == of
   robpy/preprocessing/transfo.py 106-440 on finite numbers *)
Definition Rltb (x y : R) : bool := if Rlt_dec x y then true else false.
(* robpy/preprocessing/transfo.py 98-552: <= on finite numbers *)
Definition Rleb (x y : R) : bool := if Rle_dec x y then true else false.
(* robpy/preprocessing/transfo.py 98-552: == on finite numbers *)
Definition Reqb (x y : R) : bool := if Req_EM_T x y then true else false.

Lemma RltbP x y : reflect (x < y) (Rltb x y).
Proof. by rewrite /Rltb; case: Rlt_dec => h; constructor. Qed.
Lemma RlebP x y : reflect (x <= y) (Rleb x y).
Proof. by rewrite /Rleb; case: Rle_dec => h; constructor. Qed.
Lemma ReqbP x y : reflect (x = y) (Reqb x y).
Proof. by rewrite /Reqb; case: Req_EM_T => h; constructor. Qed.

(* np.isnan, robpy/preprocessing/transfo.py 497 *)
Definition xisnan (u : xr) : bool := if u is XNaN then true else false.
(* robpy/preprocessing/transfo.py 98-552: a finite number *)
Definition xisfin (u : xr) : bool := if u is XF _ then true else false.

(* IEEE comparison <, false when an operand is NaN;
   robpy/preprocessing/transfo.py 237-253, 274-276 *)
Definition xltb (u v : xr) : bool :=
  match u, v with
  | XNaN, _ | _, XNaN => false
  | XF x, XF y => Rltb x y
  | XN, XN | XP, _ | _, XN => false
  | XN, _ | _, XP => true
  end.

(* IEEE comparison <=, false when an operand is NaN;
   robpy/preprocessing/transfo.py 106, 262, 323 *)
Definition xleb (u v : xr) : bool :=
  match u, v with
  | XNaN, _ | _, XNaN => false
  | XF x, XF y => Rleb x y
  | XN, _ | _, XP => true
  | XP, _ | _, XN => false
  end.

(* the order np.sort uses: NaN last; robpy/preprocessing/transfo.py 58, 484 *)
Definition xsortle (u v : xr) : bool :=
  match u, v with
  | _, XNaN => true
  | XNaN, _ => false
  | _, _ => xleb u v
  end.

(* arithmetic of float64 values; robpy/preprocessing/transfo.py 98-552 *)
Definition xopp (u : xr) : xr :=
  match u with XF x => XF (- x) | XP => XN | XN => XP | XNaN => XNaN end.
(* robpy/preprocessing/transfo.py 98-552: addition *)
Definition xadd (u v : xr) : xr :=
  match u, v with
  | XNaN, _ | _, XNaN => XNaN
  | XF x, XF y => XF (x + y)
  | XP, XN | XN, XP => XNaN
  | XP, _ | _, XP => XP
  | XN, _ | _, XN => XN
  end.
(* robpy/preprocessing/transfo.py 98-552: subtraction *)
Definition xsub (u v : xr) : xr := xadd u (xopp v).
(* an infinity with the sign of x, NaN when x = 0 (products such as inf * x);
   robpy/preprocessing/transfo.py 98-552 *)
Definition xinf (x : R) : xr :=
  if Rltb 0 x then XP else if Rltb x 0 then XN else XNaN.
(* robpy/preprocessing/transfo.py 98-552: multiplication *)
Definition xmul (u v : xr) : xr :=
  match u, v with
  | XNaN, _ | _, XNaN => XNaN
  | XF x, XF y => XF (x * y)
  | XP, XF y => xinf y
  | XN, XF y => xinf (- y)
  | XF x, XP => xinf x
  | XF x, XN => xinf (- x)
  | XP, XP | XN, XN => XP
  | XP, XN | XN, XP => XN
  end.
(* robpy/preprocessing/transfo.py 98-552: division: 0/0 = NaN, x/0 = +-inf, x/inf = 0 *)
Definition xdiv (u v : xr) : xr :=
  match u, v with
  | XNaN, _ | _, XNaN => XNaN
  | XF x, XF y => if Reqb y 0 then xinf x else XF (x / y)
  | XF _, _ => XF 0
  | XP, XF y => if Rleb 0 y then XP else XN
  | XN, XF y => if Rleb 0 y then XN else XP
  | _, _ => XNaN
  end.
(* np.abs, robpy/preprocessing/transfo.py 541, 578 *)
Definition xabs (u : xr) : xr :=
  match u with XF x => XF (Rabs x) | XP | XN => XP | XNaN => XNaN end.
(* np.sign, robpy/preprocessing/transfo.py 578 *)
Definition xsign (u : xr) : xr :=
  match u with
  | XF x => XF (if Rltb 0 x then 1 else if Rltb x 0 then -1 else 0)
  | XP => XF 1 | XN => XF (-1) | XNaN => XNaN
  end.
(* np.sqrt, robpy/preprocessing/transfo.py 547 (inside np.std) *)
Definition xsqrt (u : xr) : xr :=
  match u with
  | XF x => if Rltb x 0 then XNaN else XF (sqrt x)
  | XP => XP | XN | XNaN => XNaN
  end.

(* np.log: -inf at 0, NaN below; robpy/preprocessing/transfo.py 278-279, 328,
   347, 351, 569 *)
Definition xlog (u : xr) : xr :=
  match u with
  | XF x => if Rltb 0 x then XF (ln x) else if Reqb x 0 then XN else XNaN
  | XP => XP | XN | XNaN => XNaN
  end.
(* np.exp; robpy/preprocessing/transfo.py 448, 460, 466 *)
Definition xexp (u : xr) : xr :=
  match u with XF x => XF (exp x) | XP => XP | XN => XF 0 | XNaN => XNaN end.

(* is the exponent an integer / an odd integer (needed for the power of a
   negative base); robpy/preprocessing/transfo.py 282-468 *)
Definition Risint (y : R) : bool := Reqb y (IZR (Int_part y)).
(* robpy/preprocessing/transfo.py 98-552: an odd integer exponent *)
Definition Risodd (y : R) : bool := Risint y && Z.odd (Int_part y).

(* x ** y for a scalar exponent (C pow): NaN for a negative base with a
   non-integer exponent, inf for 0 to a negative power;
   robpy/preprocessing/transfo.py 282-284, 330, 348-354, 382-410, 450, 461-469 *)
Definition xpow (u : xr) (y : R) : xr :=
  match u with
  | XF x =>
    if Rltb 0 x then XF (Rpower x y)
    else if Reqb y 0 then XF 1
    else if Reqb x 0 then (if Rltb 0 y then XF 0 else XP)
    else if Risint y then
      XF (if Risodd y then - Rpower (- x) y else Rpower (- x) y)
    else XNaN
  | XP => if Rltb 0 y then XP else if Reqb y 0 then XF 1 else XF 0
  | XN => if Reqb y 0 then XF 1
          else if Rltb 0 y then (if Risodd y then XN else XP) else XF 0
  | XNaN => if Reqb y 0 then XF 1 else XNaN
  end.

(* np.sum, np.mean (NaN for an empty array), np.std;
   robpy/preprocessing/transfo.py 505, 547-550, 567-568 *)
Definition xsum (s : seq xr) : xr := foldl xadd (XF 0) s.
(* robpy/preprocessing/transfo.py 98-552: np.mean (NaN for an empty array; line 548) *)
Definition xmean (s : seq xr) : xr := xdiv (xsum s) (XF (INR (size s))).
(* robpy/preprocessing/transfo.py 98-552: np.var inside np.std (lines 547-550) *)
Definition xvar (s : seq xr) : xr :=
  xmean [seq xmul (xsub u (xmean s)) (xsub u (xmean s)) | u <- s].
(* robpy/preprocessing/transfo.py 98-552: np.std (lines 547-550) *)
Definition xstd (s : seq xr) : xr := xsqrt (xvar s).

(* minimum and maximum of two values as NumPy's reductions take them: NaN if
   one is NaN; robpy/preprocessing/transfo.py 106, 237, 246 *)
Definition xmin2 (u v : xr) : xr :=
  match u, v with XNaN, _ | _, XNaN => XNaN | _, _ => if xltb v u then v else u end.
(* robpy/preprocessing/transfo.py 98-552: np.max of two values: NaN if one is NaN (line 246) *)
Definition xmax2 (u v : xr) : xr :=
  match u, v with XNaN, _ | _, XNaN => XNaN | _, _ => if xltb u v then v else u end.

(* Python's built-in min and max of two numbers: the first one unless the
   second compares smaller (larger); robpy/preprocessing/transfo.py 312-317,
   436-441 *)
Definition pymin (u v : xr) : xr := if xltb v u then v else u.
(* robpy/preprocessing/transfo.py 98-552: Python's built-in max (lines 312-317, 436-441) *)
Definition pymax (u v : xr) : xr := if xltb u v then v else u.
