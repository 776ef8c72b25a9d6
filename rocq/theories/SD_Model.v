(* Model of robpy/utils/outlyingness.py. *)
From mathcomp Require Import all_ssreflect all_algebra.
From Verif Require Import RFieldLra Prelude Stats Xnum Qn_Model Vec.

Set Implicit Arguments.
Unset Strict Implicit.
Unset Printing Implicit Defensive.

Import Order.TTheory GRing.Theory Num.Theory.
Local Open Scope ring_scope.

Section Model.
Variables (T : rcfType) (p : nat).
Notation vec := 'rV[T]_p.
Implicit Types (X : seq vec).

(* np.max (outlyingness.py:47) of two entries: NaN as soon as one is NaN *)
Definition xmax2 (u v : xnum T) : xnum T :=
  if is_nan u || is_nan v then NaN else if xle u v then v else u.
(* np.max of a non-empty array (outlyingness.py:47-51) *)
Definition xmaxs (s : seq (xnum T)) : xnum T := foldr xmax2 (head NaN s) s.

(* np.random.default_rng(seed).choice(n, k, replace=False): with a seed a function of the
   seed, without one fresh entropy for each generator, hence for each call number *)
Variable seeded : nat -> nat -> nat -> seq nat.
Variable entropy : nat -> nat -> nat -> seq nat.
(* np.linalg.svd(vectors)[-1][-1] *)
Variable svd_last : seq vec -> vec.

(* outlyingness.py:69-70; choice raises ValueError when k > n *)
Definition choose (seed : option nat) (call n k : nat) : res (seq nat) :=
  if (n < k)%N then Err ValueError
  else Ok (if seed is Some r then seeded r n k else entropy call n k).

(* outlyingness.py:81; None is the vector of NaNs obtained when the norm is zero *)
Definition normalize (d : vec) : option vec :=
  if vnorm d == 0 then None else Some ((vnorm d)^-1 *: d).

(* outlyingness.py:54-81; points[0] of an empty selection raises IndexError *)
Definition get_random_direction X (n_points : nat) (seed : option nat) (call : nat)
  : res (option vec) :=
  do idx <- choose seed call (size X) n_points;
  let points := [seq nth 0 X i | i <- idx] in
  if n_points == 2%N then Ok (normalize (nth 0 points 0 - nth 0 points 1))
  else if n_points is 0%N then Err IndexError
  else Ok (normalize (svd_last [seq x - nth 0 points 0 | x <- points])).

(* outlyingness.py:43, one column of the projections *)
Definition projections X (d : vec) : seq T := [seq dotv x d | x <- X].

(* outlyingness.py:48-49, the entry of one observation and one direction *)
Definition dir_outlyingness X (d : option vec) (x : vec) : xnum T :=
  if d is Some v then
    xdiv (Fin `|dotv x v - fmed (projections X v)|) (Fin (fmad (projections X v)))
  else NaN.

(* outlyingness.py:43-51 *)
Definition outlyingness X (D : seq (option vec)) : seq (xnum T) :=
  [seq xmaxs [seq dir_outlyingness X d x | d <- D] | x <- X].

(* outlyingness.py:35-51; np.hstack of an empty list raises ValueError *)
Definition stahel_donoho X (n_points n_dir : nat) (seed : option nat) : res (seq (xnum T)) :=
  do D <- mapM (get_random_direction X n_points seed) (iota 0 n_dir);
  if D is [::] then Err ValueError else Ok (outlyingness X D).

End Model.
