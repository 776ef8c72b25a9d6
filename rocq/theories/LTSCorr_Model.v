(* Model of the small-sample correction factors of robpy/regression/lts.py:319-426, over the real
   numbers.  n and p are natural numbers, n at least 1. *)
From Coq Require Import Reals Lra.
From mathcomp Require Import all_ssreflect.
From Verif Require Import RFieldLra Prelude XR.

Set Implicit Arguments.
Unset Strict Implicit.
Unset Printing Implicit Defensive.

Local Open Scope R_scope.

(* the numerical constants of one of the two functions: (a, b) stands for the line
   1 - exp(a) / n**b (lts.py:332-333, 341-342 and 387-388, 396-397), and for p > 1 the pairs
   (c, d) of the rows [c, d, 3] and [c, d, 5] (lts.py:344-355, 399-410) *)
Record consts := Consts {
  zero_500 : R * R; zero_875 : R * R; one_500 : R * R; one_875 : R * R;
  q3_875 : R * R; q5_875 : R * R; q3_500 : R * R; q5_500 : R * R }.

(* lts.py:332-333, 341-342, 344-355 *)
Definition raw_consts : consts := Consts
  (0.262024211897096, 0.604756680630497) (-0.351584646688712, 1.01646567502486)
  (0.630869217886906, 0.650789250442946) (0.565065391014791, 1.03044199012509)
  (-0.458580153984614, 1.12236071104403) (-0.267178168108996, 1.1022478781154)
  (-0.746945886714663, 0.56264937192689) (-0.535478048924724, 0.543323462033445).

(* lts.py:387-388, 396-397, 399-410 *)
Definition rew_consts : consts := Consts
  (1.11098143415027, 1.5182890270453) (-0.66046776772861, 0.88939595831888)
  (1.58609654199605, 1.46340162526468) (0.391653958727332, 1.03167487483316)
  (-0.474174840843602, 1.39681715704956) (-0.276640353112907, 1.42543242287677)
  (-0.773365715932083, 2.02013996406346) (-0.337571678986723, 2.02037467454833).

(* 1 - exp(a) / n**b (lts.py:332-333, 341-342, 364-365) *)
Definition line (ab : R * R) (n : nat) : R := 1 - exp ab.1 / Rpower (INR n) ab.2.

(* np.log(-c / p**d) (lts.py:356-357) *)
Definition log_coef (cd : R * R) (p : nat) : R := ln (- cd.1 / Rpower (INR p) cd.2).

(* np.linalg.solve of the two equations x0 - log(3 p^2) x1 = y3, x0 - log(5 p^2) x1 = y5, written
   out (lts.py:358-361) *)
Definition solve (q3 q5 : R * R) (p : nat) : R * R :=
  let a3 := - ln (3 * INR p ^ 2) in let a5 := - ln (5 * INR p ^ 2) in
  let y3 := log_coef q3 p in let y5 := log_coef q5 p in
  let x1 := (y5 - y3) / (a5 - a3) in (y3 - a3 * x1, x1).

(* interpolation in alpha (lts.py:334-337, 367-370); 0.5, 0.875, 0.375 and 0.125 written as
   fractions *)
Definition interpolate (f500 f875 alpha : R) : R :=
  if Rleb alpha (7/8) then f500 + (f875 - f500) / (3/8) * (alpha - 1/2)
  else f875 + (1 - f875) / (1/8) * (alpha - (7/8)).

(* fp_alpha_n before the square root of the intercept-only case (lts.py:331-337, 339-370) *)
Definition fp (K : consts) (p n : nat) (alpha : R) : R :=
  match p with
  | 0%N => interpolate (line (zero_500 K) n) (line (zero_875 K) n) alpha
  | 1%N => interpolate (line (one_500 K) n) (line (one_875 K) n) alpha
  | _ => interpolate (line (solve (q3_500 K) (q5_500 K) p) n)
                     (line (solve (q3_875 K) (q5_875 K) p) n) alpha
  end.

(* lts.py:319-371 and 374-426 (square root of the intercept-only case: 338, 393):
   get_correction_factor with raw_consts,
   get_correction_factor_reweighting with rew_consts *)
Definition correction (K : consts) (p n : nat) (alpha : R) : res xr :=
  if Rltb alpha (1/2) || Rltb 1 alpha then Err ValueError
  else let f := fp K p n alpha in
       Ok (xdiv (XF 1) (if p is 0%N then xsqrt (XF f) else XF f)).
