(* robpy/preprocessing/transfo.py: RobustPowerTransformer.

   Numbers are float64 values without rounding (XR).  External numerical
   routines are Section variables, i.e. the results hold for whatever they
   compute: scipy's bounded scalar minimiser, the normal and chi-square
   quantiles, HuberOneStepM and the Tukey loss (the last two are modelled and
   verified in OneStepM_Model.v and Rho_Model.v). *)
From Coq Require Import Reals.
From mathcomp Require Import all_ssreflect.
From Verif Require Import Prelude XR.

Set Implicit Arguments.
Unset Strict Implicit.
Unset Printing Implicit Defensive.

Local Open Scope R_scope.

(* dtype of an input array: np.zeros_like(x) (transfo.py 266, 344, 369, 457)
   copies it *)
Inductive dtype := I64 | F64.

(* assignment of a number into an integer array (transfo.py 278-284, 347-354, 382-410, 460-469):
   rounding towards zero *)
Definition Rtrunc (r : R) : R :=
  if Rleb 0 r then IZR (Int_part r) else - IZR (Int_part (- r)).

(* xt[mask] = v where xt = np.zeros_like(x) has the dtype of x
   (transfo.py 278-284, 347-354, 382-410, 460-469): an integer array truncates;
   NaN and infinities become the smallest 64-bit integer *)
Definition store (d : dtype) (v : xr) : xr :=
  match d, v with
  | F64, _ => v
  | I64, XF r => XF (Rtrunc r)
  | I64, _ => XF (IZR (-9223372036854775808))
  end.

(* np.min / np.max (transfo.py 106, 237, 246, 262, 323, 590, 593): ValueError
   on an empty array, NaN if there is a NaN *)
Definition np_min (x : seq xr) : res xr :=
  if x is a :: s then Ok (foldl xmin2 a s) else Err ValueError.
(* np.max (transfo.py 246) *)
Definition np_max (x : seq xr) : res xr :=
  if x is a :: s then Ok (foldl xmax2 a s) else Err ValueError.

(* the check "if np.min(x) <= 0: raise ValueError" (transfo.py 106-110,
   262-265, 323-326, 590-591) *)
Definition check_positive (x : seq xr) : res unit :=
  do m <- np_min x; if xleb m (XF 0) then Err ValueError else Ok tt.

(* x[i] for a non-negative index (transfo.py 301-302, 317, 425-426, 441) *)
Definition np_get (x : seq xr) (i : nat) : res xr :=
  if (i < size x)%N then Ok (nth XNaN x i) else Err IndexError.

(* one entry of _transf_boxcox, transfo.py 327-330 *)
Definition bc1 (lam : R) (x : xr) : xr :=
  if Reqb lam 0 then xlog x
  else xdiv (xsub (xpow x lam) (XF 1)) (XF lam).

(* _transf_boxcox(x, my_lambda)[0], transfo.py 321-338 *)
Definition transf_boxcox (x : seq xr) (lam : R) : res (seq xr) :=
  do _ <- check_positive x; Ok [seq bc1 lam u | u <- x].

(* one entry of _inv_transf_boxcox, transfo.py 445-451 *)
Definition inv_bc1 (lam : R) (x : xr) : xr :=
  if Reqb lam 0 then xexp x
  else xpow (xadd (xmul x (XF lam)) (XF 1)) (1 / lam).

(* one entry of _transf_yeojohnson, transfo.py 343-354; a NaN is not >= 0 and
   takes the second branch *)
Definition yj1 (lam : R) (x : xr) : xr :=
  if xleb (XF 0) x then
    (if Reqb lam 0 then xlog (xadd (XF 1) x)
     else xdiv (xsub (xpow (xadd (XF 1) x) lam) (XF 1)) (XF lam))
  else
    (if Reqb lam 2 then xopp (xlog (xsub (XF 1) x))
     else xdiv (xopp (xsub (xpow (xsub (XF 1) x) (2 - lam)) (XF 1))) (XF (2 - lam))).

(* _transf_yeojohnson(x, my_lambda)[0], transfo.py 340-362 *)
Definition transf_yeojohnson (d : dtype) (x : seq xr) (lam : R) : seq xr :=
  [seq store d (yj1 lam u) | u <- x].

(* one entry of _inv_transf_yeojohnson, transfo.py 456-471 *)
Definition inv_yj1 (lam : R) (x : xr) : xr :=
  if xleb (XF 0) x then
    (if Reqb lam 0 then xsub (xexp x) (XF 1)
     else xsub (xpow (xadd (xmul (XF lam) x) (XF 1)) (1 / lam)) (XF 1))
  else
    (if Reqb lam 2 then xsub (XF 1) (xexp (xopp x))
     else xsub (XF 1) (xpow (xadd (XF 1) (xmul (XF (lam - 2)) x)) (1 / (2 - lam)))).

(* _inv_transf_yeojohnson, transfo.py 453-473 *)
Definition inv_transf_yeojohnson (d : dtype) (x : seq xr) (lam : R) : seq xr :=
  [seq store d (inv_yj1 lam u) | u <- x].

(* positions of the quartiles, transfo.py 301-302, 425-426:
   int(ceil(n/4) - 1) and int(n - ceil(n/4)) *)
Definition q1_idx (n : nat) : nat := ((n + 3) %/ 4).-1.
(* int(n - ceil(n/4)), transfo.py 302, 426 *)
Definition q3_idx (n : nat) : nat := (n - (n + 3) %/ 4)%N.

(* factor = 1.5 and eps = 1e-5, transfo.py 297, 421 *)
Definition factor : R := 15 / 10.
(* eps = 1e-5, transfo.py 297, 421 *)
Definition eps : R := 1 / 100000.

(* _get_rectified_boxcox_changepoint, transfo.py 296-319; x is sorted *)
Definition bc_changepoint (x : seq xr) (lam : R) : res xr :=
  let n := size x in
  do q1 <- np_get x (q1_idx n);
  do q3 <- np_get x (q3_idx n);
  do c0 <- (if Rltb lam 1 then
              do t <- transf_boxcox [:: q3] lam; Ok (xmul (nth XNaN t 0) (XF factor))
            else if Rltb 1 lam then
              do t <- transf_boxcox [:: q1] lam; Ok (xmul (nth XNaN t 0) (XF factor))
            else Err ValueError);
  let c1 := if Rltb lam 0 then pymin c0 (XF (Rabs (1 / lam) - eps))
            else if Rltb 0 lam then pymax c0 (XF (- 1 / lam + eps))
            else c0 in
  do lo <- np_get x 0;
  do hi <- np_get x n.-1;
  Ok (pymin (pymax (inv_bc1 lam c1) lo) hi).

(* one entry of _transf_boxcox_rectified for my_lambda != 1 and a given
   changepoint, transfo.py 273-286 *)
Definition bc_rect1 (lam : R) (cp x : xr) : xr :=
  let mask := if Rltb 1 lam then xltb x cp else xltb cp x in
  if Reqb lam 0 then
    if mask then xadd (xlog cp) (xdiv (xsub x cp) cp) else xlog x
  else
    if mask then
      xadd (xdiv (xsub (xpow cp lam) (XF 1)) (XF lam))
           (xmul (xsub x cp) (xpow cp (lam - 1)))
    else xdiv (xsub (xpow x lam) (XF 1)) (XF lam).

(* _transf_boxcox_rectified(x, my_lambda)[0], transfo.py 257-286 *)
Definition boxcox_rectified (d : dtype) (x : seq xr) (lam : R) : res (seq xr) :=
  do _ <- check_positive x;
  if Reqb lam 1 then Ok [seq xsub u (XF 1) | u <- x]
  else
    do cp <- bc_changepoint x lam;
    Ok [seq store d (bc_rect1 lam cp u) | u <- x].

(* _get_rectified_yeojohnson_changepoint, transfo.py 420-443; x is sorted.
   Q1 and Q3 are scalars with the dtype of x, the product with the float factor
   is a float; the result has the dtype of x if it is x[0] or x[n - 1] *)
Definition yj_changepoint (d : dtype) (x : seq xr) (lam : R) : res (dtype * xr) :=
  let n := size x in
  do q1 <- np_get x (q1_idx n);
  do q3 <- np_get x (q3_idx n);
  do c0 <- (if Rltb lam 1 then Ok (xmul (store d (yj1 lam q3)) (XF factor))
            else if Rltb 1 lam then Ok (xmul (store d (yj1 lam q1)) (XF factor))
            else Err ValueError);
  let c1 := if Rltb lam 0 then pymin c0 (XF (Rabs (1 / lam) - eps))
            else if Rltb 2 lam then pymax c0 (XF (1 / (2 - lam) + eps))
            else c0 in
  do lo <- np_get x 0;
  do hi <- np_get x n.-1;
  let c2 := inv_yj1 lam c1 in
  let c3 := if xltb c2 lo then (d, lo) else (F64, c2) in
  Ok (if xltb hi c3.2 then (d, hi) else c3).

(* one entry of _transf_yeojohnson_rectified for my_lambda != 1 and a given
   changepoint of dtype dcp, transfo.py 376-410; later assignments overwrite
   earlier ones *)
Definition yj_rect1 (lam : R) (dcp : dtype) (cp x : xr) : xr :=
  let neg := xltb x (XF 0) in
  let pos := xleb (XF 0) x in
  if Rltb 1 lam then
    let lower := xltb x cp in
    let upper := xleb cp x && neg in
    let v0 := if pos then xdiv (xsub (xpow (xadd (XF 1) x) lam) (XF 1)) (XF lam)
              else XF 0 in
    if Reqb lam 2 then
      let v1 := if upper then xopp (xlog (xsub (XF 1) x)) else v0 in
      if lower then xadd (xopp (xlog (xsub (XF 1) cp)))
                         (xdiv (xsub x cp) (xsub (XF 1) cp))
      else v1
    else
      let v1 := if upper then
                  xdiv (xopp (xsub (xpow (xsub (XF 1) x) (2 - lam)) (XF 1))) (XF (2 - lam))
                else v0 in
      if lower then xadd (store dcp (yj1 lam cp))
                         (xmul (xsub x cp) (xpow (xadd (XF 1) (xabs cp)) (1 - lam)))
      else v1
  else
    let upper := xltb cp x in
    let lower := pos && xleb x cp in
    let v0 := if neg then
                xdiv (xopp (xsub (xpow (xsub (XF 1) x) (2 - lam)) (XF 1))) (XF (2 - lam))
              else XF 0 in
    if Reqb lam 0 then
      let v1 := if lower then xlog (xadd (XF 1) x) else v0 in
      if upper then xadd (xlog (xadd (XF 1) cp))
                         (xdiv (xsub x cp) (xadd (XF 1) cp))
      else v1
    else
      let v1 := if lower then xdiv (xsub (xpow (xadd (XF 1) x) lam) (XF 1)) (XF lam)
                else v0 in
      if upper then xadd (store dcp (yj1 lam cp))
                         (xmul (xsub x cp) (xpow (xadd (XF 1) (xabs cp)) (lam - 1)))
      else v1.

(* _transf_yeojohnson_rectified(x, my_lambda)[0], transfo.py 364-410 *)
Definition yeojohnson_rectified (d : dtype) (x : seq xr) (lam : R) : res (seq xr) :=
  if Reqb lam 1 then Ok x
  else
    do cp <- yj_changepoint d x lam;
    Ok [seq store d (yj_rect1 lam cp.1 cp.2 u) | u <- x].

(* self.method, transfo.py 43; any other string is [Other] *)
Inductive meth := Boxcox | Yeojohnson | Auto | Other.

(* self.method == "boxcox", transfo.py 82, 105, 133, 589 *)
Definition is_boxcox m := if m is Boxcox then true else false.
(* self.method == "auto", transfo.py 62, 73, 76, 592 *)
Definition is_auto m := if m is Auto then true else false.

(* self.lambda_range: __init__ makes it a Python list (transfo.py 45); the
   assignments in transfo.py 176-178, 212-214 would make it a NumPy array *)
Inductive range := PyList of R & R | NdArr of R & R.
(* lambda_range[0], transfo.py 45 *)
Definition lo_of r := match r with PyList a _ | NdArr a _ => a end.
(* lambda_range[1], transfo.py 45 *)
Definition hi_of r := match r with PyList _ b | NdArr _ b => b end.

(* lambdarange - 1 (transfo.py 176, 212): a list does not support "-" *)
Definition minus_one (r : range) : res (R * R) :=
  match r with PyList _ _ => Err TypeError | NdArr a b => Ok (a - 1, b - 1) end.

(* converged, transfo.py 174, 210 *)
Definition range_ok (lam : R) (r : range) : bool :=
  Rltb ((hi_of r - lo_of r) * (5 / 100))
       (Rmin (Rabs (lam - lo_of r)) (Rabs (lam - hi_of r))).

(* 1 + (lambdarange - 1) * (1 + (|lambda - lambdarange| == min(...))),
   transfo.py 176-178, 212-214 *)
Definition extend_range (lam : R) (r : range) : res range :=
  do ab <- minus_one r;
  let da := Rabs (lam - lo_of r) in
  let db := Rabs (lam - hi_of r) in
  let m := Rmin da db in
  let f (d : R) : R := if Reqb d m then 1 + 1 else 1 in
  Ok (NdArr (1 + ab.1 * f da) (1 + ab.2 * f db)).

(* attributes of a RobustPowerTransformer, transfo.py 43-47 and 82-94; None is
   an attribute that has not been assigned *)
Record transformer := Tr {
  tr_method : meth;
  tr_standardize : bool;
  tr_range : range;
  tr_quantile : R;
  tr_nsteps : nat;
  tr_scale_pre : option xr;
  tr_location_pre : option xr;
  tr_location_post : option xr;
  tr_scale_post : option xr;
  tr_lambda : option R
}.

(* __init__, transfo.py 17-48 *)
Definition new_transformer m std lo hi q ns : transformer :=
  Tr m std (PyList lo hi) q ns None None None None None.

(* assignment to self.method, transfo.py 78, 80 *)
Definition set_method (t : transformer) m : transformer :=
  Tr m (tr_standardize t) (tr_range t) (tr_quantile t) (tr_nsteps t)
     (tr_scale_pre t) (tr_location_pre t) (tr_location_post t) (tr_scale_post t)
     (tr_lambda t).

(* access to an attribute that may be missing, e.g. transfo.py 112-121, 135-147 *)
Definition attr (A : Type) (o : option A) : res A :=
  if o is Some a then Ok a else Err AttributeError.

(* _calculate_bounds, transfo.py 218-232 *)
Definition calculate_bounds (m : meth) (lam : R) : option R * option R :=
  match m with
  | Boxcox =>
    if Rltb 0 lam then (Some (- 1 / Rabs lam), None)
    else if Rltb lam 0 then (None, Some (1 / Rabs lam))
    else (None, None)
  | Yeojohnson =>
    if Rltb 2 lam then (Some (- 1 / Rabs (lam - 2)), None)
    else if Rltb lam 0 then (None, Some (1 / Rabs lam))
    else (None, None)
  | _ => (None, None)
  end.

(* _handle_bounds, transfo.py 234-255 *)
Definition handle_bounds (m : meth) (lam : R) (x : seq xr) : res (seq xr) :=
  let b := calculate_bounds m lam in
  do x1 <- (if b.1 is Some lb then
              do mn <- np_min x;
              if xltb mn (XF lb)
              then Ok [seq if xltb u (XF lb) then XF (95 / 100 * lb) else u | u <- x]
              else Ok x
            else Ok x);
  (if b.2 is Some ub then
     do mx <- np_max x1;
     if xltb (XF ub) mx
     then Ok [seq if xltb (XF ub) u then XF (95 / 100 * ub) else u | u <- x1]
     else Ok x1
   else Ok x1).

(* x / scale, (x - loc) / scale, x * scale + loc on arrays,
   transfo.py 112-121, 135-147 *)
Definition arr_div (x : seq xr) (s : xr) := [seq xdiv u s | u <- x].
(* (x - loc) / scale, transfo.py 112-121 *)
Definition arr_std (x : seq xr) (l s : xr) := [seq xdiv (xsub u l) s | u <- x].
(* x * scale + loc, transfo.py 135, 143, 147 *)
Definition arr_unstd (x : seq xr) (l s : xr) := [seq xadd (xmul u s) l | u <- x].
(* x * scale, transfo.py 139 *)
Definition arr_mul (x : seq xr) (s : xr) := [seq xmul u s | u <- x].

(* transform, transfo.py 98-123; with standardize the division makes the array
   a float array *)
Definition transform (t : transformer) (d : dtype) (x : seq xr) : res (seq xr) :=
  if is_boxcox (tr_method t) then
    do _ <- check_positive x;
    do x1 <- (if tr_standardize t then do s <- attr (tr_scale_pre t); Ok (arr_div x s)
              else Ok x);
    do lam <- attr (tr_lambda t);
    do x2 <- transf_boxcox x1 lam;
    if tr_standardize t then
      do l <- attr (tr_location_post t);
      do s <- attr (tr_scale_post t);
      Ok (arr_std x2 l s)
    else Ok x2
  else
    do dx <- (if tr_standardize t then
                do l <- attr (tr_location_pre t);
                do s <- attr (tr_scale_pre t); Ok (F64, arr_std x l s)
              else Ok (d, x));
    do lam <- attr (tr_lambda t);
    let x2 := transf_yeojohnson dx.1 dx.2 lam in
    if tr_standardize t then
      do l <- attr (tr_location_post t);
      do s <- attr (tr_scale_post t);
      Ok (arr_std x2 l s)
    else Ok x2.

(* inverse_transform, transfo.py 125-149; np.where with a float bound gives a
   float array (245, 253), so an integer array stays one only if nothing is
   replaced - this matters for Yeo-Johnson without standardisation *)
Definition inverse_transform (t : transformer) (d : dtype) (x : seq xr) : res (seq xr) :=
  do dx <- (if tr_standardize t then
              do s <- attr (tr_scale_post t);
              do l <- attr (tr_location_post t); Ok (F64, arr_unstd x l s)
            else Ok (d, x));
  do lam <- attr (tr_lambda t);
  do x2 <- handle_bounds (tr_method t) lam dx.2;
  if is_boxcox (tr_method t) then
    let x3 := [seq inv_bc1 lam u | u <- x2] in
    if tr_standardize t then do s <- attr (tr_scale_pre t); Ok (arr_mul x3 s) else Ok x3
  else
    let b := calculate_bounds (tr_method t) lam in
    let below := if b.1 is Some lb then has (fun u => xltb u (XF lb)) dx.2 else false in
    let above := if b.2 is Some ub then has (fun u => xltb (XF ub) u) dx.2 else false in
    let d2 := if below || above then F64 else dx.1 in
    let x3 := inv_transf_yeojohnson d2 x2 lam in
    if tr_standardize t then
      do s <- attr (tr_scale_pre t);
      do l <- attr (tr_location_pre t); Ok (arr_unstd x3 l s)
    else Ok x3.

(* np.sort, transfo.py 58, 484 *)
Definition np_sort (x : seq xr) : seq xr := sort xsortle x.

(* np.median, transfo.py 161, 192: NaN if there is a NaN or the array is empty *)
Definition np_median (x : seq xr) : xr :=
  if has xisnan x || (size x == 0%N) then XNaN
  else let s := np_sort x in let n := size x in
       if odd n then nth XNaN s n./2
       else xdiv (xadd (nth XNaN s n./2.-1) (nth XNaN s n./2)) (XF 2).

(* np.all(np.diff(x) >= 0), transfo.py 483 *)
Definition is_sorted (x : seq xr) : bool :=
  all (fun p => xleb (XF 0) (xsub p.2 p.1)) (zip x (behead x)).

(* _get_method, transfo.py 588-599: the exception or the method afterwards *)
Definition get_method (m : meth) (x : seq xr) : res meth :=
  match m with
  | Boxcox => do _ <- check_positive x; Ok Boxcox
  | Auto => do mn <- np_min x; if xleb mn (XF 0) then Ok Yeojohnson else Ok Auto
  | Yeojohnson => Ok Yeojohnson
  | Other => Err ValueError
  end.

(* the values of [transf], transfo.py 478 *)
Inductive transf := TBoxcoxRect | TYeojohnsonRect | TBoxcox | TYeojohnson.

Section Fit.

(* scipy.optimize.minimize_scalar(f, bounds, method="bounded").x, transfo.py
   516-520, 584: an exception of the objective propagates *)
Variable minimize_scalar : (R -> res xr) -> R -> R -> res R.
(* HuberOneStepM().fit(x): location and scale, transfo.py 289, 413, 500 *)
Variable huber : seq xr -> res (xr * xr).
(* TukeyBisquare(c=0.5).rho, transfo.py 504 *)
Variable rho05 : xr -> xr.
(* scipy.stats.norm.ppf, transfo.py 503 and inside median_abs_deviation, 193 *)
Variable norm_ppf : R -> R.
(* scipy.stats.chi2.ppf(q, 1), transfo.py 541 *)
Variable chi2_ppf1 : R -> R.

(* scipy.stats.median_abs_deviation(x, scale="normal"), transfo.py 193 *)
Definition mad_normal (x : seq xr) : xr :=
  let m := np_median x in
  xdiv (np_median [seq xabs (xsub u m) | u <- x]) (XF (norm_ppf (3 / 4))).

(* the four transformations selected by [transf], transfo.py 486-495; the data
   inside fit are float arrays after standardisation, else of dtype d *)
Definition apply_transf (d : dtype) (tf : transf) (x : seq xr) (lam : R) : res (seq xr) :=
  match tf with
  | TBoxcoxRect => boxcox_rectified d x lam
  | TYeojohnsonRect => yeojohnson_rectified d x lam
  | TBoxcox => transf_boxcox x lam
  | TYeojohnson => Ok (transf_yeojohnson d x lam)
  end.

(* _robnormality, transfo.py 475-507 *)
Definition robnormality (d : dtype) (x : seq xr) (tf : transf) (lam : R) : res xr :=
  let x := if is_sorted x then x else np_sort x in
  do xt <- apply_transf d tf x lam;
  let xt := [seq u <- xt | ~~ xisnan u] in
  let n := size xt in
  do ls <- huber xt;
  let sc := if ls.2 is XF s then (if Reqb s 0 then XF 1 else ls.2) else ls.2 in
  let z := arr_std xt ls.1 sc in
  let th := [seq XF (norm_ppf ((INR i - 1 / 3) / (INR n + 1 / 3))) | i <- iota 1 n] in
  Ok (xsum [seq rho05 (xsub p.1 p.2) | p <- zip z th]).

(* _calculate_lambda_0, transfo.py 509-522 *)
Definition calculate_lambda_0 (d : dtype) (x : seq xr) (tf : transf) (r : range) : res R :=
  minimize_scalar (fun l => robnormality d x tf l) (lo_of r) (hi_of r).

(* _estimate_max_likelihood, transfo.py 554-586, for transf "boxcox"
   (bc = true) or "yeojohnson" *)
Definition estimate_ml (d : dtype) (x : seq xr) (bc : bool) (r : range) : res R :=
  let n := XF (INR (size x) / 2) in
  let obj l :=
    if bc then
      do xb <- transf_boxcox x l;
      Ok (xsub (xmul n (xlog (xvar xb)))
               (xmul (XF (l - 1)) (xsum [seq xlog u | u <- x])))
    else
      let xb := transf_yeojohnson d x l in
      Ok (xsub (xmul n (xlog (xvar xb)))
               (xmul (XF (l - 1))
                     (xsum [seq xmul (xsign u) (xlog (xadd (XF 1) (xabs u))) | u <- x])))
  in minimize_scalar obj (lo_of r) (hi_of r).

(* the for loop of _reweighted_max_likelihood_robust, transfo.py 540-547; the
   last lambda, transformed data and mask, None before the first step *)
Fixpoint rew_loop (k : nat) (d : dtype) (bc : bool) (r : range) (q : R)
    (x zt : seq xr) (last : option (R * seq xr * bitseq)) :
    res (option (R * seq xr * bitseq)) :=
  if k is k'.+1 then
    let w := [seq xleb (xabs z) (XF (sqrt (chi2_ppf1 q))) | z <- zt] in
    do lam <- estimate_ml d (mask w x) bc r;
    do xt <- (if bc then transf_boxcox x lam else Ok (transf_yeojohnson d x lam));
    rew_loop k' d bc r q x (arr_std xt (xmean xt) (xstd xt)) (Some (lam, xt, w))
  else Ok last.

(* _reweighted_max_likelihood_robust, transfo.py 524-552: with nsteps = 0 the
   name xt is unbound at line 549 *)
Definition reweighted_ml (d : dtype) (x : seq xr) (lam_raw : R) (bc : bool) (r : range)
    (q : R) (nsteps : nat) : res (R * xr * xr) :=
  do xt0 <- (if bc then boxcox_rectified d x lam_raw else yeojohnson_rectified d x lam_raw);
  do ls <- huber xt0;
  do last <- rew_loop nsteps d bc r q x (arr_std xt0 ls.1 ls.2) None;
  if last is Some (lam, xt, w) then Ok (lam, xmean (mask w xt), xstd (mask w xt))
  else Err UnboundLocalError.

(* what a call of _fit_boxcox / _fit_yeojohnson returns, transfo.py 180, 216 *)
Record fitted := Fitted {
  fit_lambda : R;
  fit_mu : xr;
  fit_sd : xr;
  fit_loc : option xr;
  fit_scale : option xr
}.

(* the while loop of _fit_boxcox, transfo.py 159-180; x is overwritten by its
   scaled version in every round *)
Fixpoint fit_boxcox (fuel : nat) (d : dtype) (std : bool) (r : range) (q : R) (ns : nat)
    (x : seq xr) : res fitted :=
  if fuel is fuel'.+1 then
    let scale := if std then Some (np_median x) else None in
    let x := if scale is Some s then arr_div x s else x in
    let d := if std then F64 else d in
    do lam_raw <- calculate_lambda_0 d x TBoxcoxRect r;
    do l <- reweighted_ml d x lam_raw true r q ns;
    if range_ok l.1.1 r then Ok (Fitted l.1.1 l.1.2 l.2 None scale)
    else do r' <- extend_range l.1.1 r; fit_boxcox fuel' d std r' q ns x
  else NoFuel.

(* the while loop of _fit_yeojohnson, transfo.py 190-216 *)
Fixpoint fit_yeojohnson (fuel : nat) (d : dtype) (std : bool) (r : range) (q : R) (ns : nat)
    (x : seq xr) : res fitted :=
  if fuel is fuel'.+1 then
    let loc := if std then Some (np_median x) else None in
    let scale := if std then Some (mad_normal x) else None in
    let x := match loc, scale with
             | Some l, Some s => arr_std x l s | _, _ => x end in
    let d := if std then F64 else d in
    do lam_raw <- calculate_lambda_0 d x TYeojohnsonRect r;
    do l <- reweighted_ml d x lam_raw false r q ns;
    if range_ok l.1.1 r then Ok (Fitted l.1.1 l.1.2 l.2 loc scale)
    else do r' <- extend_range l.1.1 r; fit_yeojohnson fuel' d std r' q ns x
  else NoFuel.

(* fit after _get_method and the sort: the chosen method and its estimates,
   transfo.py 60-80 *)
Definition fit_core (fuel : nat) (d : dtype) (t : transformer) (m : meth) (x : seq xr) :
    res (meth * fitted) :=
  let xs := np_sort x in
  let fb := fit_boxcox fuel d (tr_standardize t) (tr_range t) (tr_quantile t) (tr_nsteps t) xs in
  let fy := fit_yeojohnson fuel d (tr_standardize t) (tr_range t) (tr_quantile t)
                           (tr_nsteps t) xs in
  match m with
  | Boxcox => do b <- fb; Ok (Boxcox, b)
  | Auto =>
    do b <- fb;
    do cb <- robnormality d x TBoxcox (fit_lambda b);
    do y <- fy;
    do cy <- robnormality d x TYeojohnson (fit_lambda y);
    if xltb cb cy then Ok (Boxcox, b) else Ok (Yeojohnson, y)
  | _ => do y <- fy; Ok (Yeojohnson, y)
  end.

(* the attributes assigned at the end of fit, transfo.py 82-94 *)
Definition store_fit (t : transformer) (m : meth) (f : fitted) : transformer :=
  if tr_standardize t then
    Tr m true (tr_range t) (tr_quantile t) (tr_nsteps t)
       (fit_scale f)
       (if is_boxcox m then tr_location_pre t else fit_loc f)
       (Some (fit_mu f)) (Some (fit_sd f)) (Some (fit_lambda f))
  else
    Tr m false (tr_range t) (tr_quantile t) (tr_nsteps t)
       (tr_scale_pre t) (tr_location_pre t) (tr_location_post t) (tr_scale_post t)
       (Some (fit_lambda f)).

(* fit, transfo.py 50-96: the object afterwards (also when an exception is
   raised) and the outcome *)
Definition fit (fuel : nat) (t : transformer) (d : dtype) (x : seq xr) :
    transformer * res unit :=
  match get_method (tr_method t) x with
  | Err e => (t, Err e)
  | NoFuel => (t, NoFuel)
  | Ok m =>
    let t1 := set_method t m in
    match fit_core fuel d t1 m x with
    | Err e => (t1, Err e)
    | NoFuel => (t1, NoFuel)
    | Ok (m', f) => (store_fit t1 m' f, Ok tt)
    end
  end.

End Fit.
