(* Model of robpy/outliers/ddc.py (class DDC). *)
From mathcomp Require Import all_ssreflect all_algebra.
From Verif Require Import RFieldLra Prelude Xnum Qn_Model.

Set Implicit Arguments.
Unset Strict Implicit.
Unset Printing Implicit Defensive.

Import Order.TTheory GRing.Theory Num.Theory.
Local Open Scope ring_scope.

Section DDC.
Variable T : rcfType.
Notation num := (xnum T).

(* self.scale_estimator.fit(x): (location, scale) or an exception, ddc.py 315-317;
   any estimator *)
Variable est : seq num -> res (num * num).
(* CellwiseOneStepM().fit(x): (location, scale), ddc.py 163-165, 188, 352-353, 372;
   any estimator *)
Variable osm : seq num -> res (num * num).
(* np.linalg.lstsq(x.reshape(-1, 1), y)[0][0], ddc.py 375 *)
Variable lstsq : seq num -> seq num -> res num.
(* chi2.cdf(x, df=1), ddc.py 186 *)
Variable cdf1 : num -> num.
(* ndarray.round(3) on a finite number, ddc.py 213 *)
Variable round3 : T -> T.

(* a DataFrame as used by ddc.py 59-227: number of columns (shape[1]), whether
   all columns are numeric (select_dtypes, 126, 307), the rows.  Index and column
   labels are not modelled: positions are used throughout the code *)
Record table := Table { ncol : nat; numeric : bool; rows : seq (seq num) }.

(* X.replace([np.inf, -np.inf], np.nan), ddc.py 61, 128, 203 *)
Definition drop_inf (u : num) : num := if u is Fin _ then u else NaN.
(* the replacement on a whole DataFrame, ddc.py 61, 128, 203 *)
Definition replace_inf (X : seq (seq num)) : seq (seq num) := map (map drop_inf) X.

(* X.iloc[:, j], ddc.py 315 *)
Definition col (X : seq (seq num)) (j : nat) : seq num := [seq nth NaN r j | r <- X].

(* x[~np.isnan(x)], ddc.py 164, 315 *)
Definition non_nan (s : seq num) : seq num := [seq u <- s | ~~ is_nan u].

(* equality of two floats, as used by Series.nunique, ddc.py 309 *)
Definition xeqb (u v : num) : bool :=
  match u, v with
  | Fin a, Fin b => a == b
  | PInf, PInf | NInf, NInf => true
  | _, _ => false
  end.
(* Series.nunique: the number of distinct values other than NaN, ddc.py 309 *)
Fixpoint nunique (s : seq num) : nat :=
  if s is u :: s' then
    ((~~ is_nan u) && ~~ has (xeqb u) s' + nunique s')%N
  else 0.

(* _check_data_conditions, ddc.py 306-310 *)
Definition check_data (X : table) : res unit :=
  if ~~ numeric X then Err ValueError
  else if has (fun j => nunique (col (rows X) j) <= 3)%N (iota 0 (ncol X)) then Err ValueError
  else Ok tt.

(* the loop of _fit_scaler, ddc.py 312-317: the lists location_ and scale_ as
   they are when the loop ends or raises *)
Fixpoint fit_scaler (cols : seq (seq num)) : (seq num * seq num) * res unit :=
  if cols is c :: cols' then
    match est (non_nan c) with
    | Ok ls => let r := fit_scaler cols' in ((ls.1 :: r.1.1, ls.2 :: r.1.2), r.2)
    | Err e => (([::], [::]), Err e)
    | NoFuel => (([::], [::]), NoFuel)
    end
  else (([::], [::]), Ok tt).

(* (X - self.location_) / self.scale_, ddc.py 319-322; pandas refuses a list
   whose length is not the number of columns, and strings cannot be subtracted *)
Definition standardize (ls : seq num * seq num) (p : nat) (X : seq (seq num)) : seq (seq num) :=
  [seq [seq xdiv (xsub (nth NaN r j) (nth NaN ls.1 j)) (nth NaN ls.2 j) | j <- iota 0 p] | r <- X].
(* _standardize with the checks of pandas, ddc.py 319-322 *)
Definition standardize_tab (ls : option (seq num * seq num)) (X : table) : res (seq (seq num)) :=
  if ls is Some ls then
    if ~~ numeric X then Err TypeError
    else if (size ls.1 == ncol X) && (size ls.2 == ncol X) then Ok (standardize ls (ncol X) (rows X)) else Err ValueError
  else Err ValueError.

(* np.where(np.abs(Z) > self.cutoff, np.nan, Z), ddc.py 67, 132, 207 *)
Definition screen (cutoff : num) (Z : seq (seq num)) : seq (seq num) :=
  map (map (fun z => if xlt cutoff (xabs z) then NaN else z)) Z.

(* x ** 2, ddc.py 186, 352-353 *)
Definition xsq (u : num) : num := xmul u u.
(* np.sqrt, used inside mahalanobis_distance and np.corrcoef, ddc.py 360-364 *)
Definition xsqrt (u : num) : num :=
  match u with
  | Fin a => if a < 0 then NaN else Fin (Num.sqrt a)
  | PInf => PInf
  | _ => NaN
  end.
(* np.clip(u, lo, hi), ddc.py 349-359 and inside np.corrcoef: NaN stays *)
Definition xclip (lo hi : T) (u : num) : num :=
  match u with
  | Fin a => Fin (if a < lo then lo else if hi < a then hi else a)
  | PInf => Fin hi
  | NInf => Fin lo
  | NaN => NaN
  end.

(* xy[~np.isnan(xy).any(axis=1), :], ddc.py 343-344, 383-384 *)
Definition complete_pairs (U : seq (seq num)) (i j : nat) : seq (num * num) :=
  [seq p <- [seq (nth NaN r i, nth NaN r j) | r <- U] | ~~ is_nan p.1 && ~~ is_nan p.2].

(* np.corrcoef(xy, rowvar=False)[0, 1], ddc.py 364: covariances with n - 1,
   divided by the standard deviations and clipped to [-1, 1]; NaN when fewer
   than two rows are left *)
Definition corrcoef (xy : seq (num * num)) : num :=
  let n := size xy in
  if (n < 2)%N then NaN
  else
    let mean s := xdiv (xsum s) (Fin n%:R) in
    let mx := mean (map fst xy) in
    let my := mean (map snd xy) in
    let cov f g := xdiv (xsum [seq xmul (f p) (g p) | p <- xy]) (Fin (n.-1)%:R) in
    let dx p := xsub p.1 mx in
    let dy p := xsub p.2 my in
    xclip (- 1) 1 (xdiv (xdiv (cov dx dy) (xsqrt (cov dx dx))) (xsqrt (cov dy dy))).

(* the initial correlation, ddc.py 349-359 *)
Definition init_corr (xy : seq (num * num)) : res num :=
  do sp <- osm [seq xadd p.1 p.2 | p <- xy];
  do sm <- osm [seq xsub p.1 p.2 | p <- xy];
  Ok (xclip (- dec T 99 2) (dec T 99 2) (xdiv (xsub (xsq sp.2) (xsq sm.2)) (Fin 4%:R))).

(* mahalanobis_distance of (x, y) to (0, 0) with covariance [[1, c], [c, 1]],
   ddc.py 360-362, written out: sqrt((x^2 - 2 c x y + y^2) / (1 - c^2)) *)
Definition pair_dist (c : num) (p : num * num) : num :=
  xsqrt (xdiv (xadd (xsub (xsq p.1) (xmul (xmul (Fin 2%:R) c) (xmul p.1 p.2))) (xsq p.2))
              (xsub (Fin 1) (xsq c))).

(* the correlation of one pair of columns, ddc.py 348-364 *)
Definition pair_corr (cutoff : num) (xy : seq (num * num)) : res num :=
  do c <- init_corr xy;
  Ok (corrcoef [seq p <- xy | xlt (pair_dist c p) cutoff]).

(* m[i, j] = v on a matrix stored as a list of rows, ddc.py 346, 364 *)
Definition set_cell (m : seq (seq num)) (i j : nat) (v : num) : seq (seq num) :=
  set_nth [::] m i (set_nth NaN (nth [::] m i) j v).
(* correlation[i, j] = correlation[j, i] = v, ddc.py 346, 364 *)
Definition set_both (m : seq (seq num)) (i j : nat) (v : num) : seq (seq num) :=
  set_cell (set_cell m i j v) j i v.

(* the pairs visited by the two for loops, ddc.py 336, 342 *)
Definition index_pairs (p : nat) : seq (nat * nat) :=
  flatten [seq [seq (i, j) | j <- iota i.+1 (p - i.+1)] | i <- iota 0 p].

(* the body of the loops of _robust_correlation, ddc.py 342-364 *)
Fixpoint corr_loop (cutoff : num) (U : seq (seq num)) (ps : seq (nat * nat))
    (m : seq (seq num)) : res (seq (seq num)) :=
  if ps is ij :: ps' then
    let xy := complete_pairs U ij.1 ij.2 in
    if xy is [::] then corr_loop cutoff U ps' (set_both m ij.1 ij.2 (Fin 0))
    else do c <- pair_corr cutoff xy; corr_loop cutoff U ps' (set_both m ij.1 ij.2 c)
  else Ok m.

(* _robust_correlation, ddc.py 324-365, without the progress messages (with
   verbose=True and fewer than 10 columns line 337 divides by zero; verbose is
   False here) *)
Definition robust_correlation (cutoff : num) (p : nat) (U : seq (seq num)) :
    res (seq (seq num)) :=
  corr_loop cutoff U (index_pairs p) (nseq p (nseq p (Fin 1))).

(* x == 0, ddc.py 368, 370, 408 *)
Definition xis0 (u : num) : bool := if u is Fin a then a == 0 else false.

(* np.median, ddc.py 370: NaN if any value is NaN (or there is none) *)
Definition np_median (s : seq num) : num :=
  if has (@is_nan T) s || nilp s then NaN
  else
    let t := sort (@xle T) s in
    let n := size s in
    if odd n then nth NaN t n./2
    else xdiv (xadd (nth NaN t n./2.-1) (nth NaN t n./2)) (Fin 2%:R).

(* _robust_slope, ddc.py 367-375 *)
Definition robust_slope (cutoff : num) (xy : seq (num * num)) : res num :=
  if all (fun p => xis0 p.1) xy then Ok (Fin 0)
  else
    let init := np_median [seq xdiv p.2 p.1 | p <- xy & ~~ xis0 p.1] in
    let resid p := xsub p.2 (xmul init p.1) in
    do ls <- osm (map resid xy);
    let kept := [seq p <- xy | xle (xabs (resid p)) (xmul cutoff ls.2)] in
    lstsq (map fst kept) (map snd kept).

(* a matrix entry, ddc.py 386, 399, 411 *)
Definition cell (m : seq (seq num)) (i j : nat) : num := nth NaN (nth [::] m i) j.

(* _get_slopes, ddc.py 377-390: NaN on the diagonal and where the correlation
   is below min_correlation *)
Definition get_slopes (cutoff min_corr : num) (corr : seq (seq num)) (p : nat)
    (U : seq (seq num)) : res (seq (seq num)) :=
  mapM (fun i =>
    mapM (fun j =>
      if i == j then Ok NaN
      else if xlt (xabs (cell corr i j)) min_corr then Ok NaN
      else robust_slope cutoff (complete_pairs U i j)) (iota 0 p)) (iota 0 p).

(* a Python bool in a product, ddc.py 398, 404 *)
Definition b2x (b : bool) : num := Fin b%:R.

(* the weight matrix of column i before normalisation, ddc.py 395-404 *)
Definition raw_weights (corr : seq (seq num)) (p i : nat) (U : seq (seq num)) :
    seq (seq num) :=
  [seq [seq xmul (xmul (xmul (xabs (cell corr k i))
                             (b2x (xle (Fin (2%:R^-1)) (xabs (cell corr k i)))))
                       (b2x (k != i)))
                 (b2x (~~ is_nan (nth NaN r k)))
       | k <- iota 0 p] | r <- U].

(* np.divide(weights, weights_sum, out=zeros, where=weights_sum != 0), ddc.py 406-409 *)
Definition normalize_row (w : seq num) : seq num :=
  let s := xsum w in [seq if xis0 s then Fin 0 else xdiv u s | u <- w].
(* all rows of weights after the division, ddc.py 394-409 *)
Definition weights (corr : seq (seq num)) (p i : nat) (U : seq (seq num)) : seq (seq num) :=
  map normalize_row (raw_weights corr p i U).

(* Series.fillna(0), ddc.py 413 *)
Definition fillna0 (u : num) : num := if is_nan u then Fin 0 else u.

(* the loop over j of _get_predicted_values, ddc.py 410-413: column i of the
   predictions, for all rows at once *)
Fixpoint pred_loop (slopes : seq (seq num)) (i : nat) (W U : seq (seq num)) (js : seq nat)
    (acc : seq num) : seq num :=
  if js is j :: js' then
    let acc' :=
      if is_nan (cell slopes j i) then acc
      else [seq xadd q.1 q.2 | q <- zip acc
             [seq xmul (xmul wu.1 (cell slopes j i)) wu.2
             | wu <- zip (col W j) (map fillna0 (col U j))]] in
    pred_loop slopes i W U js' acc'
  else acc.

(* _get_predicted_values, ddc.py 392-414 *)
Definition predicted_values (corr slopes : seq (seq num)) (p : nat) (U : seq (seq num)) :
    seq (seq num) :=
  let cols := [seq pred_loop slopes i (weights corr p i U) U (iota 0 p) (nseq (size U) (Fin 0))
              | i <- iota 0 p] in
  [seq [seq nth NaN c a | c <- cols] | a <- iota 0 (size U)].

(* raw_predictions * self.deshrinkage_ and predictions * self.scale_ +
   self.location_, column by column, ddc.py 88, 136, 212-213 *)
Definition scale_cols (P : seq (seq num)) (d : seq num) : seq (seq num) :=
  [seq [seq xmul q.1 q.2 | q <- zip r d] | r <- P].

(* a[~np.isnan(Z.iloc[:, i]), i] for the raw predictions and Z, ddc.py 82-83 *)
Definition deshrink_pairs (raw Z : seq (seq num)) (i : nat) : seq (num * num) :=
  [seq q <- zip (col raw i) (col Z i) | ~~ is_nan q.2].

(* Z.values - predictions, ddc.py 159 *)
Definition raw_residuals (Z P : seq (seq num)) : seq (seq num) :=
  [seq [seq xsub q.1 q.2 | q <- zip zp.1 zp.2] | zp <- zip Z P].

(* raw_residuals / self.residual_scales, ddc.py 169 *)
Definition std_residuals (R : seq (seq num)) (s : seq num) : seq (seq num) :=
  [seq [seq xdiv q.1 q.2 | q <- zip r s] | r <- R].

(* np.abs(standardized_residuals) > self.cutoff, ddc.py 170 *)
Definition flag_cells (cutoff : num) (R : seq (seq num)) : seq (seq bool) :=
  map (map (fun u => xlt cutoff (xabs u))) R.

(* np.nanmean(chi2.cdf(standardized_residuals**2, df=1), axis=1), ddc.py 186 *)
Definition t_values (R : seq (seq num)) : seq num :=
  [seq let s := non_nan [seq cdf1 (xsq u) | u <- r] in
       if nilp s then NaN else xdiv (xsum s) (Fin (size s)%:R) | r <- R].

(* the end of _rowwise_outliers, ddc.py 189-193 *)
Definition flag_rows (cutoff : num) (ls : num * num) (t : seq num) : seq bool :=
  [seq xlt cutoff (xdiv (xsub u ls.1) ls.2) | u <- t].

(* a DDC object: the constructor's cutoff and min_correlation (ddc.py 54-57) and
   the attributes assigned by fit, None when not assigned yet: location_ and
   scale_ (313), robust_correlation_ (72), slopes_ (73), deshrinkage_ (79),
   residual_scales (161), cellwise_outliers_ with its number of columns and
   standardized_residuals_ (91), t_scale_est (188), row_outliers_ (95),
   is_fitted_ (96).  raw_predictions_, predictions_ and rescaled_predictions_ are
   never read again and are left out *)
Record ddc := DDC {
  o_cutoff : num;
  o_min : num;
  o_ls : option (seq num * seq num);
  o_corr : option (seq (seq num));
  o_slopes : option (seq (seq num));
  o_deshr : option (seq num);
  o_rscale : option (seq num);
  o_cells : option (nat * seq (seq bool) * seq (seq num));
  o_t : option (num * num);
  o_rows : option (seq bool);
  o_fitted : bool
}.

(* DDC(...), ddc.py 30-57 *)
Definition new_ddc (cutoff min_corr : num) : ddc :=
  DDC cutoff min_corr None None None None None None None None false.

(* attribute assignments of fit, ddc.py 313-317, 72, 73, 79, 161, 91, 188, 95-96 *)
Definition put_ls o v := DDC (o_cutoff o) (o_min o) (Some v) (o_corr o) (o_slopes o) (o_deshr o)
  (o_rscale o) (o_cells o) (o_t o) (o_rows o) (o_fitted o).
(* robust_correlation_, ddc.py 72 *)
Definition put_corr o v := DDC (o_cutoff o) (o_min o) (o_ls o) (Some v) (o_slopes o) (o_deshr o)
  (o_rscale o) (o_cells o) (o_t o) (o_rows o) (o_fitted o).
(* slopes_, ddc.py 73 *)
Definition put_slopes o v := DDC (o_cutoff o) (o_min o) (o_ls o) (o_corr o) (Some v) (o_deshr o)
  (o_rscale o) (o_cells o) (o_t o) (o_rows o) (o_fitted o).
(* deshrinkage_, ddc.py 79-87 *)
Definition put_deshr o v := DDC (o_cutoff o) (o_min o) (o_ls o) (o_corr o) (o_slopes o) (Some v)
  (o_rscale o) (o_cells o) (o_t o) (o_rows o) (o_fitted o).
(* the residual scales stored by _cellwise_outliers, ddc.py 161 *)
Definition put_rscale o v := DDC (o_cutoff o) (o_min o) (o_ls o) (o_corr o) (o_slopes o) (o_deshr o)
  (Some v) (o_cells o) (o_t o) (o_rows o) (o_fitted o).
(* cellwise_outliers_ and standardized_residuals_, ddc.py 91-93 *)
Definition put_cells o v := DDC (o_cutoff o) (o_min o) (o_ls o) (o_corr o) (o_slopes o) (o_deshr o)
  (o_rscale o) (Some v) (o_t o) (o_rows o) (o_fitted o).
(* location and scale of the row statistic, ddc.py 188 *)
Definition put_t o v := DDC (o_cutoff o) (o_min o) (o_ls o) (o_corr o) (o_slopes o) (o_deshr o)
  (o_rscale o) (o_cells o) (Some v) (o_rows o) (o_fitted o).
(* row_outliers_ and is_fitted_, ddc.py 95-96 *)
Definition put_rows o v := DDC (o_cutoff o) (o_min o) (o_ls o) (o_corr o) (o_slopes o) (o_deshr o)
  (o_rscale o) (o_cells o) (o_t o) (Some v) true.

(* a step of fit (ddc.py 59-99): on an exception the object stays as assigned so far *)
Definition step {A} (r : res A) (o : ddc) (k : A -> ddc * res unit) : ddc * res unit :=
  match r with Ok a => k a | Err e => (o, Err e) | NoFuel => (o, NoFuel) end.

(* fit, ddc.py 59-99 *)
Definition fit (o : ddc) (X0 : table) : ddc * res unit :=
  let p := ncol X0 in
  let cut := o_cutoff o in
  step (check_data X0) o (fun _ =>
  let X := replace_inf (rows X0) in
  let sc := fit_scaler [seq col X j | j <- iota 0 p] in
  let o1 := put_ls o sc.1 in
  step sc.2 o1 (fun _ =>
  let Z := standardize sc.1 p X in
  let U := screen cut Z in
  step (robust_correlation cut p U) o1 (fun corr =>
  let o2 := put_corr o1 corr in
  step (get_slopes cut (o_min o) corr p U) o2 (fun slopes =>
  let o3 := put_slopes o2 slopes in
  let raw := predicted_values corr slopes p U in
  step (mapM (fun i => robust_slope cut (deshrink_pairs raw Z i)) (iota 0 p)) o3 (fun deshr =>
  let o4 := put_deshr o3 deshr in
  let R := raw_residuals Z (scale_cols raw deshr) in
  step (mapM (fun i => do ls <- osm (non_nan (col R i)); Ok ls.2) (iota 0 p)) o4 (fun rs =>
  let o5 := put_rscale o4 rs in
  let S := std_residuals R rs in
  let o6 := put_cells o5 (p, flag_cells cut S, S) in
  step (osm (t_values S)) o6 (fun ls =>
  let o7 := put_t o6 ls in
  (put_rows o7 (flag_rows cut ls (t_values S)), Ok tt)))))))).

(* reading an attribute that may be missing, e.g. ddc.py 119, 196 *)
Definition attr {A} (v : option A) : res A := if v is Some a then Ok a else Err AttributeError.

(* "if not self.is_fitted_" and the comparison of the number of columns,
   ddc.py 119-125, 196-202; is_fitted_ is only ever assigned True *)
Definition guard (o : ddc) (X : table) : res unit :=
  if ~~ o_fitted o then Err AttributeError
  else do c <- attr (o_cells o); if ncol X == c.1.1 then Ok tt else Err ValueError.

(* self._get_predicted_values(U) * self.deshrinkage_, ddc.py 136, 211-212; arrays
   left by a fit that raised can have other shapes: broadcasting then fails *)
Definition predictions (o : ddc) (p : nat) (U : seq (seq num)) : res (seq (seq num)) :=
  do corr <- attr (o_corr o);
  do slopes <- attr (o_slopes o);
  do deshr <- attr (o_deshr o);
  if (size corr == p) && (size slopes == p) && (size deshr == p)
  then Ok (scale_cols (predicted_values corr slopes p U) deshr)
  else Err ValueError.

(* predict with rowwise=False, ddc.py 119-137, 142 *)
Definition predict (o : ddc) (X : table) : res (seq (seq bool) * seq (seq num)) :=
  do _ <- guard o X;
  if ~~ numeric X then Err ValueError
  else
    do Z <- standardize_tab (o_ls o) (Table (ncol X) (numeric X) (replace_inf (rows X)));
    do P <- predictions o (ncol X) (screen (o_cutoff o) Z);
    do rs <- attr (o_rscale o);
    if size rs == ncol X then
      let S := std_residuals (raw_residuals Z P) rs in
      Ok (flag_cells (o_cutoff o) S, S)
    else Err ValueError.

(* predict with rowwise=True, ddc.py 119-140 *)
Definition predict_rowwise (o : ddc) (X : table) : res (seq bool) :=
  do fs <- predict o X;
  do ls <- attr (o_t o);
  Ok (flag_rows (o_cutoff o) ls (t_values fs.2)).

(* ndarray.round(3), ddc.py 213 *)
Definition xround (u : num) : num := xmap round3 u.

(* (predictions * self.scale_ + self.location_).round(3), ddc.py 213 *)
Definition rescale (ls : seq num * seq num) (P : seq (seq num)) : seq (seq num) :=
  [seq [seq xround (xadd (xmul q.1 q.2.1) q.2.2) | q <- zip r (zip ls.2 ls.1)] | r <- P].

(* np.where(mask, a, b) on tables, ddc.py 217-225 *)
Definition np_where (m : seq (seq bool)) (a b : seq (seq num)) : seq (seq num) :=
  [seq [seq if q.1 then q.2.1 else q.2.2 | q <- zip r.1 (zip r.2.1 r.2.2)] | r <- zip m (zip a b)].

(* impute, ddc.py 195-227 *)
Definition impute (o : ddc) (X0 : table) (impute_outliers : bool) : res (seq (seq num)) :=
  do _ <- guard o X0;
  let X := Table (ncol X0) (numeric X0) (replace_inf (rows X0)) in
  do Z <- standardize_tab (o_ls o) X;
  do P <- predictions o (ncol X) (screen (o_cutoff o) Z);
  do ls <- attr (o_ls o);
  let RP := rescale ls P in
  let missing := map (map (@is_nan T)) (rows X) in
  if impute_outliers then
    do fs <- predict o X;
    let m := [seq [seq q.1 || q.2 | q <- zip r.1 r.2] | r <- zip fs.1 missing] in
    Ok (np_where m RP (rows X))
  else Ok (np_where missing RP (rows X)).

(* a[lo:hi] for 0 <= lo, hi, ddc.py 277-278, 284-285 *)
Definition slice {A} (z : option (nat * nat)) (s : seq A) : seq A :=
  if z is Some (lo, hi) then drop lo (take hi s) else s.

(* the data handed to sns.heatmap by cellmap, ddc.py 267-290: the plotted
   residuals and the annotations, for zooms given as tuples (or None).  The
   DataFrame constructor (273) refuses residuals of another shape than X *)
Definition cellmap (o : ddc) (X : table) (sr : option (seq (seq num)))
    (row_zoom col_zoom : option (nat * nat)) : res (seq (seq num) * seq (seq num)) :=
  if ~~ o_fitted o then Err AttributeError
  else
    do c <- attr (o_cells o);
    let S := if sr is Some s then s else c.2 in
    if (size S == size (rows X)) && all (fun r => size r == ncol X) S then
      Ok (map (slice col_zoom) (slice row_zoom S),
          map (slice col_zoom) (slice row_zoom (rows X)))
    else Err ValueError.

(* fit calls (ddc.py 59-99) on one object, in any order; only fit changes the object *)
Definition run (o : ddc) (hs : seq table) : ddc := foldl (fun o X => (fit o X).1) o hs.

End DDC.
