(* Model of robpy/covariance/utils/cellmcd_visualization_utils.py and of CellMCD.cell_MCD_plot
   (robpy/covariance/cellmcd.py).  A figure is the list of the items drawn on its axes, in
   drawing order; colours, labels and fonts are left out. *)
From mathcomp Require Import all_ssreflect all_algebra.
From Verif Require Import RFieldLra Prelude Xnum Vec Qn_Model LinAlg_Model Fit_Model.

Set Implicit Arguments.
Unset Strict Implicit.
Unset Printing Implicit Defensive.

Import Order.TTheory GRing.Theory Num.Theory.
Local Open Scope ring_scope.

Section Model.
Variable T : rcfType.
Notation num := (xnum T).
(* the type of the row names (any object that ax.text can print) *)
Variable name : Type.

(* what the calls ax.text (cellmcd_visualization_utils.py:36, 72), ax.plot (86), ax.axhline (100),
   ax.axvline (103), ax.scatter (cellmcd.py:254) and ax.axline (cellmcd.py:236) put on the axes *)
Inductive item : Type :=
| Text of num & num & name
| Curve of seq (num * num)
| HLine of num
| VLine of num
| Scatter of seq (num * num)
| Diagonal of num.

(* cellmcd_visualization_utils.py:29 and 31: outside a pair of thresholds; every comparison with
   NaN is false *)
Definition outside (t : num * num) (v : num) : bool := xlt v t.1 || xlt t.2 v.

(* cellmcd_visualization_utils.py:28-36, one iteration; [names] is row_names, and a list that is
   too short raises IndexError when the name is needed.  Line 29 subscripts the horizontal
   thresholds, whose default None has no items. *)
Definition annote_one (names : seq name) (h v : option (num * num)) (i : nat) (q : num * num)
  : res (option item) :=
  if h is Some th then
    let v_outlier := if v is Some tv then outside tv q.1 else false in
    if outside th q.2 || v_outlier then
      (if drop i names is a :: _ then Ok (Some (Text q.1 q.2 a)) else Err IndexError)
    else Ok None
  else Err TypeError.

(* cellmcd_visualization_utils.py:28-36, the loop; zip stops at the shorter array *)
Fixpoint annote_loop (names : seq name) (h v : option (num * num)) (i : nat) (qs : seq (num * num))
  : res (seq item) :=
  if qs is q :: qs' then
    do o <- annote_one names h v i q;
    do r <- annote_loop names h v i.+1 qs';
    Ok (if o is Some t then t :: r else r)
  else Ok [::].

(* cellmcd_visualization_utils.py:9-36, annote_outliers: the texts *)
Definition annote_outliers (names : seq name) (x y : seq num) (h v : option (num * num))
  : res (seq item) :=
  annote_loop names h v 0 (zip x y).

(* distance.py:23-24 for one row of two values that may be NaN or infinite; np.sqrt of a negative
   number is NaN *)
Definition maha2 (cov_inv : 'M[T]_2) (loc : 'rV[T]_2) (q : num * num) : num :=
  let u := xsub q.1 (Fin (loc 0 0)) in
  let v := xsub q.2 (Fin (loc 0 1)) in
  let du := xadd (xmul u (Fin (cov_inv 0 0))) (xmul v (Fin (cov_inv 1 0))) in
  let dv := xadd (xmul u (Fin (cov_inv 0 1))) (xmul v (Fin (cov_inv 1 1))) in
  match xadd (xmul du u) (xmul dv v) with
  | Fin s => np_sqrt s
  | PInf => PInf
  | _ => NaN
  end.

(* scipy.stats.chi2.ppf(quantile, degrees of freedom), a parameter *)
Variable chi2_ppf : T -> nat -> T.

(* cellmcd_visualization_utils.py:62-66, the mask *)
Definition ellipse_mask (loc : 'rV[T]_2) (cov : 'M[T]_2) (quantile : T) (qs : seq (num * num))
  : res (seq bool) :=
  do R <- np_inv cov;
  Ok [seq xlt (Fin (Num.sqrt (chi2_ppf quantile 2))) (maha2 R loc q) | q <- qs].

(* cellmcd_visualization_utils.py:68, the list comprehension over np.where(mask)[0] *)
Definition masked_names (names : seq name) (m : seq bool) : res (seq name) :=
  mapM (fun i => if drop i names is a :: _ then Ok a else Err IndexError)
       [seq i <- iota 0 (size m) | nth false m i].

(* cellmcd_visualization_utils.py:39-72, annote_outliers_ellipse: the texts; [loc] and [cov] are
   location[[variable, second_variable]] and the block of the covariance (lines 64-65) *)
Definition annote_outliers_ellipse (names : seq name) (loc : 'rV[T]_2) (cov : 'M[T]_2)
    (x y : seq num) (quantile : T) : res (seq item) :=
  do m <- ellipse_mask loc cov quantile (zip x y);
  do ns <- masked_names names m;
  Ok [seq Text q.1.1 q.1.2 q.2 | q <- zip (mask m (zip x y)) ns].

(* np.linalg.eigh on the 2 x 2 block: eigenvalues and the matrix of eigenvectors, a parameter *)
Variable eigh : 'M[T]_2 -> 'rV[T]_2 * 'M[T]_2.

(* cellmcd_visualization_utils.py:80, the product with the square roots of the eigenvalues *)
Definition ellipse_shape (cov : 'M[T]_2) : 'M[T]_2 :=
  (eigh cov).2 *m diag_mx (map_mx Num.sqrt (eigh cov).1) *m (eigh cov).2^T.

(* cellmcd_visualization_utils.py:75-85, draw_ellipse: the vertices of the curve; [angles] are the
   pairs (cos, sin) of line 82.  A negative eigenvalue has the square root NaN, which the
   two matrix products spread over the whole curve. *)
Definition draw_ellipse (angles : seq (T * T)) (cov : 'M[T]_2) (center : 'rV[T]_2) (quantile : T)
  : seq (num * num) :=
  let radius := Num.sqrt (chi2_ppf quantile 2) in
  let shape := ellipse_shape cov in
  if [forall k, 0 <= (eigh cov).1 0 k] then
    [seq (Fin ((radius * a.1) * shape 0 0 + (radius * a.2) * shape 1 0 + center 0 0),
          Fin ((radius * a.1) * shape 0 1 + (radius * a.2) * shape 1 1 + center 0 1)) | a : T * T <- angles]
  else [seq (NaN, NaN) | a : T * T <- angles].

(* OneStepWrapping._calculate (onestep_m.py:105-120), a parameter: the location and scale, or the
   exception raised *)
Variable wrap_calc : seq num -> res (num * num).

(* cellmcd_visualization_utils.py:89-91; OneStepWrapping() cannot handle NaN (onestep_m.py:99-104) *)
Definition get_thresholds (cutoff : T) (x : seq num) : res (num * num) :=
  let '(r, e) := rs_fit wrap_calc (RScale false None) (Arr 1 x) true in
  do _ <- r;
  do l <- rs_location e;
  do s <- rs_scale e;
  Ok (xsub l (xmul (Fin cutoff) s), xadd l (xmul (Fin cutoff) s)).

(* cellmcd_visualization_utils.py:94-103 *)
Definition draw_threshold_lines (h : num * num) (v : option (num * num)) : seq item :=
  [:: HLine h.1; HLine h.2] ++ (if v is Some t then [:: VLine t.1; VLine t.2] else [::]).

Variables (n p : nat).

(* the attributes set by CellMCD.calculate_covariance (cellmcd.py:128-135) that the plot reads *)
Record fitted := Fitted {
  f_X : 'M[num]_(n, p); f_residuals : 'M[num]_(n, p); f_predictions : 'M[num]_(n, p);
  f_location : 'rV[T]_p; f_covariance : 'M[T]_p }.

(* an index of an axis of length p: negative numbers count from the end (NumPy indexing at
   cellmcd.py:197-247) *)
Definition np_index (v : int) : res 'I_p :=
  let o := match v with
           | Posz k => insub k
           | Negz k => if (k < p)%N then insub (p - k.+1)%N else None
           end in
  if o is Some i then Ok i else Err IndexError.

(* A[:, variable] (cellmcd.py:197, 207, 217, 230, 242) *)
Definition column (A : 'M[num]_(n, p)) (j : 'I_p) : seq num := [seq A i j | i <- enum 'I_n].

(* cellmcd.py:146-152, the plot types; any other string is [OtherPlot] *)
Inductive plottype : Type :=
| IndexPlot | ResidualsVsVariable | ResidualsVsPredictions | VariableVsPredictions | Bivariate
| OtherPlot.

(* cellmcd.py:196-252: x, y, the thresholds (horizontal, vertical), the annotation thresholds
   (unbound for the bivariate plot) and the items drawn before the scatter plot *)
Definition panel : Type :=
  (seq num * seq num * (num * num) * option (num * num)
   * option ((num * num) * option (num * num)) * seq item)%type.

(* (-cutoff, cutoff) (cellmcd.py:198, 208, 218) *)
Definition sym_pair (c : T) : num * num := (Fin (- c), Fin c).

(* self.location_[[i, j]] and self.covariance_[np.ix_([i, j], [i, j])] (cellmcd.py:246-247 and
   cellmcd_visualization_utils.py:64-65) *)
Definition pair_index (i j : 'I_p) : 'I_2 -> 'I_p := fun k => if k == 0 then i else j.
(* self.covariance_[np.ix_([i, j], [i, j])] (cellmcd.py:247, cellmcd_visualization_utils.py:64-65) *)
Definition block2 (S : 'M[T]_p) (i j : 'I_p) : 'M[T]_2 := mxsub (pair_index i j) (pair_index i j) S.
(* self.location_[[i, j]] (cellmcd.py:246) *)
Definition sub2 (m : 'rV[T]_p) (i j : 'I_p) : 'rV[T]_2 := \row_k m 0 (pair_index i j k).

(* cellmcd.py:190-252: the branches; [c] is cutoff and [ca] annotation_cutoff.  The branch that
   matches no plot type leaves x unbound (used at line 254). *)
Definition make_panel (angles : seq (T * T)) (quantile c ca : T) (f : fitted) (pt : plottype)
    (variable : int) (second : option int) : res panel :=
  match pt with
  | IndexPlot =>
      do j <- np_index variable;
      Ok ([seq Fin i%:R | i <- iota 0 n], column (f_residuals f) j, sym_pair c, None,
          Some (sym_pair ca, None), [::])
  | ResidualsVsVariable =>
      do j <- np_index variable;
      do v <- get_thresholds c (column (f_X f) j);
      do va <- get_thresholds ca (column (f_X f) j);
      Ok (column (f_X f) j, column (f_residuals f) j, sym_pair c, Some v,
          Some (sym_pair ca, Some va), [::])
  | ResidualsVsPredictions =>
      do j <- np_index variable;
      do v <- get_thresholds c (column (f_predictions f) j);
      do va <- get_thresholds ca (column (f_predictions f) j);
      Ok (column (f_predictions f) j, column (f_residuals f) j, sym_pair c, Some v,
          Some (sym_pair ca, Some va), [::])
  | VariableVsPredictions =>
      do j <- np_index variable;
      do h <- get_thresholds c (column (f_X f) j);
      do v <- get_thresholds c (column (f_predictions f) j);
      do ha <- get_thresholds ca (column (f_X f) j);
      do va <- get_thresholds ca (column (f_predictions f) j);
      if column (f_predictions f) j is x0 :: _ then
        Ok (column (f_predictions f) j, column (f_X f) j, h, Some v, Some (ha, Some va),
            [:: Diagonal x0])
      else Err IndexError
  | Bivariate =>
      if second is Some w then
        do j <- np_index variable;
        do k <- np_index w;
        do h <- get_thresholds c (column (f_X f) k);
        do v <- get_thresholds c (column (f_X f) j);
        Ok (column (f_X f) j, column (f_X f) k, h, Some v, None,
            [:: Curve (draw_ellipse angles (block2 (f_covariance f) j k)
                                    (sub2 (f_location f) j k) quantile)])
      else Err ValueError
  | OtherPlot => Err UnboundLocalError
  end.

(* cellmcd.py:257-277, the annotation; [qa] is the quantile of line 276 *)
Definition annotate (names : seq name) (qa : T) (f : fitted) (pt : plottype) (variable : int)
    (second : option int) (pn : panel) : res (seq item) :=
  let '(x, y, _, _, ann, _) := pn in
  match pt, second with
  | Bivariate, Some w =>
      do j <- np_index variable;
      do k <- np_index w;
      annote_outliers_ellipse names (sub2 (f_location f) j k) (block2 (f_covariance f) j k) x y qa
  | Bivariate, None => Err ValueError
  | _, _ => if ann is Some t then annote_outliers names x y (Some t.1) t.2 else Err UnboundLocalError
  end.

(* cellmcd.py:139-281, cell_MCD_plot: the items of the returned figure; [st] is the fitted state,
   None when the object has no covariance_ *)
Definition cell_MCD_plot (angles : seq (T * T)) (quantile : T) (annotation_quantile : option T)
    (st : option fitted) (pt : plottype) (variable : int) (second : option int)
    (row_names : option (seq name)) : res (seq item) :=
  if st is Some f then
    let c := Num.sqrt (chi2_ppf quantile 1) in
    let ca := if annotation_quantile is Some q then Num.sqrt (chi2_ppf q 1) else c in
    do pn <- make_panel angles quantile c ca f pt variable second;
    do texts <- (if row_names is Some names
                 then annotate names (odflt quantile annotation_quantile) f pt variable second pn
                 else Ok [::]);
    let '(x, y, h, v, _, pre) := pn in
    Ok (pre ++ [:: Scatter (zip x y)] ++ texts ++ draw_threshold_lines h v)
  else Err NotFittedError.

End Model.
