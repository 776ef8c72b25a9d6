(* Model of robpy/covariance/cellmcd.py and robpy/covariance/utils/cellmcd_utils.py.

   Simplifications: numbers are elements of a real closed field, rounding is not modelled; a cell
   of the data is a number or NaN (None), infinite cells are not modelled; alpha is a rational
   number (a finite float); logging is left out. *)
From mathcomp Require Import all_ssreflect all_algebra.
From Verif Require Import RFieldLra Prelude Stats Xnum RatFloor Vec LinAlg_Model MCD_Model OGK_Model Cov_Model.

Set Implicit Arguments.
Unset Strict Implicit.
Unset Printing Implicit Defensive.

Import Order.TTheory GRing.Theory Num.Theory.
Local Open Scope ring_scope.

(* Python's round on a non-negative number (cellmcd.py:355): to the nearest integer, halves to
   the even one *)
Definition py_round (x : rat) : nat :=
  let f := `|rat_floor x|%N in
  let d := x - f%:R in
  if d < 1 / 2%:R then f else if 1 / 2%:R < d then f.+1 else if odd f then f.+1 else f.

(* cellmcd.py:77-85, and initial_ddcw.py:52-60: the check of alpha and its new value *)
Definition new_alpha (alpha : rat) (n : nat) : res rat :=
  if (1 / 2%:R <= alpha) && (alpha <= 1) then Ok (Num.max alpha ((n %/ 2).+1%:R / n%:R))
  else Err ValueError.

(* lexicographic order on rows, the order of np.unique(W, axis=0) (cellmcd.py:291, 479;
   cellmcd_utils.py:23) *)
Fixpoint lex_le (a b : seq bool) : bool :=
  match a, b with
  | x :: a', y :: b' => if x == y then lex_le a' b' else y
  | _, _ => true
  end.

Section CellMCD.
Variables (T : rcfType) (n p : nat).

(* np.log (cellmcd.py:361, 510, 514) of a positive number *)
Variable ln : T -> T.
(* np.log(2 * np.pi) (cellmcd.py:361, 510, 514; cellmcd_utils.py:35) *)
Variable log2pi : T.

Implicit Types (X : 'M[option T]_(n, p)) (W : 'M[bool]_(n, p)) (w : 'rV[bool]_p) (s : seq 'I_p).
Implicit Types (mu q : 'rV[T]_p) (sigma sigma_inv : 'M[T]_p) (i : 'I_n) (j k : 'I_p).

(* np.where(w == 1)[0], np.nonzero(w)[0] (cellmcd.py:296, 413, 491; cellmcd_utils.py:26) *)
Definition ones w : seq 'I_p := [seq k <- enum 'I_p | w 0 k].

(* np.where(w == 0)[0] (cellmcd.py:295, 412) *)
Definition zeros w : seq 'I_p := [seq k <- enum 'I_p | ~~ w 0 k].

(* w with entry j set to 0 (cellmcd.py:487-488) *)
Definition without w j : 'rV[bool]_p := \row_k (w 0 k && (k != j)).

(* np.unique(W, axis=0) (cellmcd.py:291, 479; cellmcd_utils.py:23) *)
Definition unique_rows W : seq 'rV[bool]_p :=
  sort (fun a b : 'rV[bool]_p => lex_le [seq a 0 k | k <- enum 'I_p] [seq b 0 k | k <- enum 'I_p])
       (undup [seq row i W | i <- enum 'I_n]).

(* the entries of row i of X with column index in s; None when one of them is NaN, in which case
   all products with this vector are NaN (cellmcd.py:427, 500, 546, 586, 614; cellmcd_utils.py:32) *)
Definition cells X i s : option 'rV[T]_(size s) :=
  if all (fun k => isSome (X i k)) s then Some (\row_a odflt 0 (X i (pos s a))) else None.

(* mu[s] (cellmcd.py:493, 545; cellmcd_utils.py:28) *)
Definition sub_mu mu s : 'rV[T]_(size s) := \row_a mu 0 (pos s a).

(* inverse_submatrix(sigma, sigma_inv, s) (cellmcd.py:496, 533, 575, 613; cellmcd_utils.py:30) *)
Definition sub_inv sigma sigma_inv s : res 'M[T]_(size s) :=
  do R <- inverse_submatrix sigma sigma_inv (pos s);
  let: SqMat _ A := R in Ok (conform_mx 0 A).

(* cellmcd.py:510, 513-515: r^2 / c + log(c) + log(2 pi) in floating-point numbers; for c = 0 it
   is inf - inf or NaN, for c < 0 the logarithm is NaN *)
Definition log_term (r c : T) : xnum T := if 0 < c then Fin (r ^+ 2 / c + ln c + log2pi) else NaN.

(* the value predicted for cell k of row i from the cells in s (cellmcd.py:500-501, 544-549,
   584-589, 614-617), given the inverse R of sigma[s, s]; sigma_1 in lines 495-501 restricted to
   the positions without j is sigma on index_0 *)
Definition predict_cell X sigma mu s (R : 'M[T]_(size s)) k i : option T :=
  if cells X i s is Some x0 then
    Some (mu 0 k + ((x0 - sub_mu mu s) *m R *m \col_a sigma (pos s a) k) 0 0)
  else None.

(* sigma_kk - sigma_ks R sigma_sk (cellmcd.py:503-508, 534-539, 576-581) *)
Definition cond_variance sigma s (R : 'M[T]_(size s)) k : T :=
  sigma k k - ((\row_a sigma k (pos s a)) *m R *m \col_a sigma (pos s a) k) 0 0.

(* cellmcd.py:485-515, the deltas of the rows with pattern w, for column j *)
Definition delta_pattern X sigma sigma_inv mu j w : res ('I_n -> xnum T) :=
  let s := ones (without w j) in
  if (0 < size s)%N then
    do R <- sub_inv sigma sigma_inv s;
    Ok (fun i =>
      match X i j, predict_cell X sigma mu R j i with
      | Some x, Some x_hat => log_term (x - x_hat) (cond_variance sigma R j)
      | Some _, None => NaN
      | None, _ => PInf
      end)
  else Ok (fun i => if X i j is Some x then log_term (x - mu 0 j) (sigma j j) else PInf).

(* cellmcd.py:480-515, the loop over the patterns *)
Fixpoint delta_loop X W sigma sigma_inv mu j (ws : seq 'rV[bool]_p) (d : 'I_n -> xnum T)
  : res ('I_n -> xnum T) :=
  if ws is w :: ws' then
    let here i := (row i W == w) && isSome (X i j) in
    if [exists i, here i] then
      do f <- delta_pattern X sigma sigma_inv mu j w;
      delta_loop X W sigma sigma_inv mu j ws' (fun i => if here i then f i else d i)
    else delta_loop X W sigma sigma_inv mu j ws' d
  else Ok d.

(* cellmcd.py:466-517, _calculate_delta *)
Definition calculate_delta X W sigma sigma_inv mu j : res ('I_n -> xnum T) :=
  delta_loop X W sigma sigma_inv mu j (unique_rows W) (fun _ => PInf).

(* the order of np.argsort: NaN last (cellmcd.py:458) *)
Definition sort_le (a b : xnum T) : bool := is_nan b || xle a b.

(* cellmcd.py:456-459, the cells of the column that become 1 *)
Definition good_cells (delta : 'I_n -> xnum T) (qj : T) (h : nat) : seq 'I_n :=
  let good := [seq i <- enum 'I_n | xle (delta i) (Fin qj)] in
  if (size good < h)%N then take h (sort (fun a b => sort_le (delta a) (delta b)) (enum 'I_n))
  else good.

(* cellmcd.py:460-462, the new W *)
Definition set_column W j (good : seq 'I_n) : 'M[bool]_(n, p) :=
  \matrix_(i, k) if k == j then i \in good else W i k.

(* cellmcd.py:454-462, the loop over the columns *)
Fixpoint update_loop X sigma sigma_inv mu q (h : nat) (js : seq 'I_p) W : res 'M[bool]_(n, p) :=
  if js is j :: js' then
    do delta <- calculate_delta X W sigma sigma_inv mu j;
    update_loop X sigma sigma_inv mu q h js' (set_column W j (good_cells delta (q 0 j) h))
  else Ok W.

(* the column sums of W (cellmcd.py:363, 380, 453) *)
Definition n_clean W j : nat := #|[set i | W i j]|.

(* np.argsort(np.sum(W, axis=0), kind="stable") (cellmcd.py:453) *)
Definition column_order W : seq 'I_p := sort (fun a b => (n_clean W a <= n_clean W b)%N) (enum 'I_p).

(* cellmcd.py:439-464, the contents of the array W after _update_W *)
Definition update_W X W mu sigma sigma_inv q h : res 'M[bool]_(n, p) :=
  update_loop X sigma sigma_inv mu q h (column_order W) W.

(* np.linalg.slogdet(A)[1] (cellmcd_utils.py:35) *)
Definition log_abs_det m (A : 'M[T]_m) : xnum T := if \det A == 0 then NInf else Fin (ln `|\det A|).

(* cellmcd_utils.py:25-36, the contribution of the rows with pattern w *)
Definition objective_pattern X W mu sigma sigma_inv w : res (xnum T) :=
  let s := ones w in
  do R <- sub_inv sigma sigma_inv s;
  let term i :=
    if cells X i s is Some x then
      let d := x - sub_mu mu s in
      xadd (xadd (Fin (dotv (d *m R) d)) (log_abs_det (mxsub (pos s) (pos s) sigma)))
           (Fin (log2pi * (size s)%:R))
    else NaN in
  Ok (xsum [seq term i | i <- enum 'I_n & row i W == w]).

(* cellmcd_utils.py:22-38, the loop over the patterns *)
Fixpoint objective_loop X W mu sigma sigma_inv (ws : seq 'rV[bool]_p) (acc : xnum T) : res (xnum T) :=
  if ws is w :: ws' then
    do t <- objective_pattern X W mu sigma sigma_inv w;
    objective_loop X W mu sigma sigma_inv ws' (xadd acc t)
  else Ok acc.

(* cellmcd_utils.py:6-38, objective_function *)
Definition objective_function X W mu sigma sigma_inv : res (xnum T) :=
  objective_loop X W mu sigma sigma_inv (unique_rows W) (Fin 0).

(* cellmcd.py:363, 380, the penalty *)
Definition penalty q W : T := \sum_j q 0 j * (\sum_i (if W i j then 0 else 1)).

(* cellmcd.py:364-367, 380-381, the penalised objective *)
Definition objective X W mu sigma sigma_inv q : res (xnum T) :=
  do v <- objective_function X W mu sigma sigma_inv; Ok (xadd v (Fin (penalty q W))).

(* assignment to the entries with index in s (cellmcd.py:422) *)
Definition put_row (s : seq 'I_p) (v : 'rV[T]_(size s)) (d : 'rV[T]_p) : 'rV[T]_p :=
  \row_k if [pick a | pos s a == k] is Some a then v 0 a else d 0 k.

(* a matrix that is zero outside the rows and columns in s (cellmcd.py:430-432) *)
Definition put_block (s : seq 'I_p) (A : 'M[T]_(size s)) : 'M[T]_p :=
  \matrix_(k, l) match [pick a | pos s a == k], [pick a | pos s a == l] with
                 | Some a, Some b => A a b | _, _ => 0 end.

(* cellmcd.py:412-432, the imputed row i and its term in the matrix bias; the observed cells are
   numbers, see [c_step] *)
Definition impute_row X W mu sigma sigma_inv i : res ('rV[T]_p * 'M[T]_p) :=
  let mis := zeros (row i W) in
  let obs := ones (row i W) in
  let x := \row_k odflt 0 (X i k) in
  if (0 < size mis)%N then
    if size mis == p then Ok (mu, sigma)
    else
      do R <- np_inv (mxsub (pos mis) (pos mis) sigma_inv);
      let x_obs := \row_a odflt 0 (X i (pos obs a)) in
      let v := sub_mu mu mis - (R *m mxsub (pos mis) (pos obs) sigma_inv *m (x_obs - sub_mu mu obs)^T)^T in
      Ok (put_row v x, put_block R)
  else Ok (x, 0).

(* cellmcd.py:411-432, the loop over the rows *)
Fixpoint impute_rows X W mu sigma sigma_inv (rows : seq 'I_n) : res (seq 'rV[T]_p * 'M[T]_p) :=
  if rows is i :: rows' then
    do a <- impute_row X W mu sigma sigma_inv i;
    do b <- impute_rows X W mu sigma sigma_inv rows';
    Ok (a.1 :: b.1, a.2 + b.2)
  else Ok ([::], 0).

(* cellmcd.py:409-437, the new location and covariance.  When a cell that W declares clean is
   NaN, both contain NaN; then numpy.linalg.eigh in truncated_covariance (cellmcd.py:378) raises
   LinAlgError or returns NaN, depending on the LAPACK; the model takes the first.  No property
   depends on this. *)
Definition m_step X W mu sigma sigma_inv : res ('rV[T]_p * 'M[T]_p) :=
  if [exists i, exists k, W i k && ~~ isSome (X i k)] then Err LinAlgError
  else
    do xb <- impute_rows X W mu sigma sigma_inv (enum 'I_n);
    Ok (vmean xb.1, (n.-1%:R / n%:R) *: cov xb.1 + n%:R^-1 *: xb.2).

(* the arrays W by reference (cellmcd.py:369, 374, 386, 405-406, 462: _update_W writes into the
   array that it receives and returns the same array) *)
Definition heap := nat -> 'M[bool]_(n, p).

(* W[:, j] = w_new for all columns (cellmcd.py:462) *)
Definition hset (m : heap) (r : nat) W : heap := fun r' => if r' == r then W else m r'.

(* cellmcd.py:393-437, _C_step; the heap afterwards, the reference that is returned, and the new
   estimates *)
Definition C_step X (m : heap) (rW : nat) mu sigma sigma_inv q h
  : res (heap * nat * ('rV[T]_p * 'M[T]_p)) :=
  do W' <- update_W X (m rW) mu sigma sigma_inv q h;
  do e <- m_step X W' mu sigma sigma_inv;
  Ok (hset m rW W', rW, e).

(* np.linalg.eigh and the argsort in truncated_covariance (cellmcd.py:378) *)
Variable eigh : 'M[T]_p -> 'rV[T]_p * 'M[T]_p.
Variable argsort_eig : 'rV[T]_p -> 'I_p -> 'I_p.

(* location, covariance and inverse covariance (cellmcd.py:370-372, 387-389) *)
Record est := Est { e_mu : 'rV[T]_p; e_sigma : 'M[T]_p; e_inv : 'M[T]_p }.

(* np.max(np.abs(cov - cov_old)) (cellmcd.py:377) *)
Definition max_abs_diff (A B : 'M[T]_p) : T := \big[Num.max/0]_j \big[Num.max/0]_k `|A j k - B j k|.

(* cellmcd.py:373-391, the loop with [left] = max_c_steps - step; [cur] holds the local variables
   location, cov, cov_inv and W, which are unbound before the first iteration; [objs] holds
   objective_values[0 .. step], the last one first.  The result: estimates, contents of the
   returned W, objective values. *)
Fixpoint c_loop X q h (crit min_eig : T) (left : nat) (m : heap) (rW_old : nat) (old : est)
    (cur : option (est * nat)) (conv : T) (objs : seq (xnum T))
  : res (est * 'M[bool]_(n, p) * seq (xnum T)) :=
  let stop := if cur is Some (e, r) then Ok (e, m r, objs) else Err UnboundLocalError in
  if left is left'.+1 then
    if crit < conv then
      do s <- C_step X m rW_old (e_mu old) (e_sigma old) (e_inv old) q h;
      let: (m', rW, (location, cov0)) := s in
      let conv' := max_abs_diff cov0 (e_sigma old) in
      let cov := truncated_covariance eigh argsort_eig cov0 min_eig in
      do cov_inv <- np_inv cov;
      do v <- objective X (m' rW) location cov cov_inv q;
      if xlt (head NaN objs) v then Ok (old, m' rW_old, objs)
      else
        let new := Est location cov cov_inv in
        c_loop X q h crit min_eig left' m' rW new (Some (new, rW)) conv' (v :: objs)
    else stop
  else stop.

(* cellmcd.py:356-357, initial_W *)
Definition initial_W X : 'M[bool]_(n, p) := \matrix_(i, k) isSome (X i k).

(* cellmcd.py:360-362, equation (21); [chi99] is chi2.ppf(0.99, 1) *)
Definition q_vec (chi99 : T) sigma_inv : 'rV[T]_p := \row_j (chi99 - ln (sigma_inv j j) + log2pi).

(* cellmcd.py:353-391, _C_steps_until_convergence *)
Definition C_steps_until_convergence X (alpha : rat) (chi99 crit min_eig : T) (max_c_steps : nat)
    (initial : est) : res (est * 'M[bool]_(n, p) * seq (xnum T)) :=
  let h := py_round (alpha * n%:R) in
  let W0 := initial_W X in
  let q := q_vec chi99 (e_inv initial) in
  do v <- objective X W0 (e_mu initial) (e_sigma initial) (e_inv initial) q;
  c_loop X q h crit min_eig max_c_steps (fun _ => W0) 0 initial None 1 [:: v].

(* cellmcd.py:636-665, _check_data; the data are scaled *)
Definition check_data (alpha : rat) (cutoff : T) X : res unit :=
  let outlying j := #|[set i | if X i j is Some x then cutoff < `|x| else false]| in
  let bad j := #|[set i | if X i j is Some x then cutoff < `|x| else true]| in
  if [exists j, 1 - alpha < (outlying j)%:R / n%:R] then Err ValueError
  else if [exists j, 1 - alpha < (bad j)%:R / n%:R] then Err ValueError
  else if (n < 5 * p)%N then Err ValueError
  else Ok tt.

(* cellmcd.py:105 *)
Definition blank_outliers X : 'M[option T]_(n, p) :=
  \matrix_(i, k) if X i k is Some x then if 3%:R < `|x| then None else Some x else None.

(* cellmcd.py:519-551 and 553-592 for one cell: predictions from the cells in s *)
Definition predict_from X sigma sigma_inv mu s k : res (('I_n -> option T) * T) :=
  do R <- sub_inv sigma sigma_inv s;
  Ok (predict_cell X sigma mu R k, cond_variance sigma R k).

(* cellmcd.py:293-334, the prediction and the conditional variance of cell k in the rows with
   pattern w *)
Definition predict_pattern X mu sigma sigma_inv w k : res (('I_n -> option T) * T) :=
  let obs := ones w in
  if (size (zeros w) < p)%N && (0 < size (zeros w))%N then
    if w 0 k then
      if size obs == 1%N then Ok (fun _ => Some (mu 0 k), sigma k k)
      else predict_from X sigma sigma_inv mu [seq l <- obs | l != k] k
    else predict_from X sigma sigma_inv mu obs k
  else if size (zeros w) == 0%N then
    do f <- predict_from X sigma sigma_inv mu [seq l <- enum 'I_p | l != k] k;
    Ok (f.1, 1 / sigma_inv k k)
  else Ok (fun _ => Some (mu 0 k), sigma_inv k k).

(* cellmcd.py:283-336, _make_predictions, cell by cell: the rows of a pattern are written once,
   when the loop reaches the pattern *)
Definition make_prediction X W mu sigma sigma_inv i k : res (option T * T) :=
  do f <- predict_pattern X mu sigma sigma_inv (row i W) k; Ok (f.1 i, f.2).

(* cellmcd.py:117-118, the estimates in the original units *)
Definition back_location (loc scale : 'rV[T]_p) mu : 'rV[T]_p := \row_k (loc 0 k + mu 0 k * scale 0 k).
(* cellmcd.py:118, the covariance in the original units *)
Definition back_cov (scale : 'rV[T]_p) sigma : 'M[T]_p := diag_mx scale *m sigma *m diag_mx scale.

(* cellmcd.py:121-122, X_imputed *)
Definition impute_cells X W (predictions : 'M[option T]_(n, p)) : 'M[option T]_(n, p) :=
  \matrix_(i, k) if W i k then X i k else predictions i k.

(* a fit as far as alpha and the C-steps are concerned (cellmcd.py:74-110): the new value of
   self.alpha, kept when a later step raises, and the outcome; [scaled] is the data after the
   robust standardisation (cellmcd.py:91-93) and [initial] the estimates of InitialDDCW
   (cellmcd.py:100-104) with the given alpha *)
Definition fit_core (alpha : rat) (cutoff chi99 crit min_eig : T) (max_c_steps : nat)
    (scaled : 'M[option T]_(n, p)) (initial : rat -> res est)
  : rat * res (est * 'M[bool]_(n, p) * seq (xnum T)) :=
  match new_alpha alpha n with
  | Err e => (alpha, Err e)
  | NoFuel => (alpha, NoFuel)
  | Ok a =>
    (a, do _ <- check_data a cutoff scaled;
        do e <- initial a;
        C_steps_until_convergence (blank_outliers scaled) a chi99 crit min_eig max_c_steps e)
  end.

End CellMCD.
