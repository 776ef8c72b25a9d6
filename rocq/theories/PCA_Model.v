(* Model of robpy/pca: base.py, robpca.py and spca.py.

   Simplifications: numbers are elements of a real closed field, rounding is not modelled; the
   rows of the data are vectors of p finite numbers; alpha is a rational number or something
   else than a number (None); n_components is None or a natural number; logging and plotting are
   left out, and so are explained_variance_ratio and explained_variance_ratio_, which nothing reads.
   np.cov of fewer than two rows and the spatial sign covariance with an observation at
   the centre consist of NaN; the model takes np.linalg.eigh to raise LinAlgError on them. *)
From mathcomp Require Import all_ssreflect all_algebra.
From Verif Require Import RFieldLra Prelude Stats Xnum RatFloor Regr Vec Qn_Model UMcd_Model LinAlg_Model MCD_Model OGK_Model.

Set Implicit Arguments.
Unset Strict Implicit.
Unset Printing Implicit Defensive.

Import Order.TTheory GRing.Theory Num.Theory.
Local Open Scope ring_scope.

Section Base.
Variables (T : rcfType) (p k : nat).
Implicit Types (loc x : 'rV[T]_p) (C : 'M[T]_(p, k)).

(* base.py:50, one row of transform *)
Definition transform loc C x : 'rV[T]_k := (x - loc) *m C.

(* base.py:61, one row of project *)
Definition project loc C x : 'rV[T]_p := transform loc C x *m C^T.

(* base.py:79 and robpca.py:97-99, one orthogonal distance *)
Definition orth_dist loc C x : T := vnorm ((x - loc) - project loc C x).

(* np.sqrt (base.py:80) *)
Definition xnp_sqrt (u : xnum T) : xnum T :=
  match u with Fin v => np_sqrt v | PInf => PInf | _ => NaN end.

(* base.py:80-82, one score distance; the explained variances [ev] are broadcast against the k
   scores, shapes that do not fit raise ValueError *)
Definition score_dist (ev : seq T) loc C x : res (xnum T) :=
  let s := [seq (transform loc C x 0 j) ^+ 2 | j <- enum 'I_k] in
  do q <- (if size ev == k then Ok (zip s ev)
           else if k == 1%N then Ok [seq (head 0 s, e) | e <- ev]
           else if size ev == 1%N then Ok [seq (v, head 0 ev) | v <- s]
           else Err ValueError);
  Ok (xnp_sqrt (xsum [seq xdiv (Fin v.1) (Fin v.2) | v : T * T <- q])).

End Base.

Section Cutoff.
Variable T : rcfType.
(* v ** (2/3), v ** (3/2) (base.py:96-97) *)
Variables pow23 pow32 : T -> T.
(* norm.ppf(0.975) (base.py:97) *)
Variable z975 : T.
(* the constants of UnivariateMCD, see [umcd] *)
Variables (craw crew : nat -> nat -> T) (q975 : T).

(* base.py:95-97, get_od_cutoff; UnivariateMCD() has h = n // 2 + 1 *)
Definition od_cutoff (od : seq T) : xnum T :=
  let mcd := umcd craw crew q975 true (size od %/ 2 + 1) [seq pow23 d | d <- od] in
  match UMcd_Model.location mcd, variance mcd with
  | Fin l, Fin v => Fin (pow32 (l + Num.sqrt v * z975))
  | _, _ => NaN
  end.

End Cutoff.

Section SelectK.
Variable T : rcfType.

(* robpca.py:89, spca.py:47: the cumulated shares of the eigenvalues [w] *)
Definition var_explained (w : seq T) : seq (xnum T) :=
  [seq xdiv (Fin (fsum (take j.+1 w))) (Fin (fsum w)) | j <- iota 0 (size w)].

(* robpca.py:91, spca.py:49: np.argmax of booleans is the first True, 0 if there is none *)
Definition select_k (thr : T) (w : seq T) : nat :=
  let s := [seq xle (Fin thr) r | r <- var_explained w] in
  (if has id s then find id s else 0%N).+1.

End SelectK.

(* the parameters of a ROBPCA object (robpca.py:47-50); None: alpha is not a number *)
Record params (T : Type) := Params {
  k_min_var : T; alpha : option rat; final_mcd : bool; seed : option nat }.

(* the attributes of a PCA object; None: not set (base.py:19, robpca.py:58, 94-95, 105, 111, 113-116,
   spca.py:37, 45, 49-52); arrays come with their dimensions *)
Record obj (T : Type) := Obj {
  n_components : option nat;
  location_ : option {r : nat & 'rV[T]_r};
  components_ : option {d : nat * nat & 'M[T]_(d.1, d.2)};
  explained_variance_ : option (seq T) }.

(* base.py:19: the object before fit *)
Definition new_obj (T : Type) (n_comp : option nat) : obj T := Obj n_comp None None None.

Section Assign.
Variable T : Type.
Implicit Type o : obj T.
(* self.n_components = k (robpca.py:113, spca.py:49) *)
Definition set_k o k := Obj (Some k) (location_ o) (components_ o) (explained_variance_ o).
(* self.location_ = ... (robpca.py:58, 116, spca.py:37) *)
Definition set_loc o r (v : 'rV[T]_r) :=
  Obj (n_components o) (Some (existT _ r v)) (components_ o) (explained_variance_ o).
(* self.components_ = ... (robpca.py:105, 111, 115, spca.py:45, 50) *)
Definition set_comp o a b (C : 'M[T]_(a, b)) :=
  Obj (n_components o) (location_ o) (Some (existT (fun d : nat * nat => 'M[T]_(d.1, d.2)) (a, b) C)) (explained_variance_ o).
(* self.explained_variance_ = ... (robpca.py:94, spca.py:51) *)
Definition set_ev o v := Obj (n_components o) (location_ o) (components_ o) (Some v).
End Assign.

Section Fit.
Variables (T : rcfType) (p : nat).
Implicit Types (X : seq 'rV[T]_p) (o : obj T).

(* np.linalg.eigh (robpca.py:87, 102, 109, spca.py:44) *)
Variable eigh : forall q, 'M[T]_q -> 'rV[T]_q * 'M[T]_q.
(* np.argsort of eigenvalues (robpca.py:88, 104) *)
Variable argsort_eig : forall q, 'rV[T]_q -> 'I_q -> 'I_q.
(* np.linalg.matrix_rank(_, hermitian=True) (robpca.py:103, 110) *)
Variable matrix_rank : forall q, 'M[T]_q -> nat.

(* eigh(np.cov(Y, rowvar=False)) (robpca.py:85-87, 101-102); for one column np.cov is a
   0-dimensional array, for which eigh raises LinAlgError *)
Definition eigh_cov r (Y : seq 'rV[T]_r) : res ('rV[T]_r * 'M[T]_r) :=
  if (r == 1%N) || (size Y <= 1)%N then Err LinAlgError else Ok (eigh (cov Y)).

(* the eigenvalues in descending order (robpca.py:88, 94, 104) *)
Definition desc r (w : 'rV[T]_r) : 'I_r -> 'I_r := fun j => argsort_eig w (rev_ord j).

(* V[:, idx[:k]] (robpca.py:96, 105) *)
Definition first_cols a r (k : nat) (V : 'M[T]_(a, r)) (idx : 'I_r -> 'I_r) : 'M[T]_(a, minn k r) :=
  \matrix_(i, j) V i (idx (widen_ord (geq_minr k r) j)).

(* the number of columns of V[:, -k:] for r columns (robpca.py:111); k = 0 selects all *)
Definition n_last (k r : nat) : nat := if k == 0%N then r else minn k r.

Lemma n_last_le k r : (n_last k r <= r)%N.
Proof. by rewrite /n_last; case: ifP; rewrite ?geq_minr. Qed.

(* np.flip(V[:, -k:], axis=1) (robpca.py:111): the last columns, the last one first *)
Definition last_flip a r (k : nat) (V : 'M[T]_(a, r)) : 'M[T]_(a, n_last k r) :=
  \matrix_(i, j) V i (rev_ord (widen_ord (n_last_le k r) j)).

(* robpca.py:68-82, the size of the h-subset; 10 stands for an unknown number of components *)
Definition h_size (a : rat) (n : nat) (n_comp : option nat) : nat :=
  maxn `|rat_floor (a * n%:R)|%N ((n + (if n_comp is Some k then k else 10) + 1) %/ 2).

(* sklearn's PCA (robpca.py:56-59): the transposed components_, min(n, p) of them *)
Variable pca_loadings : forall r, seq 'rV[T]_p -> 'M[T]_(p, r).
(* stahel_donoho (robpca.py:61), see SD_Model *)
Variable outlyingness : forall r, seq 'rV[T]_r -> option nat -> res (seq (xnum T)).
(* np.argsort (robpca.py:84) *)
Variable argsort : seq (xnum T) -> seq nat.
(* get_od_cutoff (robpca.py:100), see [od_cutoff] *)
Variable cutoff : seq T -> xnum T.
(* FastMCD().fit(_).covariance (robpca.py:108-109), see MCD_Model *)
Variable mcd_cov : forall d, seq 'rV[T]_d -> res 'M[T]_d.

(* robpca.py:106-111, the final MCD step on the scores [Y] with the components [C] *)
Definition robpca_mcd_step (P : params T) o r (Y : seq 'rV[T]_r) (loc : 'rV[T]_r) (k2 d : nat) (C : 'M[T]_(r, d)) :
  obj T * res (nat * {d : nat & 'M[T]_(r, d)}) :=
  if final_mcd P && (1 < k2)%N then
    match mcd_cov [seq transform loc C y | y <- Y] with Err e => (o, Err e) | NoFuel => (o, NoFuel) | Ok Sm =>
    let k3 := minn k2 (matrix_rank Sm) in
    let C' := C *m last_flip k3 (eigh Sm).2 in
    (set_comp o C', Ok (k3, existT _ (n_last k3 d) C'))
    end
  else (o, Ok (k2, existT _ d C)).

(* robpca.py:97-105, from the subspace [H] of the h-subset *)
Definition robpca_od_step (P : params T) o r (Y : seq 'rV[T]_r) (loc : 'rV[T]_r) (k d : nat) (H : 'M[T]_(r, d)) :
  obj T * res (nat * {d : nat & 'M[T]_(r, d)}) :=
  let od := [seq orth_dist loc H y | y <- Y] in
  let c := cutoff od in
  let Yv := [seq y <- Y | xlt (Fin (orth_dist loc H y)) c] in
  match eigh_cov Yv with Err e => (o, Err e) | NoFuel => (o, NoFuel) | Ok (wv, Vv) =>
  let k2 := minn k (matrix_rank (cov Yv)) in
  let C := first_cols k2 Vv (desc wv) in
  robpca_mcd_step P (set_comp o C) Y loc k2 C
  end.

(* robpca.py:58-111 on the scores [Y]; the components in the coordinates of the scores *)
Definition robpca_core (P : params T) o r (Y : seq 'rV[T]_r) : obj T * res (nat * {d : nat & 'M[T]_(r, d)}) :=
  let loc := vmean Y in
  let o1 := set_loc o loc in
  match outlyingness Y (seed P) with Err e => (o1, Err e) | NoFuel => (o1, NoFuel) | Ok outl =>
  match alpha P with None => (o1, Err ValueError) | Some a =>
  if ~~ ((1%:R / 2%:R <= a) && (a <= 1)) then (o1, Err ValueError) else
  let h := h_size a (size Y) (n_components o) in
  match eigh_cov (sel 0 Y (take h (argsort outl))) with Err e => (o1, Err e) | NoFuel => (o1, NoFuel) | Ok (w, V) =>
  let ws := [seq w 0 (desc w j) | j <- enum 'I_r] in
  let k := if n_components o is Some k then k else select_k (k_min_var P) ws in
  robpca_od_step P (set_ev o1 (take k ws)) Y loc k (first_cols k V (desc w))
  end end end.

(* robpca.py:54-117, fit *)
Definition robpca_fit (P : params T) o X : obj T * res unit :=
  let m := vmean X in
  let L := pca_loadings (minn (size X) p) X in
  let Y := [seq (x - m) *m L | x <- X] in
  match robpca_core P o Y with
  | (o', Ok (k, existT _ C)) =>
    let X' := [seq y *m L^T + m | y <- Y] in
    (set_loc (set_comp (set_k o' k) (L *m C)) (vmean X'), Ok tt)
  | (o', Err e) => (o', Err e)
  | (o', NoFuel) => (o', NoFuel)
  end.

(* l1median (spca.py:37), see L1Median_Model *)
Variable l1median : seq 'rV[T]_p -> res 'rV[T]_p.
(* 1 / scale of median_abs_deviation(_, scale="normal") (spca.py:46) *)
Variable mad_factor : T.

(* spca.py:38-43; for data without a row at [loc] *)
Definition spatial_sign_cov X (loc : 'rV[T]_p) : 'M[T]_p :=
  (size X)%:R^-1 *: \sum_(x <- X) ((vnorm (x - loc))^-1 *: (x - loc))^T *m ((vnorm (x - loc))^-1 *: (x - loc)).

(* spca.py:35-53, fit; a row at the location has weight inf, inf * 0 is NaN *)
Definition spca_fit (thr : T) o X : obj T * res unit :=
  match l1median X with Err e => (o, Err e) | NoFuel => (o, NoFuel) | Ok loc =>
  let o1 := set_loc o loc in
  if has (fun x => x == loc) X then (o1, Err LinAlgError) else
  let C := rev_cols (eigh (spatial_sign_cov X loc)).2 in
  let ev := [seq (mad_factor * fmad [seq transform loc C x 0 j | x <- X]) ^+ 2 | j <- enum 'I_p] in
  let k := if n_components o is Some k then k else select_k thr ev in
  let o2 := set_k (set_comp o1 C) k in
  (set_ev (set_comp o2 (first_cols k C id)) (take k ev), Ok tt)
  end.

End Fit.

Section Map.
Variables (T : rcfType) (p : nat).
(* chi2.ppf(0.975, df) (base.py:87), see [od_cutoff] for the rest *)
Variables (chi2_975 : nat -> T) (cutoff : seq T -> xnum T).

(* base.py:63-92, the values behind plot_outlier_map of a fitted object with p columns *)
Definition outlier_map (o : obj T) (X : seq 'rV[T]_p) : res (seq (xnum T) * seq T * T * xnum T) :=
  match location_ o, components_ o, explained_variance_ o, n_components o with
  | Some (existT r loc), Some (existT d C), Some ev, Some k =>
    match @eqP _ r p, @eqP _ d.1 p with
    | ReflectT er, ReflectT ed =>
      let loc := castmx (erefl 1%N, er) loc in
      let C := castmx (ed, erefl d.2) C in
      do sd <- mapM (score_dist ev loc C) X;
      let od := [seq orth_dist loc C x | x <- X] in
      Ok (sd, od, Num.sqrt (chi2_975 k), cutoff od)
    | _, _ => Err ValueError
    end
  | _, _, _, _ => Err AttributeError
  end.

End Map.
