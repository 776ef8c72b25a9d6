(* Properties of the PCA estimators. *)
From mathcomp Require Import all_ssreflect all_algebra.
From mathcomp.zify Require Import zify.
From mathcomp.algebra_tactics Require Import ring.
From Verif Require Import RFieldLra Prelude Stats Xnum RatFloor Regr Vec PSD Qn_Model UMcd_Model UMcd_Props.
From Verif Require Import LinAlg_Model MCD_Model MCD_Proofs OGK_Model Cov_Spec PCA_Model PCA_Spec PCA_Proofs PCAExact_Proofs Spectral_Proofs.

Set Implicit Arguments.
Unset Strict Implicit.
Unset Printing Implicit Defensive.

Import Order.TTheory GRing.Theory Num.Theory.
Local Open Scope ring_scope.

Section Geometry.
Variables (T : rcfType) (p k : nat) (loc : 'rV[T]_p) (C : 'M[T]_(p, k)).
Hypothesis oC : orthonormal C.
Implicit Types (x u v : 'rV[T]_p).

(* C82: squared distance to the centre = squared norm of the scores + squared orthogonal distance *)
Theorem pca_pythagoras x :
  dotv (x - loc) (x - loc) = dotv (transform loc C x) (transform loc C x) + orth_dist loc C x ^+ 2.
Proof.
rewrite orth_dist_sq; set u := x - loc; pose v := project loc C x.
have e : dotv (u - v) v = 0.
  by rewrite /v /project dotv_mulmxT orth_resid // dot0v.
have ev : dotv v v = dotv (transform loc C x) (transform loc C x).
  by rewrite /v {2}/project dotv_mulmxT /project -mulmxA oC mulmx1.
rewrite -/v -ev; have -> : dotv u u = dotv ((u - v) + v) ((u - v) + v) by rewrite subrK.
rewrite dotv_sqD e; ring.
Qed.

(* C82: the orthogonal distance is the distance to the affine subspace through the centre, attained
   at loc + project x and nowhere else *)
Theorem pca_orth_dist_nearest x (t : 'rV[T]_k) :
  let y := loc + t *m C^T in
  [/\ vnorm (x - (loc + project loc C x)) = orth_dist loc C x,
      orth_dist loc C x <= vnorm (x - y) &
      vnorm (x - y) = orth_dist loc C x -> y = loc + project loc C x].
Proof.
move=> y; pose a := (x - loc) - project loc C x; pose b := project loc C x - t *m C^T.
have oE : orth_dist loc C x = vnorm a by [].
have yE : x - y = a + b.
  by rewrite /a /b /y; apply/rowP => j; rewrite !mxE; ring.
have ab : dotv a b = 0.
  by rewrite /b /project -mulmxBl dotv_mulmxT orth_resid // dot0v.
have sq : vnorm (x - y) ^+ 2 = vnorm a ^+ 2 + dotv b b.
  by rewrite !vnormK yE dotv_sqD ab; ring.
split.
- by rewrite oE /a opprD addrA.
- rewrite oE -(@ler_pexpn2r _ 2) ?nnegrE ?vnorm_ge0 // sq; have := dotv_ge0 b; flra.
- move=> e; move: sq; rewrite e oE => sq; have /eqP : dotv b b = 0 by flra.
  by rewrite dotv_eq0 /b subr_eq0 => /eqP ->.
Qed.

(* C82: project is linear after centring *)
Theorem pca_project_linear (a b : T) u v :
  project loc C (loc + (a *: u + b *: v)) = a *: project loc C (loc + u) + b *: project loc C (loc + v).
Proof.
by rewrite /project /transform ![loc + _]addrC !addrK !mulmxDl -!scalemxAl.
Qed.

(* C82: a second projection moves by the projection of the location *)
Theorem pca_project_twice x :
  project loc C (project loc C x) = project loc C x - loc *m C *m C^T /\
  (project loc C (project loc C x) = project loc C x <-> loc *m C = 0).
Proof.
have e : project loc C (project loc C x) = project loc C x - loc *m C *m C^T.
  rewrite {1}/project /transform mulmxBl mulmxBl; congr (_ - _).
  by rewrite {1}/project -[_ *m C^T *m C]mulmxA oC mulmx1.
split=> //; rewrite e; split=> [|->]; last by rewrite mul0mx subr0.
move/eqP; rewrite -subr_eq0 addrAC subrr sub0r oppr_eq0 => /eqP h.
by rewrite -[LHS]mulmx1 -oC mulmxA h mul0mx.
Qed.

End Geometry.

Section Selection.
Variable T : rcfType.
Implicit Types (thr : T) (w : seq T).

(* C83: with a positive total the smallest number of leading eigenvalues reaching the share, 1 if
   there is none *)
Theorem pca_select_k thr w : 0 < fsum w ->
  let reach j := thr * fsum w <= fsum (take j w) in
  let k := select_k thr w in
  [/\ (0 < k <= size w)%N,
      (exists2 j, (0 < j <= size w)%N & reach j) -> reach k /\ forall j, (0 < j < k)%N -> ~~ reach j
    & (forall j, (0 < j <= size w)%N -> ~~ reach j) -> k = 1%N].
Proof.
move=> w0 reach k.
have sw : (0 < size w)%N by case: w w0 {reach k} => //; rewrite /fsum /= ltxx.
pose f j := reach j.+1.
have kE : k = (if has f (iota 0 (size w)) then find f (iota 0 (size w)) else 0%N).+1.
  rewrite /k select_kE; have e : (fun j => xle (Fin thr) (xdiv (Fin (fsum (take j.+1 w))) (Fin (fsum w)))) =1 f.
    by move=> j; rewrite xle_share.
  by rewrite (eq_has e) (eq_find e).
have fl : has f (iota 0 (size w)) -> (find f (iota 0 (size w)) < size w)%N.
  by rewrite has_find size_iota.
split.
- by rewrite kE; case: ifP => // /fl.
- case=> j /andP[j0 js] rj; have h : has f (iota 0 (size w)).
    by apply/hasP; exists j.-1; rewrite ?mem_iota /f ?prednK // add0n; lia.
  rewrite kE h; split.
    by have := nth_find 0%N h; rewrite nth_iota ?fl.
  move=> i /andP[i0 ik]; have := @before_find _ 0%N f (iota 0 (size w)) i.-1.
  have := fl h; rewrite nth_iota ?add0n /f ?prednK //; [move=> ? hn; rewrite hn //; lia|lia].
- move=> h; rewrite kE; case: ifP => // /hasP[j]; rewrite mem_iota add0n => /andP[_ js] fj.
  by have /negP := h j.+1 js; case.
Qed.

(* C83: a threshold of at most 1 is always reached *)
Theorem pca_select_k_reached thr w : 0 < fsum w -> thr <= 1 ->
  thr * fsum w <= fsum (take (select_k thr w) w).
Proof.
move=> w0 t1; have [h1 h2 _] := pca_select_k thr w0; apply: (proj1 (h2 _)).
exists (size w); last by rewrite take_size -{2}[fsum w]mul1r ler_pmul2r.
by rewrite leqnn andbT; case: w w0 {h1 h2} => //; rewrite /fsum /= ltxx.
Qed.

(* C83: eigenvalues that are all zero give 0/0 and one component *)
Theorem pca_select_k_zero thr n : select_k thr (nseq n (0 : T)) = 1%N.
Proof.
rewrite select_kE (_ : has _ _ = false) //; apply/negbTE/hasPn => j _.
have s0 m : fsum (nseq m (0 : T)) = 0 by elim: m => //= m IH; rewrite /fsum /= in IH *; rewrite ?IH ?addr0.
have -> : fsum (take j.+1 (nseq n (0 : T))) = 0.
  by elim: n j.+1 => [|n IH] [|m] //=; rewrite /fsum /= in IH *; rewrite IH addr0.
by rewrite s0 /= eqxx /inf_sign ltxx.
Qed.

End Selection.

Section Robpca.
Variables (T : rcfType) (p : nat).
Variables (eigh : forall q, 'M[T]_q -> 'rV[T]_q * 'M[T]_q) (as_ : forall q, 'rV[T]_q -> 'I_q -> 'I_q).
Variables (rk : forall q, 'M[T]_q -> nat) (loadings : forall r, seq 'rV[T]_p -> 'M[T]_(p, r)).
Variable outl : forall r, seq 'rV[T]_r -> option nat -> res (seq (xnum T)).
Variables (argsort : seq (xnum T) -> seq nat) (cutoff : seq T -> xnum T).
Variable mcd : forall d, seq 'rV[T]_d -> res 'M[T]_d.
Implicit Types (P : params T) (o : obj T) (X : seq 'rV[T]_p).

Notation fit := (robpca_fit eigh as_ rk loadings outl argsort cutoff mcd).
Notation core := (robpca_core eigh as_ rk outl argsort cutoff mcd).

(* C84: the location after a fit is the mean of the data, whatever the linear algebra returns *)
Theorem robpca_location P o X o' : fit P o X = (o', Ok tt) -> (0 < size X)%N ->
  location_ o' = Some (existT _ p (vmean X)).
Proof.
rewrite /robpca_fit; case: (core _ _ _) => o1 [[k [d C]]|//|//] [<-] n0 /=.
by rewrite vmean_affine ?size_map // vmean_centred mul0mx add0r.
Qed.

(* C84: one observation moves the location by its displacement / n *)
Theorem robpca_location_moves P o s1 x s2 (v : 'rV[T]_p) o1 o2 :
  fit P o (s1 ++ x :: s2) = (o1, Ok tt) -> fit P o (s1 ++ (x + v) :: s2) = (o2, Ok tt) ->
  exists l1 l2 : 'rV[T]_p, [/\ location_ o1 = Some (existT _ p l1), location_ o2 = Some (existT _ p l2)
    & l2 - l1 = (size (s1 ++ x :: s2))%:R^-1 *: v].
Proof.
move=> /robpca_location e1 /robpca_location e2; do 2 eexists; split.
- by apply: e1; rewrite size_cat addnS.
- by apply: e2; rewrite size_cat addnS.
rewrite /vmean !size_cat /= -scalerBr; congr (_ *: _).
rewrite !big_cat !big_cons /=; move: (\sum_(i <- s1) i) (\sum_(i <- s2) i) => A B.
by apply/rowP => j; rewrite !mxE; move: (A 0 j) (x 0 j) (v 0 j) (B 0 j) => a b c d; ring.
Qed.

Hypotheses (He : good_eigh eigh) (Ha : good_argsort as_) (Hr : good_rank rk).
Hypothesis Hm : forall q (Z : seq 'rV[T]_q) S, mcd Z = Ok S -> S^T = S.

(* C86: orthonormal components, at most as many as requested; there are never more components than
   explained variances *)
Theorem robpca_components P o X o' : orthonormal (loadings (minn (size X) p) X) ->
  fit P o X = (o', Ok tt) ->
  exists d (C : 'M[T]_(p, d)) ev n,
  [/\ components_ o' = Some (existT (fun d : nat * nat => 'M[T]_(d.1, d.2)) (p, d) C) /\ orthonormal C,
      forall k, n_components o = Some k -> (d <= size ev <= k)%N,
      explained_variance_ o' = Some ev, (d <= size ev <= minn (size X) p)%N
    & n_components o' = Some n /\ (n = d \/ n = 0%N)].
Proof.
move=> oL; rewrite /robpca_fit; set L := loadings _ X in oL *; set Y := [seq _ | x <- X].
have := core_inv outl argsort cutoff P o Y He Ha Hr Hm.
case: (core P o Y) => o1 [[k3 [d C]]|//|//] /= [a [s [w [V]]]].
set ws := [seq _ | j <- _]; set k := if _ is Some k then k else _.
case=> _ _ _ _ [oC dk k3E _ ev] [<-] /=.
have sw : size (take k ws) = minn k (minn (size X) p).
  by rewrite size_take size_map size_enum_ord.
exists d, (L *m C), (take k ws), k3; split=> //; rewrite ?sw.
- by split=> //; exact: mul_ortho.
- by move=> k' e'; rewrite dk /k e' geq_minl.
- by rewrite dk geq_minr.
Qed.

(* C85: a fit depends on the object through n_components only *)
Theorem robpca_fit_state P o X :
  let fresh := new_obj T (n_components o) in
  (fit P o X).2 = (fit P fresh X).2 /\ ((fit P o X).2 = Ok tt -> fit P o X = fit P fresh X).
Proof.
rewrite /robpca_fit; set Y := [seq _ | x <- X].
have [] := core_state eigh as_ rk outl argsort cutoff mcd P o Y.
case: (core P o Y) => o1 r1; case: (core P _ Y) => o2 r2 /= <- h.
by case: r1 h => [[k [d C]]|e|] h //=; have [<-] := h _ erefl.
Qed.

(* C85: a second fit repeats the number of components of the first *)
Theorem robpca_refit P o X X2 o1 : fit P o X = (o1, Ok tt) ->
  exists k, n_components o1 = Some k /\ (fit P o1 X2).2 = (fit P (new_obj T (Some k)) X2).2 /\
    ((fit P o1 X2).2 = Ok tt -> fit P o1 X2 = fit P (new_obj T (Some k)) X2).
Proof.
move=> e; have [k ek] : exists k, n_components o1 = Some k.
  move: e; rewrite /robpca_fit; case: (core _ _ _) => o2 [[k [d C]]|//|//] [<-] /=; by exists k.
by exists k; split=> //; rewrite -ek; exact: robpca_fit_state.
Qed.

(* C109: the outlier map of a fitted object: as many variances as components, or one component
   (all its variances are used), or ValueError *)
Theorem robpca_outlier_map (chi2_975 : nat -> T) P o X o' x Z : orthonormal (loadings (minn (size X) p) X) ->
  fit P o X = (o', Ok tt) ->
  exists d (C : 'M[T]_(p, d)) ev n,
  let om := outlier_map chi2_975 cutoff o' (x :: Z) in
  let dist y := xnp_sqrt (xsum [seq xdiv (Fin (((y - vmean X) *m C) 0 j ^+ 2)) (Fin (nth 0 ev j)) | j <- enum 'I_d]) in
  let od := [seq orth_dist (vmean X) C y | y <- x :: Z] in
  [/\ components_ o' = Some (existT (fun d : nat * nat => 'M[T]_(d.1, d.2)) (p, d) C) /\
        explained_variance_ o' = Some ev /\ n_components o' = Some n,
      (d <= size ev)%N,
      d = size ev -> om = Ok ([seq dist y | y <- x :: Z], od, Num.sqrt (chi2_975 n), cutoff od),
      (1 < d < size ev)%N -> om = Err ValueError
    & (d = 1)%N -> (1 < size ev)%N -> exists sd, om = Ok (sd, od, Num.sqrt (chi2_975 n), cutoff od) /\
        head NaN sd = xnp_sqrt (xsum [seq xdiv (Fin (head 0 [seq ((x - vmean X) *m C) 0 j | j <- enum 'I_d] ^+ 2)) (Fin e) | e <- ev])].
Proof.
move=> oL e; have [d [C [ev [n [[hC oC] _ hev /andP[dev ev2] [hn _]]]]]] := robpca_components oL e.
have n0 : (0 < size X)%N.
  move: e; rewrite /robpca_fit; case: X {oL} ev2 => // _; rewrite /= /robpca_core /=.
  case: (outl _ _) => [s|//|//]; case: (alpha P) => [a|//]; case: ((1%:R / 2%:R <= a) && (a <= 1)) => //=.
  rewrite {1}/eigh_cov; case: ifP => // _; case: (eigh _) => w V.
  by rewrite /robpca_od_step {1}/eigh_cov orbT.
have hl := robpca_location e n0.
have oE : o' = Obj (Some n) (Some (existT _ p (vmean X)))
    (Some (existT (fun d : nat * nat => 'M[T]_(d.1, d.2)) (p, d) C)) (Some ev).
  by case: (o') hC hev hn hl => /= ? ? ? ? -> -> -> ->.
exists d, C, ev, n => om dist od; rewrite /om oE outlier_mapE; split=> //.
- move=> ed; rewrite (@mapM_ok _ _ _ dist) // => y; rewrite /score_dist -ed eqxx /=; congr Ok; congr xnp_sqrt.
  have evE : ev = [seq nth 0 ev (val j) | j <- enum 'I_d].
    by rewrite (map_comp (nth 0 ev) val) val_enum_ord ed -[LHS](@mkseq_nth _ 0).
  by rewrite /dist; congr xsum; rewrite [X in zip _ X]evE zip_map -map_comp.
- case/andP=> d1 d2; have h y : score_dist ev (vmean X) C y = Err ValueError.
    by rewrite /score_dist (gtn_eqF d2) (gtn_eqF d1) (gtn_eqF (ltn_trans d1 d2)).
  by rewrite (mapM_err _ _ h).
- move=> d1 s1; pose sd y := xnp_sqrt (xsum [seq xdiv (Fin (head 0 [seq ((y - vmean X) *m C) 0 j | j <- enum 'I_d] ^+ 2)) (Fin e0) | e0 <- ev]).
  exists [seq sd y | y <- x :: Z]; split=> //; rewrite (@mapM_ok _ _ _ sd) // => y.
  have f1 : (size ev == d) = false by rewrite d1 (gtn_eqF s1).
  have f2 : (d == 1)%N by apply/eqP.
  rewrite /score_dist f1 f2 /=; congr Ok; congr xnp_sqrt; congr xsum.
  rewrite -map_comp; have -> : head 0 [seq transform (vmean X) C y 0 j ^+ 2 | j <- enum 'I_d]
    = head 0 [seq ((y - vmean X) *m C) 0 j | j <- enum 'I_d] ^+ 2.
    by case: (enum 'I_d) (size_enum_ord d) => [|i l] //=; rewrite d1.
  by [].
Qed.

(* C110: the h-subset is everything iff alpha is 1 or n is at most the number of components + 1;
   with n_components=None this number is taken to be 10 *)
Theorem robpca_h_subset (a : rat) n nc : 0 <= a ->
  (n <= h_size a n nc)%N = [|| (n == 0)%N, 1 <= a | (n <= (if nc is Some k then k else 10) + 1)%N].
Proof. exact: h_size_all. Qed.

(* C111: no one-dimensional scores: one variable, or one observation *)
Theorem robpca_univariate P o X : minn (size X) p = 1%N -> (fit P o X).2 <> Ok tt.
Proof.
rewrite /robpca_fit; move: (minn _ _) => r r1; rewrite /robpca_core.
case: (outl _ _) => [s|//|//]; case: (alpha P) => [a|//]; case: ((1%:R / 2%:R <= a) && (a <= 1)) => //=.
by rewrite {1}/eigh_cov r1.
Qed.

(* C112: an invalid alpha is noticed after location_ has been overwritten by the mean of the scores,
   which is 0; the other attributes keep their values *)
Theorem robpca_bad_alpha P o X s :
  let r := minn (size X) p in
  outl [seq (x - vmean X) *m loadings r X | x <- X] (seed P) = Ok s ->
  (if alpha P is Some a then ~~ (1%:R / 2%:R <= a <= 1) else true) ->
  fit P o X = (Obj (n_components o) (Some (existT _ r (0 : 'rV[T]_r))) (components_ o) (explained_variance_ o), Err ValueError).
Proof.
move=> r es; rewrite /robpca_fit /robpca_core -/r es vmean_centred.
by case: (alpha P) => [a ->|_].
Qed.

End Robpca.

Section Independence.
Variables (T : rcfType) (p : nat).
Variables (eigh : forall q, 'M[T]_q -> 'rV[T]_q * 'M[T]_q) (as_ : forall q, 'rV[T]_q -> 'I_q -> 'I_q).
Variables (rk : forall q, 'M[T]_q -> nat) (loadings : forall r, seq 'rV[T]_p -> 'M[T]_(p, r)).
Variables outl outl' : forall r, seq 'rV[T]_r -> option nat -> res (seq (xnum T)).
Variables (argsort : seq (xnum T) -> seq nat) (cutoff : seq T -> xnum T).
Variable mcd : forall d, seq 'rV[T]_d -> res 'M[T]_d.
Hypothesis Hs : forall s, perm_eq (argsort s) (iota 0 (size s)).

(* C110: for at most k + 1 observations (11 with n_components=None) the outlyingness is ignored *)
Theorem robpca_small_sample (P : params T) o (X : seq 'rV[T]_p) :
  (size X <= (if n_components o is Some k then k else 10) + 1)%N ->
  (forall r (Y : seq 'rV[T]_r), exists s s', [/\ outl Y (seed P) = Ok s, outl' Y (seed P) = Ok s',
     size s = size Y & size s' = size Y]) ->
  robpca_fit eigh as_ rk loadings outl argsort cutoff mcd P o X
  = robpca_fit eigh as_ rk loadings outl' argsort cutoff mcd P o X.
Proof.
move=> hn ho; rewrite /robpca_fit; set Y := [seq _ | x <- X]; suff -> :
  robpca_core eigh as_ rk outl argsort cutoff mcd P o Y = robpca_core eigh as_ rk outl' argsort cutoff mcd P o Y by [].
have [s [s' [e e' z z']]] := ho _ Y; rewrite /robpca_core e e'.
case: (alpha P) => [a|//]; case ha: ((1%:R / 2%:R <= a) && (a <= 1)) => //=; have /andP[a1 _] := ha.
have a0 : 0 <= a by apply: le_trans a1.
have hY : (size Y <= h_size a (size Y) (n_components o))%N.
  by rewrite h_size_all // size_map hn !orbT.
have tE t : size t = size Y -> take (h_size a (size Y) (n_components o)) (argsort t) = argsort t.
  by move=> et; rewrite take_oversize // (perm_size (Hs t)) size_iota et.
have pE t : size t = size Y -> perm_eq (sel 0 Y (argsort t)) Y.
  by move=> et; apply: sel_perm; rewrite -et.
rewrite !tE // {1}/eigh_cov [in RHS]/eigh_cov.
by rewrite (perm_size (pE _ z)) (perm_size (pE _ z')) (cov_perm (pE _ z)) (cov_perm (pE _ z')).
Qed.

End Independence.

Section Failures.
Variables (T : rcfType) (p : nat).
Variables (eigh : forall q, 'M[T]_q -> 'rV[T]_q * 'M[T]_q) (as_ : forall q, 'rV[T]_q -> 'I_q -> 'I_q).
Variables (rk : forall q, 'M[T]_q -> nat) (loadings : forall r, seq 'rV[T]_p -> 'M[T]_(p, r)).
Variable outl : forall r, seq 'rV[T]_r -> option nat -> res (seq (xnum T)).
Variables (argsort : seq (xnum T) -> seq nat) (mcd : forall d, seq 'rV[T]_d -> res 'M[T]_d).
Variables (pow23 pow32 : T -> T) (z975 : T) (craw crew : nat -> nat -> T) (q975 : T).
Notation odc := (od_cutoff pow23 pow32 z975 craw crew q975).
Notation fit := (robpca_fit eigh as_ rk loadings outl argsort odc mcd).
Hypotheses (He : good_eigh eigh) (Ha : good_argsort as_).

(* C113: as many components as there are variables (or observations): all orthogonal distances
   are 0, none is smaller than the cutoff, the fit fails *)
Theorem robpca_full_rank (P : params T) o (X : seq 'rV[T]_p) k :
  pow23 0 = 0 -> pow32 0 = 0 -> n_components o = Some k -> (minn (size X) p <= k)%N ->
  (fit P o X).2 <> Ok tt.
Proof.
move=> h23 h32 ek; rewrite /robpca_fit; move: (minn _ _) => r rk_.
set Y := [seq _ | x <- X]; rewrite /robpca_core ek.
case: (outl _ _) => [s|//|//]; case: (alpha P) => [a|//]; case: ((1%:R / 2%:R <= a) && (a <= 1)) => //=.
rewrite {1}/eigh_cov; case: ifP => // _.
set hs := sel _ _ _; case E: (eigh (cov hs)) => [w V].
rewrite /robpca_od_step; set H := first_cols _ _ _; have oH : orthonormal H.
  apply: first_cols_ortho; last exact: desc_inj.
  by have := eigh_ortho He (cov_sym hs); rewrite E.
have HH : H *m H^T = 1%:M by apply: ortho_square => //; exact/minn_idPr.
have od0 y : orth_dist (vmean Y) H y = 0 by exact: orth_dist_full.
have -> : [seq y <- Y | xlt (Fin (orth_dist (vmean Y) H y)) (odc [seq orth_dist (vmean Y) H y0 | y0 <- Y])] = [::].
  apply/eqP; rewrite -[_ == _]negbK -has_filter; apply/hasPn => y _.
  rewrite od0 od_cutoff_zero //; apply/allP => v /mapP[y' _ ->]; by rewrite /= od0.
by rewrite {1}/eigh_cov orbT.
Qed.

(* C114: exact fit: the h least outlying observations lie in an affine subspace of dimension k =
   n_components; their orthogonal distances agree, the cutoff is NaN, no observation is selected
   and the fit fails *)
Theorem robpca_exact_fit (P : params T) o (X : seq 'rV[T]_p) k a s b (x0 : 'rV[T]_p) (B : 'M[T]_(b, p)) :
  ascending as_ -> (forall s, perm_eq (argsort s) (iota 0 (size s))) ->
  n_components o = Some k -> (0 < k)%N -> alpha P = Some a -> (2 < size X)%N ->
  outl [seq (x - vmean X) *m loadings (minn (size X) p) X | x <- X] (seed P) = Ok s -> size s = size X ->
  (forall i, i \in take (h_size a (size X) (Some k)) (argsort s) -> (nth 0 X i - x0 <= B)%MS) ->
  (\rank B <= k)%N ->
  (fit P o X).2 <> Ok tt.
Proof.
move=> asc Hs ek k0 ea n2 es ss hB rB; rewrite /robpca_fit; move: (minn _ _) es => r es.
set L := loadings r X in es *; set Y := [seq _ | x <- X] in es *.
have sY : size Y = size X by rewrite size_map.
rewrite /robpca_core ek es ea; case: ((1%:R / 2%:R <= a) && (a <= 1)) => //=.
rewrite sY; set h := h_size _ _ _ in hB *; set idx := take h _ in hB *.
have uI : uniq idx by apply: take_uniq; rewrite (perm_uniq (Hs s)) iota_uniq.
have lI i : i \in idx -> (i < size X)%N.
  by move/mem_take; rewrite (perm_mem (Hs s)) mem_iota ss.
have zI : size idx = minn h (size X) by rewrite size_take_min (perm_size (Hs s)) size_iota ss.
set Z := sel 0 Y idx.
have hh : (size X %/ 2 + 1 <= h)%N by rewrite /h /h_size; move: (size X) n2 => n n2; lia.
have n1 : (1 < size Z)%N by rewrite size_map zI; move: (size X) n2 hh => n n2 hh; lia.
rewrite {1}/eigh_cov; case: ifP => // _.
case E: (eigh (cov Z)) => [w V]; have [oV eV] := He (cov_sym Z); rewrite E /= in oV eV.
have hZ z : z \in Z -> (z - (x0 - vmean X) *m L <= B *m L)%MS.
  case/mapP=> i iI ->; rewrite (nth_map 0) ?lI //.
  have -> : (nth 0 X i - vmean X) *m L - (x0 - vmean X) *m L = (nth 0 X i - x0) *m L.
    by rewrite -mulmxBl; congr (_ *m _); apply/rowP => l; rewrite !mxE; ring.
  exact: submxMr (hB _ iI).
have rBL : (\rank (B *m L) <= k)%N by apply: leq_trans rB; exact: mxrankM_maxl.
have srt (i j : 'I_r) : (i <= j)%N -> w 0 (desc as_ w j) <= w 0 (desc as_ w i).
  by move=> ij; apply: asc; rewrite /= leq_sub2l.
have tied := resid_tied oV eV (desc_inj Ha) srt n1 hZ rBL (vmean Y).
rewrite /robpca_od_step; set H := first_cols _ _ _ in tied *.
have -> : odc [seq orth_dist (vmean Y) H y0 | y0 <- Y] = NaN.
  pose z1 := nth 0 Y (head 0%N idx).
  have z1Z : z1 \in Z.
    have : (0 < size idx)%N by move: n1; rewrite size_map => /ltnW.
    rewrite /z1 /Z /sel => i0; apply/mapP; exists (head 0%N idx) => //.
    by rewrite -nth0; apply: mem_nth.
  apply: (@od_cutoff_nan _ _ _ _ _ _ _ (orth_dist (vmean Y) H z1)); first by rewrite size_map sY.
  rewrite size_map sY; apply: leq_trans (_ : size idx <= _)%N.
    by rewrite zI; move: (size X) n2 hh => n n2 hh; lia.
  rewrite count_map; apply: (@count_idx _ 0) => // i iI; rewrite sY lI //=.
  by apply/eqP; apply: tied => //; rewrite /Z; apply/mapP; exists i.
rewrite (_ : [seq _ <- Y | _] = [::]); last by elim: (Y).
by rewrite {1}/eigh_cov orbT.
Qed.

End Failures.

Section Equivariance.
Variables (T : rcfType) (p : nat).
Variables (eigh : forall q, 'M[T]_q -> 'rV[T]_q * 'M[T]_q) (as_ : forall q, 'rV[T]_q -> 'I_q -> 'I_q).
Variables (rk : forall q, 'M[T]_q -> nat) (loadings : forall r, seq 'rV[T]_p -> 'M[T]_(p, r)).
Variable outl : forall r, seq 'rV[T]_r -> option nat -> res (seq (xnum T)).
Variables (argsort : seq (xnum T) -> seq nat) (cutoff : seq T -> xnum T).
Variable mcd : forall d, seq 'rV[T]_d -> res 'M[T]_d.
Notation fit := (robpca_fit eigh as_ rk loadings outl argsort cutoff mcd).

(* C115: rotated (reflected) and shifted data: when the loadings rotate along, ROBPCA does *)
Theorem robpca_equivariant (P : params T) o (X : seq 'rV[T]_p) (Q : 'M[T]_p) (v : 'rV[T]_p) :
  let X2 := [seq x *m Q + v | x <- X] in let r := minn (size X) p in
  Q *m Q^T = 1%:M -> (0 < size X)%N -> loadings r X2 = Q^T *m loadings r X ->
  (fit P o X2).2 = (fit P o X).2 /\
  forall o1, fit P o X = (o1, Ok tt) -> exists d (C : 'M[T]_(p, d)) o2,
  [/\ fit P o X2 = (o2, Ok tt),
      components_ o1 = Some (existT (fun d : nat * nat => 'M[T]_(d.1, d.2)) (p, d) C) /\
      components_ o2 = Some (existT (fun d : nat * nat => 'M[T]_(d.1, d.2)) (p, d) (Q^T *m C)),
      location_ o1 = Some (existT _ p (vmean X)) /\ location_ o2 = Some (existT _ p (vmean X *m Q + v)),
      explained_variance_ o2 = explained_variance_ o1
    & n_components o2 = n_components o1].
Proof.
move=> X2 r QQ n0 eL; have s2 : size X2 = size X by rewrite size_map.
have m2 : vmean X2 = vmean X *m Q + v by exact: vmean_affine.
pose L := loadings r X; pose Y := [seq (x - vmean X) *m L | x <- X].
have Y2 : [seq (x - vmean X2) *m (Q^T *m L) | x <- X2] = Y.
  rewrite /X2 -map_comp; apply: eq_map => x /=; rewrite m2 mulmxA; congr (_ *m _).
  by rewrite opprD addrACA subrr addr0 -mulmxBl -mulmxA QQ mulmx1.
have F : fit P o X = match robpca_core eigh as_ rk outl argsort cutoff mcd P o Y with
  | (o', Ok (k, existT d C)) => (set_loc (set_comp (set_k o' k) (L *m C)) (vmean X), Ok tt)
  | (o', Err e) => (o', Err e) | (o', NoFuel) => (o', NoFuel) end.
  rewrite /robpca_fit -/r -/L -/Y; case: (robpca_core _ _ _ _ _ _ _ _ _ _) => o' [[k [d C]]|//|//].
  by rewrite vmean_affine ?size_map // vmean_centred mul0mx add0r.
have F2 : fit P o X2 = match robpca_core eigh as_ rk outl argsort cutoff mcd P o Y with
  | (o', Ok (k, existT d C)) => (set_loc (set_comp (set_k o' k) (Q^T *m (L *m C))) (vmean X *m Q + v), Ok tt)
  | (o', Err e) => (o', Err e) | (o', NoFuel) => (o', NoFuel) end.
  rewrite /robpca_fit s2 -/r eL -/L Y2; case: (robpca_core _ _ _ _ _ _ _ _ _ _) => o' [[k [d C]]|//|//].
  by rewrite vmean_affine ?size_map // vmean_centred mul0mx add0r m2 mulmxA.
rewrite F F2; case: (robpca_core _ _ _ _ _ _ _ _ _ _) => o' [[k [d C]]|e|] //; split=> // o1 [<-].
by exists d, (L *m C); eexists; split; [reflexivity| | | |].
Qed.

End Equivariance.

(* Cases *)
Section GeometryCase.
Variable T : rcfType.

(* the direction (3/5, 4/5) *)
Let C : 'M[T]_(2, 1) := \matrix_(i, j) (if i == 0 then 3%:R / 5%:R else 4%:R / 5%:R).
Let pt (a b : T) : 'rV[T]_2 := \row_(j < 2) (if j == 0 then a else b).

Example pca_geometry_case : let loc := pt 1 2%:R in let x := pt 6%:R 2%:R in
  [/\ orthonormal C, transform loc C x 0 0 = 3%:R, dotv (x - loc) (x - loc) = 25%:R,
      orth_dist loc C x = 4%:R & project loc C (project loc C x) != project loc C x].
Proof.
move=> loc x; have n5 : (5%:R : T) != 0 by rewrite pnatr_eq0.
have oC : orthonormal C.
  apply/matrixP => i j; rewrite !ord1 !mxE !big_ord_recl big_ord0 !mxE /=; by field.
have t : transform loc C x 0 0 = 3%:R.
  by rewrite !mxE !big_ord_recl big_ord0 !mxE /=; field.
have d : dotv (x - loc) (x - loc) = 25%:R.
  by rewrite /dotv !big_ord_recl big_ord0 !mxE /=; ring.
split=> //.
  have := pca_pythagoras loc oC x; rewrite d /dotv big_ord_recl big_ord0 t addr0 => e.
  have o0 : 0 <= orth_dist loc C x by exact: vnorm_ge0.
  have : orth_dist loc C x ^+ 2 = 4%:R ^+ 2 by move: e; rewrite !expr2; flra.
  by move/eqP; rewrite eqf_sqr => /orP[/eqP //|/eqP e2]; move: o0; rewrite e2 oppr_ge0 lern0.
apply/eqP => /(proj2 (pca_project_twice loc oC x)) /matrixP /(_ 0 0).
rewrite !mxE !big_ord_recl big_ord0 !mxE /= => /eqP; apply/negP.
have -> : 1 * (3%:R / 5%:R) + (2%:R * (4%:R / 5%:R) + 0) = 11%:R / 5%:R :> T by field.
by rewrite mulf_neq0 ?invr_eq0 // pnatr_eq0.
Qed.

Example pca_select_k_case : let w : seq T := [:: 5%:R; 3%:R; 2%:R] in
  [/\ 0 < fsum w, select_k (8%:R / 10%:R) w = 2%N & select_k (2%:R) w = 1%N].
Proof.
move=> w; have s : fsum w = 10%:R by rewrite /w /fsum /=; ring.
have p : 0 < fsum w by rewrite s ltr0n.
have n10 : (10%:R : T) != 0 by rewrite pnatr_eq0.
split=> //.
  have [/andP[k0 k3] h _] := pca_select_k (8%:R / 10%:R) p.
  have r2 : 8%:R / 10%:R * fsum w <= fsum (take 2 w) by rewrite s divfK // /w /fsum /= addr0 -natrD ler_nat.
  have [//|h1 h2] := h _; first by exists 2%N.
  move: h1 h2 k0 k3; case: (select_k _ w) => [|[|[|[|//]]]] // h1 h2 _ _.
    by move: h1; rewrite s divfK // /w /fsum /= addr0 ler_nat.
  by have := h2 2%N isT; rewrite r2.
have [_ _] := pca_select_k 2%:R p; apply=> j _; rewrite s -ltNge.
apply: (@le_lt_trans _ _ 10%:R); last by rewrite -natrM ltr_nat.
rewrite -s; case: j => [|[|[|j]]]; rewrite /w /fsum /= ?addr0 -?natrD ?ler_nat ?ler0n //.
Qed.

End GeometryCase.

Section RobpcaCase.
Variable T : rcfType.

(* loadings: the leading unit vectors *)
Definition case_load p r (_ : seq 'rV[T]_p) : 'M[T]_(p, r) := \matrix_(i, j) (i == j :> nat)%:R.
(* all observations equally outlying *)
Definition case_outl r (Y : seq 'rV[T]_r) (_ : option nat) : res (seq (xnum T)) := Ok [seq Fin 0 | _ <- Y].
(* the order of the observations *)
Definition case_sort (s : seq (xnum T)) : seq nat := iota 0 (size s).
(* the classical covariance in place of the MCD *)
Definition case_mcd d (Z : seq 'rV[T]_d) : res 'M[T]_d := Ok (cov Z).

Notation wfitr rk cutoff := (robpca_fit (@eigh_of T) (@eig_order T) rk
  (@case_load _) case_outl case_sort cutoff case_mcd).
Notation wfit cutoff := (wfitr (fun q (A : 'M[T]_q) => \rank A) cutoff).
Notation inf_cut := (fun _ : seq T => PInf).

Lemma case_load_ortho p r (X : seq 'rV[T]_p) : (r <= p)%N -> orthonormal (case_load r X).
Proof.
move=> rp; apply/matrixP => i j; rewrite !mxE (bigD1 (widen_ord rp i)) //= big1 ?addr0 => [|l li].
  by rewrite !mxE eqxx mul1r.
rewrite !mxE; have -> : (l == i :> nat) = false; last by rewrite mul0r.
by apply/negbTE; apply: contra li => /eqP e; apply/eqP; apply: val_inj.
Qed.

Example pca_contracts_case : [/\ good_eigh (@eigh_of T), good_argsort (@eig_order T), ascending (@eig_order T),
  good_rank (fun q (A : 'M[T]_q) => \rank A) & forall q (Z : seq 'rV[T]_q) S, case_mcd Z = Ok S -> S^T = S].
Proof.
split.
- by move=> q; exact: eigh_of_correct.
- by move=> q w; exact: eig_order_inj.
- by move=> q w i j; exact: eig_order_le.
- by move=> q A; exact: rank_leq_row.
- by move=> q Z S [<-]; exact: cov_sym.
Qed.

(* with an infinite cutoff the fit of two or more observations succeeds *)
Lemma case_fitr rk p (P : params T) o k a (X : seq 'rV[T]_p) : n_components o = Some k -> (0 < k)%N ->
  alpha P = Some a -> 1%:R / 2%:R <= a <= 1 -> (1 < size X)%N -> (1 < p)%N ->
  exists o', wfitr rk inf_cut P o X = (o', Ok tt) /\
  (final_mcd P = false -> exists A C, let k2 := minn k (rk (minn (size X) p) A) in
     components_ o' = Some (existT (fun d : nat * nat => 'M[T]_(d.1, d.2)) (p, minn k2 (minn (size X) p)) C) /\
     n_components o' = Some k2 /\
     exists ev, explained_variance_ o' = Some ev /\ size ev = minn k (minn (size X) p)).
Proof.
move=> eo k0 ea ha n1 p1; rewrite /robpca_fit.
have : minn (size X) p != 1%N by move: (size X) n1 => n n1; lia.
move: (minn _ _) => r r1; set Y := [seq _ | x <- X]; have sY : size Y = size X by rewrite size_map.
pose hY := sel 0 Y (take (h_size a (size Y) (Some k)) (case_sort [seq Fin (0 : T) | _ <- Y])).
have hs : (1 < size hY)%N.
  rewrite size_map size_take_min size_iota size_map sY /h_size leq_min n1 andbT leq_max; apply/orP; right.
  by move: (size X) n1 => n n1; lia.
rewrite /robpca_core {1}/case_outl eo ea ha -/hY {1}/eigh_cov (negbTE r1) leqNgt hs /=.
case: (eigh_of _) => w V; rewrite /robpca_od_step {1}/eigh_cov (negbTE r1) /= filter_predT leqNgt sY n1 /=.
case: (eigh_of _) => wv Vv; rewrite /robpca_mcd_step; case: (final_mcd P) => /=; last first.
  eexists; split; first reflexivity.
  move=> _; exists (cov Y); eexists; split; first by reflexivity.
  split=> //; eexists; split; first by reflexivity.
  by rewrite size_take_min size_map size_enum_ord.
by case: ifP => _; eexists.
Qed.

Lemma case_fit p (P : params T) o k a (X : seq 'rV[T]_p) : n_components o = Some k -> (0 < k)%N ->
  alpha P = Some a -> 1%:R / 2%:R <= a <= 1 -> (1 < size X)%N -> (1 < p)%N ->
  exists o', wfit inf_cut P o X = (o', Ok tt).
Proof. by move=> h1 h2 h3 h4 h5 h6; have [o' [e _]] := case_fitr (fun q (A : 'M[T]_q) => \rank A) h1 h2 h3 h4 h5 h6; exists o'. Qed.

(* data of the cases: three observations in the plane *)
Let pt (a b : T) : 'rV[T]_2 := \row_(j < 2) (if j == 0 then a else b).
Let X3 : seq 'rV[T]_2 := [:: pt 0 0; pt 3%:R 0; pt 0 6%:R].
Let P0 : params T := Params (8%:R / 10%:R) (Some (3%:R / 4%:R)) true None.

Example robpca_location_case : exists o1 o2,
  [/\ wfit inf_cut P0 (new_obj T (Some 1%N)) X3 = (o1, Ok tt),
      wfit inf_cut P0 (new_obj T (Some 1%N)) [:: pt 0 0; pt 3%:R 0 + pt 300%:R 0; pt 0 6%:R] = (o2, Ok tt),
      location_ o1 = Some (existT _ 2%N (pt 1 2%:R)) & location_ o2 = Some (existT _ 2%N (pt 101%:R 2%:R))].
Proof.
have [//|//|//|//|//|//|o1 e1] := @case_fit 2 P0 (new_obj T (Some 1%N)) 1 (3%:R / 4%:R) X3.
have [//|//|//|//|//|//|o2 e2] := @case_fit 2 P0 (new_obj T (Some 1%N)) 1 (3%:R / 4%:R) [:: pt 0 0; pt 3%:R 0 + pt 300%:R 0; pt 0 6%:R].
exists o1, o2; split; [exact: e1|exact: e2| |].
- rewrite (robpca_location e1 isT); congr (Some (existT _ _ _)); apply/rowP => j; rewrite /vmean !mxE !big_cons big_nil !mxE /=.
  by case: j => [[|[|//]] hj] /=; field.
- rewrite (robpca_location e2 isT); congr (Some (existT _ _ _)); apply/rowP => j; rewrite /vmean !mxE !big_cons big_nil !mxE /=.
  by case: j => [[|[|//]] hj] /=; field.
Qed.

Let P1 : params T := Params (8%:R / 10%:R) (Some (3%:R / 4%:R)) false None.

Example robpca_components_case : exists o1 o2,
  [/\ orthonormal (case_load (minn (size X3) 2) X3), good_rank (fun q (_ : 'M[T]_q) => q),
      wfitr (fun q _ => q) inf_cut P1 (new_obj T (Some 1%N)) X3 = (o1, Ok tt),
      wfitr (fun q _ => q) inf_cut P1 o1 X3 = (o2, Ok tt) & n_components o1 = Some 1%N /\ location_ o1 <> None].
Proof.
have [//|//|//|//|//|//|o1 [e1 [//|A [C [_ [n1 _]]]]]] := @case_fitr (fun q _ => q) 2 P1 (new_obj T (Some 1%N)) 1 (3%:R / 4%:R) X3.
have [//|//|//|//|//|o2 [e2 _]] := @case_fitr (fun q _ => q) 2 P1 o1 1 (3%:R / 4%:R) X3 n1.
exists o1, o2; split; [exact: case_load_ortho|by move=> q B; exact: leqnn|exact: e1|exact: e2|].
by split; [exact: n1|rewrite (robpca_location e1 isT)].
Qed.

(* numerical rank 2 with 3 components requested: 2 components, 3 variances *)
Example robpca_outlier_map_case (chi2_975 : nat -> T) : let rk q (_ : 'M[T]_q) := minn q 2 in
  let X : seq 'rV[T]_3 := [:: 0; const_mx 1; const_mx 2%:R; const_mx 5%:R] in
  exists o', [/\ good_rank rk, wfitr rk inf_cut P1 (new_obj T (Some 3%N)) X = (o', Ok tt),
    orthonormal (case_load (minn (size X) 3) X)
    & outlier_map chi2_975 inf_cut o' X = Err ValueError].
Proof.
move=> rk X; have gr : good_rank rk by move=> q A; exact: geq_minl.
have [//|//|//|//|//|//|o1 [e1 [//|A [C [h [n1 [ev [hev sev]]]]]]]] := @case_fitr rk 3 P1 (new_obj T (Some 3%N)) 3 (3%:R / 4%:R) X.
have oL : orthonormal (case_load (minn (size X) 3) X) by exact: case_load_ortho.
exists o1; split; [exact: gr|exact: e1|exact: oL|].
have [He Ha _ _ Hm] := pca_contracts_case.
have [d [C' [ev' [n [[hC [hev' _]] _ _ hE _]]]]] :=
  robpca_outlier_map He Ha gr Hm chi2_975 0 [:: const_mx 1; const_mx 2%:R; const_mx 5%:R] oL e1.
apply: hE; move: hC hev'; rewrite h hev => [[e _] [<-]]; rewrite sev.
by move: e => [<-].
Qed.

Example robpca_h_subset_case :
  [/\ h_size (3%:R / 4%:R) 11 None = 11%N, h_size (3%:R / 4%:R) 20 None = 15%N & h_size (1%:R / 2%:R) 20 (Some 2%N) = 11%N].
Proof. by split; vm_compute. Qed.

(* three observations, two outlyingness measures *)
Example robpca_small_sample_case :
  let outl' r (Y : seq 'rV[T]_r) (_ : option nat) : res (seq (xnum T)) := Ok [seq Fin (vnorm y) | y <- Y] in
  (size X3 <= 2 + 1)%N /\ (forall r (Y : seq 'rV[T]_r), exists s s', [/\ case_outl Y None = Ok s, outl' r Y None = Ok s',
     size s = size Y & size s' = size Y]) /\ (forall s, perm_eq (case_sort s) (iota 0 (size s))).
Proof. by split=> //; split=> // r Y; do 2 eexists; split; [reflexivity| reflexivity| |]; rewrite size_map. Qed.

Example robpca_univariate_case : let X : seq 'rV[T]_1 := [:: 0; const_mx 1; const_mx 3%:R] in
  minn (size X) 1 = 1%N /\ wfit inf_cut P0 (new_obj T (Some 1%N)) X
  = (Obj (Some 1%N) (Some (existT _ 1%N (0 : 'rV[T]_1))) None None, Err LinAlgError).
Proof.
move=> X; split; first by [].
rewrite /robpca_fit /robpca_core /= /eigh_cov /=.
by rewrite -[X in vmean X]/[seq (x - vmean X) *m case_load 1 X | x <- X] vmean_centred.
Qed.

Example robpca_bad_alpha_case : let P := Params (8%:R / 10%:R) (Some (2%:R : rat)) true None in
  wfit inf_cut P (new_obj T (Some 1%N)) X3
  = (Obj (Some 1%N) (Some (existT _ 2%N (0 : 'rV[T]_2))) None None, Err ValueError).
Proof. by move=> P; rewrite (@robpca_bad_alpha _ _ _ _ _ _ _ _ _ _ P _ X3 [:: Fin 0; Fin 0; Fin 0]). Qed.

Section OdCase.
Variables (z975 : T) (craw crew : nat -> nat -> T) (q975 : T).
Notation odc := (od_cutoff (fun x => x) (fun x => x) z975 craw crew q975).

Example robpca_full_rank_case : (wfit odc P0 (new_obj T (Some 2%N)) X3).2 <> Ok tt.
Proof. by have [He Ha _ _ _] := pca_contracts_case; exact: (robpca_full_rank He Ha). Qed.

(* three of four observations on a line *)
Example robpca_exact_fit_case :
  let X4 := [:: pt 0 0; pt 1 0; pt 2%:R 0; pt 0 5%:R] in
  [/\ h_size (3%:R / 4%:R) 4 (Some 1%N) = 3%N,
      forall i, i \in take 3 (iota 0 4) -> (nth 0 X4 i - pt 0 0 <= pt 1 0)%MS, (\rank (pt 1 0) <= 1)%N
    & (wfit odc P0 (new_obj T (Some 1%N)) X4).2 <> Ok tt].
Proof.
move=> X4; have hB i : i \in take 3 (iota 0 4) -> (nth 0 X4 i - pt 0 0 <= pt 1 0)%MS.
  rewrite !inE => /or3P[/eqP ->|/eqP ->|/eqP ->] /=.
  - by rewrite subrr sub0mx.
  - have -> : pt 1 0 - pt 0 0 = pt 1 0 by apply/rowP => j; rewrite !mxE; case: ifP; rewrite subr0.
    exact: submx_refl.
  - have -> : pt 2%:R 0 - pt 0 0 = 2%:R *: pt 1 0 by apply/rowP => j; rewrite !mxE; case: ifP; rewrite subr0 ?mulr1 ?mulr0.
    by apply: scalemx_sub; exact: submx_refl.
have rB : (\rank (pt 1 0) <= 1)%N by exact: rank_leq_row.
have h4 : h_size (3%:R / 4%:R) 4 (Some 1%N) = 3%N by vm_compute.
split; [exact: h4|exact: hB|exact: rB|]; have [He Ha Has _ _] := pca_contracts_case.
by apply: (@robpca_exact_fit _ _ _ _ _ _ _ _ _ _ _ _ _ _ _ He Ha P0 _ X4 1%N (3%:R / 4%:R)
  [:: Fin 0; Fin 0; Fin 0; Fin 0] 1 (pt 0 0) (pt 1 0)).
Qed.

End OdCase.

(* a quarter turn *)
Example robpca_equivariant_case : let Q : 'M[T]_2 := \matrix_(i, j) (if i == j then 0 else if i == 0 then 1 else -1) in
  let v := pt 7%:R 8%:R in let X2 := [seq x *m Q + v | x <- X3] in
  let load r (X : seq 'rV[T]_2) := if X == X2 then Q^T *m case_load r X else case_load r X in
  [/\ Q *m Q^T = 1%:M, load 2%N X2 = Q^T *m load 2%N X3, X2 != X3 &
   (robpca_fit (@eigh_of T) (@eig_order T) (fun q (A : 'M[T]_q) => \rank A)
     load case_outl case_sort inf_cut case_mcd P0 (new_obj T (Some 1%N)) X2).2 = Ok tt].
Proof.
move=> Q v X2 load.
have QQ : Q *m Q^T = 1%:M.
  apply/matrixP => i j; rewrite !mxE !big_ord_recl big_ord0 !mxE /=.
  by case: i j => [[|[|//]] hi] [[|[|//]] hj] /=; ring.
have ne : X2 != X3.
  apply/eqP => /(congr1 (fun s : seq 'rV[T]_2 => head 0 s 0 0)) /=; rewrite !mxE !big_ord_recl big_ord0 !mxE /=.
  by move/eqP; rewrite !mul0r !addr0 add0r pnatr_eq0.
have eL r : load r X2 = Q^T *m load r X3 by rewrite /load eqxx eq_sym (negbTE ne).
split; [exact: QQ|exact: eL|exact: ne|].
rewrite (proj1 (@robpca_equivariant _ _ _ _ _ load _ _ _ _ P0 _ X3 Q v QQ isT (eL _))).
have [//|//|//|//|//|//|o1 e1] := @case_fit 2 P0 (new_obj T (Some 1%N)) 1 (3%:R / 4%:R) X3.
suff -> : robpca_fit (@eigh_of T) (@eig_order T) (fun q (A : 'M[T]_q) => \rank A)
     load case_outl case_sort inf_cut case_mcd P0 (new_obj T (Some 1%N)) X3 = (o1, Ok tt) by [].
by rewrite -e1 /robpca_fit /load eq_sym (negbTE ne).
Qed.

End RobpcaCase.

Print Assumptions pca_pythagoras.
Print Assumptions pca_orth_dist_nearest.
Print Assumptions pca_project_linear.
Print Assumptions pca_project_twice.
Print Assumptions pca_select_k.
Print Assumptions pca_select_k_reached.
Print Assumptions pca_select_k_zero.
Print Assumptions robpca_location.
Print Assumptions robpca_location_moves.
Print Assumptions robpca_components.
Print Assumptions robpca_fit_state.
Print Assumptions robpca_refit.
Print Assumptions robpca_outlier_map.
Print Assumptions robpca_h_subset.
Print Assumptions robpca_small_sample.
Print Assumptions robpca_univariate.
Print Assumptions robpca_bad_alpha.
Print Assumptions robpca_full_rank.
Print Assumptions robpca_exact_fit.
Print Assumptions robpca_equivariant.
