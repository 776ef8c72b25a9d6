(* Blocks of symmetric positive definite matrices and Gaussian log-likelihood terms. *)
From mathcomp Require Import all_ssreflect all_algebra perm.
From mathcomp.zify Require Import zify.
From mathcomp.algebra_tactics Require Import ring.
From Verif Require Import RFieldLra Prelude Vec PSD LinAlg_Model LinAlg_Proofs OGK_Proofs.

Set Implicit Arguments.
Unset Strict Implicit.
Unset Printing Implicit Defensive.

Import Order.TTheory GRing.Theory Num.Theory.
Local Open Scope ring_scope.

Section Perm.
Variable T : comUnitRingType.

Lemma det_mxsub_bij m p (h : 'I_m -> 'I_p) (A : 'M[T]_p) : m = p -> injective h ->
  \det (mxsub h h A) = \det A.
Proof.
move=> e; subst m => hi.
have -> : mxsub h h A = row_perm (perm hi) (col_perm (perm hi) A).
  by apply/matrixP => i j; rewrite !mxE !permE.
rewrite row_permE col_permE !det_mulmx !det_perm odd_permV mulrCA -signr_addb addbb expr0 mulr1 //.
Qed.

Lemma invmx_mxsub_bij m p (h : 'I_m -> 'I_p) (A : 'M[T]_p) : m = p -> injective h ->
  A \in unitmx -> invmx (mxsub h h A) = mxsub h h (invmx A).
Proof.
move=> e; subst m => hi uA.
have h1 : mxsub h h (invmx A) *m mxsub h h A = 1%:M.
  apply/matrixP => i j; have /matrixP /(_ (h i) (h j)) := mulVmx uA.
  rewrite !mxE (inj_eq hi) => <-; rewrite [RHS](reindex_inj hi) /=; apply: eq_bigr => k _; by rewrite !mxE.
have [u1 u2] := mulmx1_unit h1.
by rewrite -[LHS]mul1mx -h1 mulmxK.
Qed.

Lemma sum_bij m p (h : 'I_m -> 'I_p) (F : 'I_p -> T) : m = p -> injective h ->
  \sum_a F (h a) = \sum_k F k.
Proof. by move=> e; subst m => hi; rewrite [RHS](reindex_inj hi). Qed.

End Perm.

(* two enumerations of the same indices differ by a bijection of positions *)
Lemma enum_factor m m' (p : nat) (f : 'I_m -> 'I_p) (f' : 'I_m' -> 'I_p) :
  injective f -> injective f' -> codom f' =i codom f ->
  m' = m /\ exists2 t : 'I_m' -> 'I_m, injective t & f' =1 f \o t.
Proof.
move=> fi fi' e; split.
  have := eq_card e; by rewrite !card_codom // !card_ord.
have ht a : exists b, f b == f' a.
  have : f' a \in codom f by rewrite -e codom_f.
  by case/codomP => b ->; exists b.
exists (fun a => xchoose (ht a)).
  by move=> a b h; apply: fi'; rewrite -(eqP (xchooseP (ht a))) h (eqP (xchooseP (ht b))).
by move=> a; rewrite /= (eqP (xchooseP (ht a))).
Qed.

Section Blocks.
Variables (T : rcfType) (m q p : nat) (f : 'I_m -> 'I_p) (g : 'I_q -> 'I_p).
Hypothesis fg : perm_eq (codom f ++ codom g) (enum 'I_p).
Variables A B : 'M[T]_p.
Hypothesis AB : A *m B = 1%:M.
Hypothesis sA : A^T = A.

Local Notation Aff := (mxsub f f A).
Local Notation Afg := (mxsub f g A).
Local Notation Agf := (mxsub g f A).
Local Notation Agg := (mxsub g g A).
Hypothesis uf : Aff \in unitmx.

(* the conditional covariance *)
Definition ccov : 'M[T]_q := Agg - Agf *m invmx Aff *m Afg.

Lemma size_fg : (m + q)%N = p.
Proof. by have := perm_size fg; rewrite size_cat /codom !size_image !card_ord size_enum_ord. Qed.

Lemma Bfg : mxsub f g B = - (invmx Aff *m Afg *m mxsub g g B).
Proof.
have h2 := mxsub_mul fg f g A B; rewrite AB (mxsub1fg _ fg) in h2.
have h3 : Aff *m mxsub f g B = - (Afg *m mxsub g g B) by apply/eqP; rewrite -addr_eq0 -h2.
by rewrite -[LHS](mulKmx uf) h3 mulmxN mulmxA.
Qed.

Lemma Bgf : mxsub g f B = - (mxsub g g B *m Agf *m invmx Aff).
Proof.
have h2 := mxsub_mul fg g f B A; rewrite (BA AB) (mxsub1gf _ fg) in h2.
have h3 : mxsub g f B *m Aff = - (mxsub g g B *m Agf) by apply/eqP; rewrite -addr_eq0 -h2.
by rewrite -[LHS](mulmxK uf) h3 mulNmx.
Qed.

Lemma Bff : mxsub f f B = invmx Aff + invmx Aff *m Afg *m mxsub g g B *m Agf *m invmx Aff.
Proof.
have h2 := mxsub_mul fg f f A B; rewrite AB (mxsub1f _ fg) Bgf mulmxN in h2.
have h3 : Aff *m mxsub f f B = 1%:M + Afg *m (mxsub g g B *m Agf *m invmx Aff).
  by rewrite h2 subrK.
by rewrite -[LHS](mulKmx uf) h3 mulmxDr mulmx1 !mulmxA.
Qed.

Lemma ccov_Bgg : ccov *m mxsub g g B = 1%:M.
Proof.
have h2 := mxsub_mul fg g g A B; rewrite AB (mxsub1g _ fg) Bfg mulmxN !mulmxA in h2.
by rewrite /ccov mulmxBl h2 addrC.
Qed.

Lemma ccov_unit : ccov \in unitmx.
Proof. by have [] := mulmx1_unit ccov_Bgg. Qed.

Lemma Bgg : mxsub g g B = invmx ccov.
Proof. by have [_ ->] := invmx_unique ccov_Bgg. Qed.

(* the coefficients of the regression of the cells g on the cells f *)
Lemma regression : invmx (mxsub g g B) *m mxsub g f B = - (Agf *m invmx Aff).
Proof.
have uB : mxsub g g B \in unitmx by have [] := mulmx1_unit ccov_Bgg.
by rewrite Bgf mulmxN -!mulmxA mulKmx.
Qed.

Lemma det_split : \det A = \det Aff * \det ccov.
Proof.
pose h (i : 'I_(m + q)) := match split i with inl a => f a | inr b => g b end.
have hi : injective h.
  move=> i j; rewrite -(splitK i) -(splitK j) /h !unsplitK.
  case: (split i) => a; case: (split j) => b /=.
  - by move/(inj_f fg) ->.
  - by move=> e; have := disj fg a b; rewrite e eqxx.
  - by move=> e; have := disj fg b a; rewrite e eqxx.
  - by move/(inj_g fg) ->.
rewrite -(det_mxsub_bij A size_fg hi).
have -> : mxsub h h A = block_mx 1%:M 0 (Agf *m invmx Aff) 1%:M *m block_mx Aff Afg 0 ccov.
  rewrite mulmx_block !mul1mx !mulmx0 !mul0mx !addr0 mulmxKV // -mulmxA.
  have -> : Agf *m (invmx Aff *m Afg) + ccov = Agg by rewrite /ccov mulmxA addrC subrK.
  apply/matrixP => i j; rewrite -(splitK i) -(splitK j).
  case: (split i) => a; case: (split j) => b /=;
    rewrite ?block_mxEul ?block_mxEur ?block_mxEdl ?block_mxEdr !mxE /h; 
    by rewrite -?[lshift _ a]/(unsplit (inl a)) -?[rshift _ a]/(unsplit (inr a))
      -?[lshift _ b]/(unsplit (inl b)) -?[rshift _ b]/(unsplit (inr b)) !unsplitK.
by rewrite det_mulmx det_lblock det_ublock !det1 !mul1r.
Qed.

Lemma tr_Afg : Afg^T = Agf.
Proof. by rewrite trmx_mxsub sA. Qed.

Lemma tr_inv : (invmx Aff)^T = invmx Aff.
Proof. by rewrite trmx_inv trmx_mxsub sA. Qed.

Lemma tr_ccov : ccov^T = ccov.
Proof.
rewrite /ccov linearB /= !trmx_mul tr_inv !trmx_mxsub sA mulmxA //.
Qed.

(* a quadratic form in the inverse splits *)
Lemma quad_split (x : 'rV[T]_p) :
  (x *m B *m x^T) 0 0 = (colsub f x *m invmx Aff *m (colsub f x)^T) 0 0
  + ((colsub g x - colsub f x *m invmx Aff *m Afg) *m invmx ccov
     *m (colsub g x - colsub f x *m invmx Aff *m Afg)^T) 0 0.
Proof.
have e : x *m B *m x^T = colsub f x *m (mxsub f f B *m (colsub f x)^T + mxsub f g B *m (colsub g x)^T)
  + colsub g x *m (mxsub g f B *m (colsub f x)^T + mxsub g g B *m (colsub g x)^T).
  have cs (F : 'I_p -> T) : \sum_k F k = \sum_a F (f a) + \sum_b F (g b).
    rewrite -(big_enum _ _ F) -(perm_big _ fg) big_cat /= !big_image /=; by [].
  apply/matrixP => i0 j0; rewrite !ord1 -mulmxA !mxE cs; congr (_ + _);
    apply: eq_bigr => a _; rewrite !mxE cs; congr (_ * (_ + _)); by apply: eq_bigr => b _; rewrite !mxE.
rewrite e Bff Bfg Bgf Bgg -tr_Afg.
set x1 := colsub f x; set x2 := colsub g x; set I := invmx Aff; set D := invmx ccov; set G := Afg.
have -> : (x2 - x1 *m I *m G)^T = x2^T - G^T *m I *m x1^T.
  by rewrite linearB /= !trmx_mul tr_inv mulmxA.
have addE (M N : 'M[T]_1) : M 0 0 + N 0 0 = (M + N) 0 0 by rewrite [RHS]mxE.
rewrite addE; congr (fun_of_matrix _ 0 0).
rewrite !(mulmxDl, mulmxDr, mulNmx, mulmxN) ?opprK !mulmxA.
move: (x1 *m I *m G *m D *m G^T *m I *m x1^T) (x1 *m I *m G *m D *m x2^T) (x2 *m D *m G^T *m I *m x1^T)
  (x2 *m D *m x2^T) (x1 *m I *m x1^T) => a b c d k.
by apply/matrixP => i0 j0; rewrite !mxE; move: (a i0 j0) (b i0 j0) (c i0 j0) (d i0 j0) (k i0 j0) => *; ring.
Qed.

End Blocks.

(* symmetric positive definite *)
Definition spd (T : rcfType) p (A : 'M[T]_p) : Prop := A^T = A /\ posdef A.

Section Spd.
Variable T : rcfType.

Lemma spd_psd p (A : 'M[T]_p) : spd A -> psd A.
Proof.
case=> sA pA; split=> // x; have [->|x0] := eqVneq x 0; last exact: ltW (pA x x0).
by rewrite mul0mx mul0mx mxE.
Qed.

Lemma spd_unit p (A : 'M[T]_p) : spd A -> A \in unitmx.
Proof. by case=> _; exact: posdef_unit. Qed.

Lemma psd_unit_spd p (A : 'M[T]_p) : psd A -> A \in unitmx -> spd A.
Proof. by move=> h u; split; [case: h|exact: psd_unit_posdef]. Qed.

Lemma spd_det p (A : 'M[T]_p) : spd A -> 0 < \det A.
Proof.
move=> h; have /andP[d0 _] := psd_det (spd_psd h).
by rewrite lt_neqAle d0 andbT eq_sym -unitfE -unitmxE spd_unit.
Qed.

Lemma spd_inv p (A : 'M[T]_p) : spd A -> spd (invmx A).
Proof.
move=> h; have [sA pA] := h; split; first by rewrite trmx_inv sA.
by move=> x x0; exact: posdef_inv.
Qed.

Lemma spd_sub m p (f : 'I_m -> 'I_p) (A : 'M[T]_p) : injective f -> spd A -> spd (mxsub f f A).
Proof.
move=> fi [sA pA]; split; first by rewrite trmx_mxsub sA.
move=> x x0; pose y : 'rV[T]_p := \row_k \sum_(a | f a == k) x 0 a.
have yf a : y 0 (f a) = x 0 a.
  rewrite mxE (bigD1 a) //= big1 ?addr0 // => b /andP[/eqP /fi -> ]; by rewrite eqxx.
have e : (x *m mxsub f f A *m x^T) 0 0 = (y *m A *m y^T) 0 0.
  have sumy (F : 'I_p -> T) : \sum_k y 0 k * F k = \sum_a x 0 a * F (f a).
    under eq_bigr => k _ do rewrite mxE big_distrl /=.
    rewrite (exchange_big_dep predT) //=; apply: eq_bigr => a _.
    by rewrite (big_pred1 (f a)) // => k; rewrite eq_sym.
  have sumy' (F : 'I_p -> T) : \sum_k F k * y 0 k = \sum_a F (f a) * x 0 a.
    by under eq_bigr => k _ do rewrite mulrC; rewrite sumy; apply: eq_bigr => a _; rewrite mulrC.
  rewrite !mxE; under [RHS]eq_bigr => k _ do rewrite [y^T _ _]mxE.
  rewrite sumy'; apply: eq_bigr => a _; rewrite [x^T _ _]mxE; congr (_ * _).
  by rewrite !mxE sumy; apply: eq_bigr => b _; rewrite mxE.
rewrite e; apply: pA; apply: contra x0 => /eqP y0; apply/eqP/rowP => a.
by rewrite -yf y0 !mxE.
Qed.

Lemma ccov_spd m q p (f : 'I_m -> 'I_p) (g : 'I_q -> 'I_p) (A : 'M[T]_p) :
  perm_eq (codom f ++ codom g) (enum 'I_p) -> spd A -> spd (ccov f g A).
Proof.
move=> fg h; have uA := spd_unit h; have sf := spd_sub (inj_f fg) h.
have e := Bgg fg (mulmxV uA) (spd_unit sf).
by rewrite -[ccov f g A]invmxK -e; apply/spd_inv/spd_sub; [exact: inj_g fg|exact: spd_inv].
Qed.

End Spd.

Section Gauss.
Variables (T : rcfType) (ln : T -> T) (log2pi : T).
Hypothesis lnM : forall a b, 0 < a -> 0 < b -> ln (a * b) = ln a + ln b.

(* minus twice the log-likelihood of the cells f *)
Definition gterm m p (f : 'I_m -> 'I_p) (A : 'M[T]_p) (mu x : 'rV[T]_p) : T :=
  ((colsub f x - colsub f mu) *m invmx (mxsub f f A) *m (colsub f x - colsub f mu)^T) 0 0
  + ln (\det (mxsub f f A)) + log2pi * m%:R.

(* the same for the cells g given the cells f *)
Definition cterm m q p (f : 'I_m -> 'I_p) (g : 'I_q -> 'I_p) (A : 'M[T]_p) (mu x : 'rV[T]_p) : T :=
  let r := colsub g (x - mu) - colsub f (x - mu) *m invmx (mxsub f f A) *m mxsub f g A in
  (r *m invmx (ccov f g A) *m r^T) 0 0 + ln (\det (ccov f g A)) + log2pi * q%:R.

Lemma gterm_comp m m' p (f : 'I_m -> 'I_p) (t : 'I_m' -> 'I_m) A mu x : m' = m -> injective t ->
  mxsub f f A \in unitmx -> gterm (f \o t) A mu x = gterm f A mu x.
Proof.
move=> e ti uA.
have eA : mxsub (f \o t) (f \o t) A = mxsub t t (mxsub f f A) by apply/matrixP => i j; rewrite !mxE.
rewrite /gterm eA det_mxsub_bij // invmx_mxsub_bij //.
have -> : (m'%:R : T) = m%:R by rewrite e.
congr (_ + _ + _).
have ec (y : 'rV[T]_p) : colsub (f \o t) y = colsub t (colsub f y) by apply/matrixP => i j; rewrite !mxE.
rewrite !ec; move: (invmx _) (colsub f x) (colsub f mu) => B u v.
rewrite !mxE -(sum_bij _ e ti); apply: eq_bigr => a _; rewrite !mxE; congr (_ * _).
by rewrite -(sum_bij _ e ti); apply: eq_bigr => b _; rewrite !mxE.
Qed.

Lemma gterm_codom m m' p (f : 'I_m -> 'I_p) (f' : 'I_m' -> 'I_p) A mu x :
  injective f -> injective f' -> codom f' =i codom f -> spd A -> gterm f' A mu x = gterm f A mu x.
Proof.
move=> fi fi' h pA; have [e [t ti et]] := enum_factor fi fi' h.
rewrite -(@gterm_comp m m' p f t) //; last exact/spd_unit/spd_sub.
have eA : mxsub f' f' A = mxsub (f \o t) (f \o t) A by apply/matrixP => i j; rewrite !mxE !et.
have ec (y : 'rV[T]_p) : colsub f' y = colsub (f \o t) y by apply/matrixP => i j; rewrite !mxE et.
by rewrite /gterm eA !ec.
Qed.

Lemma gterm_split m q p (f : 'I_m -> 'I_p) (g : 'I_q -> 'I_p) A mu x :
  perm_eq (codom f ++ codom g) (enum 'I_p) -> spd A ->
  gterm id A mu x = gterm f A mu x + cterm f g A mu x.
Proof.
move=> fg pA; have uA := spd_unit pA; have sf := spd_sub (inj_f fg) pA; have [sA _] := pA.
have e0 (y : 'rV[T]_p) : colsub id y = y by apply/matrixP => i j; rewrite !mxE.
have e1 : mxsub id id A = A by apply/matrixP => i j; rewrite !mxE.
rewrite /gterm /cterm !e0 e1 (quad_split fg (mulmxV uA) sA (spd_unit sf)) (det_split fg (spd_unit sf)).
rewrite lnM ?spd_det //; last exact: ccov_spd.
have ec (h : 'I_m -> 'I_p) : colsub h x - colsub h mu = colsub h (x - mu) by apply/matrixP => i j; rewrite !mxE.
have -> : (p%:R : T) = m%:R + q%:R by rewrite -natrD (size_fg fg).
have aux (a b c d k l : T) : a + b + (c + d) + (k + l) = a + c + k + (b + d + l) by ring.
by rewrite ec mulrDr; exact: aux.
Qed.


Lemma quad11 (r C : 'M[T]_1) : (r *m invmx C *m r^T) 0 0 = r 0 0 ^+ 2 / C 0 0.
Proof.
rewrite {1}[C]mx11_scalar invmx_scalar mul_mx_scalar -scalemxAl mxE mxE big_ord1 [r^T _ _]mxE.
by rewrite mulrC expr2.
Qed.

(* the residual and the conditional variance of cell k given the cells f *)
Definition cres m p (f : 'I_m -> 'I_p) (A : 'M[T]_p) (mu x : 'rV[T]_p) k : T :=
  x 0 k - (mu 0 k + ((colsub f x - colsub f mu) *m invmx (mxsub f f A) *m \col_a A (f a) k) 0 0).
Definition cvar m p (f : 'I_m -> 'I_p) (A : 'M[T]_p) k : T :=
  A k k - ((\row_a A k (f a)) *m invmx (mxsub f f A) *m \col_a A (f a) k) 0 0.

Section Add.
Variables (m p : nat) (f : 'I_m -> 'I_p) (k : 'I_p).
Hypothesis fi : injective f.
Hypothesis kf : k \notin codom f.

Definition fcons (i : 'I_(1 + m)) : 'I_p := match split i with inl _ => k | inr a => f a end.

Lemma fcons_inj : injective fcons.
Proof.
move=> i j; rewrite -(splitK i) -(splitK j) /fcons !unsplitK.
case: (split i) => a; case: (split j) => b /=.
- by rewrite !ord1.
- by move=> e; move: kf; rewrite e codom_f.
- by move=> e; move: kf; rewrite -e codom_f.
- by move/fi ->.
Qed.

Lemma fconsl i : fcons (lshift m i) = k.
Proof. by rewrite /fcons -[lshift m i]/(unsplit (inl i)) unsplitK. Qed.
Lemma fconsr a : fcons (rshift 1 a) = f a.
Proof. by rewrite /fcons -[rshift 1 a]/(unsplit (inr a)) unsplitK. Qed.

Lemma fcons_codom : codom fcons =i k :: codom f.
Proof.
move=> l; apply/idP/idP.
  case/codomP => i ->; rewrite -(splitK i) inE; case: (split i) => a /=.
    by rewrite fconsl eqxx.
  by rewrite fconsr codom_f orbT.
rewrite inE => /orP[/eqP ->|/codomP[a ->]].
  by rewrite -(fconsl 0) codom_f.
by rewrite -fconsr codom_f.
Qed.

Lemma shift_cover : perm_eq (codom (@rshift 1 m) ++ codom (@lshift 1 m)) (enum 'I_(1 + m)).
Proof.
apply: uniq_perm; last first.
- move=> i; rewrite mem_cat mem_enum -(splitK i); case: (split i) => a /=; by rewrite codom_f ?orbT.
- exact: enum_uniq.
rewrite cat_uniq; apply/and3P; split; try (apply/injectiveP; first [exact: rshift_inj|exact: lshift_inj]).
by apply/hasPn => i /codomP[a ->]; apply/codomP => -[b] /eqP; rewrite eq_lrshift.
Qed.

Variables (A : 'M[T]_p) (mu x : 'rV[T]_p).
Hypothesis pA : spd A.

Lemma cvarE : ccov (@rshift 1 m) (@lshift 1 m) (mxsub fcons fcons A) 0 0 = cvar f A k.
Proof.
rewrite /ccov !mxE fconsl; congr (_ - _).
have -> : mxsub (@rshift 1 m) (@rshift 1 m) (mxsub fcons fcons A) = mxsub f f A.
  by apply/matrixP => i j; rewrite !mxE !fconsr.
rewrite [RHS]mxE; apply: eq_bigr => a _; rewrite !mxE fconsl fconsr; congr (_ * _).
by apply: eq_bigr => b _; rewrite !mxE fconsl fconsr.
Qed.

Lemma cvar_gt0 : 0 < cvar f A k.
Proof.
rewrite -cvarE -det_mx11; apply/spd_det/ccov_spd; first exact: shift_cover.
by apply: spd_sub => //; exact: fcons_inj.
Qed.

Lemma gterm_cons : gterm fcons A mu x
  = gterm f A mu x + (cres f A mu x k ^+ 2 / cvar f A k + ln (cvar f A k) + log2pi).
Proof.
have pA1 : spd (mxsub fcons fcons A) by apply: spd_sub => //; exact: fcons_inj.
have -> : gterm fcons A mu x = gterm id (mxsub fcons fcons A) (colsub fcons mu) (colsub fcons x).
  rewrite /gterm; have -> : mxsub id id (mxsub fcons fcons A) = mxsub fcons fcons A by apply/matrixP => i j; rewrite !mxE.
  have e0 (y : 'rV[T]_p) : colsub id (colsub fcons y) = colsub fcons y by apply/matrixP => i j; rewrite !mxE.
  by rewrite !e0.
rewrite (gterm_split _ _ shift_cover pA1).
have eA : mxsub (@rshift 1 m) (@rshift 1 m) (mxsub fcons fcons A) = mxsub f f A.
  by apply/matrixP => i j; rewrite !mxE !fconsr.
have ec (y : 'rV[T]_p) : colsub (@rshift 1 m) (colsub fcons y) = colsub f y.
  by apply/matrixP => i j; rewrite !mxE !fconsr.
congr (_ + _); first by rewrite /gterm eA !ec.
rewrite /cterm quad11 det_mx11 cvarE mulr1; congr (_ ^+ 2 / _ + _ + _).
rewrite eA /cres !mxE fconsl opprD addrA; congr (_ - _).
apply: eq_bigr => a _; rewrite !mxE fconsr fconsl; congr (_ * _).
by apply: eq_bigr => b _; rewrite !mxE !fconsr.
Qed.

Lemma gterm_add m' (f' : 'I_m' -> 'I_p) : injective f' -> codom f' =i k :: codom f ->
  gterm f' A mu x = gterm f A mu x + (cres f A mu x k ^+ 2 / cvar f A k + ln (cvar f A k) + log2pi).
Proof.
move=> fi' h; rewrite -gterm_cons; apply: gterm_codom => //; first exact: fcons_inj.
by move=> l; rewrite h fcons_codom.
Qed.

End Add.

Hypothesis ln_le : forall a, 0 < a -> ln a <= a - 1.

Lemma ln1 : ln 1 = 0.
Proof. by have := lnM (@ltr01 T) (@ltr01 T); rewrite mulr1 => h; apply: (addrI (ln 1)); rewrite addr0 -h. Qed.

Lemma lnX a k : 0 < a -> ln (a ^+ k) = k%:R * ln a.
Proof.
move=> a0; elim: k => [|k IH]; first by rewrite expr0 ln1 mul0r.
by rewrite exprS lnM ?exprn_gt0 // IH -addn1 natrD mulrDl mul1r addrC.
Qed.

(* the Kullback-Leibler inequality for centred normal distributions *)
Lemma logdet_le n (A B : 'M[T]_n) : spd A -> spd B ->
  ln (\det B) - ln (\det A) <= \tr (invmx A *m B) - n%:R.
Proof.
case: n A B => [|n] A B pA pB.
  by rewrite !det_mx00 subrr /mxtrace big_ord0 subrr.
pose t := \tr (invmx A *m B) / n.+1%:R.
have n0 : (0 : T) < n.+1%:R by rewrite ltr0n.
have nn : (n.+1%:R : T) != 0 by rewrite gt_eqF.
have dA := spd_det pA; have dB := spd_det pB.
have key c : 0 < c -> \tr (invmx A *m B) <= c * n.+1%:R -> \det B <= c ^+ n.+1 * \det A.
  move=> c0 hc; have := @det_trace T n.+1 (c *: A) B (psd_scale (ltW c0) (spd_psd pA)) _ (spd_psd pB).
  rewrite detZ; apply.
    by rewrite unitmxE detZ unitfE mulf_neq0 ?expf_neq0 // gt_eqF.
  rewrite invmxZ; last by rewrite unitmxE detZ unitfE mulf_neq0 ?expf_neq0 // gt_eqF.
  by rewrite -scalemxAl mxtraceZ ler_pdivr_mull.
have t0 : 0 < t.
  rewrite ltNge; apply/negP => t0.
  have ht c : 0 < c -> \det B <= c ^+ n.+1 * \det A.
    move=> c0; apply: key => //; rewrite -(divfK nn (\tr _)) -/t ler_pmul2r //.
    by apply: le_trans t0 _; exact: ltW.
  have r0 : 0 < \det B / \det A by rewrite divr_gt0.
  pose c := Num.min 1 (\det B / \det A / 2%:R).
  have c0 : 0 < c by rewrite lt_minr ltr01 divr_gt0 // ltr0n.
  have := ht c c0; rewrite -ler_pdivr_mulr // leNgt => /negP; apply.
  apply: le_lt_trans (_ : c ^+ n.+1 <= c) _.
    rewrite exprS ler_pimulr ?(ltW c0) // exprn_ile1 ?(ltW c0) //; by rewrite le_minl lexx.
  apply: le_lt_trans (_ : c <= \det B / \det A / 2%:R) _; first by rewrite le_minl lexx orbT.
  move: r0; move: (_ / _) => r r0; rewrite ltr_pdivr_mulr ?ltr0n //; move: r0; flra.
have hB : \det B <= t ^+ n.+1 * \det A by apply: key => //; rewrite divfK.
have tA0 : 0 < t ^+ n.+1 * \det A by rewrite mulr_gt0 ?exprn_gt0.
have e : \det B = (\det B / (t ^+ n.+1 * \det A)) * (t ^+ n.+1 * \det A) by rewrite divfK ?gt_eqF.
have r0 : 0 < \det B / (t ^+ n.+1 * \det A) by rewrite divr_gt0.
have r1 : \det B / (t ^+ n.+1 * \det A) <= 1 by rewrite ler_pdivr_mulr // mul1r.
have l1 := ln_le r0; have l2 := ln_le t0.
have e2 : ln (\det B) = ln (\det B / (t ^+ n.+1 * \det A)) + (n.+1%:R * ln t + ln (\det A)).
  by rewrite {1}e (lnM r0 tA0) (lnM (exprn_gt0 n.+1 t0) dA) lnX.
have -> : \tr (invmx A *m B) = t * n.+1%:R by rewrite divfK.
have l3 : n.+1%:R * ln t <= n.+1%:R * (t - 1) by rewrite ler_pmul2l.
rewrite e2; move: l1 l3 r1; rewrite mulrBr mulr1 [n.+1%:R * t]mulrC.
move: (n.+1%:R * ln t) (t * n.+1%:R) => b d; move: (\det B / _) => r.
move: (ln (\det A)) (ln r) => c a; move: (n.+1%:R : T) => k; flra.
Qed.

End Gauss.
