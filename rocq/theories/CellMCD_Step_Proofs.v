(* Proofs about a C-step of the cellwise MCD: imputation, descent of the objective. *)
From mathcomp Require Import all_ssreflect all_algebra perm.
From mathcomp.zify Require Import zify.
From mathcomp.algebra_tactics Require Import ring.
From Verif Require Import RFieldLra Prelude Stats Xnum RatFloor Vec PSD LinAlg_Model LinAlg_Proofs.
From Verif Require Import MCD_Model MCD_Spec MCD_Proofs OGK_Model OGK_Proofs Cov_Model Cov_Spec Cov_Proofs.
From Verif Require Import Gauss_Proofs CellMCD_Model CellMCD_Spec CellMCD_Proofs.

Set Implicit Arguments.
Unset Strict Implicit.
Unset Printing Implicit Defensive.

Import Order.TTheory GRing.Theory Num.Theory.
Local Open Scope ring_scope.

Section Impute.
Variables (T : rcfType) (n p : nat).
Implicit Types (X : 'M[option T]_(n, p)) (W : 'M[bool]_(n, p)) (s : seq 'I_p).

Lemma pick_pos s (a : 'I_(size s)) : uniq s -> [pick b | pos s b == pos s a] = Some a.
Proof.
move=> us; case: pickP => [b /eqP /(pos_inj us) -> //|/(_ a)]; by rewrite eqxx.
Qed.

Lemma pick_none s k : k \notin s -> [pick b | pos s b == k] = None.
Proof.
move=> nk; case: pickP => // b /eqP e; move: nk; rewrite -mem_pos -e; by rewrite codom_f.
Qed.

Lemma put_row_in s (v : 'rV[T]_(size s)) d a : uniq s -> put_row v d 0 (pos s a) = v 0 a.
Proof. by move=> us; rewrite mxE pick_pos. Qed.

Lemma put_row_out s (v : 'rV[T]_(size s)) d k : k \notin s -> put_row v d 0 k = d 0 k.
Proof. by move=> us; rewrite mxE pick_none. Qed.

Lemma put_block_in s (A : 'M[T]_(size s)) : uniq s -> mxsub (pos s) (pos s) (put_block A) = A.
Proof. by move=> us; apply/matrixP => a b; rewrite !mxE !pick_pos. Qed.

Lemma put_block_out s (A : 'M[T]_(size s)) k l : (k \notin s) || (l \notin s) -> put_block A k l = 0.
Proof. by case/orP => h; rewrite mxE (pick_none h) //; case: pickP. Qed.

Lemma ones_zeros (w : 'rV[bool]_p) : perm_eq (codom (pos (ones w)) ++ codom (pos (zeros w))) (enum 'I_p).
Proof. by rewrite !codom_pos /ones /zeros perm_filterC. Qed.

(* what a row is replaced by: y in the place of x, and its term B in the matrix bias *)
Definition imputed (m q : nat) (f : 'I_m -> 'I_p) (g : 'I_q -> 'I_p) (S : 'M[T]_p) (mu x y : 'rV[T]_p) (B : 'M[T]_p) : Prop :=
  [/\ colsub f y = colsub f x,
      colsub g y = colsub g mu + colsub f (x - mu) *m invmx (mxsub f f S) *m mxsub f g S,
      mxsub g g B = ccov f g S &
      forall k l, (k \in codom f) || (l \in codom f) -> B k l = 0].

Variables (sigma sigma_inv : 'M[T]_p).
Hypothesis pS : spd sigma.
Hypothesis eS : sigma *m sigma_inv = 1%:M.

Lemma impute_rowE X W mu i :
  exists y B, impute_row X W mu sigma sigma_inv i = Ok (y, B)
  /\ imputed (pos (ones (row i W))) (pos (zeros (row i W))) sigma mu (vals X i) y B.
Proof.
have fg := ones_zeros (row i W).
have us := ones_uniq (row i W); have ut := zeros_uniq (row i W).
have dis k : k \in ones (row i W) -> k \notin zeros (row i W) by rewrite mem_ones mem_zeros negbK.
rewrite /impute_row; set s := ones _ in fg us dis *; set t := zeros _ in fg ut dis *.
have [t0|tp] := posnP (size t).
  exists (vals X i), 0; split=> //; split.
  - by [].
  - by apply/rowP => a; have := ltn_ord a; rewrite {2}t0.
  - by apply/matrixP => a; have := ltn_ord a; rewrite {2}t0.
  - by move=> k l _; rewrite mxE.
have sz : (size s + size t = p)%N by have := size_fg fg.
case: eqP => tp'.
  have s0 : size s = 0%N by lia.
  exists mu, sigma; split=> //; split.
  - by apply/rowP => a; have := ltn_ord a; rewrite {2}s0.
  - suff -> : colsub (pos s) (vals X i - mu) = 0 by rewrite !mul0mx addr0.
    by apply/rowP => a; have := ltn_ord a; rewrite {2}s0.
  - rewrite /ccov; suff -> : mxsub (pos s) (pos t) sigma = 0 by rewrite mulmx0 subr0.
    by apply/matrixP => a; have := ltn_ord a; rewrite {2}s0.
  - by move=> k l; rewrite !mem_pos (size0nil s0).
have uf := spd_unit (spd_sub (inj_f fg) pS).
have eB := Bgg fg eS uf.
have uc := ccov_unit fg eS uf.
rewrite np_inv_ok /=; last by rewrite eB unitmx_inv.
have eR := regression fg eS uf.
set v := sub_mu _ _ - _; exists (put_row v (vals X i)), (put_block (invmx (mxsub (pos t) (pos t) sigma_inv))).
split=> //; split.
- apply/rowP => a; rewrite mxE put_row_out; first by rewrite [RHS]mxE.
  by apply: dis; rewrite -mem_pos codom_f.
- apply/rowP => a; rewrite mxE put_row_in // /v eR mulNmx.
  have -> : \row_a0 odflt 0 (X i (pos s a0)) - sub_mu mu s = colsub (pos s) (vals X i - mu).
    by apply/rowP => b; rewrite !mxE.
  have -> : sub_mu mu t = colsub (pos t) mu by apply/rowP => b; rewrite !mxE.
  congr (fun_of_matrix _ 0 a); rewrite linearN /= opprK; congr (_ + _).
  have [sy _] := pS.
  by rewrite !trmx_mul trmxK (tr_inv _ sy) trmx_mxsub sy mulmxA.
- by rewrite put_block_in // eB invmxK.
- by move=> k l; rewrite !mem_pos => /orP[] /dis h; rewrite put_block_out // h ?orbT.
Qed.

End Impute.

Section Conditional.
Variables (T : rcfType) (p : nat).

Lemma sum_codom m (f : 'I_m -> 'I_p) (A : {set 'I_p}) (F : 'I_p -> T) : injective f ->
  codom f =i A -> \sum_(k in A) F k = \sum_a F (f a).
Proof.
move=> fi e; have -> : \sum_a F (f a) = \sum_(k <- codom f) F k by rewrite /codom big_image.
rewrite -big_enum /=; apply: perm_big; apply: uniq_perm; rewrite ?enum_uniq //.
  by rewrite map_inj_uniq ?enum_uniq.
by move=> k; rewrite mem_enum -e.
Qed.

Variables (m : nat) (f : 'I_m -> 'I_p) (A : {set 'I_p}) (S : 'M[T]_p).
Hypothesis fi : injective f.
Hypothesis fA : codom f =i A.
Hypothesis pS : spd S.

(* the regression coefficients through a list of indices *)
Definition coef (k : 'I_p) (l : 'I_p) : T :=
  if [pick a | f a == l] is Some a then (invmx (mxsub f f S) *m \col_b S (f b) k) a 0 else 0.

Lemma coefE k a : coef k (f a) = (invmx (mxsub f f S) *m \col_b S (f b) k) a 0.
Proof. by rewrite /coef; case: pickP => [b /eqP /fi -> //|/(_ a)]; rewrite eqxx. Qed.

Lemma coefP k : regression_on A S k (coef k).
Proof.
have uf := spd_unit (spd_sub fi pS).
move=> l; rewrite -fA => /codomP[c ->]; rewrite (sum_codom _ fi fA).
transitivity ((mxsub f f S *m (invmx (mxsub f f S) *m \col_b S (f b) k)) c 0).
  by rewrite [RHS]mxE; apply: eq_bigr => a _; rewrite coefE [mxsub f f S c a]mxE.
by rewrite mulmxA mulmxV // mul1mx mxE.
Qed.

Lemma coef_unique k b a : regression_on A S k b -> b (f a) = coef k (f a).
Proof.
have uf := spd_unit (spd_sub fi pS) => hb; rewrite coefE.
have -> : \col_b S (f b) k = mxsub f f S *m \col_c b (f c).
  apply/colP => c; rewrite [LHS]mxE [RHS]mxE -(hb (f c)) -?fA ?codom_f // (sum_codom _ fi fA).
  by apply: eq_bigr => d _; rewrite !mxE.
by rewrite mulKmx // mxE.
Qed.

Lemma cond_meanP mu x k v : cond_mean A S mu x k v <->
  v = mu 0 k + (colsub f (x - mu) *m invmx (mxsub f f S) *m \col_b S (f b) k) 0 0.
Proof.
have e b : (forall a, b (f a) = coef k (f a)) ->
  \sum_(l in A) (x 0 l - mu 0 l) * b l = (colsub f (x - mu) *m invmx (mxsub f f S) *m \col_b S (f b) k) 0 0.
  move=> hb; rewrite (sum_codom _ fi fA) -mulmxA [RHS]mxE; apply: eq_bigr => a _.
  by rewrite hb coefE; congr (_ * _); rewrite !mxE.
split=> [[b hb ->]|->]; last by exists (coef k); [exact: coefP | rewrite e].
by rewrite e // => a; exact: coef_unique.
Qed.

Lemma cond_covP k l v : cond_cov A S k l v <->
  v = S l k - ((\row_a S l (f a)) *m invmx (mxsub f f S) *m \col_b S (f b) k) 0 0.
Proof.
have e b : (forall a, b (f a) = coef k (f a)) ->
  \sum_(m in A) S l m * b m = ((\row_a S l (f a)) *m invmx (mxsub f f S) *m \col_b S (f b) k) 0 0.
  move=> hb; rewrite (sum_codom _ fi fA) -mulmxA [RHS]mxE; apply: eq_bigr => a _.
  by rewrite hb coefE; congr (_ * _); rewrite !mxE.
split=> [[b hb ->]|->]; last by exists (coef k); [exact: coefP | rewrite e].
by rewrite e // => a; exact: coef_unique.
Qed.

End Conditional.

(* the spec of conditional means and covariances has one solution *)
Lemma cond_mean_unique (T : rcfType) p (A : {set 'I_p}) (S : 'M[T]_p) mu x k v w : spd S ->
  cond_mean A S mu x k v -> cond_mean A S mu x k w -> v = w.
Proof.
move=> pS; have fA : codom (@enum_val _ (mem A)) =i A.
  move=> l; apply/idP/idP => [/codomP[a ->]|lA]; first exact: enum_valP.
  by apply/codomP; exists (enum_rank_in lA l); rewrite enum_rankK_in.
by move=> /(cond_meanP (@enum_val_inj _ _) fA pS) -> /(cond_meanP (@enum_val_inj _ _) fA pS) ->.
Qed.

Lemma cond_cov_unique (T : rcfType) p (A : {set 'I_p}) (S : 'M[T]_p) k l v w : spd S ->
  cond_cov A S k l v -> cond_cov A S k l w -> v = w.
Proof.
move=> pS; have fA : codom (@enum_val _ (mem A)) =i A.
  move=> m; apply/idP/idP => [/codomP[a ->]|lA]; first exact: enum_valP.
  by apply/codomP; exists (enum_rank_in lA m); rewrite enum_rankK_in.
by move=> /(cond_covP (@enum_val_inj _ _) fA pS) -> /(cond_covP (@enum_val_inj _ _) fA pS) ->.
Qed.

Section Impute2.
Variables (T : rcfType) (n p : nat).
Variables (X : 'M[option T]_(n, p)) (W : 'M[bool]_(n, p)) (sigma sigma_inv : 'M[T]_p) (mu : 'rV[T]_p).
Hypothesis pS : spd sigma.
Hypothesis eS : sigma *m sigma_inv = 1%:M.

Lemma ones_clean i : codom (pos (ones (row i W))) =i clean W i.
Proof. by move=> k; rewrite mem_pos mem_ones inE mxE. Qed.

(* C76: the imputed row *)
Lemma impute_row_cond i : exists y B, impute_row X W mu sigma sigma_inv i = Ok (y, B)
  /\ [/\ forall k, W i k -> y 0 k = vals X i 0 k,
         forall k, ~~ W i k -> cond_mean (clean W i) sigma mu (vals X i) k (y 0 k),
         forall k l, ~~ W i k -> ~~ W i l -> cond_cov (clean W i) sigma k l (B l k)
       & forall k l, W i k || W i l -> B k l = 0].
Proof.
have [y [B [-> [h1 h2 h3 h4]]]] := impute_rowE pS eS X W mu i; exists y, B; split=> //.
have fi := pos_inj (ones_uniq (row i W)); have fA := ones_clean i.
have inz k : ~~ W i k -> exists a, k = pos (zeros (row i W)) a.
  by move=> h; apply/codomP; rewrite mem_pos mem_zeros mxE.
split.
- move=> k wk; have /codomP[a ->] : k \in codom (pos (ones (row i W))) by rewrite fA inE.
  by have := congr1 (fun M : 'rV_ _ => M 0 a) h1; rewrite !mxE.
- move=> k /inz [a ->]; apply/(cond_meanP fi fA pS).
  have := congr1 (fun M : 'rV_ _ => M 0 a) h2; rewrite [colsub _ y _ _]mxE => ->.
  rewrite [LHS]mxE; congr (_ + _); first by rewrite mxE.
  by rewrite [LHS]mxE [RHS]mxE; apply: eq_bigr => b _; congr (_ * _); rewrite !mxE.
- move=> k l /inz [a ->] /inz [b ->]; apply/(cond_covP fi fA pS).
  have := congr1 (fun M : 'M_ _ => M b a) h3; rewrite [mxsub _ _ B _ _]mxE => ->.
  rewrite /ccov [LHS]mxE [X in _ + X]mxE; congr (_ - _); first by rewrite mxE.
  rewrite [LHS]mxE [RHS]mxE; apply: eq_bigr => c _; congr (_ * _); last by rewrite !mxE.
  by rewrite [LHS]mxE [RHS]mxE; apply: eq_bigr => d _; congr (_ * _); rewrite !mxE.
- by move=> k l h; apply: h4; rewrite !fA !inE.
Qed.

End Impute2.

Section Predict.
Variables (T : rcfType) (n p : nat).
Variables (X : 'M[option T]_(n, p)) (W : 'M[bool]_(n, p)) (sigma sigma_inv : 'M[T]_p) (mu : 'rV[T]_p).
Hypothesis pS : spd sigma.
Hypothesis eS : sigma *m sigma_inv = 1%:M.
Hypothesis oW : observed X W.

Lemma cond_mean0 x k : cond_mean set0 sigma mu x k (mu 0 k).
Proof. by exists (fun=> 0) => [l|]; rewrite ?inE // big_set0 addr0. Qed.

Lemma cond_cov0 k l : cond_cov set0 sigma k l (sigma l k).
Proof. by exists (fun=> 0) => [m|]; rewrite ?inE // big_set0 subr0. Qed.

Lemma predict_fromE s k i (A : {set 'I_p}) : subseq s (enum 'I_p) -> s =i A -> (forall l, l \in A -> W i l) ->
  exists f c, [/\ predict_from X sigma sigma_inv mu s k = Ok (f, c),
    exists2 v, f i = Some v & cond_mean A sigma mu (vals X i) k v & cond_cov A sigma k k c].
Proof.
move=> hs sA hA; rewrite /predict_from sub_inv_ok //=.
have us : uniq s := subseq_uniq hs (enum_uniq _).
have fi := pos_inj us; have fA : codom (pos s) =i A by move=> l; rewrite mem_pos sA.
exists (predict_cell X sigma mu (invmx (mxsub (pos s) (pos s) sigma)) k),
       (cond_variance sigma (invmx (mxsub (pos s) (pos s) sigma)) k); split=> //.
  rewrite /predict_cell cellsE; last by apply/allP => l; rewrite sA => /hA /oW.
  eexists; first by [].
  apply/(cond_meanP fi fA pS); rewrite sub_muE; congr (_ + _).
  have -> // : colsub (pos s) (vals X i) - colsub (pos s) mu = colsub (pos s) (vals X i - mu).
  by apply/rowP => a; rewrite !mxE.
by apply/(cond_covP fi fA pS).
Qed.

(* the diagonal of the inverse holds the inverse residual variances *)
Lemma inv_diag k c : cond_cov (~: [set k]) sigma k k c -> sigma_inv k k = 1 / c.
Proof.
pose s := [seq l <- enum 'I_p | l != k].
have us : uniq s by rewrite filter_uniq ?enum_uniq.
have fA : codom (pos s) =i ~: [set k] by move=> l; rewrite mem_pos mem_filter mem_enum andbT !inE.
have fi := pos_inj us.
pose g (a : 'I_1) := k.
have fg : perm_eq (codom (pos s) ++ codom g) (enum 'I_p).
  have -> : codom g = [:: k] by rewrite codomE enum_ordS /= enum_ord0.
  apply: uniq_perm; rewrite ?enum_uniq // ?cat_uniq /=.
    rewrite (_ : uniq (codom (pos s))) ?codom_pos ?us //= orbF andbT mem_filter eqxx //.
  by move=> l; rewrite mem_enum mem_cat fA !inE; case: eqP.
move/(cond_covP fi fA pS) => ->.
have := congr1 (fun M : 'M_ _ => M 0 0) (Bgg fg eS (spd_unit (spd_sub fi pS))).
rewrite [mxsub _ _ _ _ _]mxE => ->; rewrite {1}[ccov _ _ _]mx11_scalar invmx_scalar mxE eqxx mulr1n div1r.
congr (_^-1); rewrite /ccov [LHS]mxE [X in _ + X]mxE.
have -> : mxsub g g sigma 0 0 = sigma k k by rewrite mxE.
have -> : mxsub g (pos s) sigma = \row_a sigma k (pos s a) by apply/matrixP => a b; rewrite !mxE.
by have -> : mxsub (pos s) g sigma = \col_b sigma (pos s b) k by apply/matrixP => a b; rewrite !mxE.
Qed.

(* C76, C77: predictions *)
Lemma make_predictionE i k : exists v c, make_prediction X W mu sigma sigma_inv i k = Ok (Some v, c)
  /\ if clean W i == set0 then v = mu 0 k /\ c = sigma_inv k k
     else cond_mean (clean W i :\ k) sigma mu (vals X i) k v /\ cond_cov (clean W i :\ k) sigma k k c.
Proof.
rewrite /make_prediction /predict_pattern.
have m1 l : (l \in ones (row i W)) = W i l by rewrite mem_ones mxE.
have s1 : size (ones (row i W)) = #|clean W i|.
  by rewrite -(card_uniqP (ones_uniq (row i W))); apply: eq_card => l; rewrite inE m1.
have szE : (size (zeros (row i W)) + #|clean W i| = p)%N.
  by have := size_fg (ones_zeros (row i W)); rewrite addnC -s1.
have -> : (clean W i == set0) = (size (zeros (row i W)) == p).
  by rewrite -cards_eq0; apply/eqP/eqP; lia.
case: ltnP => hz /=; last first.
  have zp : size (zeros (row i W)) = p by lia.
  have p0 : (0 < p)%N by have := ltn_ord k; lia.
  rewrite zp eqxx gtn_eqF //=; by exists (mu 0 k), (sigma_inv k k).
rewrite (ltn_eqF hz).
have [z0|zpos] := posnP (size (zeros (row i W))); last first.
  case: ifP => [wk|/negbT wk].
    case: eqP => o1.
      have -> : clean W i :\ k = set0.
        apply/eqP; rewrite -cards_eq0; have := cardsD1 k (clean W i).
        by rewrite inE; move: wk; rewrite mxE => ->; rewrite -s1 o1 => -[<-].
      exists (mu 0 k), (sigma k k); split=> //; split; [exact: cond_mean0|exact: cond_cov0].
    have [|l|l|f [c [-> [v fv hv] hc]]] := @predict_fromE [seq l <- ones (row i W) | l != k] k i (clean W i :\ k).
    - exact: subseq_trans (filter_subseq _ _) (ones_sub _).
    - by rewrite mem_filter m1 !inE.
    - by rewrite !inE => /andP[].
    by exists v, c; rewrite /= fv.
  have e : clean W i :\ k = clean W i.
    by apply/setP => l; rewrite !inE; case: eqP => // ->; move: wk; rewrite mxE => /negbTE ->.
  rewrite e; have [|l|l|f [c [-> [v fv hv] hc]]] := @predict_fromE (ones (row i W)) k i (clean W i).
  - exact: ones_sub.
  - by rewrite m1 inE.
  - by rewrite inE.
  by exists v, c; rewrite /= fv.
have full : clean W i = setT.
  by apply/eqP; rewrite eqEcard subsetT cardsT card_ord; lia.
have e : clean W i :\ k = ~: [set k] by rewrite full; apply/setP => l; rewrite !inE andbT.
rewrite e; have [|l|l|f [c [-> [v fv hv] hc]]] := @predict_fromE [seq l <- enum 'I_p | l != k] k i (~: [set k]).
- exact: filter_subseq.
- by rewrite mem_filter mem_enum andbT !inE.
- by move=> _; have : l \in clean W i by [rewrite full inE]; rewrite inE.
exists v, (1 / sigma_inv k k); rewrite /= fv; split=> //; split=> //.
by rewrite (inv_diag hc) !div1r invrK.
Qed.

End Predict.

Section EM.
Variables (T : rcfType) (ln : T -> T) (log2pi : T).
Hypothesis lnM : forall a b, 0 < a -> 0 < b -> ln (a * b) = ln a + ln b.
Hypothesis ln_le : forall a, 0 < a -> ln a <= a - 1.

(* the expected complete-data term *)
Definition qterm p (S : 'M[T]_p) (mu y : 'rV[T]_p) (B : 'M[T]_p) : T :=
  gterm ln log2pi id S mu y + \tr (invmx S *m B).

Lemma sum_fg m q p (f : 'I_m -> 'I_p) (g : 'I_q -> 'I_p) (F : 'I_p -> T) :
  perm_eq (codom f ++ codom g) (enum 'I_p) -> \sum_k F k = \sum_a F (f a) + \sum_b F (g b).
Proof. by move=> fg; rewrite -(big_enum _ _ F) -(perm_big _ fg) big_cat /= !big_image. Qed.

Lemma tr_block m q p (f : 'I_m -> 'I_p) (g : 'I_q -> 'I_p) (M B : 'M[T]_p) :
  perm_eq (codom f ++ codom g) (enum 'I_p) ->
  (forall k l, (k \in codom f) || (l \in codom f) -> B k l = 0) ->
  \tr (M *m B) = \tr (mxsub g g M *m mxsub g g B).
Proof.
move=> fg h; rewrite /mxtrace (sum_fg _ fg) big1 ?add0r => [|a _]; last first.
  by rewrite mxE big1 // => k _; rewrite h ?codom_f ?orbT ?mulr0.
apply: eq_bigr => b _; rewrite !mxE (sum_fg _ fg) big1 ?add0r => [|a _]; last first.
  by rewrite h ?codom_f ?mulr0.
by apply: eq_bigr => c _; rewrite !mxE.
Qed.

Lemma em_row m q p (f : 'I_m -> 'I_p) (g : 'I_q -> 'I_p) (S0 S1 : 'M[T]_p) (mu0 mu1 x y : 'rV[T]_p) B :
  perm_eq (codom f ++ codom g) (enum 'I_p) -> spd S0 -> spd S1 -> imputed f g S0 mu0 x y B ->
  gterm ln log2pi f S1 mu1 x - gterm ln log2pi f S0 mu0 x <= qterm S1 mu1 y B - qterm S0 mu0 y B.
Proof.
move=> fg p0 p1 [h1 h2 h3 h4].
have ef S mu : gterm ln log2pi f S mu y = gterm ln log2pi f S mu x by rewrite /gterm h1.
have c0 := ccov_spd fg p0; have c1 := ccov_spd fg p1.
have trE S : spd S -> \tr (invmx S *m B) = \tr (invmx (ccov f g S) *m ccov f g S0).
  move=> pS; rewrite (tr_block _ fg h4) h3.
  by rewrite (Bgg fg (mulmxV (spd_unit pS)) (spd_unit (spd_sub (inj_f fg) pS))).
rewrite /qterm !(gterm_split _ lnM _ _ fg) // !ef !trE // (mulVmx (spd_unit c0)) mxtrace1.
have z0 : cterm ln log2pi f g S0 mu0 y = ln (\det (ccov f g S0)) + log2pi * q%:R.
  rewrite /cterm.
  have -> : colsub g (y - mu0) - colsub f (y - mu0) *m invmx (mxsub f f S0) *m mxsub f g S0 = 0.
    have -> : colsub f (y - mu0) = colsub f (x - mu0).
      apply/rowP => a; have := congr1 (fun M : 'rV_ _ => M 0 a) h1; rewrite !mxE => ->; by [].
    have -> : colsub g (y - mu0) = colsub g y - colsub g mu0 by apply/rowP => a; rewrite !mxE.
    by rewrite h2 [_ - colsub g mu0]addrAC subrr add0r subrr.
  by rewrite !mul0mx mxE add0r.
have z1 : ln (\det (ccov f g S1)) + log2pi * q%:R <= cterm ln log2pi f g S1 mu1 y.
  rewrite /cterm -addrA ler_addr; have [_] := spd_psd (spd_inv c1); exact.
have z2 := logdet_le lnM ln_le c1 c0.
rewrite z0; move: z1 z2.
move: (cterm _ _ _ _ _ _ _) (\tr _) (ln _) (ln _) (log2pi * _) (gterm _ _ _ _ _ _) (gterm _ _ _ _ _ _) => a b c d e u v.
move: (q%:R : T) => w; flra.
Qed.

(* the M-step *)
Lemma tr_quad p (M : 'M[T]_p) (u : 'rV[T]_p) : \tr (M *m (u^T *m u)) = (u *m M *m u^T) 0 0.
Proof. by rewrite mulmxA mxtrace_mulC mulmxA /mxtrace big_ord1. Qed.

Lemma gterm_id p (S : 'M[T]_p) mu y :
  gterm ln log2pi id S mu y = ((y - mu) *m invmx S *m (y - mu)^T) 0 0 + ln (\det S) + log2pi * p%:R.
Proof.
have e0 (z : 'rV[T]_p) : colsub id z = z by apply/matrixP => i j; rewrite !mxE.
have e1 : mxsub id id S = S by apply/matrixP => i j; rewrite !mxE.
by rewrite /gterm !e0 e1.
Qed.

Lemma tr_sum p (I : Type) (r : seq I) (M : 'M[T]_p) (F : I -> 'M[T]_p) :
  \tr (M *m \sum_(i <- r) F i) = \sum_(i <- r) \tr (M *m F i).
Proof. by rewrite mulmx_sumr raddf_sum. Qed.

Lemma sum_qterm p (Y : seq ('rV[T]_p * 'M[T]_p)) (S : 'M[T]_p) mu : S^T = S -> (0 < size Y)%N ->
  let N := (size Y)%:R in let ys := [seq a.1 | a <- Y] in
  \sum_(a <- Y) qterm S mu a.1 a.2
  = N * (ln (\det S) + log2pi * p%:R)
    + \tr (invmx S *m (\sum_(y <- ys) (y - vmean ys)^T *m (y - vmean ys) + \sum_(a <- Y) a.2))
    + N * ((vmean ys - mu) *m invmx S *m (vmean ys - mu)^T) 0 0.
Proof.
move=> sS Y0 N ys; have hm : is_mean ys (vmean ys) by apply: is_mean_vmean; rewrite size_map.
have sI : (invmx S)^T = invmx S by rewrite trmx_inv sS.
have hh := huygens mu sI hm; rewrite size_map in hh.
have -> : \sum_(a <- Y) qterm S mu a.1 a.2
   = \sum_(y <- ys) ((y - mu) *m invmx S *m (y - mu)^T) 0 0
     + \sum_(a <- Y) (ln (\det S) + log2pi * p%:R) + \sum_(a <- Y) \tr (invmx S *m a.2).
  rewrite big_map -!big_split /=; apply: eq_bigr => a _.
  by rewrite /qterm gterm_id -addrA; congr (_ + _); rewrite -addrA.
rewrite hh big_const_seq count_predT iter_addr_0 -[(ln _ + _) *+ size Y]mulr_natl mulmxDr mxtraceD !tr_sum.
have -> : \sum_(y <- ys) \tr (invmx S *m ((y - vmean ys)^T *m (y - vmean ys)))
  = \sum_(y <- ys) ((y - vmean ys) *m invmx S *m (y - vmean ys)^T) 0 0.
  by apply: eq_bigr => y _; rewrite tr_quad.
have aux (a b c d : T) : a + b + c + d = c + (a + d) + b by ring.
exact: aux.
Qed.

(* truncation of the eigenvalues is optimal among the matrices with eigenvalues at least a *)
Definition geI p (a : T) (S : 'M[T]_p) : Prop := forall x : 'rV[T]_p, a * (x *m x^T) 0 0 <= (x *m S *m x^T) 0 0.

Lemma inv_le p (a : T) (S : 'M[T]_p) (v : 'rV[T]_p) : 0 < a -> spd S -> geI a S ->
  (v *m invmx S *m v^T) 0 0 <= a^-1 * (v *m v^T) 0 0.
Proof.
move=> a0 pS hS; have uS := spd_unit pS; have [sS _] := pS.
pose u := v *m invmx S.
have eu : u *m S *m u^T = u *m v^T by rewrite /u trmx_mul trmx_inv sS mulmxKV // mulmxA.
have h1 := hS u; rewrite eu in h1.
have h2 := dotv_ge0 (a *: u - v).
rewrite dotvBl !dotvBr !dotvZl !dotvZr (dotvC v u) in h2.
move: h1 h2; rewrite -!dotvE => h1 h2; rewrite ler_pdivl_mull //.
have h3 : a * (a * dotv u u) <= a * dotv u v by rewrite ler_pmul2l.
move: h2 h3; move: (a * (a * dotv u u)) (a * dotv u v) (dotv v v) => A B C; flra.
Qed.

Lemma tr_diag p (K V : 'M[T]_p) (c : 'rV[T]_p) :
  \tr (K *m (V *m diag_mx c *m V^T)) = \sum_j (row j V^T *m K *m (row j V^T)^T) 0 0 * c 0 j.
Proof.
rewrite !mulmxA mxtrace_mulC !mulmxA /mxtrace; apply: eq_bigr => j _.
rewrite mul_mx_diag mxE; congr (_ * _).
rewrite -row_mul [LHS]mxE [RHS]mxE; apply: eq_bigr => k _.
by rewrite [row _ _ _ _]mxE; congr (_ * _); rewrite !mxE.
Qed.

Section Trunc.
Variables (p : nat) (eigh : 'M[T]_p -> 'rV[T]_p * 'M[T]_p) (as_ : 'rV[T]_p -> 'I_p -> 'I_p).
Hypothesis He : correct_eigh eigh.
Hypothesis Ha : forall w, injective (as_ w).
Variables (A : 'M[T]_p) (a : T).
Hypothesis a0 : 0 < a.

Local Notation St := (truncated_covariance eigh as_ A a).

Lemma trunc_geI : geI a St.
Proof. by move=> x; exact: trunc_lower. Qed.

Lemma geI_spd (S : 'M[T]_p) : S^T = S -> geI a S -> spd S.
Proof.
move=> sS h; split=> // x x0; apply: lt_le_trans (h x); rewrite mulr_gt0 //.
by rewrite -dotvE dotv_gt0.
Qed.

Lemma trunc_spd : spd St.
Proof. apply: geI_spd; [exact: trunc_sym|exact: trunc_geI]. Qed.

Lemma trunc_opt (S : 'M[T]_p) : A^T = A -> spd S -> geI a S ->
  ln (\det St) + \tr (invmx St *m A) <= ln (\det S) + \tr (invmx S *m A).
Proof.
move=> sA pS gS; have pt := trunc_spd; have [o e] := He sA.
set V := (eigh A).2 in o e; set w := (eigh A).1 in e.
have o' : V *m V^T = 1%:M by exact: mulmx1C.
have eSt : St = V *m diag_mx (clip a w) *m V^T by rewrite truncE // sympE.
pose c : 'rV[T]_p := clip a w - w.
have eM : St - A = V *m diag_mx c *m V^T.
  by rewrite eSt /c raddfB /= mulmxBr mulmxBl -e.
have cp j : 0 < clip a w 0 j.
  rewrite mxE; case: (ltP (w 0 j) a) => [_ //|h].
  exact: lt_le_trans a0 h.
have eK : invmx St = V *m diag_mx (\row_j (clip a w 0 j)^-1) *m V^T.
  have eI : St *m (V *m diag_mx (\row_j (clip a w 0 j)^-1) *m V^T) = 1%:M.
    rewrite eSt !mulmxA -[V *m diag_mx (clip a w) *m V^T *m V]mulmxA o mulmx1.
    rewrite -[V *m diag_mx _ *m diag_mx _]mulmxA.
    have -> : diag_mx (clip a w) *m diag_mx (\row_j (clip a w 0 j)^-1) = 1%:M.
      apply/matrixP => i j; rewrite mul_mx_diag !mxE; have [->|ij] := eqVneq i j.
        by rewrite !mulr1n; have := cp j; rewrite mxE => h; rewrite mulfV // gt_eqF.
      by rewrite !mulr0n mul0r.
    by rewrite mulmx1.
  by have [_ ->] := invmx_unique eI.
have key : \tr (invmx S *m (St - A)) <= \tr (invmx St *m (St - A)).
  rewrite eM !tr_diag; apply: ler_sum => j _.
  have c0 : 0 <= c 0 j by rewrite /c !mxE; case: ltP => [/ltW h|_]; rewrite ?subrr // subr_ge0.
  have nv : (row j V^T *m (row j V^T)^T) 0 0 = 1.
    transitivity ((V^T *m V) j j); last by rewrite o mxE eqxx.
    by rewrite [LHS]mxE [RHS]mxE; apply: eq_bigr => k _; rewrite !mxE.
  have [cz|cn] := eqVneq (c 0 j) 0; first by rewrite cz !mulr0.
  apply: ler_wpmul2r => //.
  have cl : clip a w 0 j = a.
    by move: cn; rewrite /c !mxE; case: ltP => // _; rewrite subrr eqxx.
  have -> : (row j V^T *m invmx St *m (row j V^T)^T) 0 0 = a^-1.
    rewrite eK quad_vdv (bigD1 j) //= big1 ?addr0 => [|k kj].
      by rewrite -row_mul o [(\row__ _) _ _]mxE cl row1 mxE !eqxx expr1n mulr1.
    by rewrite -row_mul o row1 [(delta_mx _ _) _ _]mxE (negbTE kj) andbF expr0n mulr0.
  by have := inv_le (row j V^T) a0 pS gS; rewrite nv mulr1.
have l := logdet_le lnM ln_le pS pt.
rewrite !mulmxBr !mxtraceD !raddfN /= (mulVmx (spd_unit pt)) mxtrace1 in key.
move: l key; move: (\tr (_ *m St)) (\tr (invmx S *m A)) (\tr (invmx St *m A)) (ln _) (ln _) => x y z u v.
move: (p%:R : T) => k; flra.
Qed.

End Trunc.

End EM.
