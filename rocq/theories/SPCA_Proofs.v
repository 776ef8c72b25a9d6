(* Lemmas on PCALocantore. *)
From mathcomp Require Import all_ssreflect all_algebra.
From mathcomp.zify Require Import zify.
From mathcomp.algebra_tactics Require Import ring.
From Verif Require Import RFieldLra Prelude Stats Xnum RatFloor Regr Vec PSD.
From Verif Require Import LinAlg_Model MCD_Model MCD_Proofs OGK_Model Cov_Spec PCA_Model PCA_Spec PCA_Proofs PCAExact_Proofs.

Set Implicit Arguments.
Unset Strict Implicit.
Unset Printing Implicit Defensive.

Import Order.TTheory GRing.Theory Num.Theory.
Local Open Scope ring_scope.

Section Sign.
Variables (T : rcfType) (p : nat).
Implicit Types (X : seq 'rV[T]_p) (loc u : 'rV[T]_p).

Definition usign u : 'rV[T]_p := (vnorm u)^-1 *: u.

Lemma usign_norm u : u != 0 -> dotv (usign u) (usign u) = 1.
Proof.
move=> u0; rewrite /usign dotvZl dotvZr -vnormK; have : vnorm u != 0 by rewrite vnorm_eq0.
by move: (vnorm u) => r r0; field.
Qed.

Lemma usign_le1 u : dotv (usign u) (usign u) <= 1.
Proof.
have [->|u0] := eqVneq u 0; last by rewrite usign_norm.
by rewrite /usign scaler0 dotv0 ler01.
Qed.

Lemma usign_ray u c : 0 < c -> usign (c *: u) = usign u.
Proof.
move=> c0; rewrite /usign vnormZ gtr0_norm // scalerA invfM mulrAC mulVf ?mul1r //; exact: lt0r_neq0.
Qed.

Lemma usign_rot u (Q : 'M[T]_p) : Q *m Q^T = 1%:M -> usign (u *m Q) = usign u *m Q.
Proof.
move=> QQ; rewrite /usign -scalemxAl; congr (_^-1 *: _).
rewrite /vnorm; congr Num.sqrt; by rewrite !dotvE trmx_mul mulmxA -[u *m Q *m Q^T]mulmxA QQ mulmx1.
Qed.

Lemma sscE X loc : spatial_sign_cov X loc = (size X)%:R^-1 *: \sum_(x <- X) (usign (x - loc))^T *m usign (x - loc).
Proof. by []. Qed.

Lemma ssc_psd X loc : psd (spatial_sign_cov X loc).
Proof.
rewrite sscE; apply: psd_scale; first by rewrite invr_ge0 ler0n.
by apply: psd_sum => x; exact: psd_gram.
Qed.

Lemma tr_gram u : \tr (u^T *m u) = dotv u u.
Proof. by rewrite mxtrace_mulC /mxtrace big_ord_recl big_ord0 addr0 -dotvE. Qed.

Lemma ssc_trace X loc : (0 < size X)%N -> (forall x, x \in X -> x != loc) -> \tr (spatial_sign_cov X loc) = 1.
Proof.
move=> n0 h; rewrite sscE mxtraceZ raddf_sum /= big_seq (eq_bigr (fun _ => 1)) => [|x xX].
  rewrite -big_seq big_const_seq count_predT iter_addr_0 mulVf // pnatr_eq0 -lt0n //.
by rewrite tr_gram usign_norm // subr_eq0 h.
Qed.

Lemma quad_ssc X loc u : quad (spatial_sign_cov X loc) u = (size X)%:R^-1 * \sum_(x <- X) dotv (usign (x - loc)) u ^+ 2.
Proof.
rewrite /quad sscE -scalemxAr -scalemxAl mxE mulmx_sumr mulmx_suml summxE; congr (_ * _).
by apply: eq_bigr => x _; rewrite quad_gram.
Qed.

Lemma dot_usign_le u v : dotv (usign u) v ^+ 2 <= dotv v v.
Proof.
apply: le_trans (dotv_CS _ _) _; rewrite -[X in _ <= X]mul1r.
by apply: ler_wpmul2r; [exact: dotv_ge0|exact: usign_le1].
Qed.

End Sign.

Section Mads.
Variable T : rcfType.
Implicit Types (a b c s : T).

Lemma fmed_sym (l : seq T) : (0 < size l)%N -> perm_eq [seq - x | x <- l] l -> fmed l = 0.
Proof.
move=> n0 h; have e := fmed_perm h; have : fmed [seq - x | x <- l] = - fmed l.
  rewrite -[in LHS](@eq_map _ _ (fun x => -1 * x + 0)) ?fmed_affine //; first by rewrite mulN1r addr0.
  by move=> x; rewrite mulN1r addr0.
by rewrite e; move: (fmed l) => m hm; flra.
Qed.

Lemma fmad_sym (l : seq T) (v : T) : (0 < size l)%N -> perm_eq [seq - x | x <- l] l ->
  (size l < 2 * count (fun x : T => (`|x| == v)%R) l)%N -> fmad l = v.
Proof.
move=> n0 h hc; rewrite /fmad (fmed_sym n0 h).
have -> : [seq `|x - 0| | x : T <- l] = [seq `|x| | x <- l] by apply: eq_map => x; rewrite subr0.
have : v <= fmed [seq `|x| | x <- l] <= v.
  apply: fmed_majority; rewrite ?size_map // count_map.
  apply: leq_trans hc _; rewrite leq_mul2l /=; apply: sub_count => x /= /eqP ->.
  by rewrite lexx.
by move/andP => [h1 h2]; apply/eqP; rewrite eq_le h1 h2.
Qed.

(* the coordinates of the rows (+-a, 0), (+-b, +-c) *)
Definition xs a b : seq T := [:: a; - a; b; b; - b; - b].
Definition ys c : seq T := [:: 0; 0; c; - c; c; - c].

Lemma xs_mad s a b : (s == 1) || (s == -1) -> 0 <= b -> fmad [seq s * x | x <- xs a b] = b.
Proof.
move=> hs b0; have s1 : `|s| = 1 by case/orP: hs => /eqP ->; rewrite ?normrN normr1.
apply: fmad_sym => //; last by rewrite /= !normrM s1 !mul1r !normrN (ger0_norm b0) !eqxx; lia.
rewrite /= !mulrN !opprK; apply/allP => x _ /=; rewrite -!(eq_sym x); apply/eqP; lia.
Qed.

Lemma ys_mad s c : (s == 1) || (s == -1) -> 0 <= c -> fmad [seq s * x | x <- ys c] = c.
Proof.
move=> hs c0; have s1 : `|s| = 1 by case/orP: hs => /eqP ->; rewrite ?normrN normr1.
apply: fmad_sym => //; last by rewrite /= !normrM s1 !mul1r !normrN (ger0_norm c0) !eqxx; lia.
rewrite /= !mulrN !opprK mulr0 oppr0; apply/allP => x _ /=; rewrite -!(eq_sym x); apply/eqP; lia.
Qed.

End Mads.

Section Two.
Variable T : rcfType.
Implicit Types (a b c : T).

(* a row of two numbers *)
Definition row2 a b : 'rV[T]_2 := \row_(j < 2) (if j == 0 then a else b).

(* the rows (+-a, 0), (+-b, +-c) *)
Definition rows a b c : seq 'rV[T]_2 :=
  [:: row2 a 0; row2 (- a) 0; row2 b c; row2 b (- c); row2 (- b) c; row2 (- b) (- c)].

Lemma dot_row2 a b a' b' : dotv (row2 a b) (row2 a' b') = a * a' + b * b'.
Proof. by rewrite /dotv !big_ord_recl big_ord0 !mxE /= addr0. Qed.

Lemma gram_usign (u : 'rV[T]_2) i j : ((usign u)^T *m usign u) i j = u 0 i * u 0 j / dotv u u.
Proof. by rewrite mxE big_ord_recl big_ord0 addr0 !mxE -vnormK expr2 invfM; move: (vnorm u)^-1 (u 0 i) (u 0 j) => r y z; ring. Qed.

Lemma row2_neq0 a b : (a != 0) || (b != 0) -> row2 a b != 0.
Proof.
apply: contraL => /eqP e; move/rowP: (e) => /(_ 0); move/rowP: e => /(_ 1).
by rewrite !mxE /= => -> ->; rewrite eqxx.
Qed.

Lemma rows_ssc a b c i j : 0 < a -> 0 < b -> 0 < c ->
  spatial_sign_cov (rows a b c) 0 i j = (if i == j then
    if i == 0 then (2%:R + 4%:R * (b ^+ 2 / (b ^+ 2 + c ^+ 2))) / 6%:R
    else 4%:R * (c ^+ 2 / (b ^+ 2 + c ^+ 2)) / 6%:R else 0).
Proof.
move=> a0 b0 c0; rewrite sscE mxE summxE /rows !big_cons big_nil !subr0 !gram_usign !dot_row2 !mxE.
have bc : b ^+ 2 + c ^+ 2 != 0 by rewrite gt_eqF // addr_gt0 // exprn_gt0.
have a1 : a != 0 by rewrite gt_eqF.
have e : b * b + c * c = b ^+ 2 + c ^+ 2 by [].
rewrite !mulrN !mulNr !opprK e.
by case: i j => [[|[|//]] hi] [[|[|//]] hj] /=; field; rewrite ?bc ?a1 //.
Qed.

Lemma sum2 (F : 'I_2 -> T) : \sum_j F j = F 0 + F 1.
Proof. by rewrite !big_ord_recl big_ord0 addr0; congr (F _ + F _); apply: val_inj. Qed.

(* a diagonal 2x2 matrix with the larger entry first *)
Lemma eig_diag2 (S V : 'M[T]_2) (w : 'rV[T]_2) : V^T *m V = 1%:M -> S = V *m diag_mx w *m V^T ->
  S 0 1 = 0 -> S 1 0 = 0 -> S 1 1 < S 0 0 -> w 0 0 <= w 0 1 ->
  [/\ V 1 1 = 0, V 0 0 = 0, (V 0 1 == 1) || (V 0 1 == -1) & (V 1 0 == 1) || (V 1 0 == -1)].
Proof.
move=> oV eS s01 s10 s11 ws.
have SV : S *m V = V *m diag_mx w by rewrite eS -mulmxA oV mulmx1.
have e i j : S i 0 * V 0 j + S i 1 * V 1 j = V i j * w 0 j.
  by move/matrixP: SV => /(_ i j); rewrite mxE sum2 => ->; rewrite mul_mx_diag mxE.
have V2 : V *m V^T = 1%:M by exact: mulmx1C.
have c0 : V 0 0 * V 0 0 + V 1 0 * V 1 0 = 1.
  by move/matrixP: oV => /(_ 0 0); rewrite !mxE sum2 !mxE.
have c1 : V 0 1 * V 0 1 + V 1 1 * V 1 1 = 1.
  by move/matrixP: oV => /(_ 1 1); rewrite !mxE sum2 !mxE.
have r0 : V 0 0 * V 0 0 + V 0 1 * V 0 1 = 1.
  by move/matrixP: V2 => /(_ 0 0); rewrite !mxE sum2 !mxE.
have r1 : V 1 0 * V 1 0 + V 1 1 * V 1 1 = 1.
  by move/matrixP: V2 => /(_ 1 1); rewrite !mxE sum2 !mxE.
have := e 0 0; have := e 0 1; have := e 1 0; have := e 1 1.
rewrite s01 s10 !mul0r !add0r !addr0 => e11 e10 e01 e00.
move: (V 0 0) (V 0 1) (V 1 0) (V 1 1) (S 0 0) (S 1 1) (w 0 0) (w 0 1) s11 ws c0 c1 r0 r1 e11 e10 e01 e00.
move=> v00 v01 v10 v11 A D w0 w1 AD ws c0 c1 r0 r1 e11 e10 e01 e00.
have v01n : v01 != 0.
  apply/eqP => z; move: r0 c1 e11; rewrite z !mul0r addr0 add0r => r0 c1 e11.
  have n11 : v11 != 0 by apply/eqP => y; move: c1; rewrite y mul0r => /eqP; rewrite eq_sym oner_eq0.
  have n00 : v00 != 0 by apply/eqP => y; move: r0; rewrite y mul0r => /eqP; rewrite eq_sym oner_eq0.
  have D1 : D = w1 by apply: (mulIf n11); rewrite e11 mulrC.
  have A0 : A = w0 by apply: (mulIf n00); rewrite e00 mulrC.
  by move: AD ws; rewrite D1 A0; flra.
have A1 : A = w1 by apply: (mulIf v01n); rewrite e01 mulrC.
have v11z : v11 = 0.
  apply/eqP; apply/negPn/negP => n11; have D1 : D = w1 by apply: (mulIf n11); rewrite e11 mulrC.
  by move: AD; rewrite D1 A1 ltxx.
have v00z : v00 = 0.
  have /eqP : v00 * v00 = 0 by move: c1 r0; rewrite v11z mul0r addr0; flra.
  by rewrite mulf_eq0 orbb => /eqP.
split=> //.
- by rewrite -sqrf_eq1 expr2; apply/eqP; move: c1; rewrite v11z mul0r addr0.
- by rewrite -sqrf_eq1 expr2; apply/eqP; move: c0; rewrite v00z mul0r add0r.
Qed.

End Two.

Section Fit2.
Variable T : rcfType.
Variables (eigh : forall q, 'M[T]_q -> 'rV[T]_q * 'M[T]_q) (l1 : seq 'rV[T]_2 -> res 'rV[T]_2) (m thr : T).
Hypotheses (He : correct_eigh (@eigh 2)) (Hs : forall A : 'M[T]_2, (eigh A).1 0 0 <= (eigh A).1 0 1).

Lemma rows_fit o a b c : 0 < a -> 0 < b -> 0 < c ->
  4%:R * (c ^+ 2 / (b ^+ 2 + c ^+ 2)) < 2%:R + 4%:R * (b ^+ 2 / (b ^+ 2 + c ^+ 2)) ->
  l1 (rows a b c) = Ok 0 ->
  let ev := [:: (m * b) ^+ 2; (m * c) ^+ 2] in
  let k := if n_components o is Some k then k else select_k thr ev in
  let o' := spca_fit eigh l1 m thr o (rows a b c) in
  [/\ o'.2 = Ok tt, n_components o'.1 = Some k & explained_variance_ o'.1 = Some (take k ev)].
Proof.
move=> a0 b0 c0 lt e ev k o'; rewrite /o' /spca_fit e.
have a1 : a != 0 by rewrite gt_eqF.
have b1 : b != 0 by rewrite gt_eqF.
have -> : has (fun x => x == 0) (rows a b c) = false.
  by apply/negbTE/hasPn => x; rewrite /rows !inE => /or4P[/eqP ->|/eqP ->|/eqP ->|/or3P[/eqP ->|/eqP ->|/eqP ->]];
     apply: row2_neq0; rewrite ?oppr_eq0 ?a1 ?b1.
set S := spatial_sign_cov _ _; have sS : S^T = S by have [] := ssc_psd (rows a b c) 0.
have [oV eV] := He sS; have ws := Hs S; set V := (eigh S).2 in oV eV *.
have [|||v11 v00 v01 v10] := eig_diag2 oV eV _ _ _ ws; rewrite /S ?rows_ssc //.
  by rewrite /= ltr_pmul2r // invr_gt0 ltr0n.
have rev0 : rev_ord (0 : 'I_2) = 1 by apply: val_inj.
have rev1 : rev_ord (1 : 'I_2) = 0 by apply: val_inj.
have t0 x y : transform 0 (rev_cols V) (row2 x y) 0 0 = V 0 1 * x.
  by rewrite /transform subr0 mxE sum2 !mxE rev0 v11 mulr0 addr0 mulrC.
have t1 x y : transform 0 (rev_cols V) (row2 x y) 0 1 = V 1 0 * y.
  by rewrite /transform subr0 mxE sum2 !mxE rev1 v00 mulr0 add0r mulrC.
have evE : [seq (m * fmad [seq transform 0 (rev_cols V) x 0 j | x <- rows a b c]) ^+ 2 | j <- enum 'I_2] = ev.
  have -> : enum 'I_2 = [:: 0; 1].
    by apply: (inj_map val_inj); rewrite val_enum_ord.
  rewrite /= !t0 !t1 -[X in fmad X]/[seq V 0 1 * x | x <- xs a b].
  rewrite -[X in [:: _; (m * fmad X) ^+ 2]]/[seq V 1 0 * x | x <- ys c].
  by rewrite xs_mad ?ys_mad // ltW.
by rewrite /= evE.
Qed.

End Fit2.
