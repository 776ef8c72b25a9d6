(* Proofs about least squares and argsort. *)
From mathcomp Require Import all_ssreflect all_algebra.
From mathcomp.zify Require Import zify.
From mathcomp.algebra_tactics Require Import ring.
From Verif Require Import RFieldLra Prelude Stats Regr.

Set Implicit Arguments.
Unset Strict Implicit.
Unset Printing Implicit Defensive.

Import Order.TTheory GRing.Theory Num.Theory.
Local Open Scope ring_scope.

Section Argsort.
Variable T : realFieldType.
Implicit Types (s : seq T).

Lemma stable_argsortP : is_argsort (@stable_argsort T).
Proof.
move=> s; have hp : perm_eq (stable_argsort s) (iota 0 (size s)) by rewrite perm_sort.
split => // i j ij js.
have tr : transitive (fun i j => nth 0 s i <= nth 0 s j) by move=> a b c; apply: le_trans.
have rf : reflexive (fun i j => nth 0 s i <= nth 0 s j) by move=> a; apply: lexx.
have so : sorted (fun i j => nth 0 s i <= nth 0 s j) (stable_argsort s).
  by apply: sort_sorted => a b; apply: le_total.
have sz : size (stable_argsort s) = size s by rewrite (perm_size hp) size_iota.
apply: (sorted_leq_nth tr rf 0%N so) => //; rewrite inE sz //; exact: leq_ltn_trans js.
Qed.

Variable argsort : seq T -> seq nat.
Hypothesis Has : is_argsort argsort.

Lemma argsort_size s : size (argsort s) = size s.
Proof. by have [h _] := Has s; rewrite (perm_size h) size_iota. Qed.

Lemma argsort_uniq s : uniq (argsort s).
Proof. by have [h _] := Has s; rewrite (perm_uniq h) iota_uniq. Qed.

Lemma argsort_mem s i : (i \in argsort s) = (i < size s)%N.
Proof. by have [h _] := Has s; rewrite (perm_mem h) mem_iota add0n. Qed.

(* the first h positions carry the smallest sum, for every weight increasing with s *)
Lemma argsort_optimal s (v : nat -> T) (h : nat) (H : seq nat) :
  (forall i j, (i < size s)%N -> (j < size s)%N -> nth 0 s i <= nth 0 s j -> v i <= v j) ->
  uniq H -> all (fun i => (i < size s)%N) H -> size H = minn h (size s) ->
  fsum (map v (take h (argsort s))) <= fsum (map v H).
Proof.
move=> mono uH inH szH; set A := take h (argsort s).
have uA : uniq A by rewrite take_uniq // argsort_uniq.
have szA : size A = size H by rewrite szH /A size_take argsort_size /minn.
have inA i : i \in A -> (i < size s)%N by move/mem_take; rewrite argsort_mem.
rewrite (fsum_filter_split (mem H) v A) (fsum_filter_split (mem A) v H).
have pAH : perm_eq [seq i <- A | mem H i] [seq i <- H | mem A i].
  apply: uniq_perm; rewrite ?filter_uniq // => i; rewrite !mem_filter /=.
  by rewrite andbC.
rewrite (fsum_perm (perm_map v pAH)) ler_add2l.
have sz' : size [seq i <- A | predC (mem H) i] = size [seq i <- H | predC (mem A) i].
  have e1 := count_predC (mem H) A; have e2 := count_predC (mem A) H.
  have e3 := perm_size pAH; rewrite !size_filter in e3 *.
  by apply: (@addnI (count (mem H) A)); rewrite e1 e3 e2.
have key i j : i \in A -> (j < size s)%N -> j \notin A -> v i <= v j.
  move=> iA js jA; apply: mono => //; first exact: inA.
  have jS : j \in argsort s by rewrite argsort_mem.
  move: iA; rewrite /A => /(nthP 0%N)[a]; rewrite size_take argsort_size => ha <-.
  have [b hb eb] := nthP 0%N jS; rewrite argsort_size in hb.
  have ah : (a < h)%N by case: ifP ha => // /negbT; lia.
  rewrite nth_take // -eb; have [_ so] := Has s; apply: so => //.
  case: (leqP a b) => // ba; move: jA; rewrite -eb /A -(@nth_take h _ 0%N b) ?mem_nth //; last lia.
  by rewrite size_take argsort_size; case: ifP => // _; lia.
case eF : [seq i <- A | predC (mem H) i] sz' => [|a F] sz'.
  by move: sz' => /esym/size0nil ->.
have fb b : b \in [seq i <- H | predC (mem A) i] -> (b < size s)%N && (b \notin A).
  by rewrite mem_filter /= => /andP[-> /(allP inH) ->].
case eG : [seq i <- H | predC (mem A) i] sz' => [|b0 G] sz' //.
rewrite -eF -eG; rewrite -eF -eG in sz'.
pose t := fmin (map v [seq i <- H | predC (mem A) i]).
have hlow : fsum (map v [seq i <- A | predC (mem H) i])
            <= fsum (map (fun _ => t) [seq i <- A | predC (mem H) i]).
  apply: fsum_map_le => i; rewrite mem_filter => /andP[_ iA].
  have : t \in map v [seq i <- H | predC (mem A) i] by apply: fmin_mem; rewrite eG.
  by case/mapP => j /fb /andP[js jA] ->; apply: key.
have hup : fsum (map (fun _ => t) [seq i <- H | predC (mem A) i])
            <= fsum (map v [seq i <- H | predC (mem A) i]).
  by apply: fsum_map_le => j jH; apply: fmin_le; apply: map_f.
apply: le_trans hlow (le_trans _ hup); rewrite !fsum_map_const sz'; exact: lexx.
Qed.

End Argsort.

Lemma mem_zip2 (A B : eqType) (s : seq A) (t : seq B) a b :
  (a, b) \in zip s t -> a \in s /\ b \in t.
Proof.
elim: s t => [|x s IH] [|z t] //=; rewrite !inE => /orP[/eqP[-> ->]|/IH[-> ->]].
  by rewrite !eqxx.
by rewrite !orbT.
Qed.

Section LeastSquares.
Variable T : realFieldType.
Implicit Types (X : seq (seq T)) (y : seq T) (m : lin T).

Lemma residuals_sel m X y idx : size X = size y ->
  all (fun i => (i < size X)%N) idx ->
  residuals m (sel [::] X idx) (sel 0 y idx) = sel 0 (residuals m X y) idx.
Proof.
move=> sz /allP hi; rewrite /residuals /sel.
have -> : zip [seq nth [::] X i | i <- idx] [seq nth 0 y i | i <- idx]
        = [seq (nth [::] X i, nth 0 y i) | i <- idx].
  by elim: idx {hi} => //= i idx ->.
rewrite -map_comp; apply/eq_in_map => i /hi his /=.
by rewrite (nth_map ([::], 0)) ?size_zip -?sz ?minnn // nth_zip.
Qed.

Lemma size_residuals m X y : size X = size y -> size (residuals m X y) = size X.
Proof. by move=> e; rewrite size_map size_zip -e minnn. Qed.

Lemma nth_residuals m X y i : size X = size y -> (i < size X)%N ->
  nth 0 (residuals m X y) i = nth 0 y i - predict1 m (nth [::] X i).
Proof.
by move=> e hi; rewrite (nth_map ([::], 0)) ?size_zip -?e ?minnn // nth_zip.
Qed.

Lemma sse_sel m X y idx : size X = size y -> all (fun i => (i < size X)%N) idx ->
  sse m (sel [::] X idx) (sel 0 y idx)
  = fsum [seq nth 0 (residuals m X y) i ^+ 2 | i <- idx].
Proof. by move=> e hi; rewrite /sse residuals_sel // /sel -map_comp. Qed.

Lemma sse_ge0 m X y : 0 <= sse m X y.
Proof. by apply: fsum_ge0; rewrite all_map; apply/allP => r _ /=; apply: sqr_ge0. Qed.

Lemma rect_sel p X idx : rect p X -> all (fun i => (i < size X)%N) idx ->
  rect p (sel [::] X idx).
Proof.
move=> /allP hX /allP hi; rewrite /rect all_map; apply/allP => i /hi his /=.
by apply: hX; rewrite mem_nth.
Qed.

(* the residuals of the zip, as one list of pairs *)
Lemma sse_zip m X y :
  sse m X y = fsum [seq (q.2 - predict1 m q.1) ^+ 2 | q <- zip X y].
Proof. by rewrite /sse /residuals -map_comp. Qed.

Lemma dot_cons (a b : T) s t : dot (a :: s) (b :: t) = a * b + dot s t.
Proof. by []. Qed.

Lemma dot_sub (a b x : seq T) : size a = size b ->
  dot [seq q.1 - q.2 | q <- zip a b] x = dot a x - dot b x.
Proof.
elim: a b x => [|u a IH] [|v b] x //.
  by case: x => [|w x] _; rewrite /dot /= subrr.
move=> [e].
case: x => [|w x]; first by rewrite /dot /= subrr.
rewrite [zip _ _]/= [map _ _]/=.
by rewrite !dot_cons IH //; ring.
Qed.

Lemma predict1_sub m m' x : size (coef m) = size (coef m') ->
  predict1 m' x - predict1 m x =
  predict1 (Lin (icpt m' - icpt m) [seq q.1 - q.2 | q <- zip (coef m') (coef m)]) x.
Proof. by move=> e; rewrite /predict1 /= dot_sub //; ring. Qed.

(* the normal equations are sufficient *)
Lemma normal_min p m X y : size (coef m) = p ->
  (forall d : lin T, size (coef d) = p ->
     fsum [seq (q.2 - predict1 m q.1) * predict1 d q.1 | q <- zip X y] = 0) ->
  forall m', size (coef m') = p -> sse m X y <= sse m' X y.
Proof.
move=> sm ne m' sm'; set d := Lin (icpt m' - icpt m) [seq q.1 - q.2 | q <- zip (coef m') (coef m)].
have sd : size (coef d) = p by rewrite /= size_map size_zip sm sm' minnn.
have -> : sse m' X y = sse m X y
   + (- 2%:R) * fsum [seq (q.2 - predict1 m q.1) * predict1 d q.1 | q <- zip X y]
   + fsum [seq predict1 d q.1 ^+ 2 | q <- zip X y].
  rewrite !sse_zip -fsum_map_mul -!fsum_map_add; apply: fsum_map_eq => q _.
  have := @predict1_sub m m' q.1; rewrite sm sm' => /(_ erefl) e; rewrite -/d in e.
  by move: (predict1 d q.1) (predict1 m q.1) (predict1 m' q.1) e (q.2) => a b c <- z; ring.
rewrite ne // mulr0 addr0 ler_addl; apply: fsum_ge0; rewrite all_map.
by apply/allP => q _; apply: sqr_ge0.
Qed.

(* the closed form of simple regression is a least-squares solver *)
Lemma ols1P : is_ols 1 (@ols1 T).
Proof.
move=> X y szXY n0 hX; split => //; apply: normal_min => // d sd.
set m := ols1 X y; pose xs := [seq nth 0 r 0 | r : seq T <- X].
have szx : size xs = size y by rewrite size_map.
have n0x : (0 < size xs)%N by rewrite size_map.
have n0y : (0 < size y)%N by rewrite -szXY.
pose b := nth 0 (coef m) 0; pose mx := fmean xs; pose my := fmean y.
have eb : b = fsum [seq (q.1 - mx) * (q.2 - my) | q <- zip xs y]
              / fsum [seq (u - mx) ^+ 2 | u : T <- xs] by [].
have em : icpt m = my - b * mx by [].
have [d0 [d1 ed]] : exists d0 d1, d = Lin d0 [:: d1].
  by case: d sd => d0 [|d1 [|]] // _; exists d0, d1.
have z2 (f : T -> T -> T) :
    fsum [seq f (nth 0 q.1 0) q.2 | q <- zip X y] = fsum [seq f q.1 q.2 | q <- zip xs y].
  rewrite /xs; elim: (X) (y) {szXY n0 hX em eb b mx my szx n0x n0y m xs} => [|r X' IH] [|v y'] //=.
  by rewrite IH.
have -> : fsum [seq (q.2 - predict1 m q.1) * predict1 d q.1 | q <- zip X y]
  = fsum [seq (q.2 - (icpt m + b * nth 0 q.1 0)) * (d0 + d1 * nth 0 q.1 0) | q <- zip X y].
  apply: fsum_map_eq => -[r v] /mem_zip2 [rX _] /=.
  have := allP hX _ rX; case: r {rX} => [|u [|]] //= _.
  by rewrite ed /predict1 /dot /= !addr0.
rewrite (z2 (fun u v => (v - (icpt m + b * u)) * (d0 + d1 * u))).
have s1 : fsum [seq q.2 - my - b * (q.1 - mx) | q <- zip xs y] = 0.
  have -> : fsum [seq q.2 - my - b * (q.1 - mx) | q <- zip xs y] =
     fsum [seq q.2 | q <- zip xs y] + (- b) * fsum [seq q.1 | q <- zip xs y]
     + fsum [seq (b * mx - my) | q <- zip xs y].
    by rewrite -fsum_map_mul -!fsum_map_add; congr fsum; apply: eq_map => q; ring.
  rewrite fsum_map_const -/(unzip1 _) -/(unzip2 _) unzip1_zip ?unzip2_zip ?szx //.
  rewrite size_zip szx minnn.
  have e1 := @fmeanM T xs n0x; have e2 := @fmeanM T y n0y; rewrite -/mx -/my szx in e1 e2.
  by rewrite -e1 -e2; ring.
have s2 : fsum [seq (q.2 - my - b * (q.1 - mx)) * (q.1 - mx) | q <- zip xs y] = 0.
  have -> : fsum [seq (q.2 - my - b * (q.1 - mx)) * (q.1 - mx) | q <- zip xs y] =
     fsum [seq (q.1 - mx) * (q.2 - my) | q <- zip xs y]
     + (- b) * fsum [seq (u - mx) ^+ 2 | u : T <- xs].
    have -> : [seq (u - mx) ^+ 2 | u : T <- xs] = [seq (q.1 - mx) ^+ 2 | q <- zip xs y].
      by rewrite -{1}(@unzip1_zip _ _ xs y) ?szx // -map_comp.
    by rewrite -fsum_map_mul -fsum_map_add; congr fsum; apply: eq_map => q; ring.
  set sxx := fsum [seq (u - mx) ^+ 2 | u : T <- xs] in eb *.
  have [z|nz] := eqVneq sxx 0; last by rewrite eb mulNr divfK // subrr.
  rewrite z mulr0 addr0.
  have hz : forall u, u \in xs -> u - mx = 0.
    move=> u hu; apply/eqP; rewrite -sqrf_eq0 eq_le sqr_ge0 andbT -z /sxx.
    have /perm_to_rem/(perm_map (fun u => (u - mx) ^+ 2)) pe := hu.
    rewrite (fsum_perm pe) /= ler_addl; apply: fsum_ge0; rewrite all_map.
    by apply/allP => w _; apply: sqr_ge0.
  rewrite (@fsum_map_eq T _ _ (fun _ => 0)) ?fsum_map_const ?mul0r // => -[u v] /mem_zip2 [/hz e _].
  by rewrite /= e mul0r.
have -> : fsum [seq (q.2 - (icpt m + b * q.1)) * (d0 + d1 * q.1) | q <- zip xs y]
  = (d0 + d1 * mx) * fsum [seq q.2 - my - b * (q.1 - mx) | q <- zip xs y]
    + d1 * fsum [seq (q.2 - my - b * (q.1 - mx)) * (q.1 - mx) | q <- zip xs y].
  rewrite -!fsum_map_mul -fsum_map_add em; congr fsum; apply: eq_map => q; ring.
by rewrite s1 s2 !mulr0 addr0.
Qed.

(* ------------------------------------------------ least squares exists for every p *)
Lemma gram0 (n k : nat) (W : 'M[T]_(n, k)) : W^T *m W = 0 -> W = 0.
Proof.
move=> h; apply/matrixP => i j; rewrite mxE.
have := congr1 (fun M : 'M_(_, _) => M j j) h; rewrite !mxE => /eqP.
rewrite psumr_eq0 => [/allP/(_ i (mem_index_enum _))|a _]; last first.
  by rewrite mxE -expr2 sqr_ge0.
by rewrite mxE -expr2 sqrf_eq0 => /eqP.
Qed.

Lemma normal_solvable (n k : nat) (A : 'M[T]_(k, n)) (v : 'rV[T]_n) :
  exists b : 'rV[T]_k, (v - b *m A) *m A^T = 0.
Proof.
have : (v *m A^T <= A *m A^T)%MS.
  rewrite submxE -mulmxA; set Z := cokermx _.
  suff -> : A^T *m Z = 0 by rewrite mulmx0.
  apply: gram0; rewrite trmx_mul trmxK -mulmxA [A *m _]mulmxA mulmx_coker.
  by rewrite mulmx0.
case/submxP => b eb; exists b; by rewrite mulmxBl eb mulmxA subrr.
Qed.

Lemma ols_exists p : forall X y, size X = size y -> rect p X ->
  exists m, size (coef m) = p /\ forall m', size (coef m') = p -> sse m X y <= sse m' X y.
Proof.
move=> X y sz hX; set n := size X.
pose A : 'M[T]_(p.+1, n) :=
  \matrix_(i, j) (if val i is k.+1 then nth 0 (nth [::] X j) k else 1).
pose v : 'rV[T]_n := \row_j nth 0 y j.
have [b eb] := normal_solvable A v.
pose m := Lin (b 0 ord0) [seq b 0 (lift ord0 k) | k : 'I_p <- enum 'I_p].
have sm : size (coef m) = p by rewrite size_map size_enum_ord.
have pr (d : lin T) j : size (coef d) = p -> (j < n)%N ->
   predict1 d (nth [::] X j) =
   icpt d + \sum_(k < p) nth 0 (coef d) k * nth 0 (nth [::] X j) k.
  move=> sd hj; congr (_ + _); rewrite /dot fsum_nth size_map size_zip sd.
  have sx : size (nth [::] X j) = p by apply/eqP/(allP hX)/mem_nth.
  rewrite sx minnn; apply: eq_bigr => k _.
  by rewrite (nth_map (0, 0)) ?size_zip ?sd ?sx ?minnn // nth_zip // sd sx.
exists m; split => //; apply: normal_min => // d sd.
have -> : fsum [seq (q.2 - predict1 m q.1) * predict1 d q.1 | q <- zip X y]
  = \sum_(j < n) (nth 0 y j - predict1 m (nth [::] X j)) * predict1 d (nth [::] X j).
  rewrite fsum_nth size_map size_zip -sz minnn; apply: eq_bigr => j _.
  by rewrite (nth_map ([::], 0)) ?size_zip -?sz ?minnn // nth_zip.
have pm (j : 'I_n) : predict1 m (nth [::] X j) = (b *m A) 0 j.
  rewrite pr // mxE big_ord_recl /= !mxE mulr1; congr (_ + _); apply: eq_bigr => k _.
  rewrite !mxE /= (nth_map k) ?size_enum_ord // nth_ord_enum.
  by [].
have norm (k : 'I_p.+1) :
   \sum_(j < n) (nth 0 y j - predict1 m (nth [::] X j)) * A k j = 0.
  have := congr1 (fun M : 'M_(_, _) => M 0 k) eb; rewrite mxE [X in _ = X]mxE => e0.
  by rewrite -[RHS]e0; apply: eq_bigr => j _; rewrite pm !mxE.
transitivity (icpt d * (\sum_(j < n) (nth 0 y j - predict1 m (nth [::] X j)) * A ord0 j)
  + \sum_(k < p) nth 0 (coef d) k *
     (\sum_(j < n) (nth 0 y j - predict1 m (nth [::] X j)) * A (lift ord0 k) j)).
  under [X in _ = _ + X]eq_bigr => k _ do rewrite mulr_sumr.
  rewrite exchange_big /= mulr_sumr -big_split /=; apply: eq_bigr => j _.
  rewrite [predict1 d _]pr //; set r := (_ - predict1 m _).
  rewrite mulrDr mxE mulr1 [_ * icpt d]mulrC mulr_sumr; congr (_ + _).
  by apply: eq_bigr => k _; rewrite mxE /=; ring.
by rewrite norm mulr0 add0r big1 // => k _; rewrite norm mulr0.
Qed.

End LeastSquares.
