(* Proofs about the adjusted boxplot. *)
From mathcomp Require Import all_ssreflect all_algebra.
From mathcomp.zify Require Import zify.
From mathcomp.algebra_tactics Require Import ring.
From Verif Require Import RFieldLra Prelude Stats Qn_Model Boxplot_Model.

Set Implicit Arguments.
Unset Strict Implicit.
Unset Printing Implicit Defensive.

Import Order.TTheory GRing.Theory Num.Theory.
Local Open Scope ring_scope.

Section Proofs.
Variable T : realFieldType.
Implicit Types (s : seq T).

Lemma interp_between (a b g : T) : a <= b -> 0 <= g <= 1 -> a <= a + g * (b - a) <= b.
Proof.
move=> h /andP[g0 g1].
have h1 : 0 <= g * (b - a) by apply: mulr_ge0; flra.
have h2 : 0 <= (1 - g) * (b - a) by apply: mulr_ge0; flra.
have h3 : (1 - g) * (b - a) = b - a - g * (b - a) by ring.
rewrite h3 in h2; apply/andP; split; flra.
Qed.

Lemma frac4 (m : nat) : 0 <= ((m %% 4)%:R / 4%:R : T) <= 1.
Proof.
rewrite divr_ge0 ?ler0n //= ler_pdivr_mulr ?ltr0n // mul1r ler_nat; lia.
Qed.

Lemma quartile_between s k : (0 < size s)%N -> (k <= 4)%N ->
  nth 0 (fsort s) ((size s).-1 * k %/ 4)%N <= quartile s k
  <= nth 0 (fsort s) (minn ((size s).-1 * k %/ 4).+1 (size s).-1).
Proof.
move=> h0 hk; set j := (_ %/ 4)%N; apply: interp_between (frac4 _); apply: nth_fsort_le.
all: by rewrite /j; move: (size s) h0 => n; nia.
Qed.

Lemma nth_fsort_range s i : (i < size s)%N -> fmin s <= nth 0 (fsort s) i <= fmax s.
Proof.
move=> h; have hm : nth 0 (fsort s) i \in s by rewrite -mem_fsort mem_nth ?size_fsort.
by rewrite fmin_le ?fmax_ge.
Qed.

Lemma quartile_range s k : (0 < size s)%N -> (k <= 4)%N -> fmin s <= quartile s k <= fmax s.
Proof.
move=> h0 hk; have /andP[h1 h2] := quartile_between h0 hk; move: h1 h2.
set j := (_ %/ 4)%N => h1 h2.
have hj : (j < size s)%N by rewrite /j; move: (size s) h0 => n; nia.
have hj2 : (minn j.+1 (size s).-1 < size s)%N by move: (size s) h0 => n; lia.
have /andP[h3 _] := nth_fsort_range hj; have /andP[_ h4] := nth_fsort_range hj2.
by apply/andP; split; flra.
Qed.

Lemma q1_le_med s : (0 < size s)%N -> quartile s 1 <= fmed s.
Proof.
move=> h0; case: (ltngtP (size s) 2) => hs.
- have e : size s = 1%N by move: (size s) h0 hs => n; lia.
  by rewrite /quartile /fmed e -[(1.-1 * 1)%N]/0%N -[(0 %/ 4)%N]/0%N -[(0 %% 4)%N]/0%N
       -[minn 1 1.-1]/0%N -[(1.-1 %/ 2)%N]/0%N -[(1 %/ 2)%N]/0%N; flra.
- have /andP[_ h2] := @quartile_between s 1 h0 isT; apply: (le_trans h2).
  have i2 : (size s %/ 2 < size s)%N by move: (size s) h0 => n; lia.
  have i1 : ((size s).-1 %/ 2 < size s)%N by move: (size s) h0 => n; lia.
  have h3 : nth 0 (fsort s) (minn ((size s).-1 * 1 %/ 4).+1 (size s).-1)
       <= nth 0 (fsort s) ((size s).-1 %/ 2).
    by apply: nth_fsort_le => //; move: (size s) hs => n; lia.
  have h4 : nth 0 (fsort s) ((size s).-1 %/ 2) <= nth 0 (fsort s) (size s %/ 2).
    by apply: nth_fsort_le => //; move: (size s) hs => n; lia.
  by rewrite /fmed; flra.
- have h3 : nth 0 (fsort s) 0 <= nth 0 (fsort s) 1.
    by apply: nth_fsort_le => //; rewrite ?hs.
  by rewrite /quartile /fmed hs -[(2.-1 * 1)%N]/1%N -[(1 %/ 4)%N]/0%N -[(1 %% 4)%N]/1%N
       -[minn 1 2.-1]/1%N -[(2.-1 %/ 2)%N]/0%N -[(2 %/ 2)%N]/1%N; flra.
Qed.

Lemma med_le_q3 s : (0 < size s)%N -> fmed s <= quartile s 3.
Proof.
move=> h0; case: (ltngtP (size s) 2) => hs.
- have e : size s = 1%N by move: (size s) h0 hs => n; lia.
  by rewrite /quartile /fmed e -[(1.-1 * 3)%N]/0%N -[(0 %/ 4)%N]/0%N -[(0 %% 4)%N]/0%N
       -[minn 1 1.-1]/0%N -[(1.-1 %/ 2)%N]/0%N -[(1 %/ 2)%N]/0%N; flra.
- have /andP[h2 _] := @quartile_between s 3 h0 isT; apply: le_trans h2.
  have i2 : ((size s).-1 * 3 %/ 4 < size s)%N by move: (size s) h0 => n; lia.
  have h3 : nth 0 (fsort s) (size s %/ 2) <= nth 0 (fsort s) ((size s).-1 * 3 %/ 4).
    by apply: nth_fsort_le => //; move: (size s) hs => n; lia.
  have i3 : (size s %/ 2 < size s)%N by move: (size s) h0 => n; lia.
  have h4 : nth 0 (fsort s) ((size s).-1 %/ 2) <= nth 0 (fsort s) (size s %/ 2).
    by apply: nth_fsort_le => //; move: (size s) hs => n; lia.
  by rewrite /fmed; flra.
- have h3 : nth 0 (fsort s) 0 <= nth 0 (fsort s) 1.
    by apply: nth_fsort_le => //; rewrite ?hs.
  by rewrite /quartile /fmed hs -[(2.-1 * 3)%N]/3%N -[(3 %/ 4)%N]/0%N -[(3 %% 4)%N]/3%N
       -[minn 1 2.-1]/1%N -[(2.-1 %/ 2)%N]/0%N -[(2 %/ 2)%N]/1%N; flra.
Qed.

Variable exp : T -> T.
Hypothesis exp_gt0 : forall u, 0 < exp u.

Lemma boxplot_order mc s : (0 < size s)%N ->
  let b := adjusted_boxplot exp mc s in
  [/\ fmin s <= lower_whisker b, lower_whisker b <= bq1 b, bq1 b <= bmedian b,
      bmedian b <= bq3 b & bq3 b <= upper_whisker b <= fmax s].
Proof.
move=> h0 /=; have h1 := q1_le_med h0; have h3 := med_le_q3 h0.
have /andP[r1 _] := @quartile_range s 1 h0 isT; have /andP[_ r2] := @quartile_range s 3 h0 isT.
have d0 : 0 < dec T 15 1 by rewrite /dec divr_gt0 ?ltr0n.
have hp u : 0 <= dec T 15 1 * exp u * (quartile s 3 - quartile s 1).
  by apply: mulr_ge0; [apply: mulr_ge0; rewrite ltW|flra].
split=> //.
- by rewrite le_maxr lexx.
- by rewrite le_maxl r1 /= ler_subl_addr ler_addl.
- by rewrite le_minr le_minl r2 lexx /= ler_addl hp.
Qed.

(* ---- reflection ---- *)
Lemma nth_fsort_opp s i : (i < size s)%N ->
  nth 0 (fsort [seq - x | x : T <- s]) i = - nth 0 (fsort s) ((size s).-1 - i)%N.
Proof.
move=> hi; rewrite (@fsort_mono_neg T -%R) ?nth_rev ?size_map ?size_fsort //; last by move=> x y; rewrite ler_opp2.
rewrite (nth_map 0) ?size_fsort; last by move: (size s) hi => n; lia.
by congr (- nth _ _ _); move: (size s) hi => n; lia.
Qed.

Lemma quartile_opp s k : (0 < size s)%N -> (k <= 4)%N ->
  quartile [seq - x | x : T <- s] k = - quartile s (4 - k).
Proof.
move=> h0 hk; rewrite /quartile size_map; set N := (size s).-1.
have hN : size s = N.+1 by rewrite /N; move: (size s) h0 => n; lia.
have e4 : (N * (4 - k) = 4 * N - N * k)%N by nia.
set j := (N * k %/ 4)%N; set r := (N * k %% 4)%N.
have ejr : (N * k = 4 * j + r)%N by rewrite /j /r; lia.
have hr : (r < 4)%N by rewrite /r; lia.
have hj : (j <= N)%N by nia.
rewrite !nth_fsort_opp ?hN; [|by lia..].
have -> : (N.+1.-1 - j = N - j)%N by [].
case: (posnP r) => [r0|rp].
  have -> : (N * (4 - k) %/ 4 = N - j)%N by lia.
  have -> : (N * (4 - k) %% 4 = 0)%N by lia.
  by rewrite r0 !mul0r !addr0.
have jN : (j < N)%N by nia.
have -> : (N * (4 - k) %/ 4 = N - j.+1)%N by lia.
have -> : (N * (4 - k) %% 4 = 4 - r)%N by lia.
have -> : (N.+1.-1 - minn j.+1 N = N - j.+1)%N by lia.
have -> : minn (N - j.+1).+1 N = (N - j)%N by lia.
rewrite natrB; last by lia.
by field; rewrite ?pnatr_eq0.
Qed.

Lemma fmin_opp s : (0 < size s)%N -> fmin [seq - x | x : T <- s] = - fmax s.
Proof.
move=> h0; have h1 : (0 < size [seq - x | x : T <- s])%N by rewrite size_map.
apply/le_anti/andP; split.
  by apply: fmin_le; apply: map_f; exact: fmax_mem.
by have /mapP[x xs ->] := fmin_mem h1; rewrite ler_opp2 fmax_ge.
Qed.

Lemma fmax_opp s : (0 < size s)%N -> fmax [seq - x | x : T <- s] = - fmin s.
Proof.
move=> h0; have h1 : (0 < size [seq - x | x : T <- s])%N by rewrite size_map.
apply/le_anti/andP; split.
  by have /mapP[x xs ->] := fmax_mem h1; rewrite ler_opp2 fmin_le.
by apply: fmax_ge; apply: map_f; exact: fmin_mem.
Qed.

Lemma boxplot_reflect_lem mc s : (0 < size s)%N -> mc != 0 ->
  let b := adjusted_boxplot exp mc s in
  let b' := adjusted_boxplot exp (- mc) [seq - x | x : T <- s] in
  [/\ bmedian b' = - bmedian b, bq1 b' = - bq3 b, bq3 b' = - bq1 b,
      lower_whisker b' = - upper_whisker b & upper_whisker b' = - lower_whisker b].
Proof.
move=> h0 m0 /=.
have em : fmed [seq - x | x : T <- s] = - fmed s.
  have := @fmed_affine T (-1) 0 s h0; rewrite mulN1r addr0 => <-.
  by congr fmed; apply: eq_map => x; rewrite mulN1r addr0.
rewrite em !quartile_opp // fmin_opp // fmax_opp // -[(4 - 1)%N]/3%N -[(4 - 3)%N]/1%N.
rewrite !oppr_max !oppr_min oppr_ge0.
have -> : - quartile s 1 - - quartile s 3 = quartile s 3 - quartile s 1 by ring.
rewrite leNgt lt_neqAle eq_sym m0 /=.
by split=> //; case: (0 <= mc) => /=; congr Num.max || congr Num.min; rewrite ?mulrNN ?mulrN ?mulNr ?opprD ?opprK //.
Qed.
End Proofs.
