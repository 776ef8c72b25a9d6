(* The real numbers of the standard library as a real closed field, with a logarithm; used to
   instantiate the theorems about the cellwise MCD. *)
From Coq Require Import Reals Lra ClassicalEpsilon FunctionalExtensionality.
From mathcomp Require Import all_ssreflect all_algebra.
From Verif Require Import CellMCD_Spec.

Set Implicit Arguments.
Unset Strict Implicit.
Unset Printing Implicit Defensive.

Local Open Scope R_scope.

Definition eqRb (x y : R) : bool := if Req_EM_T x y then true else false.

Lemma eqRP : Equality.axiom eqRb.
Proof. by move=> x y; rewrite /eqRb; case: Req_EM_T => h; constructor. Qed.

Canonical R_eqType := EqType R (EqMixin eqRP).

Definition findR (P : pred R) (k : nat) : option R :=
  match excluded_middle_informative (exists x, P x) with
  | left h => Some (proj1_sig (constructive_indefinite_description _ h))
  | right _ => None
  end.

Lemma findR_correct P k x : findR P k = Some x -> P x.
Proof.
rewrite /findR; case: excluded_middle_informative => // h [<-].
exact: (proj2_sig (constructive_indefinite_description _ h)).
Qed.

Lemma findR_complete (P : pred R) : (exists x, P x) -> exists k, findR P k.
Proof. by move=> h; exists 0%N; rewrite /findR; case: excluded_middle_informative. Qed.

Lemma findR_ext (P Q : pred R) : P =1 Q -> findR P =1 findR Q.
Proof. by move=> h; have -> : P = Q by apply: functional_extensionality. Qed.

Canonical R_choiceType := ChoiceType R (Choice.Mixin findR_correct findR_complete findR_ext).

Fact RaddA : associative Rplus. Proof. by move=> *; rewrite Rplus_assoc. Qed.
Fact RaddC : commutative Rplus. Proof. exact: Rplus_comm. Qed.
Fact Radd0 : left_id 0 Rplus. Proof. exact: Rplus_0_l. Qed.
Fact RaddN : left_inverse 0 Ropp Rplus. Proof. exact: Rplus_opp_l. Qed.
Canonical R_zmodType := ZmodType R (ZmodMixin RaddA RaddC Radd0 RaddN).

Fact RmulA : associative Rmult. Proof. by move=> *; rewrite Rmult_assoc. Qed.
Fact RmulC : commutative Rmult. Proof. exact: Rmult_comm. Qed.
Fact Rmul1 : left_id 1 Rmult. Proof. exact: Rmult_1_l. Qed.
Fact RmulD : left_distributive Rmult Rplus. Proof. by move=> *; exact: Rmult_plus_distr_r. Qed.
Fact R1n0 : is_true (1 != 0 :> R). Proof. by apply/eqP; lra. Qed.
Canonical R_ringType := RingType R (ComRingMixin RmulA RmulC Rmul1 RmulD R1n0).
Canonical R_comRingType := ComRingType R RmulC.

Definition invR (x : R) : R := if x == 0 then 0 else / x.
Fact RmulV : GRing.Field.axiom invR.
Proof. by move=> x /[dup] /eqP h /negbTE n; rewrite /invR n; exact: Rinv_l. Qed.
Fact Rinv0 : invR 0 = 0. Proof. by rewrite /invR eqxx. Qed.
Definition R_fieldUnitMixin := FieldUnitMixin RmulV Rinv0.
Canonical R_unitRingType := UnitRingType R R_fieldUnitMixin.
Canonical R_comUnitRingType := [comUnitRingType of R].
Definition R_fieldMixin : GRing.Field.mixin_of R_unitRingType. Proof. by move=> x h. Qed.
Definition R_idomainMixin := FieldIdomainMixin R_fieldMixin.
Canonical R_idomainType := IdomainType R R_idomainMixin.
Canonical R_fieldType := FieldType R R_fieldMixin.

Definition leRb (x y : R) : bool := if Rle_dec x y then true else false.
Definition ltRb (x y : R) : bool := if Rlt_dec x y then true else false.
Lemma leRP x y : reflect (x <= y) (leRb x y).
Proof. by rewrite /leRb; case: Rle_dec => h; constructor. Qed.
Lemma ltRP x y : reflect (x < y) (ltRb x y).
Proof. by rewrite /ltRb; case: Rlt_dec => h; constructor. Qed.

Fact R_le0D (x y : R) : is_true (leRb 0 x) -> is_true (leRb 0 y) -> is_true (leRb 0 (x + y)).
Proof. by move=> /leRP hx /leRP hy; apply/leRP; lra. Qed.
Fact R_le0M (x y : R) : is_true (leRb 0 x) -> is_true (leRb 0 y) -> is_true (leRb 0 (x * y)).
Proof. by move=> /leRP hx /leRP hy; apply/leRP; exact: Rmult_le_pos. Qed.
Fact R_le0_anti (x : R) : is_true (leRb 0 x) -> is_true (leRb x 0) -> x = 0.
Proof. by move=> /leRP hx /leRP hy; lra. Qed.
Fact R_sub_ge0 (x y : R) : leRb 0 (y - x) = leRb x y.
Proof. by apply/leRP/leRP => h; lra. Qed.
Fact R_le_total (x y : R) : is_true (leRb x y || leRb y x).
Proof. by apply/orP; case: (Rle_lt_dec x y) => h; [left|right]; apply/leRP; lra. Qed.
Fact R_ge0_norm (x : R) : is_true (leRb 0 x) -> Rabs x = x.
Proof. by move=> /leRP h; rewrite Rabs_right //; lra. Qed.
Fact R_lt_def (x y : R) : ltRb x y = (y != x) && leRb x y.
Proof.
apply/ltRP/andP => [h|[/eqP n /leRP h]]; last by lra.
by split; [apply/eqP; lra|apply/leRP; lra].
Qed.

Definition R_leMixin : realLeMixin R_idomainType :=
  RealLeMixin R_le0D R_le0M R_le0_anti R_sub_ge0 (R_le_total 0) Rabs_Ropp R_ge0_norm R_lt_def.
Canonical R_porderType := POrderType ring_display R R_leMixin.
Canonical R_latticeType := LatticeType R R_leMixin.
Canonical R_distrLatticeType := DistrLatticeType R R_leMixin.
Canonical R_orderType := OrderType R R_le_total.
Canonical R_numDomainType := NumDomainType R R_leMixin.
Canonical R_normedZmodType := NormedZmodType R R R_leMixin.
Canonical R_numFieldType := [numFieldType of R].
Canonical R_realDomainType := [realDomainType of R].
Canonical R_realFieldType := [realFieldType of R].

Lemma horner_continuity (p : {poly R}) : continuity (fun x => horner p x).
Proof.
elim/poly_ind: p => [|p c IH].
  have -> : (fun x : R => horner 0%R x) = (fun=> 0) by apply: functional_extensionality => x; rewrite horner0.
  exact: continuity_const.
have -> : (fun x : R => horner (p * 'X + c%:P)%R x) = plus_fct (mult_fct (fun x => horner p x) id) (fct_cte c).
  by apply: functional_extensionality => x; rewrite hornerD hornerMX hornerC.
apply: continuity_plus; last by apply: continuity_const.
by apply: continuity_mult => //; exact: derivable_continuous derivable_id.
Qed.

Lemma R_rcf : Num.real_closed_axiom R_numDomainType.
Proof.
move=> p a b /leRP ab /andP[/leRP pa /leRP pb].
have h : horner p a * horner p b <= 0.
  have := Rmult_le_pos (- horner p a) (horner p b) ltac:(change (horner p a <= 0) in pa; lra) pb; lra.
have [x [[ax xb] px]] := IVT_cor _ a b (horner_continuity p) ab h.
by exists x; [apply/andP; split; apply/leRP|apply/eqP].
Qed.

Canonical R_rcfType := RcfType R R_rcf.

(* the natural logarithm *)
Lemma ln_le_R (a : R) : 0 < a -> ln a <= a - 1.
Proof.
move=> a0; have [->|n] := Req_dec a 1; first by rewrite ln_1; lra.
have [lt|gt] : a < 1 \/ 1 < a by lra.
- have d c : a <= c <= 1 -> derivable_pt_lim ln c (/ c) by move=> h; apply: derivable_pt_lim_ln; lra.
  have [c [e [c1 c2]]] := MVT_cor2 ln (fun x => / x) a 1 lt d; rewrite ln_1 in e.
  have ic : 1 < / c by rewrite -[X in X < _]Rinv_1; apply: Rinv_lt_contravar; lra.
  have := Rmult_lt_compat_r (1 - a) _ _ ltac:(lra) ic; lra.
- have d c : 1 <= c <= a -> derivable_pt_lim ln c (/ c) by move=> h; apply: derivable_pt_lim_ln; lra.
  have [c [e [c1 c2]]] := MVT_cor2 ln (fun x => / x) 1 a gt d; rewrite ln_1 in e.
  have ic : / c < 1 by rewrite -[X in _ < X]Rinv_1; apply: Rinv_lt_contravar; lra.
  have := Rmult_lt_compat_r (a - 1) _ _ ltac:(lra) ic; lra.
Qed.

Lemma ln_is_log : @is_log R_rcfType ln.
Proof.
split=> [a b /ltRP a0 /ltRP b0|a /ltRP a0]; first exact: ln_mult.
by apply/leRP; exact: ln_le_R.
Qed.
