(* Linear (and a little non-linear) arithmetic over an arbitrary mathcomp
   realFieldType.

   This file models no code of the repository; it is proof infrastructure.  It
   instantiates the reflexive Positivstellensatz checker of the standard library
   (Coq.micromega.RingMicromega) at a realFieldType; certificates are found by
   the standard library's [wlra_Q]/[wnra_Q] and are re-checked by the kernel. *)
From Coq Require Import ZArith QArith Lqa.
From Coq.micromega Require Import OrderedRing RingMicromega QMicromega EnvRing Tauto Refl.
From Coq Require Import List.
From mathcomp Require Import all_ssreflect all_algebra.

Set Implicit Arguments.
Unset Strict Implicit.
Unset Printing Implicit Defensive.

Import Order.TTheory GRing.Theory Num.Theory.

Local Open Scope ring_scope.

Notation q0 := (Qmake Z0 xH).
Notation q1 := (Qmake (Zpos xH) xH).

Section Sound.

Variable F : realFieldType.

(* integers of the standard library into F *)
Definition Z2F (z : Z) : F :=
  match z with
  | Z0 => 0
  | Zpos p => (Pos.to_nat p)%:R
  | Zneg p => - (Pos.to_nat p)%:R
  end.

Definition Q2F (q : Q) : F := Z2F (Qnum q) / Z2F (Zpos (Qden q)).

Lemma Z2F_add x y : Z2F (Z.add x y) = Z2F x + Z2F y.
Proof.
have pos_sub p q : Z2F (Z.pos_sub p q) = (Pos.to_nat p)%:R - (Pos.to_nat q)%:R.
  rewrite Z.pos_sub_spec.
  case: (Pos.compare_spec p q) => [->|lt_pq|lt_qp] /=; first by rewrite subrr.
  - rewrite (Pos2Nat.inj_sub _ _ lt_pq) natrB; last first.
      by apply/ssrnat.leP; apply: PeanoNat.Nat.lt_le_incl; apply/Pos2Nat.inj_lt.
    by rewrite opprB.
  - rewrite Pos2Nat.inj_sub // natrB //.
    by apply/ssrnat.leP; apply: PeanoNat.Nat.lt_le_incl; apply/Pos2Nat.inj_lt.
case: x y => [|p|p] [|q|q] //=; rewrite ?add0r ?addr0 ?oppr0 //.
- by rewrite Pos2Nat.inj_add natrD.
- by rewrite pos_sub addrC.
- by rewrite Pos2Nat.inj_add natrD opprD.
Qed.

Lemma Z2F_opp x : Z2F (Z.opp x) = - Z2F x.
Proof. by case: x => [|p|p] //=; rewrite ?oppr0 ?opprK. Qed.

Lemma Z2F_mul x y : Z2F (Z.mul x y) = Z2F x * Z2F y.
Proof.
case: x y => [|p|p] [|q|q] //=; rewrite ?mul0r ?mulr0 ?oppr0 //;
  by rewrite Pos2Nat.inj_mul natrM ?mulrN ?mulNr ?opprK.
Qed.

Lemma Z2F_pos_gt0 p : 0 < Z2F (Zpos p).
Proof.
rewrite /= ltr0n; apply/ssrnat.ltP; exact: Pos2Nat.is_pos.
Qed.

Lemma Z2F_ge0 z : Z.le Z0 z -> 0 <= Z2F z.
Proof.
case: z => [|p|p] // _; first by rewrite ltW // Z2F_pos_gt0.
Qed.

Lemma Z2F_le x y : Z.le x y -> Z2F x <= Z2F y.
Proof.
move=> le_xy; rewrite -subr_ge0 -Z2F_opp -Z2F_add; apply: Z2F_ge0.
by apply/Z.le_0_sub.
Qed.

Lemma Z2F_eq0 x : Z2F x = 0 -> x = Z0.
Proof.
case: x => [|p|p] // /eqP; rewrite /= ?oppr_eq0 pnatr_eq0 => /eqP H;
  by move: (Pos2Nat.is_pos p); rewrite H => /ssrnat.ltP.
Qed.

Lemma Z2F_pos_neq0 p : Z2F (Zpos p) != 0.
Proof. by rewrite gt_eqF // Z2F_pos_gt0. Qed.

Lemma Q2F_0 : Q2F q0 = 0. Proof. by rewrite /Q2F /= mul0r. Qed.
Lemma Q2F_1 : Q2F q1 = 1. Proof. by rewrite /Q2F /= divr1. Qed.

Lemma Q2F_add x y : Q2F (Qplus x y) = Q2F x + Q2F y.
Proof.
rewrite /Q2F; case: x y => [a b] [c d]; cbn [Qplus Qnum Qden].
rewrite Z2F_add !Z2F_mul Pos2Z.inj_mul Z2F_mul.
by rewrite addf_div ?Z2F_pos_neq0 // [in X in _ + X]mulrC mulrC.
Qed.

Lemma Q2F_opp x : Q2F (Qopp x) = - Q2F x.
Proof. by rewrite /Q2F; case: x => [a b]; cbn [Qopp Qnum Qden]; rewrite Z2F_opp mulNr. Qed.

Lemma Q2F_mul x y : Q2F (Qmult x y) = Q2F x * Q2F y.
Proof.
rewrite /Q2F; case: x y => [a b] [c d]; cbn [Qmult Qnum Qden].
by rewrite !Z2F_mul Pos2Z.inj_mul Z2F_mul mulf_div.
Qed.

Lemma Q2F_eq x y : Qeq_bool x y = true -> Q2F x = Q2F y.
Proof.
move/Qeq_bool_eq; rewrite /Qeq /Q2F => H.
apply/eqP; rewrite eqr_div ?Z2F_pos_neq0 //.
by rewrite -!Z2F_mul H.
Qed.

Lemma Q2F_neq x y : Qeq_bool x y = false -> Q2F x <> Q2F y.
Proof.
move/Qeq_bool_neq => H /eqP; rewrite eqr_div ?Z2F_pos_neq0 //.
rewrite -!Z2F_mul -subr_eq0 -Z2F_opp -Z2F_add => /eqP/Z2F_eq0.
by move=> E; apply: H; rewrite /Qeq; apply/Z.sub_move_0_r.
Qed.

Lemma Q2F_le x y : Qle_bool x y = true -> Q2F x <= Q2F y.
Proof.
move/Qle_bool_imp_le; rewrite /Qle /Q2F => H.
rewrite ler_pdivr_mulr ?Z2F_pos_gt0 // mulrAC ler_pdivl_mulr ?Z2F_pos_gt0 //.
by rewrite -!Z2F_mul Z2F_le.
Qed.

Lemma Q2F_inv x : Q2F (Qinv x) = (Q2F x)^-1.
Proof.
rewrite /Q2F; case: x => [[|p|p] b]; cbn [Qinv Qnum Qden].
- by rewrite /= !mul0r invr0.
- by rewrite invf_div.
- by rewrite /= invf_div invrN mulrN mulNr.
Qed.

Definition Fle (x y : F) : Prop := x <= y.
Definition Flt (x y : F) : Prop := x < y.

Definition Fpow (x : F) (n : nat) : F := x ^+ n.

Lemma Fsrt : Ring_theory.ring_theory (0 : F) 1 +%R *%R (fun x y => x - y) -%R eq.
Proof.
split=> *; rewrite ?add0r ?addrA ?mul1r ?mulrA ?mulrDl ?subrr //.
- exact: addrC.
- exact: mulrC.
Qed.

Lemma Fsor : SOR (0 : F) 1 +%R *%R (fun x y => x - y) -%R eq Fle Flt.
Proof.
split; rewrite /Fle /Flt.
- by split=> [x|x y ->|x y z -> ->].
- by move=> x1 x2 -> y1 y2 ->.
- by move=> x1 x2 -> y1 y2 ->.
- by move=> x1 x2 ->.
- by move=> x1 x2 -> y1 y2 ->.
- by move=> x1 x2 -> y1 y2 ->.
- exact: Fsrt.
- exact: lexx.
- by move=> n m h1 h2; apply/eqP; rewrite eq_le h1 h2.
- by move=> n m p; apply: le_trans.
- move=> n m; rewrite lt_neqAle; split.
    by case/andP => /eqP h1 h2; split.
  by case=> h1 h2; apply/andP; split=> //; apply/eqP.
- by move=> n m; case: (ltgtP n m) => h; [left|right; right|right; left].
- by move=> n m p h; rewrite ler_add2l.
- by move=> n m; apply: mulr_gt0.
- by move=> /esym/eqP; rewrite oner_eq0.
Qed.

Lemma Fpower : Ring_theory.power_theory (1 : F) *%R eq N.to_nat Fpow.
Proof.
split=> r [|p] /=; first by rewrite /Fpow expr0.
rewrite /Fpow; elim: p => [p IH|p IH|] /=.
- by rewrite Pos2Nat.inj_xI multE mul2n exprS -addnn exprD IH.
- by rewrite Pos2Nat.inj_xO multE mul2n -addnn exprD IH.
- by rewrite expr1.
Qed.

Lemma Faddon : SORaddon (0 : F) 1 +%R *%R (fun x y => x - y) -%R eq Fle
  q0 q1 Qplus Qmult Qminus Qopp Qeq_bool Qle_bool Q2F N.to_nat Fpow.
Proof.
split.
- split.
  + exact: Q2F_0.
  + exact: Q2F_1.
  + exact: Q2F_add.
  + by move=> x y; rewrite Q2F_add Q2F_opp.
  + exact: Q2F_mul.
  + exact: Q2F_opp.
  + exact: Q2F_eq.
- exact: Fpower.
- exact: Q2F_neq.
- exact: Q2F_le.
Qed.

Definition Feval_expr : PolEnv F -> PExpr Q -> F :=
  eval_pexpr +%R *%R (fun x y => x - y) -%R Q2F N.to_nat Fpow.

Definition Feval_bop2 (o : Op2) (x y : F) : bool :=
  match o with
  | OpEq => x == y
  | OpNEq => x != y
  | OpLe => x <= y
  | OpGe => y <= x
  | OpLt => x < y
  | OpGt => y < x
  end.

Definition Feval_formula (e : PolEnv F) (k : Tauto.kind) (f : Formula Q) :
    Tauto.rtyp k :=
  let: Build_Formula l o r := f in
  match k return Tauto.rtyp k with
  | Tauto.isProp => is_true (Feval_bop2 o (Feval_expr e l) (Feval_expr e r))
  | Tauto.isBool => Feval_bop2 o (Feval_expr e l) (Feval_expr e r)
  end.

Definition Feval_formula' (e : PolEnv F) : Formula Q -> Prop :=
  eval_formula +%R *%R (fun x y => x - y) -%R eq Fle Flt Q2F N.to_nat Fpow e.

Lemma Feval_formula_compat env b f :
  Tauto.hold b (Feval_formula env b f) <-> Feval_formula' env f.
Proof.
case: f => l o r; case: b; rewrite /Feval_formula' /Feval_formula /=;
  case: o => //=; rewrite /Fle /Flt; split=> //.
all: try by move/eqP.
all: by move=> h; apply/eqP.
Qed.

Definition Feval_nformula : PolEnv F -> NFormula Q -> Prop :=
  eval_nformula 0 +%R *%R eq Fle Flt Q2F.

Lemma FTautoChecker_sound f w :
  QTautoChecker f w = true -> forall env, eval_bf (Feval_formula env) f.
Proof.
revert f w; intros f w.
unfold QTautoChecker.
apply tauto_checker_sound with (eval := Feval_formula) (eval' := Feval_nformula).
- exact: (fun env d => eval_nformula_dec Fsor Q2F env d).
- move=> [p o] H1 env0 H2.
  exact: (check_inconsistent_sound Fsor Faddon p o H1 env0 H2).
- move=> t t' u H1 env0 H2 H3.
  exact: (nformula_plus_nformula_correct Fsor Faddon env0 _ _ H2 H3 H1).
- move=> env0 b t tg H1; rewrite Feval_formula_compat.
  exact: (proj1 (cnf_normalise_correct Fsor Faddon env0 t tg) H1).
- move=> env0 b t tg H1; rewrite Tauto.hold_eNOT Feval_formula_compat.
  exact: (proj1 (cnf_negate_correct Fsor Faddon env0 t tg) H1).
- move=> t w0 H1 env0; unfold eval_tt.
  rewrite (@make_impl_map _ _ (Feval_nformula env0)); last by move=> a; split.
  exact: (checker_nf_sound Fsor Faddon _ _ H1 env0).
Qed.

(* reified syntax: evaluates, by conversion, to mathcomp's operations *)
Inductive fexpr : Type :=
| FX of nat
| F0
| F1
| FAdd of fexpr & fexpr
| FOpp of fexpr
| FMul of fexpr & fexpr
| FNat of fexpr & nat
| FExp of fexpr & nat
| FInv of fexpr.

Fixpoint feval (env : seq F) (e : fexpr) : F :=
  match e with
  | FX n => List.nth n env 0
  | F0 => 0
  | F1 => 1
  | FAdd a b => feval env a + feval env b
  | FOpp a => - feval env a
  | FMul a b => feval env a * feval env b
  | FNat a n => feval env a *+ n
  | FExp a n => feval env a ^+ n
  | FInv a => (feval env a)^-1
  end.

Fixpoint fconst (e : fexpr) : option Q :=
  match e with
  | FX _ => None
  | F0 => Some q0
  | F1 => Some q1
  | FAdd a b => match fconst a, fconst b with
                | Some x, Some y => Some (Qplus x y) | _, _ => None end
  | FOpp a => match fconst a with Some x => Some (Qopp x) | None => None end
  | FMul a b => match fconst a, fconst b with
                | Some x, Some y => Some (Qmult x y) | _, _ => None end
  | FNat a n => match fconst a with
                | Some x => Some (Qmult x (inject_Z (Z.of_nat n))) | None => None end
  | FExp a n => None
  | FInv a => match fconst a with Some x => Some (Qinv x) | None => None end
  end.

Fixpoint topexpr (e : fexpr) : option (PExpr Q) :=
  match e with
  | FX n => Some (PEX (Pos.of_succ_nat n))
  | F0 => Some (PEc q0)
  | F1 => Some (PEc q1)
  | FAdd a b => match topexpr a, topexpr b with
                | Some x, Some y => Some (PEadd x y) | _, _ => None end
  | FOpp a => match topexpr a with Some x => Some (PEopp x) | None => None end
  | FMul a b => match topexpr a, topexpr b with
                | Some x, Some y => Some (PEmul x y) | _, _ => None end
  | FNat a n => match topexpr a with
      | Some x => Some (PEmul x (PEc (inject_Z (Z.of_nat n)))) | None => None end
  | FExp a n => match topexpr a with
                | Some x => Some (PEpow x (N.of_nat n)) | None => None end
  | FInv a => match fconst a with Some x => Some (PEc (Qinv x)) | None => None end
  end.

Lemma Z2F_nat n : Z2F (Z.of_nat n) = n%:R.
Proof. by case: n => [|n] //=; rewrite SuccNat2Pos.id_succ. Qed.

Lemma Q2F_nat n : Q2F (inject_Z (Z.of_nat n)) = n%:R.
Proof. by rewrite /Q2F /inject_Z; cbn [Qnum Qden]; rewrite Z2F_nat /= divr1. Qed.

Lemma fconstP env e q : fconst e = Some q -> feval env e = Q2F q.
Proof.
elim: e q => [n||| a IHa b IHb|a IHa|a IHa b IHb|a IHa n|a IHa n|a IHa] q //=.
- by case=> <-; rewrite Q2F_0.
- by case=> <-; rewrite Q2F_1.
- case: (fconst a) IHa => // x /(_ _ erefl) ->.
  case: (fconst b) IHb => // y /(_ _ erefl) -> [<-].
  by rewrite Q2F_add.
- by case: (fconst a) IHa => // x /(_ _ erefl) -> [<-]; rewrite Q2F_opp.
- case: (fconst a) IHa => // x /(_ _ erefl) ->.
  case: (fconst b) IHb => // y /(_ _ erefl) -> [<-].
  by rewrite Q2F_mul.
- case: (fconst a) IHa => // x /(_ _ erefl) -> [<-].
  by rewrite Q2F_mul Q2F_nat mulr_natr.
- by case: (fconst a) IHa => // x /(_ _ erefl) -> [<-]; rewrite Q2F_inv.
Qed.

Definition fenv (env : seq F) : PolEnv F := fun p => List.nth (Pos.to_nat p).-1 env 0.

Lemma topexprP env e p : topexpr e = Some p -> feval env e = Feval_expr (fenv env) p.
Proof.
elim: e p => [n||| a IHa b IHb|a IHa|a IHa b IHb|a IHa n|a IHa n|a IHa] p //=.
- case=> <-; have E := SuccNat2Pos.id_succ n.
  by change (List.nth n env 0 = List.nth (Pos.to_nat (Pos.of_succ_nat n)).-1 env (0:F)); rewrite E.
- by case=> <-; rewrite /= Q2F_0.
- by case=> <-; rewrite /= Q2F_1.
- case: (topexpr a) IHa => // x /(_ _ erefl) ->.
  by case: (topexpr b) IHb => // y /(_ _ erefl) -> [<-].
- by case: (topexpr a) IHa => // x /(_ _ erefl) -> [<-].
- case: (topexpr a) IHa => // x /(_ _ erefl) ->.
  by case: (topexpr b) IHb => // y /(_ _ erefl) -> [<-].
- case: (topexpr a) IHa => // x /(_ _ erefl) -> [<-] /=.
  by rewrite Q2F_nat mulr_natr.
- by case: (topexpr a) IHa => // x /(_ _ erefl) -> [<-] /=; rewrite Nnat.Nat2N.id.
- by case E: (fconst a) => [x|] // [<-] /=; rewrite (fconstP env E) Q2F_inv.
Qed.

(* reified hypotheses *)
Inductive fform : Type :=
| FLe of fexpr & fexpr
| FLt of fexpr & fexpr
| FEq of fexpr & fexpr.

Definition fform_eval (env : seq F) (f : fform) : Prop :=
  match f with
  | FLe a b => is_true (feval env a <= feval env b)
  | FLt a b => is_true (feval env a < feval env b)
  | FEq a b => feval env a = feval env b
  end.

Definition toform (f : fform) : option (Formula Q) :=
  match f with
  | FLe a b => match topexpr a, topexpr b with
      | Some x, Some y => Some (Build_Formula x OpLe y) | _, _ => None end
  | FLt a b => match topexpr a, topexpr b with
      | Some x, Some y => Some (Build_Formula x OpLt y) | _, _ => None end
  | FEq a b => match topexpr a, topexpr b with
      | Some x, Some y => Some (Build_Formula x OpEq y) | _, _ => None end
  end.

Fixpoint tobf (hs : seq fform) : BFormula (Formula Q) Tauto.isProp :=
  match hs with
  | [::] => Tauto.FF Tauto.isProp
  | h :: hs' =>
      match toform h with
      | Some f => Tauto.IMPL (Tauto.A Tauto.isProp f tt) None (tobf hs')
      | None => tobf hs'
      end
  end.

Fixpoint chain (env : seq F) (hs : seq fform) : Prop :=
  match hs with
  | [::] => False
  | h :: hs' => fform_eval env h -> chain env hs'
  end.

Lemma toformP env h f :
  toform h = Some f -> fform_eval env h -> Feval_formula (fenv env) Tauto.isProp f.
Proof.
case: h => a b /=;
  case Ea: (topexpr a) => [x|] //; case Eb: (topexpr b) => [y|] // [<-] /=;
  rewrite (topexprP env Ea) (topexprP env Eb) //.
by move=> ->; rewrite eqxx.
Qed.

Lemma flra_sound env hs w : QTautoChecker (tobf hs) w = true -> chain env hs.
Proof.
move/FTautoChecker_sound/(_ (fenv env)).
elim: hs => [|h hs IH] //=.
case E: (toform h) => [f|] /=; last by move=> H _; exact: IH.
move=> H Hh; apply: IH; apply: H; exact: (toformP E Hh).
Qed.

End Sound.

Lemma flra_le (F : realFieldType) (x y : F) : (y < x -> False) -> x <= y.
Proof. by rewrite leNgt => H; apply/negP. Qed.
Lemma flra_lt (F : realFieldType) (x y : F) : (y <= x -> False) -> x < y.
Proof. by rewrite ltNge => H; apply/negP. Qed.
Lemma flra_eq (F : realFieldType) (x y : F) : x <= y -> y <= x -> x = y.
Proof. by move=> h1 h2; apply/eqP; rewrite eq_le h1 h2. Qed.
Lemma flra_nle (F : realFieldType) (x y : F) : ~~ (x <= y) -> y < x.
Proof. by rewrite -ltNge. Qed.
Lemma flra_nlt (F : realFieldType) (x y : F) : ~~ (x < y) -> y <= x.
Proof. by rewrite -leNgt. Qed.
Lemma flra_fle (F : realFieldType) (x y : F) : (x <= y) = false -> y < x.
Proof. by rewrite ltNge => ->. Qed.
Lemma flra_flt (F : realFieldType) (x y : F) : (x < y) = false -> y <= x.
Proof. by rewrite leNgt => ->. Qed.

(* Atoms are compared syntactically first; atoms with the same head symbol are
   also compared up to conversion, since canonical structures give the same
   number several syntactic forms. *)
Ltac flra_head t := lazymatch t with ?f _ => flra_head f | _ => t end.

Ltac flra_same x y :=
  match x with
  | y => constr:(true)
  | _ =>
      let hx := flra_head x in
      let hy := flra_head y in
      let _ := lazymatch hx with hy => constr:(tt) end in
      let _ := constr:(ltac:(unify x y; exact tt)) in
      constr:(true)
  | _ => constr:(false)
  end.

Ltac flra_mem x l :=
  lazymatch l with
  | cons ?y ?l' =>
      lazymatch flra_same x y with
      | true => constr:(true)
      | _ => flra_mem x l'
      end
  | _ => constr:(false)
  end.

Ltac flra_idx x l :=
  lazymatch l with
  | cons ?y ?l' =>
      lazymatch flra_same x y with
      | true => constr:(O)
      | _ => let n := flra_idx x l' in constr:(S n)
      end
  end.

Ltac flra_add x l :=
  lazymatch flra_mem x l with
  | true => l
  | false => constr:(cons x l)
  end.

Ltac flra_closed_nat n :=
  lazymatch n with
  | O => constr:(true)
  | S ?m => flra_closed_nat m
  | _ => constr:(false)
  end.

Ltac flra_const e :=
  lazymatch e with
  | @GRing.zero _ => constr:(true)
  | @GRing.one _ => constr:(true)
  | @GRing.natmul _ ?a ?n =>
      lazymatch flra_closed_nat n with true => flra_const a | _ => constr:(false) end
  | @GRing.opp _ ?a => flra_const a
  | @GRing.add _ ?a ?b =>
      lazymatch flra_const a with true => flra_const b | _ => constr:(false) end
  | @GRing.mul _ ?a ?b =>
      lazymatch flra_const a with true => flra_const b | _ => constr:(false) end
  | @GRing.inv _ ?a => flra_const a
  | _ => constr:(false)
  end.

(* collect the atoms of an expression *)
Ltac flra_vars e l :=
  lazymatch e with
  | @GRing.zero _ => l
  | @GRing.one _ => l
  | @GRing.add _ ?a ?b => let l1 := flra_vars a l in flra_vars b l1
  | @GRing.mul _ ?a ?b => let l1 := flra_vars a l in flra_vars b l1
  | @GRing.opp _ ?a => flra_vars a l
  | @GRing.natmul _ ?a ?n =>
      lazymatch flra_closed_nat n with
      | true => flra_vars a l | _ => flra_add e l end
  | @GRing.exp _ ?a ?n =>
      lazymatch flra_closed_nat n with
      | true => flra_vars a l | _ => flra_add e l end
  | @GRing.inv _ ?a =>
      lazymatch flra_const a with
      | true => l | _ => flra_add e l end
  | _ => flra_add e l
  end.

Ltac flra_reify e l :=
  lazymatch e with
  | @GRing.zero _ => constr:(F0)
  | @GRing.one _ => constr:(F1)
  | @GRing.add _ ?a ?b =>
      let x := flra_reify a l in let y := flra_reify b l in constr:(FAdd x y)
  | @GRing.mul _ ?a ?b =>
      let x := flra_reify a l in let y := flra_reify b l in constr:(FMul x y)
  | @GRing.opp _ ?a => let x := flra_reify a l in constr:(FOpp x)
  | @GRing.natmul _ ?a ?n =>
      lazymatch flra_closed_nat n with
      | true => let x := flra_reify a l in constr:(FNat x n)
      | _ => let i := flra_idx e l in constr:(FX i) end
  | @GRing.exp _ ?a ?n =>
      lazymatch flra_closed_nat n with
      | true => let x := flra_reify a l in constr:(FExp x n)
      | _ => let i := flra_idx e l in constr:(FX i) end
  | @GRing.inv _ ?a =>
      lazymatch flra_const a with
      | true => let x := flra_reify a l in constr:(FInv x)
      | _ => let i := flra_idx e l in constr:(FX i) end
  | _ => let i := flra_idx e l in constr:(FX i)
  end.

(* [flra_collect F k]: gather all usable hypotheses as a list of proofs by
   reverting a copy of them in front of the goal False *)
Ltac flra_prep :=
  repeat match goal with
  | H : is_true (andb _ _) |- _ => case/andP: H => ? ?
  | H : is_true (negb (@Order.le _ _ _ _)) |- _ => apply flra_nle in H
  | H : is_true (negb (@Order.lt _ _ _ _)) |- _ => apply flra_nlt in H
  | H : @Order.le _ _ _ _ = false |- _ => apply flra_fle in H
  | H : @Order.lt _ _ _ _ = false |- _ => apply flra_flt in H
  | H : is_true (@eq_op _ _ _) |- _ => move/eqP in H
  | H : _ /\ _ |- _ => destruct H
  end.

Ltac flra_goal :=
  lazymatch goal with
  | |- False => idtac
  | |- is_true (andb _ _) => apply/andP; split; flra_goal
  | |- _ /\ _ => split; flra_goal
  | |- is_true (@Order.le _ _ _ _) => apply flra_le; intro
  | |- is_true (@Order.lt _ _ _ _) => apply flra_lt; intro
  | |- is_true (negb (@Order.le _ _ _ _)) => rewrite -ltNge; apply flra_lt; intro
  | |- is_true (negb (@Order.lt _ _ _ _)) => rewrite -leNgt; apply flra_le; intro
  | |- is_true (@eq_op _ _ _) => apply/eqP; apply flra_eq; apply flra_le; intro
  | |- @eq _ _ _ => apply flra_eq; apply flra_le; intro
  | _ => exfalso
  end.

(* heterogeneous list of hypotheses, used only at tactic level *)
Inductive hlist : Type := HNil | HCons (P : Prop) (p : P) (l : hlist).

Ltac hmem p l :=
  lazymatch l with
  | HCons p _ => constr:(true)
  | HCons _ ?l' => hmem p l'
  | _ => constr:(false)
  end.

Ltac flra_is_field F T :=
  unify T (Num.RealField.sort F).

(* returns a pair of the hypotheses found and the list of atoms; it is a term and
   not a tactic in continuation style, so that a later failure does not backtrack
   over the choice of hypotheses *)
Ltac flra_gather F hs l :=
  match goal with
  | H : is_true (@Order.le ?d ?T ?x ?y) |- _ =>
      let _ := lazymatch hmem H hs with false => constr:(tt) end in
      let T' := type of x in
      let _ := constr:(ltac:(flra_is_field F T'; exact tt)) in
      let l1 := flra_vars x l in let l2 := flra_vars y l1 in
      flra_gather F constr:(HCons H hs) l2
  | H : is_true (@Order.lt ?d ?T ?x ?y) |- _ =>
      let _ := lazymatch hmem H hs with false => constr:(tt) end in
      let T' := type of x in
      let _ := constr:(ltac:(flra_is_field F T'; exact tt)) in
      let l1 := flra_vars x l in let l2 := flra_vars y l1 in
      flra_gather F constr:(HCons H hs) l2
  | H : @eq ?T ?x ?y |- _ =>
      let _ := lazymatch hmem H hs with false => constr:(tt) end in
      let _ := constr:(ltac:(flra_is_field F T; exact tt)) in
      let l1 := flra_vars x l in let l2 := flra_vars y l1 in
      flra_gather F constr:(HCons H hs) l2
  | _ => constr:((hs, l))
  end.

Ltac flra_forms hs l :=
  lazymatch hs with
  | HNil => constr:(@nil fform)
  | @HCons ?P _ ?hs' =>
      let r := flra_forms hs' l in
      lazymatch P with
      | is_true (@Order.le _ _ ?x ?y) =>
          let a := flra_reify x l in let b := flra_reify y l in
          constr:(cons (FLe a b) r)
      | is_true (@Order.lt _ _ ?x ?y) =>
          let a := flra_reify x l in let b := flra_reify y l in
          constr:(cons (FLt a b) r)
      | @eq _ ?x ?y =>
          let a := flra_reify x l in let b := flra_reify y l in
          constr:(cons (FEq a b) r)
      end
  end.

Ltac flra_apply t hs :=
  lazymatch hs with
  | HNil => exact t
  | @HCons _ ?p ?hs' => flra_apply constr:(t p) hs'
  end.

Ltac flra_core F prover :=
  let r := flra_gather F HNil constr:(@nil (Num.RealField.sort F)) in
  lazymatch r with
  | (?hs, ?l) =>
    let fs := flra_forms hs l in
    let ff := eval vm_compute in (tobf fs) in
    let w := fresh "wit" in
    prover w ff;
    let wv := (eval unfold w in w) in
    clear w;
    flra_apply constr:(@flra_sound F l fs wv (eq_refl true <: QTautoChecker (tobf fs) wv = true)) hs
  end.

Ltac flra_Q w ff := wlra_Q w ff.
Ltac fnra_Q w ff := wnra_Q w ff.

(* the field is found from the type of a compared term or of a variable *)
Ltac flra_try T k :=
  let F := fresh "F" in
  evar (F : realFieldType);
  let F' := eval unfold F in F in
  clear F; unify T (Num.RealField.sort F'); k F'.

Ltac flra_field k :=
  match goal with
  | F : realFieldType |- _ => k F
  | H : is_true (@Order.lt _ _ ?x ?y) |- _ => let T := type of x in flra_try T k
  | H : is_true (@Order.le _ _ ?x ?y) |- _ => let T := type of x in flra_try T k
  | H : is_true (@Order.lt _ _ ?x ?y) |- _ => let T := type of y in flra_try T k
  | H : is_true (@Order.le _ _ ?x ?y) |- _ => let T := type of y in flra_try T k
  | v : Num.RealField.sort ?F |- _ => k F
  | v : ?T |- _ => flra_try T k
  | F : rcfType |- _ => flra_try (Num.RealClosedField.sort F) k
  end.

Ltac flra_with F := flra_prep; flra_goal; flra_core F flra_Q.
Ltac fnra_with F := flra_prep; flra_goal; flra_core F fnra_Q.

(* [flra]: linear arithmetic; [fnra]: products of hypotheses are added *)
Ltac flra := intros; flra_prep; flra_goal; flra_field ltac:(fun F => flra_core F flra_Q).
Ltac fnra := intros; flra_prep; flra_goal; flra_field ltac:(fun F => flra_core F fnra_Q).
