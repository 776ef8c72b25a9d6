(* Vocabulary of the statements about RobustPowerTransformer. *)
From Coq Require Import Reals.
From mathcomp Require Import all_ssreflect.
From Verif Require Import Prelude XR Transfo_Model.

Set Implicit Arguments.
Unset Strict Implicit.
Unset Printing Implicit Defensive.

Local Open Scope R_scope.

(* a positive number or NaN; a number or NaN *)
Definition posnan (u : xr) : bool :=
  match u with XF r => Rltb 0 r | XNaN => true | _ => false end.
Definition finnan (u : xr) : bool :=
  match u with XF r => true | XNaN => true | _ => false end.

(* an object fitted with Box-Cox (Yeo-Johnson) and parameter lam; with
   standardisation the fitted scales are usable *)
Definition fitted_bc (t : transformer) (lam : R) : Prop :=
  tr_method t = Boxcox /\ tr_lambda t = Some lam /\
  (tr_standardize t ->
   exists s l sp, [/\ tr_scale_pre t = Some (XF s), tr_location_post t = Some (XF l),
     tr_scale_post t = Some (XF sp), 0 < s & sp <> 0]).

Definition fitted_yj (t : transformer) (lam : R) : Prop :=
  tr_method t = Yeojohnson /\ tr_lambda t = Some lam /\
  (tr_standardize t ->
   exists m s l sp, [/\ tr_location_pre t = Some (XF m), tr_scale_pre t = Some (XF s),
     tr_location_post t = Some (XF l), tr_scale_post t = Some (XF sp) & s <> 0 /\ sp <> 0]).

(* both fitted scales are positive *)
Definition pos_scales (t : transformer) : Prop :=
  tr_standardize t -> exists s sp, [/\ tr_scale_pre t = Some (XF s), 0 < s,
    tr_scale_post t = Some (XF sp) & 0 < sp].

(* the number in an attribute *)
Definition real_of (o : option xr) : R := if o is Some (XF r) then r else 0.

(* standardised value -> value handed to the inverse transformation, and back *)
Definition pre_inv (t : transformer) (y : R) : R :=
  if tr_standardize t then y * real_of (tr_scale_post t) + real_of (tr_location_post t) else y.
Definition post_std (t : transformer) (y : R) : R :=
  if tr_standardize t then (y - real_of (tr_location_post t)) / real_of (tr_scale_post t) else y.

(* Box-Cox has range { y | lam y + 1 > 0 }, with the one bound -1/lam; values
   beyond it are replaced by 0.95 times the bound *)
Definition bc_clamp (lam y : R) : R :=
  if Rltb (y * lam + 1) 0 then - (95 / 100) / lam else y.
(* Yeo-Johnson: the same on y >= 0, mirrored with 2 - lam on y < 0 *)
Definition yj_clamp (lam y : R) : R :=
  if Rleb 0 y then (if Rltb (y * lam + 1) 0 then - (95 / 100) / lam else y)
  else (if Rltb (1 + (lam - 2) * y) 0 then - (95 / 100) / (lam - 2) else y).

(* the value handed to the inverse is not the bound of the range *)
Definition bc_off_bound (lam y : R) : bool := ~~ Reqb (y * lam + 1) 0.
Definition yj_off_bound (lam y : R) : bool :=
  if Rleb 0 y then ~~ Reqb (y * lam + 1) 0 else ~~ Reqb (1 + (lam - 2) * y) 0.

(* the changepoint lies on the side where Yeo-Johnson is linearised *)
Definition cp_side (lam c : R) : Prop := (1 < lam -> c <= 0) /\ (lam < 1 -> 0 <= c).

(* lambda is more than 5% of the length of [lo, hi] away from both ends *)
Definition margin (lam lo hi : R) : Prop :=
  (hi - lo) * (5 / 100) < Rabs (lam - lo) /\ (hi - lo) * (5 / 100) < Rabs (lam - hi).

(* method given explicitly *)
Definition explicit m := m = Boxcox \/ m = Yeojohnson.
