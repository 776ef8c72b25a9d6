(* Spec: orthonormal columns and the routines of numpy and sklearn used by the PCA estimators. *)
From mathcomp Require Import all_ssreflect all_algebra.
From Verif Require Import Cov_Spec.

Set Implicit Arguments.
Unset Strict Implicit.
Unset Printing Implicit Defensive.

Import GRing.Theory Num.Theory.
Local Open Scope ring_scope.

Section Spec.
Variable T : rcfType.

(* the columns are orthonormal *)
Definition orthonormal p k (C : 'M[T]_(p, k)) : Prop := C^T *m C = 1%:M.

(* np.linalg.eigh for all sizes *)
Definition good_eigh (eigh : forall q, 'M[T]_q -> 'rV[T]_q * 'M[T]_q) : Prop :=
  forall q, correct_eigh (@eigh q).

(* an order of the eigenvalues *)
Definition good_argsort (argsort_eig : forall q, 'rV[T]_q -> 'I_q -> 'I_q) : Prop :=
  forall q w, injective (@argsort_eig q w).

(* ... an ascending one *)
Definition ascending (argsort_eig : forall q, 'rV[T]_q -> 'I_q -> 'I_q) : Prop :=
  forall q (w : 'rV[T]_q) (i j : 'I_q), (i <= j)%N -> w 0 (argsort_eig q w i) <= w 0 (argsort_eig q w j).

(* a rank is at most the number of rows *)
Definition good_rank (matrix_rank : forall q, 'M[T]_q -> nat) : Prop :=
  forall q A, (@matrix_rank q A <= q)%N.

End Spec.
