(* Spec: eigen-decompositions and Kendall's rank correlation. *)
From mathcomp Require Import all_ssreflect all_algebra.

Set Implicit Arguments.
Unset Strict Implicit.
Unset Printing Implicit Defensive.

Import GRing.Theory Num.Theory.
Local Open Scope ring_scope.

(* np.linalg.eigh on symmetric matrices: orthonormal eigenvectors and the spectral form *)
Definition correct_eigh (T : rcfType) p (eigh : 'M[T]_p -> 'rV[T]_p * 'M[T]_p) : Prop :=
  forall A, A^T = A ->
  (eigh A).2^T *m (eigh A).2 = 1%:M /\ A = (eigh A).2 *m diag_mx (eigh A).1 *m (eigh A).2^T.

(* numbers of concordant, discordant and untied pairs of observations *)
Definition concordant (T : rcfType) (x y : seq T) : nat :=
  #|[set q : 'I_(size x) * 'I_(size x) | (q.1 < q.2)%N &&
     (0 < (nth 0 x q.1 - nth 0 x q.2) * (nth 0 y q.1 - nth 0 y q.2))]|.
Definition discordant (T : rcfType) (x y : seq T) : nat :=
  #|[set q : 'I_(size x) * 'I_(size x) | (q.1 < q.2)%N &&
     ((nth 0 x q.1 - nth 0 x q.2) * (nth 0 y q.1 - nth 0 y q.2) < 0)]|.
Definition distinct_pairs (T : rcfType) (x : seq T) : nat :=
  #|[set q : 'I_(size x) * 'I_(size x) | (q.1 < q.2)%N && (nth 0 x q.1 != nth 0 x q.2)]|.
