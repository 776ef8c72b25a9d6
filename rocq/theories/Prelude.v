(* Common vocabulary of the models: Python exceptions as values, sums and
   means of lists, boolean-mask selection, order statistics. *)
From mathcomp Require Import all_ssreflect all_algebra.
From Verif Require Import RFieldLra.

Set Implicit Arguments.
Unset Strict Implicit.
Unset Printing Implicit Defensive.

Import Order.TTheory GRing.Theory Num.Theory.
Local Open Scope ring_scope.

(* Python/NumPy/scikit-learn exception classes that the modelled code can raise (explicitly, e.g.
   robpy/univariate/base.py:26-30, 44, or through a library call). *)
Inductive err : Type :=
| ValueError | TypeError | IndexError | KeyError | LinAlgError
| NotFittedError | AttributeError | UnboundLocalError | ZeroDivisionError.

(* Result of running a piece of Python (e.g. robpy/univariate/base.py:24-34): a value, an exception, or -
   only for loops modelled with fuel - "did not finish within the given fuel". *)
Inductive res (A : Type) : Type :=
| Ok of A
| Err of err
| NoFuel.
Arguments Err {A} _.
Arguments NoFuel {A}.

(* sequencing of statements, an exception skips the rest (e.g. robpy/univariate/base.py:24-34) *)
Definition bind {A B : Type} (x : res A) (f : A -> res B) : res B :=
  match x with Ok a => f a | Err e => Err e | NoFuel => NoFuel end.

(* a last operation that cannot raise (e.g. robpy/univariate/base.py:24-34) *)
Definition rmap {A B : Type} (f : A -> B) (x : res A) : res B :=
  bind x (fun a => Ok (f a)).

Notation "'do' x <- a ; b" := (bind a (fun x => b))
  (at level 200, x name, a at level 100, b at level 200).

(* no exception was raised (e.g. robpy/univariate/base.py:24-34) *)
Definition is_ok {A} (x : res A) : bool := if x is Ok _ then true else false.

Section Lists.
Variable T : realFieldType.
Implicit Types (s : seq T).

(* np.sum over a list, e.g. robpy/univariate/onestep_m.py:118 *)
Definition fsum s : T := foldr +%R 0 s.

(* np.mean over a list, e.g. robpy/univariate/mcd.py:59, 68; for the empty list NumPy gives NaN, here
   0/0 = 0: users of [fmean] establish non-emptiness *)
Definition fmean s : T := fsum s / (size s)%:R.

(* np.sort, e.g. robpy/univariate/qn.py:49 *)
Definition fsort s : seq T := sort <=%R s.

(* np.partition(X, k-1)[:k].max(), the k-th smallest element, 1 <= k <= len (robpy/univariate/qn.py:81) *)
Definition kth_smallest s (k : nat) : T := nth 0 (fsort s) k.-1.

(* number of elements below a value (the counts of robpy/univariate/qn.py:63) *)
Definition cnt_lt s (x : T) : nat := count (fun y => y < x) s.
(* number of elements at most a value (the counts of robpy/univariate/qn.py:64) *)
Definition cnt_le s (x : T) : nat := count (fun y => y <= x) s.

Lemma fsumE s : fsum s = \sum_(x <- s) x.
Proof. by elim: s => [|x s IH] /=; rewrite ?big_nil // big_cons IH. Qed.

Lemma fsum_cat s1 s2 : fsum (s1 ++ s2) = fsum s1 + fsum s2.
Proof. by rewrite !fsumE big_cat. Qed.

Lemma fsum_perm s1 s2 : perm_eq s1 s2 -> fsum s1 = fsum s2.
Proof. by move=> h; rewrite !fsumE; apply: perm_big. Qed.

Lemma fsum_ge0 s : all (fun x => 0 <= x) s -> 0 <= fsum s.
Proof. by elim: s => //= x s IH /andP[h1 /IH h2]; rewrite addr_ge0. Qed.

Lemma fsum_nth s : fsum s = \sum_(i < size s) nth 0 s i.
Proof. by rewrite fsumE (big_nth 0) big_mkord. Qed.

Lemma fsum_map_add (A : Type) (f g : A -> T) l :
  fsum (map (fun a => f a + g a) l) = fsum (map f l) + fsum (map g l).
Proof. by elim: l => [|a l IH] /=; rewrite ?addr0 // IH addrACA. Qed.

Lemma fsum_map_mul (A : Type) (c : T) (f : A -> T) l :
  fsum (map (fun a => c * f a) l) = c * fsum (map f l).
Proof. by elim: l => [|a l IH] /=; rewrite ?mulr0 // IH mulrDr. Qed.

Lemma fsum_map_const (A : Type) (c : T) (l : seq A) :
  fsum (map (fun _ => c) l) = c * (size l)%:R.
Proof. by elim: l => [|a l IH] /=; rewrite ?mulr0 // IH mulrS mulrDr mulr1. Qed.

Lemma fsum_map_le (A : eqType) (f g : A -> T) l :
  (forall a, a \in l -> f a <= g a) -> fsum (map f l) <= fsum (map g l).
Proof.
elim: l => //= a l IH h; rewrite ler_add ?h ?mem_head //.
by apply: IH => b hb; rewrite h // in_cons hb orbT.
Qed.

Lemma fsum_map_eq (A : eqType) (f g : A -> T) l :
  (forall a, a \in l -> f a = g a) -> fsum (map f l) = fsum (map g l).
Proof. by move=> h; congr fsum; apply/eq_in_map. Qed.

(* sums over a boolean selection *)
Lemma fsum_filter_split (A : Type) (p : pred A) (f : A -> T) l :
  fsum (map f l) = fsum (map f (filter p l)) + fsum (map f (filter (predC p) l)).
Proof.
elim: l => [|a l IH] /=; first by rewrite addr0.
by rewrite IH; case: (p a) => /=; [rewrite addrA|rewrite addrCA].
Qed.

Lemma sort_le_sorted s : sorted <=%R (fsort s).
Proof. exact: sort_le_sorted. Qed.

Lemma size_fsort s : size (fsort s) = size s.
Proof. by rewrite size_sort. Qed.

Lemma mem_fsort s : fsort s =i s.
Proof. exact: mem_sort. Qed.

Lemma perm_fsort s : perm_eq (fsort s) s.
Proof. by rewrite perm_sort. Qed.

Lemma fsort_perm s1 s2 : perm_eq s1 s2 -> fsort s1 = fsort s2.
Proof.
move=> h; apply/perm_sortP => //; [exact: le_total|exact: le_trans|exact: le_anti].
Qed.

Lemma nth_fsort_le s i j :
  (i <= j)%N -> (j < size s)%N -> nth 0 (fsort s) i <= nth 0 (fsort s) j.
Proof.
move=> lij ljs; have := sort_le_sorted s => /(sorted_leq_nth le_trans lexx 0).
by apply; rewrite ?inE ?size_fsort // (leq_ltn_trans lij).
Qed.

Lemma kth_smallest_mem s k :
  (0 < k <= size s)%N -> kth_smallest s k \in s.
Proof.
case: k => // k /= hk; rewrite /kth_smallest /= -(mem_fsort s).
by rewrite mem_nth // size_fsort.
Qed.

(* the k-th smallest element has fewer than k elements strictly below it and
   at least k elements at most equal to it *)
Lemma kth_smallest_count s k :
  (0 < k <= size s)%N ->
  (cnt_lt s (kth_smallest s k) < k)%N /\ (k <= cnt_le s (kth_smallest s k))%N.
Proof.
case: k => // k /= hk; rewrite /kth_smallest /=; set m := nth _ _ _.
have hp p : count p s = count p (fsort s).
  by apply/permP; rewrite perm_sym perm_fsort.
have hks : (k < size (fsort s))%N by rewrite size_fsort.
split.
- rewrite /cnt_lt hp -[fsort s](cat_take_drop k) count_cat ltnS.
  have -> : count (fun y => y < m) (drop k (fsort s)) = 0%N.
    apply/eqP; rewrite -leqn0 leqNgt -has_count; apply/hasPn => x /(nthP 0)[i].
    rewrite size_drop => hi <-; rewrite nth_drop -leNgt.
    apply: nth_fsort_le; first exact: leq_addr.
    by move: hi; rewrite size_fsort ltn_subRL.
  rewrite addn0; apply: leq_trans (count_size _ _) _.
  by rewrite size_take hks.
- rewrite /cnt_le hp -[fsort s](cat_take_drop k.+1) count_cat.
  apply: leq_trans (leq_addr _ _).
  have -> : count (fun y => y <= m) (take k.+1 (fsort s)) = size (take k.+1 (fsort s)).
    apply/eqP; rewrite -all_count; apply/(all_nthP 0) => i.
    rewrite size_takel // => hi; rewrite nth_take //.
    exact: nth_fsort_le.
  by rewrite size_takel.
Qed.

(* uniqueness: these two counts determine the value *)
Lemma kth_unique s k x y :
  (cnt_lt s x < k)%N -> (k <= cnt_le s x)%N ->
  (cnt_lt s y < k)%N -> (k <= cnt_le s y)%N -> x = y.
Proof.
move=> h1 h2 h3 h4; apply/eqP; rewrite eq_le; apply/andP.
have aux u v : u < v -> (cnt_le s u <= cnt_lt s v)%N.
  by move=> luv; apply: sub_count => z /= hz; apply: le_lt_trans hz luv.
split; rewrite leNgt; apply/negP => /aux h.
- by have := leq_trans (leq_ltn_trans (leq_trans h4 h) h1) (leqnn _); rewrite ltnn.
- by have := leq_trans (leq_ltn_trans (leq_trans h2 h) h3) (leqnn _); rewrite ltnn.
Qed.

(* in a sorted list, counting and comparing an entry are the same thing *)
Lemma sorted_nth_count (p : pred T) s m :
  sorted <=%R s -> (forall a b, a <= b -> p b -> p a) -> (m < size s)%N ->
  p (nth 0 s m) = (m < count p s)%N.
Proof.
move=> hs hp hm; have hle i j : (i <= j)%N -> (j < size s)%N -> nth 0 s i <= nth 0 s j.
  move=> lij ljs; apply: (sorted_leq_nth le_trans lexx 0 hs) => //.
  by rewrite inE (leq_ltn_trans lij).
apply/idP/idP => [h|h].
- rewrite -[s](cat_take_drop m.+1) count_cat; apply: leq_trans (leq_addr _ _).
  have -> : count p (take m.+1 s) = size (take m.+1 s).
    apply/eqP; rewrite -all_count; apply/(all_nthP 0) => i.
    rewrite size_takel // => hi; rewrite nth_take //.
    by apply: hp h; apply: hle.
  by rewrite size_takel.
- case hpm: (p _) => //; move: h; rewrite -[X in count _ X](cat_take_drop m s) count_cat.
  have -> : count p (drop m s) = 0%N.
    apply/eqP; rewrite -leqn0 leqNgt -has_count; apply/hasPn => x /(nthP 0)[i].
    rewrite size_drop ltn_subRL => hi <-; rewrite nth_drop.
    apply/negP => hx; move/negbT/negP: hpm; apply; apply: hp hx.
    by apply: hle => //; exact: leq_addr.
  rewrite addn0 => /leq_trans/(_ (count_size _ _)).
  by rewrite size_take hm ltnn.
Qed.

Lemma sorted_nth_lt s m t : sorted <=%R s -> (m < size s)%N ->
  (nth 0 s m < t) = (m < cnt_lt s t)%N.
Proof.
move=> hs hm; apply: (sorted_nth_count (p := fun y => y < t)) => // a b; exact: le_lt_trans.
Qed.

Lemma sorted_nth_le s m t : sorted <=%R s -> (m < size s)%N ->
  (nth 0 s m <= t) = (m < cnt_le s t)%N.
Proof.
move=> hs hm; apply: (sorted_nth_count (p := fun y => y <= t)) => // a b; exact: le_trans.
Qed.

End Lists.

Lemma sqr_normr (T : realFieldType) (x : T) : `|x| ^+ 2 = x ^+ 2.
Proof. by rewrite real_normK // num_real. Qed.

Arguments fsum {T} s.
Arguments fmean {T} s.
Arguments fsort {T} s.
Arguments kth_smallest {T} s k.
Arguments cnt_lt {T} s x.
Arguments cnt_le {T} s x.
