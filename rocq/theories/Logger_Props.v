(* Property theorems: get_logger (C12). *)
From mathcomp Require Import all_ssreflect.
From Verif Require Import Logger_Model.

Set Implicit Arguments.
Unset Strict Implicit.
Unset Printing Implicit Defensive.

Section Props.
Variable name : eqType.
Variable ancestors : name -> seq name.
Implicit Types (w : registry name) (calls : seq (name * nat)).

(* the level given in the last call for n *)
Fixpoint last_level (n : name) (calls : seq (name * nat)) : option nat :=
  match calls with
  | [::] => None
  | (m, l) :: calls' =>
      if last_level n calls' is Some k then Some k else if m == n then Some l else None
  end.

Lemma get_logger_own w n l : get_logger ancestors w n l n = Logger l [:: l].
Proof.
rewrite /get_logger eqxx /has_handlers /=; case: eqP => [->|_] //=.
by case: has.
Qed.

Lemma get_logger_other w n l m : m != n -> get_logger ancestors w n l m = w m.
Proof. by rewrite /get_logger => /negbTE ->. Qed.

(* whatever handlers existed before: a requested logger ends with one handler, both at
   the level of the last request; all other loggers are untouched *)
Theorem get_logger_one_handler w calls n :
  get_loggers ancestors w calls n
  = if last_level n calls is Some l then Logger l [:: l] else w n.
Proof.
elim: calls w => [|[m l] calls IH] w //=; rewrite /get_loggers /= -/(get_loggers _ _ calls) IH.
case: (last_level n calls) => //; case: eqP => [->|/eqP h]; first exact: get_logger_own.
by apply: get_logger_other; rewrite eq_sym.
Qed.

(* the level of a logger obtained earlier follows a later request with the same name *)
Theorem get_logger_shared w n l1 l2 between :
  lg_level (get_loggers ancestors w ((n, l1) :: rcons between (n, l2)) n) = l2.
Proof.
rewrite get_logger_one_handler.
have -> // : last_level n ((n, l1) :: rcons between (n, l2)) = Some l2.
rewrite /= (_ : last_level n (rcons _ _) = Some l2) //.
elim: between => [|[m l] b IH] /=; first by rewrite eqxx.
by rewrite IH.
Qed.
End Props.

(* the root logger (0) has two handlers, "a" (1) is requested twice, "b" (2) once *)
Example get_logger_ex :
  let w n := if n == 0 then Logger 30 [:: 30; 10] else Logger 0 [::] in
  let w' := get_loggers (fun=> [:: 0]) w [:: (1, 20); (2, 10); (1, 40)] in
  [/\ w' 0 = Logger 30 [:: 30; 10], w' 1 = Logger 40 [:: 40] & w' 2 = Logger 10 [:: 10]].
Proof. by []. Qed.

Print Assumptions get_logger_one_handler.
Print Assumptions get_logger_shared.
