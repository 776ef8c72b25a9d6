(* Model of robpy/utils/logging.py on top of the shared registry of Python's logging
   module. *)
From mathcomp Require Import all_ssreflect.

Set Implicit Arguments.
Unset Strict Implicit.
Unset Printing Implicit Defensive.

Section Model.
(* logger names *)
Variable name : eqType.
(* the loggers a name propagates to, nearest first, ending with the root logger *)
Variable ancestors : name -> seq name.

(* a logging.Logger as seen by utils/logging.py:15-22: its level and the levels of its own handlers,
   in order of addition *)
Record logger := Logger { lg_level : nat; lg_handlers : seq nat }.

(* the loggers reached by logging.getLogger (utils/logging.py:15), one per name.  A logger that has
   not been requested yet is created with level NOTSET (0) and no handlers. *)
Definition registry := name -> logger.

(* logger.hasHandlers() (utils/logging.py:17): looks at the logger and at all its ancestors *)
Definition has_handlers (w : registry) (n : name) : bool :=
  has (fun m => lg_handlers (w m) != [::]) (n :: ancestors n).

(* logging.py:15-22 of robpy/utils: getLogger, setLevel, clear, new StreamHandler with
   the level, addHandler *)
Definition get_logger (w : registry) (n : name) (level : nat) : registry :=
  let own := if has_handlers w n then [::] else lg_handlers (w n) in
  fun m => if m == n then Logger level (rcons own level) else w m.

(* a history of get_logger calls (utils/logging.py:4-22) *)
Definition get_loggers (w : registry) (calls : seq (name * nat)) : registry :=
  foldl (fun w c => get_logger w c.1 c.2) w calls.

End Model.
