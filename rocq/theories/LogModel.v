(** * The logger.

    Source: misc/logger.hpp 14-86.  Writers are objects identified by numbers; number 0 is the writer the logger is created with.  A user-defined
    writer is what its overrides do: [user w] tells that the writer [w] is not a StandartOutputWriter, it receives everything.  No proofs in this
    file. *)

From Coq Require Import Ascii String List Arith Bool.
From Verif Require Import IOModel.
Import ListNotations.
Local Open Scope list_scope.

(** logging_level_to_string, lines 22-41; the levels are 0, 10, 20, 30, 40. *)
Definition level_prefix (l : nat) : str :=
  list_ascii_of_string
    (match l with
     | 0 => "[Htool critical] "
     | 10 => "[Htool error]    "
     | 20 => "[Htool warning]  "
     | 30 => "[Htool debug]    "
     | 40 => "[Htool info]     "
     | _ => ""
     end)%string.

Inductive log_op : Type :=
| SetLevel : nat -> log_op          (* set_current_log_level, lines 64-65 *)
| SetWriter : nat -> log_op         (* set_current_writer, line 71 *)
| Log : nat -> str -> log_op.       (* log, lines 73-75 *)

(** The current writer and the level of each standard writer (ERROR at first, line 51). *)
Record log_state : Type := mkLog { lg_current : nat; lg_levels : nat -> nat }.
Definition log_init : log_state := mkLog 0 (fun _ => 10).

Section L.
  Variable user : nat -> bool.

  (** What a call writes: the writer, and the text for the standard output or what the user's writer receives. *)
  Definition log_step (s : log_state) (o : log_op) : log_state * list (nat * str) :=
    match o with
    | SetLevel l => (mkLog (lg_current s) (fun w => if w =? lg_current s then l else lg_levels s w), [])
    | SetWriter w => (mkLog w (lg_levels s), [])
    | Log l m =>
        if user (lg_current s) then (s, [(lg_current s, m)])
        else if l <=? lg_levels s (lg_current s) then (s, [(lg_current s, level_prefix l ++ m ++ [newline])]) else (s, [])
    end.
  Definition log_run (s : log_state) (h : list log_op) : log_state * list (nat * str) :=
    fold_left (fun sp o => let '(s', out) := log_step (fst sp) o in (s', snd sp ++ out)) h (s, []).
End L.
