(** Vocabulary for the properties of the main window. *)
From Coq Require Import List Bool Arith.
From Verif Require Import GuiModel.
Import ListNotations.

(** Number of calls of [iterate]. *)
Fixpoint iterations (log : list gevent) : nat :=
  match log with
  | [] => 0
  | Iterated _ :: log' => S (iterations log')
  | _ :: log' => iterations log'
  end.
(** Number of calls of one handler that returned. *)
Definition button_eqb (a b : button) : bool :=
  match a, b with
  | Start, Start | Step, Step | Pause, Pause | Close, Close | Restart, Restart => true
  | _, _ => false
  end.
Fixpoint returned (b : button) (log : list gevent) : nat :=
  match log with
  | [] => 0
  | Returned b' :: log' => (if button_eqb b b' then 1 else 0) + returned b log'
  | _ :: log' => returned b log'
  end.
(** Turns of the worker in a schedule. *)
Definition worker_turns (schedule : list bool) : nat := length (filter negb schedule).
(** Nobody asks for more work. *)
Definition no_more_work (ops : list button) : Prop := ~ In Start ops /\ ~ In Step ops.
(** The window asks for nothing and will not. *)
Definition at_rest (s : gui) : Prop := g_user s = UReady /\ no_more_work (g_todo s).
