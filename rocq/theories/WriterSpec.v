(** Vocabulary for the properties of the asynchronous writer. *)
From Coq Require Import List Bool Arith.
From Verif Require Import WriterModel.
Import ListNotations.

(** The accepted tasks, in order of the calls. *)
Fixpoint accepted_tasks {T} (log : list (uevent T)) : list T :=
  match log with
  | [] => []
  | Accepted o :: log' => accepted_tasks log' ++ [o]
  | _ :: log' => accepted_tasks log'
  end.
(** [a] results from [b] by leaving out elements. *)
Inductive part_of {T} : list T -> list T -> Prop :=
| part_nil : part_of [] []
| part_take x a b : part_of a b -> part_of (x :: a) (x :: b)
| part_skip x a b : part_of a b -> part_of a (x :: b).
(** The tasks a thread wants to write. *)
Definition wanted {T} (ops : list (uop T)) : list T :=
  flat_map (fun o => match o with Write t => [t] | _ => [] end) ops.
(** All calls have returned. *)
Definition finished {T} (s : wstate T) : Prop := w_todo s = [] /\ w_user s = Ready.
(** Nobody can move. *)
Definition stuck {T} (fails : T -> bool) (s : wstate T) : Prop := user_step s = None /\ worker_step fails s = None.
(** Number of turns that were not passed. *)
Fixpoint moves {T} (fails : T -> bool) (schedule : list bool) (s : wstate T) : nat :=
  match schedule with
  | [] => 0
  | who :: schedule' =>
      (match (if who then user_step s else worker_step fails s) with Some _ => 1 | None => 0 end) +
      moves fails schedule' (turn fails who s)
  end.
(** Is the writer usable after these calls?  It is not between a [join] and the
    next [restart]. *)
Fixpoint usable {T} (log : list (uevent T)) : bool :=
  match log with
  | [] => true
  | Joined :: _ => false
  | Restarted :: _ => true
  | _ :: log' => usable log'
  end.
(** What a writer without failures answers to the calls. *)
Fixpoint answers {T} (open : bool) (ops : list (uop T)) : list (uevent T) :=
  match ops with
  | [] => []
  | Write o :: ops' => (if open then Accepted o else Rejected o) :: answers open ops'
  | Join :: ops' => Joined :: answers false ops'
  | Restart :: ops' => Restarted :: answers true ops'
  end.
(** A schedule made of [n] parts in each of which both threads get a turn. *)
Inductive rounds : nat -> list bool -> Prop :=
| rounds_none schedule : rounds 0 schedule
| rounds_more n part schedule : In true part -> In false part -> rounds n schedule -> rounds (S n) (part ++ schedule).
(** No call of [restart]. *)
Definition never_restarted {T} (ops : list (uop T)) : Prop := ~ In Restart ops.
(** The tasks before the first one that fails. *)
Fixpoint before_failure {T} (fails : T -> bool) (l : list T) : list T :=
  match l with [] => [] | o :: l' => if fails o then [] else o :: before_failure fails l' end.
Definition prefix_of {T} (a b : list T) : Prop := exists c, b = a ++ c.
(** A task that was taken from the queue or waits in it. *)
Definition on_the_way {T} (s : wstate T) (o : T) : Prop := w_worker s = Working (Save o) \/ In (Save o) (w_queue s).
