(** Model of qtune/storage.py L297-369: the asynchronous writer.  One user
    thread, one worker, a queue. *)
From Coq Require Import List Bool Arith.
Import ListNotations.

Section Writer.
(** What is written: the deep copy of the object at the time of the call and
    the file name. *)
Variable T : Type.
(** to_hdf5 raises for this task, L307-310. *)
Variable fails : T -> bool.

(** Queue entries: [None] (L349) or a task (L369). *)
Inductive task := Stop | Save (o : T).

(** The worker, L297-312: before [get], after [get], in the finally clause (with
    or without another round), after [task_done] on its way out ([is_alive] is
    still True), ended. *)
Inductive wphase := Waiting | Working (t : task) | Closing (go_on : bool) | Ending | Dead.

(** Calls of the user thread, one after the other. *)
Inductive uop := Write (o : T) | Join | Restart.
(** Where the user thread is: between calls; in [write] after the check L361; in
    [join] after the check L348, in [_queue.join()] L350, in [_worker.join()]
    L355.  The flag tells whether the call is [restart], L341-344. *)
Inductive uphase := Ready | WritePut (o : T) | JoinPut (again : bool) | JoinQueue (again : bool) | JoinWorker (again : bool).

(** Outcomes of the calls: a task was put into the queue, [write] raised
    RuntimeError (L362), [join] returned, [restart] returned. *)
Inductive uevent := Accepted (o : T) | Rejected (o : T) | Joined | Restarted.

Record wstate := mk_wstate {
  w_queue : list task; w_unfinished : nat; w_worker : wphase;
  w_files : list T;                     (* in the order of writing *)
  w_user : uphase; w_todo : list uop;
  w_log : list uevent                   (* latest first *) }.

(** qtune/storage.py L331-339: a new writer, used by a thread that makes the calls [ops]. *)
Definition writer_start (ops : list uop) : wstate := mk_wstate [] 0 Waiting [] Ready ops [].

(** One step of the worker ([None]: it cannot move). *)
Definition worker_step (s : wstate) : option wstate :=
  let st w q u f := Some (mk_wstate q u w f (w_user s) (w_todo s) (w_log s)) in
  match w_worker s with
  | Waiting => match w_queue s with
               | [] => None
               | t :: q => st (Working t) q (w_unfinished s) (w_files s)
               end
  | Working Stop => st (Closing false) (w_queue s) (w_unfinished s) (w_files s)
  | Working (Save o) => if fails o then st (Closing false) (w_queue s) (w_unfinished s) (w_files s)
                        else st (Closing true) (w_queue s) (w_unfinished s) (w_files s ++ [o])
  | Closing go_on => st (if go_on then Waiting else Ending) (w_queue s) (w_unfinished s - 1) (w_files s)
  | Ending => st Dead (w_queue s) (w_unfinished s) (w_files s)
  | Dead => None
  end.

Definition alive (s : wstate) : bool := match w_worker s with Dead => false | _ => true end.

(** One step of the user thread ([None]: it waits or has nothing left to do). *)
Definition user_step (s : wstate) : option wstate :=
  let st q u w p ops log := Some (mk_wstate q u w (w_files s) p ops log) in
  let q := w_queue s in let u := w_unfinished s in let w := w_worker s in let ops := w_todo s in let log := w_log s in
  let begin_join again ops' := if alive s then st q u w (JoinPut again) ops' log else st q u w (JoinWorker again) ops' log in
  match w_user s with
  | Ready => match ops with
             | [] => None
             | Write o :: ops' => if alive s then st q u w (WritePut o) ops' log
                                  else st q u w Ready ops' (Rejected o :: log)
             | Join :: ops' => begin_join false ops'
             | Restart :: ops' => begin_join true ops'
             end
  | WritePut o => st (q ++ [Save o]) (S u) w Ready ops (Accepted o :: log)
  | JoinPut again => st (q ++ [Stop]) (S u) w (JoinQueue again) ops log
  | JoinQueue again => if Nat.eqb u 0 then st q u w (JoinWorker again) ops log else None
  | JoinWorker again => match w with
                        | Dead => if again then st [] 0 Waiting Ready ops (Restarted :: log)
                                  else st q u w Ready ops (Joined :: log)
                        | _ => None
                        end
  end.

(** An interleaving: who moves next ([true] the user thread); a thread that
    cannot move lets the turn pass. *)
Definition turn (who : bool) (s : wstate) : wstate :=
  match (if who then user_step s else worker_step s) with Some s' => s' | None => s end.
Definition writer_run (schedule : list bool) (s : wstate) : wstate := fold_left (fun s who => turn who s) schedule s.
End Writer.
Arguments Stop {T}. Arguments Save {T}. Arguments Waiting {T}. Arguments Working {T}. Arguments Closing {T}. Arguments Ending {T}. Arguments Dead {T}.
Arguments Write {T}. Arguments Join {T}. Arguments Restart {T}.
Arguments Ready {T}. Arguments WritePut {T}. Arguments JoinPut {T}. Arguments JoinQueue {T}. Arguments JoinWorker {T}.
Arguments Accepted {T}. Arguments Rejected {T}. Arguments Joined {T}. Arguments Restarted {T}.
Arguments mk_wstate {T}. Arguments w_queue {T}. Arguments w_unfinished {T}. Arguments w_worker {T}. Arguments w_files {T}.
Arguments w_user {T}. Arguments w_todo {T}. Arguments w_log {T}.
Arguments writer_start {T}. Arguments worker_step {T}. Arguments user_step {T}. Arguments turn {T}. Arguments writer_run {T}. Arguments alive {T}.
