(** Vocabulary for two threads on one Autotuner: runs in which each thread moves
    only while the other is between its calls, and the same calls one after the
    other. *)
From Verif Require Import PyBase TargetModel AutotunerModel AutotunerSpec RaceModel.

Section RaceSpec.
Context {W : Type}.
Variable E : env W.

(** Before the first call: [todo] is what the user is going to do. *)
Definition started (s : sys W) (todo : list wop) : race W := mk_race s WOut UReady todo [].
Definition at_rest (r : race W) : Prop := r_worker r = WOut /\ r_user r = UReady.

(** Neither thread moves while the other one is inside a call. *)
Fixpoint exclusive (schedule : list bool) (r : race W) : Prop :=
  match schedule with
  | [] => True
  | who :: rest => (if who then r_worker r = WOut else r_user r = UReady) /\ exclusive rest (race_turn E r who)
  end.

(** One call after the other: [None] is [iterate], which reports how it ended. *)
Definition one_call (so : sys W * list (res unit)) (c : option wop) : sys W * list (res unit) :=
  let (s, out) := so in
  match c with
  | None => (fst (iterate E s), snd (iterate E s) :: out)
  | Some (USet v) => (mk_sys (s_at s) (fst (e_set E v (s_w s))) (s_tr s), out)
  | Some URestart => (fst (restart E s), out)
  | Some (UChange chs) => (fst (change_targets E chs s), out)
  end.
Definition calls (cs : list (option wop)) (s : sys W) : sys W * list (res unit) := fold_left one_call cs (s, []).
(** The calls made by the user. *)
Definition by_user (cs : list (option wop)) : list wop :=
  flat_map (fun c => match c with Some o => [o] | None => [] end) cs.

(** Every voltage vector that was sent had been proposed by a tuner before. *)
Fixpoint proposed_before (tr : list event) : Prop :=
  match tr with
  | [] => True
  | ev :: older => match ev with EvSet v _ => exists i t, In (EvNext i t (Ok v)) older | _ => True end /\ proposed_before older
  end.
(** Only tuners of the hierarchy are called. *)
Definition tuner_exists (ev : event) : Prop :=
  match ev with EvEval i _ _ | EvNext i _ _ => i < e_n E | _ => True end.
End RaceSpec.

(** A device that reports the voltages it was given, with tuners that judge and
    propose as [good] and [next] say. *)
Definition bench (n : nat) (good : nat -> series -> bool) (next : nat -> series -> series) : env series :=
  mk_env series n (fun w => (w, Ok w)) (fun v _ => (v, Ok tt)) (fun _ => [])
    (fun i v w => (w, Ok (good i v))) (fun i _ w => (w, Ok (next i w)))
    (fun _ _ => []) (fun _ _ w => (w, Ok tt)) (fun _ _ w => (w, Ok tt))
    (fun _ _ => Ok tt) (fun _ _ => Ok tt) (fun w => (w, Ok tt)).
