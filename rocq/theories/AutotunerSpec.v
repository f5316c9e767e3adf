(** Vocabulary for the Autotuner properties: predicates on traces (newest
    event first) and the effect a single action must have. *)
From Verif Require Import PyBase TargetModel AutotunerModel.

(** Calls into tuners/hardware that make up "the action" of an iteration. *)
Definition is_action (ev : event) : bool :=
  match ev with EvEval _ _ _ | EvNext _ _ _ | EvSet _ _ => true | _ => false end.
Definition is_save (ev : event) : bool :=
  match ev with EvSave _ _ => true | _ => false end.

(** Events that count as progress or reset: calls that returned normally. *)
Definition milestone (ev : event) : bool :=
  match ev with
  | EvEval _ _ (Ok _) | EvNext _ _ (Ok _) | EvSet _ (Ok _) | EvRestart | EvChange => true
  | _ => false
  end.
Definition milestones (tr : list event) : list event := filter milestone tr.

(** [climbed k ms rest]: the newest milestones [ms] consist of the evaluations
    "tuner 0 tuned", …, "tuner k-1 tuned" (in this chronological order),
    directly after the older milestones [rest]. *)
Inductive climbed : nat -> list event -> list event -> Prop :=
| climbed_O rest : climbed 0 rest rest
| climbed_S k v ms rest :
    climbed k ms rest -> climbed (S k) (EvEval k v (Ok true) :: ms) rest.

(** The older milestones end in a voltage change or reset (or there are none). *)
Definition at_start (rest : list event) : Prop :=
  match rest with
  | [] | EvSet _ _ :: _ | EvRestart :: _ | EvChange :: _ => True
  | _ => False
  end.

(** The newest milestone is a reset. *)
Definition reset_head (ms : list event) : Prop :=
  match ms with EvRestart :: _ | EvChange :: _ => True | _ => False end.

(** No NaN is ever sent to the hardware. *)
Definition no_nan_set (ev : event) : Prop :=
  match ev with EvSet v _ => forall l x, In (l, x) v -> x <> NaN | _ => True end.

(** The action that is due in a state: a pending set first, then a pending
    computation, otherwise an evaluation. *)
Definition due (a : at_state) (ev : event) : Prop :=
  match a_to_set a, a_status a with
  | Some v, _ => exists r, ev = EvSet v r
  | None, true => exists t r, ev = EvNext (a_index a) t r
  | None, false => exists v r, ev = EvEval (a_index a) v r
  end.

(** State after a completed action ([None] if the action raised). *)
Definition advance (a : at_state) (ev : event) : option at_state :=
  match ev with
  | EvEval _ _ (Ok true) => Some (mk_at (a_index a + 1) (a_status a) (a_to_set a) (a_path a))
  | EvEval _ _ (Ok false) => Some (mk_at (a_index a) true (a_to_set a) (a_path a))
  | EvNext _ _ (Ok v) => Some (mk_at (a_index a) false (Some v) (a_path a))
  | EvSet _ (Ok _) => Some (mk_at 0 (a_status a) None (a_path a))
  | _ => None
  end.

(** The exception an action ended with. *)
Definition raised (ev : event) : option exn :=
  match ev with
  | EvEval _ _ (Raise e) | EvNext _ _ (Raise e) | EvSet _ (Raise e) => Some e
  | _ => None
  end.

(** The saves an iteration has to make when it ends in state [a] without error. *)
Definition saves_due (a : at_state) : list event :=
  match a_path a with None => [] | Some _ => [EvSave a (Ok tt)] end.

(** A parameter is relevant in a target if its row has a value in every column
    in which some row has a value. *)
Definition relevant_param (t : target) (l : label) : Prop :=
  exists row, In row t /\ t_name row = l /\
    forall c, (exists row', In row' t /\ cell c row' <> NaN) -> cell c row <> NaN.

(** Every label of the first list occurs in the second. *)
Definition incl_labels (a b : list label) : Prop := forall l, In l a -> In l b.

(** Coherent naming of gates between experiment and tuners. *)
Definition coherent (gates : list label) (vs : list tuner_view) : Prop :=
  forall v, In v vs ->
    (forall l, tv_last v = Some l -> incl_labels l gates) /\
    incl_labels (tv_gates v) gates /\
    (forall ests pos, tv_newton v = Some ests -> In pos ests ->
       (forall p, pos = Some p -> incl_labels p gates) /\
       (forall tg, tv_subset v = Some tg -> exists p, pos = Some p /\ incl_labels tg p)).

(** Two autotuner states that differ at most in the storage path. *)
Definition same_but_path (a b : at_state) : Prop :=
  a_index a = a_index b /\ a_status a = a_status b /\ a_to_set a = a_to_set b /\
  (a_path a = None <-> a_path b = None).

(** What an action does, up to its result. *)
Inductive action_kind := KEval (i : nat) | KNext (i : nat) | KSet (v : series).
Definition kind_of (ev : event) : option action_kind :=
  match ev with
  | EvEval i _ _ => Some (KEval i)
  | EvNext i _ _ => Some (KNext i)
  | EvSet v _ => Some (KSet v)
  | _ => None
  end.
