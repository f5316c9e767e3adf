(** qtune/autotuner.py: the Autotuner state machine over an arbitrary
    experiment and arbitrary parameter tuners.

    The experiment and the tuners (with their solvers, estimators and
    evaluators, which may be shared between tuners) act on an arbitrary world
    [W]; the record [env] collects the calls the Autotuner makes into them.
    Every call may raise and may change the world before raising. *)
From Verif Require Import PyBase TargetModel.

(** What [ready_to_tune] inspects of one tuner (qtune/autotuner.py L170-205). *)
Record tuner_view := mk_view {
  tv_last : option (list label);      (* par_tuner.last_voltages.index, None if unset *)
  tv_gates : list label;              (* par_tuner.solver.current_position.index *)
  tv_newton : option (list (option (list label)));
      (* for a NewtonSolver: the indices of its estimators' positions *)
  tv_subset : option (list label)     (* for a SubsetTuner: its tunable gates *)
}.

(** The environment: everything the Autotuner calls. *)
Record env (W : Type) := mk_env {
  e_n : nat;                                             (* len(tuning_hierarchy) *)
  e_read : W -> W * res series;                          (* experiment.read_gate_voltages() *)
  e_set : series -> W -> W * res unit;                   (* experiment.set_gate_voltages(v) *)
  e_views : W -> list tuner_view;                        (* attributes read by ready_to_tune *)
  e_is_tuned : nat -> series -> W -> W * res bool;       (* hierarchy[i].is_tuned(v) *)
  e_next : nat -> list label -> W -> W * res series;     (* hierarchy[i].get_next_voltages(tuned) *)
  e_target : nat -> W -> target;                         (* hierarchy[i].target *)
  e_set_target : nat -> list (column * series) -> W -> W * res unit;  (* hierarchy[i].target = … *)
  e_restart : nat -> series -> W -> W * res unit;        (* hierarchy[i].restart(v) *)
  e_log_step : series -> W -> res unit;   (* qtune/autotuner.py L260-266: frame built for the log, e.g. KeyError *)
  e_log_dist : nat -> W -> res unit;      (* qtune/autotuner.py L281-285: distances for the log, e.g. KeyError *)
  e_write : W -> W * res unit             (* asynchrone_writer.write, RuntimeError if it died *)
}.
Arguments e_n {W}. Arguments e_read {W}. Arguments e_set {W}. Arguments e_views {W}.
Arguments e_is_tuned {W}. Arguments e_next {W}. Arguments e_target {W}.
Arguments e_set_target {W}. Arguments e_restart {W}. Arguments e_log_step {W}.
Arguments e_log_dist {W}. Arguments e_write {W}.

(** The attributes of the Autotuner that change while tuning,
    qtune/autotuner.py L71-74; [a_path] is [_hdf5_storage_path] (L76-82). *)
Record at_state := mk_at {
  a_index : nat;                 (* _current_tuner_index *)
  a_status : bool;               (* _current_tuner_status *)
  a_to_set : option series;      (* _voltages_to_set *)
  a_path : option string         (* _hdf5_storage_path *)
}.

(** Observable events, recorded in the order they happen (newest first). *)
Inductive event :=
| EvRead (r : res series)                       (* read_gate_voltages *)
| EvEval (i : nat) (v : series) (r : res bool)  (* hierarchy[i].is_tuned(v) *)
| EvNext (i : nat) (tuned : list label) (r : res series)  (* hierarchy[i].get_next_voltages *)
| EvSet (v : series) (r : res unit)             (* set_gate_voltages(v) *)
| EvSave (s : at_state) (r : res unit)          (* a snapshot handed to the writer *)
| EvTarget (i : nat) (r : res unit)             (* hierarchy[i].target was assigned *)
| EvRestart                                     (* Autotuner.restart() was called *)
| EvChange                                      (* Autotuner.change_targets() took effect *).

Section Autotuner.
Context {W : Type}.

(** Autotuner, world and trace. *)
Record sys := mk_sys { s_at : at_state; s_w : W; s_tr : list event }.

(** Methods: change the system and return or raise. *)
Definition M (A : Type) := sys -> sys * res A.
Definition ret {A} (a : A) : M A := fun s => (s, Ok a).
Definition raise {A} (e : exn) : M A := fun s => (s, Raise e).
Definition bind {A B} (m : M A) (k : A -> M B) : M B :=
  fun s => match m s with
           | (s', Ok a) => k a s'
           | (s', Raise e) => (s', Raise e)
           end.
Local Notation "x <- m ;; k" := (bind m (fun x => k)) (at level 61, m at next level, right associativity).

(** Attribute access. *)
Definition get_at : M at_state := fun s => (s, Ok (s_at s)).
Definition put_at (a : at_state) : M unit := fun s => (mk_sys a (s_w s) (s_tr s), Ok tt).
Definition get_w : M W := fun s => (s, Ok (s_w s)).
Definition lift {A} (r : res A) : M A := fun s => (s, r).
(** A call into the environment, recorded as an event. *)
Definition call {A} (f : W -> W * res A) (ev : res A -> event) : M A :=
  fun s => let (w', r) := f (s_w s) in (mk_sys (s_at s) w' (ev r :: s_tr s), r).
(** A call into the environment that is not part of the trace. *)
Definition silent {A} (f : W -> W * res A) : M A :=
  fun s => let (w', r) := f (s_w s) in (mk_sys (s_at s) w' (s_tr s), r).
Definition emit (ev : event) : M unit := fun s => (mk_sys (s_at s) (s_w s) (ev :: s_tr s), Ok tt).

Variable E : env W.

(** qtune/autotuner.py L185-205: one tuner's NewtonSolver estimators.
    L197 reads [gradient_estimator.current_position.index], AttributeError if
    the position is None. *)
Fixpoint estimators_coherent (gates : list label) (subset_gates : option (list label))
         (ests : list (option (list label))) (acc : bool) : res bool :=
  match ests with
  | [] => Ok acc
  | pos :: rest =>
      let acc1 := match pos with Some p => acc && subset p gates | None => acc end in
      match subset_gates with
      | None => estimators_coherent gates subset_gates rest acc1
      | Some tg =>
          match pos with
          | None => Raise AttributeError
          | Some p => estimators_coherent gates subset_gates rest (acc1 && subset tg p)
          end
      end
  end.

(** qtune/autotuner.py L170-205: loop over the hierarchy. *)
Fixpoint views_coherent (gates : list label) (vs : list tuner_view) (acc : bool) : res bool :=
  match vs with
  | [] => Ok acc
  | v :: rest =>
      let acc1 := match tv_last v with Some l => acc && subset l gates | None => acc end in
      let acc2 := acc1 && subset (tv_gates v) gates in
      match tv_newton v with
      | None => views_coherent gates rest acc2
      | Some ests =>
          match estimators_coherent gates (tv_subset v) ests acc2 with
          | Ok acc3 => views_coherent gates rest acc3
          | Raise e => Raise e
          end
      end
  end.

(** qtune/autotuner.py L161-206 [ready_to_tune]. *)
Definition ready_to_tune : M bool :=
  volts <- call (e_read E) EvRead ;;
  a <- get_at ;;
  w <- get_w ;;
  let gates := index volts in
  match a_to_set a with
  | Some v => if subset (index v) gates then lift (views_coherent gates (e_views E w) true)
              else raise AssertionError
  | None => lift (views_coherent gates (e_views E w) true)
  end.

(** qtune/autotuner.py L155-159 [is_tuning_complete]. *)
Definition is_tuning_complete (a : at_state) : bool := a_index a =? e_n E.

(** qtune/autotuner.py L141-149 [tuned_parameters]: the relevant parameters of
    all tuners below the current one. *)
Definition tuned_parameters (a : at_state) (w : W) : list label :=
  flat_map (fun i => relevant (e_target E i w)) (seq 0 (a_index a)).

(** qtune/autotuner.py L227-236 [save_current_status]: nothing without a
    path; otherwise the state is snapshot (deepcopy, qtune/storage.py L367) and
    handed to the writer.  Creation of the directory is part of [e_write]. *)
Definition save_current_status : M unit :=
  a <- get_at ;;
  match a_path a with
  | None => ret tt
  | Some _ => call (e_write E) (EvSave a)
  end.

(** qtune/autotuner.py L256-270: set the pending voltages. *)
Definition do_set (v : series) : M unit :=
  if any_na v then raise RuntimeError
  else
    w <- get_w ;;
    _ <- lift (e_log_step E v w) ;;
    _ <- call (e_set E v) (EvSet v) ;;
    a <- get_at ;;
    put_at (mk_at 0 (a_status a) None (a_path a)).

(** qtune/autotuner.py L271-285: evaluate the current tuner. *)
Definition do_eval : M unit :=
  a <- get_at ;;
  volts <- call (e_read E) EvRead ;;
  b <- call (e_is_tuned E (a_index a) volts) (EvEval (a_index a) volts) ;;
  if b : bool then
    put_at (mk_at (S (a_index a)) (a_status a) (a_to_set a) (a_path a))
  else
    _ <- put_at (mk_at (a_index a) true (a_to_set a) (a_path a)) ;;
    w <- get_w ;;
    lift (e_log_dist E (a_index a) w).

(** qtune/autotuner.py L286-289: compute the next voltages. *)
Definition do_next : M unit :=
  a <- get_at ;;
  w <- get_w ;;
  let tuned := tuned_parameters a w in
  v <- call (e_next E (a_index a) tuned) (EvNext (a_index a) tuned) ;;
  put_at (mk_at (a_index a) false (Some v) (a_path a)).

(** qtune/autotuner.py L243-291 [iterate]. *)
Definition iterate : M unit :=
  ready <- ready_to_tune ;;
  if negb ready then raise RuntimeError
  else
    a <- get_at ;;
    if is_tuning_complete a then raise RuntimeError
    else
      _ <- match a_to_set a with
           | Some v => do_set v
           | None => if a_status a then do_next else do_eval
           end ;;
      save_current_status.

(** qtune/autotuner.py L299-300: restart of all tuners. *)
Fixpoint restart_tuners (is : list nat) (v : series) : M unit :=
  match is with
  | [] => ret tt
  | i :: is' => _ <- silent (e_restart E i v) ;; restart_tuners is' v
  end.

(** qtune/autotuner.py L293-300 [restart]: index and pending voltages are
    reset first; [_current_tuner_status] is not touched. *)
Definition restart : M unit :=
  a <- get_at ;;
  _ <- put_at (mk_at 0 (a_status a) None (a_path a)) ;;
  _ <- emit EvRestart ;;
  v <- call (e_read E) EvRead ;;
  restart_tuners (seq 0 (e_n E)) v.

(** qtune/autotuner.py L216-217: change the targets of the first tuners. *)
Fixpoint change_tuners (i : nat) (chs : list (list (column * series))) : M unit :=
  match chs with
  | [] => ret tt
  | ch :: chs' => _ <- call (e_set_target E i ch) (EvTarget i) ;; change_tuners (S i) chs'
  end.

(** qtune/autotuner.py L208-219 [change_targets]: [_current_tuner_status] is
    not touched. *)
Definition change_targets (chs : list (list (column * series))) : M unit :=
  if length chs <=? e_n E then
    _ <- change_tuners 0 chs ;;
    a <- get_at ;;
    _ <- put_at (mk_at 0 (a_status a) None (a_path a)) ;;
    emit EvChange
  else raise AssertionError.

(** The public calls that change an Autotuner; the caller may catch any
    exception and carry on. *)
Inductive op := OpIterate | OpRestart | OpChange (chs : list (list (column * series))).

Definition step (s : sys) (o : op) : sys :=
  match o with
  | OpIterate => fst (iterate s)
  | OpRestart => fst (restart s)
  | OpChange chs => fst (change_targets chs s)
  end.

Definition run (s : sys) (ops : list op) : sys := fold_left step ops s.

(** qtune/autotuner.py L37-84 [__init__] with default arguments; the time stamp
    appended to the path at L78 is the argument [stamp]. *)
Definition fresh (path : option string) (w : W) : sys :=
  mk_sys (mk_at 0 false None path) w [].

End Autotuner.
Arguments sys W : clear implicits.

(** qtune/autotuner.py L302-311 [to_hdf5]: the constructor arguments that are
    stored (hierarchy and experiment are stored alongside, see StorageModel). *)
Record at_file := mk_file {
  f_index : nat; f_status : bool; f_to_set : option series; f_path : option string }.
Definition at_to_hdf5 (a : at_state) : at_file :=
  mk_file (a_index a) (a_status a) (a_to_set a) (a_path a).

(** qtune/autotuner.py L76-82: the storage path of a new Autotuner.
    [join_stamp p] is [os.path.join(p, time_string())]; a missing or empty path
    (falsy) means no storage. *)
Definition storage_path (join_stamp : string -> string) (append_time : bool)
           (p : option string) : option string :=
  match p with
  | None => None
  | Some p => if String.eqb p "" then None
              else if append_time then Some (join_stamp p) else Some p
  end.

(** qtune/autotuner.py L71-82 [__init__] called by from_hdf5
    (qtune/storage.py L202-218) with the stored arguments:
    [append_time_to_path] is not among them, so its default True applies. *)
Definition at_from_hdf5 (join_stamp : string -> string) (f : at_file) : at_state :=
  mk_at (f_index f) (f_status f) (f_to_set f) (storage_path join_stamp true (f_path f)).
