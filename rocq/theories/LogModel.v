(** Messages in the main window: configure_logging, the choice of the level and
    setup_default_gui, qtune/gui.py L53-71, L497-500, L778-808.

    Trusted behaviour of Python's logging: a logger hands a message to its own
    handlers and, as long as [propagate] is set, to those of its parents; its
    level is its own one, or the nearest one above it that is set; new loggers
    have no handlers and no level.  Left out: logging.disable, filters, and the
    handler of last resort. *)
From Coq Require Import String List Bool Arith.
From Verif Require Import PyExn.
Import ListNotations.
Local Open Scope string_scope.
Local Open Scope nat_scope.
Local Open Scope list_scope.

(** The parts of the name, innermost first: "qtune.x" is ["x"; "qtune"], the
    root logger []. *)
Definition name := list string.
Fixpoint name_eqb (a b : name) : bool :=
  match a, b with [], [] => true | x :: a', y :: b' => String.eqb x y && name_eqb a' b' | _, _ => false end.
(** A handler writes into a window or somewhere else. *)
Inductive target := Window (w : nat) | Elsewhere (n : nat).
Record handler := mk_handler { h_target : target; h_level : nat }.
Record logger := mk_logger { handlers : list handler; level : nat; propagate : bool }.
Definition loggers := name -> logger.
Definition put (n : name) (l : logger) (st : loggers) : loggers := fun m => if name_eqb n m then l else st m.

(** [Logger.hasHandlers]: its own or inherited ones. *)
Fixpoint has_handlers (st : loggers) (n : name) : bool :=
  match handlers (st n) with
  | _ :: _ => true
  | [] => if propagate (st n) then match n with [] => false | _ :: p => has_handlers st p end else false
  end.
(** [Logger.callHandlers] and [Logger.getEffectiveLevel]. *)
Fixpoint called (st : loggers) (n : name) (l : nat) : list target :=
  map h_target (filter (fun h => h_level h <=? l) (handlers (st n))) ++
  if propagate (st n) then match n with [] => [] | _ :: p => called st p l end else [].
Fixpoint effective (st : loggers) (n : name) : nat :=
  match level (st n) with
  | 0 => match n with [] => 0 | _ :: p => effective st p end
  | l => l
  end.
(** [getLogger(n).log(l, ...)]: who receives the message. *)
Definition message (st : loggers) (n : name) (l : nat) : list target :=
  if effective st n <=? l then called st n l else [].

Definition stop_iteration : exn := OtherError 8.
(** qtune/gui.py L784-786; [hs]: the handlers that are left. *)
Fixpoint clear (hs : list handler) (n : name) (st : loggers) : loggers * res unit :=
  match hs with
  | [] => (st, if has_handlers st n then Raise stop_iteration else Ok tt)
  | _ :: hs' => clear hs' n (put n (mk_logger hs' (level (st n)) (propagate (st n))) st)
  end.

(** A window: which loggers its choice of the level is connected to, and the
    position of the choice, of which there are six (L497-500); at first the last
    one. *)
Record window := mk_window { w_id : nat; w_connected : list name; w_index : nat }.
Definition levels : list nat := [50; 40; 30; 20; 10; 0].
Definition new_window (i : nat) : window := mk_window i [] 5.
(** qtune/gui.py L778-792. *)
Definition configure (n : name) (s : loggers * window) : (loggers * window) * res unit :=
  let (st, w) := s in
  let w' := mk_window (w_id w) (w_connected w ++ [n]) (w_index w) in
  match clear (handlers (st n)) n st with
  | (st', Raise e) => ((st', w'), Raise e)
  | (st', Ok _) =>
      ((put n (mk_logger (handlers (st' n) ++ [mk_handler (Window (w_id w)) 0]) (level (st' n)) (propagate (st' n))) st', w'), Ok tt)
  end.
(** Choosing the i-th level: nothing happens if it is chosen already, otherwise
    qtune/gui.py L63-66 for every connected logger. *)
Definition choose (i : nat) (s : loggers * window) : loggers * window :=
  let (st, w) := s in
  if w_index w =? i then s
  else (fold_left (fun st n => put n (mk_logger (handlers (st n)) (nth i levels 0) (propagate (st n))) st) (w_connected w) st,
        mk_window (w_id w) (w_connected w) i).
(** qtune/gui.py L800-804, once the window exists. *)
Definition setup_default_gui (i : nat) (st : loggers) : (loggers * window) * res unit :=
  match configure ["plotting"] (st, new_window i) with
  | (s1, Raise e) => (s1, Raise e)
  | (s1, Ok _) => match configure ["qtune"] s1 with
                  | (s2, Raise e) => (s2, Raise e)
                  | (s2, Ok _) => (choose 3 s2, Ok tt)
                  end
  end.
(** Messages of the windows themselves.  The argument [logger] is kept as it is
    given (L395, L568): the main window calls its methods (for example L741),
    the windows opened from it (L614, L661) and their base hand it to
    [getLogger] (L121, L439), which accepts names only. *)
Inductive logger_argument := GivenName | GivenLogger.
Definition main_message (a : logger_argument) : res unit := match a with GivenName => Raise AttributeError | GivenLogger => Ok tt end.
Definition child_message (a : logger_argument) : res unit := match a with GivenName => Ok tt | GivenLogger => Raise TypeError end.
