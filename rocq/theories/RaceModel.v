(** [Autotuner.iterate] in the worker thread of the main window while the thread
    of the window reloads voltages, restarts or changes targets
    (qtune/gui.py L448-456, L713; both threads use the same Autotuner and there
    is no lock).  Every reading and writing of an attribute of the Autotuner and
    every call into the experiment, the tuners and the writer is one step.
    Simplifications: the calls themselves are not interrupted; the hierarchy
    and the storage path do not change. *)
From Verif Require Import PyBase TargetModel AutotunerModel.

(** Where the worker is in [iterate], qtune/autotuner.py. *)
Inductive wpc :=
| WOut                                    (* between two calls *)
| WTest (volts : series)                  (* L168 *)
| WAssert (volts : series)                (* L169 *)
| WViews (volts : series)                 (* L170-206, L250 *)
| WComplete                               (* L253 *)
| WBranch                                 (* L256 *)
| WNan                                    (* L257 *)
| WLogIndex                               (* L261 *)
| WLogTarget                              (* L262-266 *)
| WSetting                                (* L268 *)
| WReset1                                 (* L269 *)
| WReset2                                 (* L270 *)
| WStatus                                 (* L271 *)
| WPickEval                               (* L274 [get_current_tuner] *)
| WRead (i : nat)                         (* L274 [read_gate_voltages] *)
| WEval (i : nat) (volts : series)        (* L274 [is_tuned] *)
| WLoad                                   (* L275, reading *)
| WStore (j : nat)                        (* L275, writing *)
| WUntuned                                (* L279 *)
| WLogDist                                (* L281-285 *)
| WPickNext                               (* L287 [get_current_tuner] *)
| WTuned (i : nat)                        (* L287 [tuned_parameters] *)
| WNext (i : nat) (tuned : list label)    (* L287 [get_next_voltages] *)
| WPut (v : series)                       (* L287, writing *)
| WClear                                  (* L288 *)
| WSave.                                  (* L291 *)

(** What is done in the thread of the window: the voltages are set by hand or by
    [reload_voltages] (qtune/gui.py L453), [restart] (L454), [change_targets]. *)
Inductive wop := USet (v : series) | URestart | UChange (chs : list (list (column * series))).

(** Where the thread of the window is. *)
Inductive upc :=
| UReady
| URestart1                                              (* L297 *)
| URestart2                                              (* L298 *)
| URestart3 (v : series) (is : list nat)                 (* L299-300 *)
| UChange1 (i : nat) (chs : list (list (column * series)))  (* L216-217 *)
| UChange2                                               (* L219 *).

Section Race.
Context {W : Type}.
Variable E : env W.

Record race := mk_race {
  r_sys : sys W;
  r_worker : wpc;
  r_user : upc;
  r_todo : list wop;
  r_out : list (res unit)   (* how the calls of [iterate] ended, latest first *)
}.

(** The attributes, one at a time. *)
Definition with_index (i : nat) (s : sys W) : sys W :=
  mk_sys (mk_at i (a_status (s_at s)) (a_to_set (s_at s)) (a_path (s_at s))) (s_w s) (s_tr s).
Definition with_status (b : bool) (s : sys W) : sys W :=
  mk_sys (mk_at (a_index (s_at s)) b (a_to_set (s_at s)) (a_path (s_at s))) (s_w s) (s_tr s).
Definition with_to_set (v : option series) (s : sys W) : sys W :=
  mk_sys (mk_at (a_index (s_at s)) (a_status (s_at s)) v (a_path (s_at s))) (s_w s) (s_tr s).

(** qtune/autotuner.py L243-291: one step of the worker.  An exception ends
    [iterate]; the worker calls it again later. *)
Definition race_worker (r : race) : race :=
  let s := r_sys r in
  let a := s_at s in
  let goto w s' := mk_race s' w (r_user r) (r_todo r) (r_out r) in
  let finish o s' := mk_race s' WOut (r_user r) (r_todo r) (o :: r_out r) in
  let after {A} (m : M A) (k : A -> sys W -> race) : race :=
    match m s with (s', Ok x) => k x s' | (s', Raise e) => finish (Raise e) s' end in
  match r_worker r with
  | WOut => after (call (e_read E) EvRead) (fun v => goto (WTest v))
  | WTest v => goto (match a_to_set a with None => WViews v | Some _ => WAssert v end) s
  | WAssert v => match a_to_set a with
                 | None => finish (Raise AttributeError) s
                 | Some x => if subset (index x) (index v) then goto (WViews v) s else finish (Raise AssertionError) s
                 end
  | WViews v => match views_coherent (index v) (e_views E (s_w s)) true with
                | Ok true => goto WComplete s
                | Ok false => finish (Raise RuntimeError) s
                | Raise e => finish (Raise e) s
                end
  | WComplete => if a_index a =? e_n E then finish (Raise RuntimeError) s else goto WBranch s
  | WBranch => goto (match a_to_set a with None => WStatus | Some _ => WNan end) s
  | WNan => match a_to_set a with
            | None => finish (Raise AttributeError) s
            | Some x => if any_na x then finish (Raise RuntimeError) s else goto WLogIndex s
            end
  | WLogIndex => match a_to_set a with None => finish (Raise AttributeError) s | Some _ => goto WLogTarget s end
  | WLogTarget => match a_to_set a with
                  | None => finish (Raise TypeError) s     (* None - float *)
                  | Some x => after (lift (e_log_step E x (s_w s))) (fun _ => goto WSetting)
                  end
  | WSetting => match a_to_set a with
                | None => finish (Raise AttributeError) s  (* [set_gate_voltages(None)] reads [None.index] *)
                | Some x => after (call (e_set E x) (EvSet x)) (fun _ => goto WReset1)
                end
  | WReset1 => goto WReset2 (with_index 0 s)
  | WReset2 => goto WSave (with_to_set None s)
  | WStatus => goto (if a_status a then WPickNext else WPickEval) s
  | WPickEval => goto (WRead (a_index a)) s
  | WRead i => after (call (e_read E) EvRead) (fun v => goto (WEval i v))
  | WEval i v => after (call (e_is_tuned E i v) (EvEval i v)) (fun b : bool => goto (if b then WLoad else WUntuned))
  | WLoad => goto (WStore (a_index a)) s
  | WStore j => goto WSave (with_index (S j) s)
  | WUntuned => goto WLogDist (with_status true s)
  | WLogDist => after (lift (e_log_dist E (a_index a) (s_w s))) (fun _ => goto WSave)
  | WPickNext => goto (WTuned (a_index a)) s
  | WTuned i => goto (WNext i (tuned_parameters E a (s_w s))) s
  | WNext i tuned => after (call (e_next E i tuned) (EvNext i tuned)) (fun v => goto (WPut v))
  | WPut v => goto WClear (with_to_set (Some v) s)
  | WClear => goto WSave (with_status false s)
  | WSave => after (save_current_status E) (fun _ => finish (Ok tt))
  end.

(** One step of the thread of the window: qtune/gui.py L453-454,
    qtune/autotuner.py L293-300 [restart], L208-219 [change_targets].  An
    exception ends the handler. *)
Definition race_user (r : race) : race :=
  let s := r_sys r in
  let goto u ops s' := mk_race s' (r_worker r) u ops (r_out r) in
  match r_user r with
  | UReady =>
      match r_todo r with
      | [] => r
      | USet v :: ops => goto UReady ops (fst (silent (e_set E v) s))
      | URestart :: ops => goto URestart1 ops (with_index 0 s)
      | UChange chs :: ops => if length chs <=? e_n E then goto (UChange1 0 chs) ops s else goto UReady ops s
      end
  | URestart1 => goto URestart2 (r_todo r) (fst (emit EvRestart (with_to_set None s)))
  | URestart2 => match call (e_read E) EvRead s with
                 | (s', Ok v) => goto (URestart3 v (seq 0 (e_n E))) (r_todo r) s'
                 | (s', Raise _) => goto UReady (r_todo r) s'
                 end
  | URestart3 v [] => goto UReady (r_todo r) s
  | URestart3 v (i :: is) => match silent (e_restart E i v) s with
                             | (s', Ok _) => goto (URestart3 v is) (r_todo r) s'
                             | (s', Raise _) => goto UReady (r_todo r) s'
                             end
  | UChange1 i [] => goto UChange2 (r_todo r) (with_index 0 s)
  | UChange1 i (ch :: chs) => match call (e_set_target E i ch) (EvTarget i) s with
                              | (s', Ok _) => goto (UChange1 (S i) chs) (r_todo r) s'
                              | (s', Raise _) => goto UReady (r_todo r) s'
                              end
  | UChange2 => goto UReady (r_todo r) (fst (emit EvChange (with_to_set None s)))
  end.

(** An interleaving: who moves next ([true] the thread of the window). *)
Definition race_turn (r : race) (who : bool) : race := if who then race_user r else race_worker r.
Definition race_run (schedule : list bool) (r : race) : race := fold_left race_turn schedule r.
End Race.
Arguments race W : clear implicits.
