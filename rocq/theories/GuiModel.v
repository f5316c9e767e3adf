(** Model of the worker thread of the main window and of its buttons,
    qtune/gui.py L562-568, L685-773.  Two threads share three flags: the worker
    and the thread of the window, which runs one button handler after the
    other.  Every reading and writing of a flag is one step; widgets, plots and
    messages are left out. *)
From Coq Require Import List Bool Arith.
Import ListNotations.

Section Gui.
(** The argument [logger] of the window is a name (the default 'qtune', L475):
    [self._logger] (L568) is then a str, which has no method info, and every
    message raises AttributeError. *)
Variable named : bool.

(** What the worker meets when it gets to work for the n-th time, L706-725: no
    autotuner, tuning complete, [iterate] returns, [iterate] raises, [iterate]
    returns but [append_autotuner] raises. *)
Inductive outcome := NoTuner | Complete | Works | Fails | AppendFails.
Variable oracle : nat -> outcome.

(** Where the worker is, L700-727: reading the flags of the outer loop L701, of
    the waiting loop L702 (three flags, left to right), of the inner loop L705,
    at work L706, in [iterate] L713 (and L715-716), in [pause] (L764, L765), at L727, after the
    loop ([is_alive] is still True), ended. *)
Inductive wpc := WOuter | WIdleStop | WIdleCont | WIdleStep | WInCont | WInStep | WInStop
               | WWork | WIterate | WPause1 | WPause2 | WClear | WEnding | WDead.

(** Handlers of the buttons and public methods. *)
Inductive button := Start | Step | Pause | Close | Restart.
(** Where the thread of the window is: between calls; in [start] before L743, in
    [step] before L754, in [pause] before L764 and before L765, in [close] L772,
    in [restart_thread] L689. *)
Inductive upc := UReady | UStart | UStep | UPause1 | UPause2 | UJoin | URejoin.

(** What happened, latest first: a call of [iterate] and the number of the
    occasion; a handler returned; a handler raised AttributeError. *)
Inductive gevent := Iterated (n : nat) | Returned (b : button) | Raised (b : button).

Record gui := mk_gui {
  g_cont : bool;   (* _continuous *)
  g_step : bool;   (* _stepped *)
  g_stop : bool;   (* _stop *)
  g_worker : wpc;
  g_count : nat;   (* how often the worker got to work *)
  g_user : upc;
  g_todo : list button;
  g_log : list gevent }.

(** qtune/gui.py L562-566: a new window whose buttons [ops] will be pressed. *)
Definition gui_start (ops : list button) : gui := mk_gui false false false WOuter 0 UReady ops [].

(** qtune/gui.py L700-727: one step of the worker. *)
Definition gui_worker (s : gui) : gui :=
  let goto w := mk_gui (g_cont s) (g_step s) (g_stop s) w (g_count s) (g_user s) (g_todo s) (g_log s) in
  (* [self._logger.info] and the like, then [pause] L756-768 *)
  let report := if named then WEnding else WPause1 in
  match g_worker s with
  | WOuter => goto (if g_stop s then WEnding else WIdleStop)
  | WIdleStop => goto (if g_stop s then WInCont else WIdleCont)
  | WIdleCont => goto (if g_cont s then WInCont else WIdleStep)
  | WIdleStep => goto (if g_step s then WInCont else WIdleStop)
  | WInCont => goto (if g_cont s then WWork else WInStep)
  | WInStep => goto (if g_step s then WInStop else WOuter)
  | WInStop => goto (if g_stop s then WOuter else WWork)
  | WWork => match oracle (g_count s) with
             | NoTuner | Complete =>
                 mk_gui (g_cont s) (g_step s) (g_stop s) report (S (g_count s)) (g_user s) (g_todo s) (g_log s)
             | _ => mk_gui (g_cont s) (g_step s) (g_stop s) WIterate (g_count s) (g_user s) (g_todo s)
                           (Iterated (g_count s) :: g_log s)
             end
  | WIterate => mk_gui (g_cont s) (g_step s) (g_stop s)
                       (match oracle (g_count s) with Works => WClear | _ => report end)
                       (S (g_count s)) (g_user s) (g_todo s) (g_log s)
  | WPause1 => mk_gui false (g_step s) (g_stop s) WPause2 (g_count s) (g_user s) (g_todo s) (g_log s)
  | WPause2 => mk_gui (g_cont s) false (g_stop s) WClear (g_count s) (g_user s) (g_todo s) (g_log s)
  | WClear => mk_gui (g_cont s) false (g_stop s) WInCont (g_count s) (g_user s) (g_todo s) (g_log s)
  | WEnding => goto WDead
  | WDead => s
  end.

(** [self._thread.is_alive()] *)
Definition thread_alive (s : gui) : bool := match g_worker s with WDead => false | _ => true end.

(** One step of the thread of the window: qtune/gui.py L685-698 [restart_thread],
    L732-746 [start], L748-754 [step], L756-768 [pause], L770-773 [close].  As
    long as the worker is dead nobody else touches the flags, so that
    L694-698 are one step. *)
Definition gui_user (s : gui) : gui :=
  let goto u ops log := mk_gui (g_cont s) (g_step s) (g_stop s) (g_worker s) (g_count s) u ops log in
  let fresh u ops log := mk_gui false false false WOuter (g_count s) u ops log in
  match g_user s with
  | UReady =>
      match g_todo s with
      | [] => s
      | Start :: ops => if named then goto UReady ops (Raised Start :: g_log s)
                        else if thread_alive s then goto UStart ops (g_log s) else fresh UStart ops (g_log s)
      | Step :: ops => if named then goto UReady ops (Raised Step :: g_log s)
                       else if thread_alive s then goto UStep ops (g_log s) else fresh UStep ops (g_log s)
      | Pause :: ops => if named && (negb (thread_alive s) || g_cont s || negb (g_step s))
                        then goto UReady ops (Raised Pause :: g_log s)
                        else goto UPause1 ops (g_log s)
      | Close :: ops => mk_gui (g_cont s) (g_step s) true (g_worker s) (g_count s) UJoin ops (g_log s)
      | Restart :: ops =>
          if named && thread_alive s then goto UReady ops (Raised Restart :: g_log s)
          else mk_gui (g_cont s) (g_step s) true (g_worker s) (g_count s) URejoin ops (g_log s)
      end
  | UStart => mk_gui true (g_step s) (g_stop s) (g_worker s) (g_count s) UReady (g_todo s) (Returned Start :: g_log s)
  | UStep => mk_gui (g_cont s) true (g_stop s) (g_worker s) (g_count s) UReady (g_todo s) (Returned Step :: g_log s)
  | UPause1 => mk_gui false (g_step s) (g_stop s) (g_worker s) (g_count s) UPause2 (g_todo s) (g_log s)
  | UPause2 => mk_gui (g_cont s) false (g_stop s) (g_worker s) (g_count s) UReady (g_todo s) (Returned Pause :: g_log s)
  | UJoin => if thread_alive s then s else goto UReady (g_todo s) (Returned Close :: g_log s)
  | URejoin => if thread_alive s then s
               else if named then goto UReady (g_todo s) (Raised Restart :: g_log s)
               else fresh UReady (g_todo s) (Returned Restart :: g_log s)
  end.

(** An interleaving: who moves next ([true] the thread of the window). *)
Definition gui_turn (s : gui) (who : bool) : gui := if who then gui_user s else gui_worker s.
Definition gui_run (schedule : list bool) (s : gui) : gui := fold_left gui_turn schedule s.
End Gui.

(** qtune/gui.py L127-137, L424-434 [tune_run_number] setter: [text] is what
    [int] makes of the text (None: ValueError), [stored] the number of rows of
    the history. *)
From Coq Require Import ZArith.
Definition set_run_number (text : option Z) (stored : Z) : Z :=
  let i := match text with Some i => i | None => 0%Z end in
  if (i <? 0)%Z then 0%Z else if (stored <=? i)%Z then (stored - 1)%Z else i.
(** [frame.iloc[i]], [list[i]]: negative positions count from the end, IndexError
    outside. *)
Definition at_position {A} (l : list A) (i : Z) : option A :=
  let n := Z.of_nat (length l) in
  if (i <? 0)%Z then if (- n <=? i)%Z then nth_error l (Z.to_nat (n + i)) else None
  else nth_error l (Z.to_nat i).
(** The row of evaluator data that is plotted, qtune/gui.py L369-384. *)
Definition plotted_run {A} (rows : list A) (number : Z) : option A := at_position rows (number - 1).
(** The state that is reloaded, qtune/gui.py L450-453, L460-465 (qtune/history.py
    L189-190), and the number shown and used in a new reload window (L410,
    L396). *)
Definition reloaded_run {A} (rows : list A) (number : Z) : option A := at_position rows number.
Definition initial_shown : Z := 1%Z.
Definition initial_number : Z := 0%Z.
