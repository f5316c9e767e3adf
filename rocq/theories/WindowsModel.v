(** The windows opened from the main window and the autotuner each of them
    refers to, qtune/gui.py L388-468, L569-670, L700-727.

    Two threads: the worker, of which only the reads of [self.auto_tuner] matter
    here, and the thread of the windows, which runs one handler after the other
    ([log_exceptions] L39-50 ends a handler that raises).  Windows and autotuners
    are numbered in the order in which they come into being.  Trusted: a signal is
    no longer delivered to a deleted window.  Left out: opening a window fails,
    the flags of the worker and the buttons (Gui), what iterate and restart do
    (Autotuner, Race). *)
From Coq Require Import List Bool Arith.
Import ListNotations.

Inductive kind := Plots | Parameters | Gradients | Raw | Reload.
Record child := mk_child { c_kind : kind; c_open : bool; c_tuner : option nat }.

(** What happened, latest first. *)
Inductive event :=
| Opened (w : nat)
| Loaded (w t : nat)          (* the window refers to the autotuner t it has read from a file *)
| Swapped (w t : nat)         (* and the main window took it over *)
| VoltagesSet (w t : nat)     (* through the experiment of t *)
| Restarted (w t : nat)
| Checked (t : nat) | Iterated (t : nat) | Appended (t : nat).

(** Where the worker is: between iterations; about to call iterate L713; about to
    call append_autotuner L716. *)
Inductive worker := Idle | ToIterate | ToAppend.

Record state := mk_state {
  main : option nat;                                        (* _auto_tuner *)
  children : list child;
  l_plots : list nat; l_parameters : list nat; l_gradients : list nat; l_raw : list nat; l_reload : list nat;   (* L570-574 *)
  connected : list nat;                                     (* slots of _update_plots, without the plot in the main window *)
  tuners : nat;                                             (* number of autotuners so far *)
  swap_due : option nat;                                    (* reload_autotuner of this window is before L466 *)
  work : worker;
  log : list event
}.
(** A main window with an autotuner, number 0, or without. *)
Definition start (given : bool) : state := mk_state (if given then Some 0 else None) [] [] [] [] [] [] [] 1 None Idle [].

Definition set_child (w : nat) (c : child) (l : list child) : list child := firstn w l ++ c :: skipn (S w) l.
Definition with_log (e : event) (s : state) : state :=
  mk_state (main s) (children s) (l_plots s) (l_parameters s) (l_gradients s) (l_raw s) (l_reload s) (connected s) (tuners s) (swap_due s) (work s) (e :: log s).
Definition with_work (k : worker) (s : state) : state :=
  mk_state (main s) (children s) (l_plots s) (l_parameters s) (l_gradients s) (l_raw s) (l_reload s) (connected s) (tuners s) (swap_due s) k (log s).
Definition with_child (w : nat) (c : child) (s : state) : state :=
  mk_state (main s) (set_child w c (children s)) (l_plots s) (l_parameters s) (l_gradients s) (l_raw s) (l_reload s) (connected s) (tuners s) (swap_due s) (work s) (log s).

(** qtune/gui.py L591-670.  A reload window keeps the autotuner of that moment
    (L614); the other windows have none. *)
Definition spawn (k : kind) (s : state) : state :=
  let w := length (children s) in
  let add (b : bool) (l : list nat) := if b then l ++ [w] else l in
  let is (k' : kind) := match k, k' with Plots, Plots | Parameters, Parameters | Gradients, Gradients | Raw, Raw | Reload, Reload => true | _, _ => false end in
  mk_state (main s)
    (children s ++ [mk_child k true (if is Reload then main s else None)])
    (add (is Plots) (l_plots s)) (add (is Parameters || is Gradients) (l_parameters s)) (l_gradients s) (add (is Raw) (l_raw s)) (add (is Reload) (l_reload s))
    (add (negb (is Raw)) (connected s)) (tuners s) (swap_due s) (work s) (Opened w :: log s).

(** [l.remove(w)]: the first occurrence; None if there is none. *)
Fixpoint remove1 (w : nat) (l : list nat) : option (list nat) :=
  match l with
  | [] => None
  | x :: l' => if x =? w then Some l' else match remove1 w l' with Some r => Some (x :: r) | None => None end
  end.
(** qtune/gui.py L578-583: plots, parameters, gradients and raw data. *)
Definition close_lists (w : nat) (s : state) : list nat * list nat * list nat * list nat :=
  match remove1 w (l_plots s) with
  | Some p => (p, l_parameters s, l_gradients s, l_raw s)
  | None => match remove1 w (l_parameters s) with
  | Some q => (l_plots s, q, l_gradients s, l_raw s)
  | None => match remove1 w (l_gradients s) with
  | Some g => (l_plots s, l_parameters s, g, l_raw s)
  | None => match remove1 w (l_raw s) with
  | Some r => (l_plots s, l_parameters s, l_gradients s, r)
  | None => (l_plots s, l_parameters s, l_gradients s, l_raw s)
  end end end end.
(** qtune/gui.py L577-589.  The disconnection L584-587 always fails, the deletion
    L588 ends the connection. *)
Definition close_child (w : nat) (s : state) : state :=
  match nth_error (children s) w with
  | Some (mk_child k true t) =>
      let '(p, q, g, r) := close_lists w s in
      mk_state (main s) (set_child w (mk_child k false t) (children s)) p q g r (l_reload s)
        (filter (fun x => negb (x =? w)) (connected s)) (tuners s) (swap_due s) (work s) (log s)
  | _ => s
  end.

(** How far a handler gets: the row or path is missing or the file cannot be read;
    the experiment or the restart fails; no failure. *)
Inductive outcome := FailsFirst | FailsRestart | Fine.
(** qtune/gui.py L448-456. *)
Definition reload_voltages (w : nat) (o : outcome) (s : state) : state :=
  match nth_error (children s) w with
  | Some (mk_child Reload true (Some t)) =>
      match o with
      | FailsFirst => s
      | FailsRestart => with_log (VoltagesSet w t) s
      | Fine => with_log (Restarted w t) (with_log (VoltagesSet w t) s)
      end
  | _ => s
  end.
(** qtune/gui.py L460-465, up to the signal. *)
Definition reload_state (w : nat) (o : outcome) (s : state) : state :=
  match nth_error (children s) w with
  | Some (mk_child Reload true (Some _)) =>
      let t := tuners s in
      let loaded due s := let s' := with_log (Loaded w t) (with_child w (mk_child Reload true (Some t)) s) in
        mk_state (main s') (children s') (l_plots s') (l_parameters s') (l_gradients s') (l_raw s') (l_reload s') (connected s') (S t) due (work s') (log s') in
      match o with
      | FailsFirst => s
      | FailsRestart => loaded None s
      | Fine => with_log (Restarted w t) (loaded (Some w) s)
      end
  | _ => s
  end.
(** The signal, qtune/gui.py L466 and L607-609: [sender()] is the window. *)
Definition swap (w : nat) (s : state) : state :=
  match nth_error (children s) w with
  | Some (mk_child k o (Some t)) =>
      mk_state (Some t) (children s) (l_plots s) (l_parameters s) (l_gradients s) (l_raw s) (l_reload s) (connected s) (tuners s) None (work s) (Swapped w t :: log s)
  | _ => s
  end.

(** The user, or the worker with what it meets: the tuning is complete, iterate
    fails (true), or nothing of it. *)
Inductive action := Spawn (k : kind) | CloseChild (w : nat) | Voltages (w : nat) (o : outcome) | State (w : nat) (o : outcome) | Work (stops : bool).
(** The worker, qtune/gui.py L706-719; every use of [self.auto_tuner] reads it
    again. *)
Definition worker_step (stops : bool) (s : state) : state :=
  match main s with
  | None => s
  | Some t =>
      match work s with
      | Idle => with_work (if stops then Idle else ToIterate) (with_log (Checked t) s)
      | ToIterate => if stops then with_work Idle s else with_work ToAppend (with_log (Iterated t) s)
      | ToAppend => with_work Idle (with_log (Appended t) s)
      end
  end.
(** The thread of the windows finishes the handler it is in before it begins
    another one. *)
Definition do (a : action) (s : state) : state :=
  match a with
  | Work b => worker_step b s
  | _ => match swap_due s with
         | Some w => swap w s
         | None => match a with
                   | Spawn k => spawn k s
                   | CloseChild w => close_child w s
                   | Voltages w o => reload_voltages w o s
                   | State w o => reload_state w o s
                   | Work _ => s
                   end
         end
  end.
Definition run (given : bool) (l : list action) : state := fold_left (fun s a => do a s) l (start given).
