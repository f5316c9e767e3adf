(** The windows opened from the main window and their autotuners. *)
From Coq Require Import List Bool Arith Lia.
From Verif Require Import WindowsModel WindowsSpec WindowsProofs.
Import ListNotations.

(** C126: the autotuner at work is the one taken over last. *)
Theorem tuner_at_work l : main (run true l) = Some (taken_over (log (run true l))).
Proof. apply (inv_run l). Qed.
Print Assumptions tuner_at_work.
(** Without an autotuner at first there is never one: reload windows do nothing
    then, and the worker has nothing to do. *)
Theorem never_a_tuner l : main (run false l) = None /\ forall e, In e (log (run false l)) -> exists w, e = Opened w.
Proof. destruct (none_run l) as (H1 & _ & _ & H4). auto. Qed.
Print Assumptions never_a_tuner.
(** The worker checks, iterates and appends the autotuner of the moment. *)
Theorem worker_tuner l a e b t : log (run true l) = a ++ e :: b -> e = Checked t \/ e = Iterated t \/ e = Appended t -> t = taken_over b.
Proof.
  intros E H. pose proof (told_run l) as T. rewrite E in T. apply told_split in T. destruct H as [->|[->| ->]]; exact (proj1 T).
Qed.
Print Assumptions worker_tuner.
(** An autotuner that was found complete or stopped is not iterated before it
    has been checked again; one that was stopped after the check is not iterated
    either. *)
Theorem worker_stops l t : let s := run true l in main s = Some t ->
  (work s = Idle -> forall b, log (do (Work b) (do (Work true) s)) = Checked t :: Checked t :: log s) /\
  (work s = ToIterate -> log (do (Work true) s) = log s /\ forall b, log (do (Work b) (do (Work true) s)) = Checked t :: log s).
Proof.
  intros s M. split; intros W; [intros b|split; [|intros b]]; unfold do, worker_step; rewrite M, W; cbn; rewrite ?M; reflexivity.
Qed.
Print Assumptions worker_stops.
Example worker_stops_example : let s := run true [Work false; Work false; Work false] in
  main s = Some 0 /\ work s = Idle /\ log (do (Work false) (do (Work true) s)) = [Checked 0; Checked 0; Appended 0; Iterated 0; Checked 0] /\
  log (run true [Work false; Work true; Work false]) = [Checked 0; Checked 0].
Proof. repeat split; reflexivity. Qed.
Lemma newest_split b e : newest b = Some e -> exists b1 b2, b = b1 ++ e :: b2 /\ forall x t, In x b1 -> x <> Checked t /\ x <> Iterated t /\ x <> Appended t.
Proof.
  induction b as [|x b IH]; [discriminate|]. intros H.
  assert (A : newest b = Some e -> (forall t, x <> Checked t /\ x <> Iterated t /\ x <> Appended t) ->
    exists b1 b2, x :: b = b1 ++ e :: b2 /\ forall x0 t, In x0 b1 -> x0 <> Checked t /\ x0 <> Iterated t /\ x0 <> Appended t).
  { intros K X. destruct (IH K) as (b1 & b2 & -> & N). exists (x :: b1), b2. split; [reflexivity|]. intros y t [<-|Hy]; [apply X|apply N, Hy]. }
  destruct x; cbn in H; try (apply A; [exact H|intros t'; repeat split; discriminate]);
    injection H as <-; exists [], b; (split; [reflexivity|intros ? ? []]).
Qed.
Lemma undisturbed_same b1 e b2 t : (forall x t', In x b1 -> x <> Checked t' /\ x <> Iterated t' /\ x <> Appended t') ->
  e = Iterated t -> undisturbed (b1 ++ e :: b2) = true -> taken_over (b1 ++ e :: b2) = taken_over b2.
Proof.
  intros N ->. induction b1 as [|x b1 IH]; cbn [app]; [reflexivity|]. intros U. assert (IH' := IH (fun y t' Hy => N y t' (or_intror Hy))).
  destruct x; cbn in *; try discriminate; try (apply IH', U).
  exfalso. apply (proj1 (N (Checked t0) t0 (or_introl eq_refl))). reflexivity.
Qed.
(** If no window was followed in the meantime, the autotuner that is appended to
    the history is the one that was iterated just before. *)
Theorem appended_was_iterated l a b t : log (run true l) = a ++ Appended t :: b -> undisturbed b = true ->
  exists b1 b2, b = b1 ++ Iterated t :: b2 /\ forall x t', In x b1 -> x <> Iterated t' /\ x <> Appended t'.
Proof.
  intros E U. pose proof (worker_tuner l a _ b t E ltac:(auto)) as T. destruct (ordered_run true l) as [O _]. cbv zeta in O. rewrite E in O. apply ordered_split in O.
  destruct O as [[t' Nw] _]. destruct (newest_split _ _ Nw) as (b1 & b2 & -> & N).
  assert (T2 : t' = taken_over b2).
  { apply (worker_tuner l (a ++ Appended t :: b1) (Iterated t') b2 t'); [rewrite E, <- app_assoc; reflexivity|auto]. }
  rewrite (undisturbed_same b1 (Iterated t') b2 t' N eq_refl U) in T. subst t t'. exists b1, b2. split; [reflexivity|]. intros x t' Hx. destruct (N x t' Hx) as (_ & H). exact H.
Qed.
Print Assumptions appended_was_iterated.
Definition once := [Spawn Reload; Work false; Work false; Work false].
Example once_example : log (run true once) = [Appended 0; Iterated 0; Checked 0; Opened 0] /\ undisturbed [Iterated 0; Checked 0; Opened 0] = true.
Proof. split; reflexivity. Qed.
(** Otherwise the history gets an autotuner that was never iterated, and loses the
    iteration of the former one. *)
Theorem appended_not_iterated_refuted : exists l t, In (Appended t) (log (run true l)) /\ ~ In (Iterated t) (log (run true l)).
Proof.
  exists [Spawn Reload; Work false; Work false; State 0 Fine; Voltages 0 Fine; Work false], 1.
  assert (E : log (run true [Spawn Reload; Work false; Work false; State 0 Fine; Voltages 0 Fine; Work false]) =
    [Appended 1; Swapped 0 1; Restarted 0 1; Loaded 0 1; Iterated 0; Checked 0; Opened 0]) by (vm_compute; reflexivity).
  rewrite E. split; [left; reflexivity|]. intros [H|[H|[H|[H|[H|[H|[H|[]]]]]]]]; discriminate.
Qed.
Print Assumptions appended_not_iterated_refuted.

(** A reload window refers to the autotuner at work exactly if it has been so
    since it was opened or its state was taken over; hence Reload Voltages
    restarts the autotuner at work exactly in these cases. *)
Theorem window_refers l w c : nth_error (children (run true l)) w = Some c -> c_kind c = Reload ->
  exists t, c_tuner c = Some t /\ (main (run true l) = Some t <-> up_to_date w (log (run true l)) = true).
Proof.
  destruct (inv_run l) as (H1 & _ & H3 & _). intros Hc K. destruct (H3 w c Hc K) as (t & Et & _ & U1 & U2). exists t. split; [exact Et|].
  rewrite H1. split.
  - intros E. injection E as E. destruct (up_to_date w (log (run true l))) eqn:U; [reflexivity|]. exfalso. apply (U2 eq_refl). congruence.
  - intros U. f_equal. symmetry. apply U1, U.
Qed.
Print Assumptions window_refers.
Theorem voltages_reloaded l w c : let s := run true l in
  nth_error (children s) w = Some c -> c_kind c = Reload -> c_open c = true -> swap_due s = None ->
  exists t, c_tuner c = Some t /\ log (do (Voltages w Fine) s) = Restarted w t :: VoltagesSet w t :: log s /\
    (main (do (Voltages w Fine) s) = Some t <-> up_to_date w (log s) = true) /\
    (* if the restart fails the voltages have been set all the same *)
    log (do (Voltages w FailsRestart) s) = VoltagesSet w t :: log s /\ do (Voltages w FailsFirst) s = s.
Proof.
  intros s Hc K O D. destruct (window_refers l w c Hc K) as (t & Et & U). exists t. split; [exact Et|]. unfold do. fold s. rewrite D. unfold reload_voltages.
  destruct c as [k o ct]. cbn in K, O, Et. subst k o ct. rewrite Hc. split; [reflexivity|]. split; [exact U|]. split; reflexivity.
Qed.
Print Assumptions voltages_reloaded.
(** The state: a window that gets to the signal becomes the source of the
    autotuner at work. *)
Theorem state_reloaded l w c : let s := run true l in
  nth_error (children s) w = Some c -> c_kind c = Reload -> c_open c = true -> swap_due s = None ->
  let s' := swap w (do (State w Fine) s) in
  main s' = Some (tuners s) /\ (forall v c', nth_error (children s) v = Some c' -> c_tuner c' <> Some (tuners s)) /\
  (forall v c', v <> w -> nth_error (children s') v = Some c' -> c_kind c' = Reload -> c_tuner c' <> main s').
Proof.
  intros s Hc K O D s'. destruct (inv_run l) as (_ & _ & H3 & _). fold s in H3.
  assert (NT : forall v c', nth_error (children s) v = Some c' -> c_kind c' = Reload -> c_tuner c' <> Some (tuners s)).
  { intros v c' Hv Kv. destruct (H3 v c' Hv Kv) as (t & -> & L & _). intros E. injection E as E. lia. }
  destruct (H3 w c Hc K) as (t0 & Et & _). pose proof (some_lt _ _ _ Hc) as L.
  destruct c as [k o ct]. cbn in K, O, Et. subst k o ct.
  assert (E : s' = swap w (with_log (Restarted w (tuners s)) (mk_state (main s) (set_child w (mk_child Reload true (Some (tuners s))) (children s)) (l_plots s) (l_parameters s) (l_gradients s)
     (l_raw s) (l_reload s) (connected s) (S (tuners s)) (Some w) (work s) (Loaded w (tuners s) :: log s)))).
  { unfold s', do. rewrite D. unfold reload_state. rewrite Hc. reflexivity. }
  rewrite E. unfold swap. cbn [with_log children]. rewrite nth_set, Nat.eqb_refl by exact L. cbn [main children]. split; [reflexivity|]. split.
  - intros v c' Hv. destruct (c_kind c') eqn:Kc.
    all: try (apply (NT v c' Hv Kc)).
    all: assert (X : c_tuner c' = None) by (apply (other_none l v c' Hv); rewrite Kc; discriminate); rewrite X; discriminate.
  - intros v c' Nv Hv Kv. rewrite nth_set in Hv by exact L. rewrite (proj2 (Nat.eqb_neq v w) Nv) in Hv. apply (NT v c' Hv Kv).
Qed.
Print Assumptions state_reloaded.
(** Two reload windows; one reloads the state, then the other one the voltages:
    the autotuner at work is not restarted although the voltages changed. *)
Definition two_windows := [Spawn Reload; Spawn Reload; State 0 Fine; Spawn Plots].
Theorem stale_window_refuted : exists l w, let s := do (Voltages w Fine) (run true l) in
  exists t, main s = Some t /\ hd_error (log s) = Some (Restarted w 0) /\ t <> 0 /\ up_to_date w (log (run true l)) = false.
Proof. exists two_windows, 1. exists 1. repeat split; discriminate. Qed.
Print Assumptions stale_window_refuted.
Example two_windows_example : let s := run true two_windows in
  map c_tuner (children s) = [Some 1; Some 0] /\ main s = Some 1 /\ up_to_date 0 (log s) = true /\ swap_due s = None /\ log s = [Swapped 0 1; Restarted 0 1; Loaded 0 1; Opened 1; Opened 0].
Proof. repeat split; reflexivity. Qed.
(** A restart that fails leaves the window with an autotuner of its own. *)
Example failed_restart_example : let s := run true [Spawn Reload; State 0 FailsRestart] in
  map c_tuner (children s) = [Some 1] /\ main s = Some 0 /\ up_to_date 0 (log s) = false.
Proof. repeat split; reflexivity. Qed.

(** The lists of windows hold the open ones, except that a closed reload window
    stays in its list; the list of gradient windows is never used.  New data are
    shown by exactly the open windows other than those of raw data. *)
Theorem windows_listed g l : let s := run g l in
  l_plots s = open_of (fun k => match k with Plots => true | _ => false end) (children s) /\
  l_parameters s = open_of (fun k => match k with Parameters | Gradients => true | _ => false end) (children s) /\
  l_gradients s = [] /\
  l_raw s = open_of (fun k => match k with Raw => true | _ => false end) (children s) /\
  l_reload s = ever_of (fun k => match k with Reload => true | _ => false end) (children s) /\
  connected s = open_of (fun k => match k with Raw => false | _ => true end) (children s).
Proof. exact (lists_run g l). Qed.
Print Assumptions windows_listed.
Example windows_example : let s := run true [Spawn Plots; Spawn Gradients; Spawn Raw; Spawn Reload; Spawn Parameters; CloseChild 1; CloseChild 3] in
  l_plots s = [0] /\ l_parameters s = [4] /\ l_raw s = [2] /\ l_reload s = [3] /\ connected s = [0; 4] /\ map c_open (children s) = [true; false; true; false; true].
Proof. repeat split; reflexivity. Qed.
