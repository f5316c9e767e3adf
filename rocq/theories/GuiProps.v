(** Properties of the main window and its worker thread, qtune/gui.py (C85-C90). *)
From Coq Require Import List Bool Arith ZArith Lia.
From Verif Require Import GuiModel GuiSpec GuiProofs.
Import ListNotations.

Definition always (o : outcome) : nat -> outcome := fun _ => o.
Definition turns (u w : nat) : list bool := repeat true u ++ repeat false w.

(** ** C85 *)
(** With the logger given by its name, as setup_default_gui does, neither Start
    nor Step ever returns and the worker never calls [iterate]. *)
Theorem gui_default_inert oracle ops schedule :
  let s := gui_run true oracle schedule (gui_start ops) in
  iterations (g_log s) = 0 /\ returned Start (g_log s) = 0 /\ returned Step (g_log s) = 0 /\
  g_cont s = false /\ g_step s = false.
Proof.
  intros s. assert (H : inert s).
  { apply run_inv; [apply inert_worker|apply inert_user|]. repeat split. }
  destruct H as (H1 & H2 & _ & _ & H3 & H4 & H5). auto.
Qed.
Example gui_default_inert_ex :
  let s := gui_run true (always Works) (turns 3 20) (gui_start [Start; Step; Pause]) in
  g_log s = [Raised Pause; Raised Step; Raised Start].
Proof. reflexivity. Qed.
(** The same presses with a logger object. *)
Example gui_logger_ex :
  iterations (g_log (gui_run false (always Works) (turns 4 20) (gui_start [Start; Step]))) = 4.
Proof. reflexivity. Qed.

(** ** C86 *)
(** If Start is never pressed there are at most as many iterations as calls of
    Step that returned, in every interleaving. *)
Theorem gui_step_bound oracle ops schedule :
  ~ In Start ops ->
  let s := gui_run false oracle schedule (gui_start ops) in
  iterations (g_log s) <= returned Step (g_log s).
Proof.
  intros Hn s. assert (H : step_inv s).
  { apply run_inv; [apply step_worker|apply step_user|]. repeat split; cbn; auto. discriminate. }
  destruct H as (_ & _ & _ & H). lia.
Qed.
Example gui_step_bound_ex :
  let s := gui_run false (always Works) (turns 2 20 ++ turns 2 20) (gui_start [Step; Step]) in
  iterations (g_log s) = 2 /\ returned Step (g_log s) = 2.
Proof. split; reflexivity. Qed.
(** The claim that every press of Step is served is false: a press during an
    iteration is lost for good. *)
Theorem gui_step_lost_refuted :
  exists schedule, let s := gui_run false (always Works) schedule (gui_start [Step; Step]) in
    returned Step (g_log s) = 2 /\ forall more, iterations (g_log (gui_run false (always Works) more s)) = 1.
Proof.
  exists (turns 2 8 ++ turns 2 2). split; [reflexivity|]. intros more.
  set (s := gui_run false (always Works) (turns 2 8 ++ turns 2 2) (gui_start [Step; Step])).
  assert (H : off_inv 1 s) by (repeat split; cbn; intuition (discriminate || lia)).
  pose proof (off_run false (always Works) 1 more s H). pose proof (iterations_mono false (always Works) more s) as Hm.
  assert (iterations (g_log s) = 1) by reflexivity. lia.
Qed.

(** ** C87 *)
(** After Pause has returned, and if neither Start nor Step is pressed any more,
    at most one more iteration is begun. *)
Theorem gui_pause_last oracle ops schedule more log :
  let s := gui_run false oracle schedule (gui_start ops) in
  g_log s = Returned Pause :: log -> at_rest s ->
  iterations (g_log (gui_run false oracle more s)) <= S (iterations (g_log s)).
Proof.
  intros s Hl [Hu Ht]. assert (Hp : paused_inv s).
  { apply run_inv; [apply paused_worker|apply paused_user|]. split; cbn; intros; discriminate. }
  destruct Hp as [_ Hp]. destruct (Hp Hu log Hl) as [Hc Hs]. apply off_run.
  split; [exact Hc|]. split; [exact Hs|]. split; [exact Ht|]. split; [rewrite Hu; exact I|].
  unfold committed. destruct (g_worker s); lia.
Qed.
(** One more is possible: the worker had already decided. *)
Example gui_pause_last_ex :
  let s := gui_run false (always Works) (turns 2 4 ++ turns 3 0) (gui_start [Start; Pause]) in
  g_log s = [Returned Pause; Returned Start] /\ at_rest s /\ g_worker s = WWork /\
  iterations (g_log (gui_run false (always Works) (turns 0 20) s)) = 1.
Proof. repeat split; cbn; tauto. Qed.

(** ** C88 *)
(** Close during continuous tuning: as long as the iterations succeed and the
    tuning is not complete, close never returns, whatever the scheduler does,
    and the worker goes on: four of its turns per iteration. *)
Theorem gui_close_blocked oracle s schedule :
  (forall k, oracle k = Works) -> g_cont s = true -> g_worker s = WIterate -> g_user s = UReady -> g_todo s = [Close] ->
  let s' := gui_run false oracle schedule s in
  returned Close (g_log s') = returned Close (g_log s) /\ g_cont s' = true /\ thread_alive s' = true /\
  worker_turns schedule <= 4 * (iterations (g_log s') - iterations (g_log s)) + 3.
Proof.
  intros Ho Hc Hw Hu Ht.
  assert (G : forall schedule s, busy s -> (g_user s = UReady /\ g_todo s = [Close] \/ g_user s = UJoin /\ g_todo s = []) ->
    let s' := gui_run false oracle schedule s in
    busy s' /\ returned Close (g_log s') = returned Close (g_log s) /\
    4 * iterations (g_log s) + worker_turns schedule + distance s' <= 4 * iterations (g_log s') + distance s).
  { clear s schedule Hc Hw Hu Ht. intros schedule. induction schedule as [|who sch IH]; intros s Hb Hu s'; subst s'.
    - cbn. repeat split; try apply Hb. lia.
    - destruct who.
      + change (gui_run false oracle (true :: sch) s) with (gui_run false oracle sch (gui_user false s)).
        change (worker_turns (true :: sch)) with (worker_turns sch).
        assert (Hx : busy (gui_user false s) /\ (g_user (gui_user false s) = UJoin /\ g_todo (gui_user false s) = []) /\
          g_log (gui_user false s) = g_log s /\ distance (gui_user false s) = distance s).
        { destruct s as [c st sp w n u td lg]. unfold busy, distance in *. cbn in *. destruct Hb as [-> Hb].
          destruct Hu as [[-> ->]|[-> ->]]; cbn; unfold thread_alive; cbn; destruct w; cbn in *; try contradiction; repeat split. }
        destruct Hx as (X1 & X2 & X3 & X4). specialize (IH (gui_user false s) X1 (or_intror X2)). cbn zeta in IH.
        rewrite X3, X4 in IH. exact IH.
      + change (gui_run false oracle (false :: sch) s) with (gui_run false oracle sch (gui_worker false oracle s)).
        change (worker_turns (false :: sch)) with (S (worker_turns sch)).
        destruct (busy_worker oracle s Ho Hb) as [B1 B2].
        assert (Hx : (g_user (gui_worker false oracle s) = g_user s /\ g_todo (gui_worker false oracle s) = g_todo s) /\
          returned Close (g_log (gui_worker false oracle s)) = returned Close (g_log s)).
        { clear -Hb. destruct s as [c st sp w n u td lg]. destruct w; cbn; try (repeat split; reflexivity); destruct (oracle n); cbn; repeat split. }
        destruct Hx as [[X1 X2] X3]. assert (Hu' : g_user (gui_worker false oracle s) = UReady /\ g_todo (gui_worker false oracle s) = [Close] \/ g_user (gui_worker false oracle s) = UJoin /\ g_todo (gui_worker false oracle s) = []) by (rewrite X1, X2; exact Hu).
        specialize (IH _ B1 Hu'). cbn zeta in IH. destruct IH as (I1 & I2 & I3). split; [exact I1|]. split; [rewrite I2; exact X3|lia]. }
  destruct (G schedule s) as ((G1 & G2) & G3 & G4); [split; [exact Hc|rewrite Hw; exact I]|left; auto|].
  cbn zeta. split; [exact G3|]. split; [exact G1|]. split.
  - unfold thread_alive. destruct (g_worker (gui_run false oracle schedule s)); try contradiction; reflexivity.
  - unfold distance in G4 at 2. rewrite Hw in G4. unfold distance in G4. destruct (g_worker (gui_run false oracle schedule s)); try contradiction; lia.
Qed.
Example gui_close_blocked_ex :
  let s := gui_run false (always Works) (turns 2 5) (gui_start [Start; Close]) in
  g_cont s = true /\ g_worker s = WIterate /\ g_user s = UReady /\ g_todo s = [Close] /\
  let s' := gui_run false (always Works) (turns 10 400 ++ turns 10 0) s in
  returned Close (g_log s') = 0 /\ iterations (g_log s') = 101.
Proof. vm_compute. repeat split. Qed.
(** It returns as soon as one iteration fails or the tuning is complete (at the
    latest at occasion [k]), and at once otherwise. *)
Theorem gui_close_returns oracle s k schedule :
  oracle k <> Works -> g_stop s = true -> g_user s = UJoin -> g_count s <= k ->
  (if g_cont s then 14 + 4 * (k - g_count s) else 10) <= worker_turns schedule ->
  returned Close (g_log (gui_run false oracle (schedule ++ [true]) s)) > returned Close (g_log s).
Proof.
  intros Ho Hs Hu Hk Hr.
  destruct (closing_run oracle k schedule Ho s) as (pre & post & -> & H1 & H2 & H3).
  - split; [exact Hs|]. split; [left; exact Hu|]. auto.
  - etransitivity; [|exact Hr]. unfold rank. destruct (g_worker s), (g_cont s); lia.
  - rewrite app_assoc_reverse, run_app. set (s1 := gui_run false oracle pre s) in *. rewrite Hu in H2.
    assert (Hmono : forall sch s, returned Close (g_log s) <= returned Close (g_log (gui_run false oracle sch s))).
    { clear. induction sch as [|who sch IH]; intros s; [cbn; lia|]. cbn. etransitivity; [|apply IH].
      destruct s as [c st sp w n u td lg]. destruct who; cbn.
      - destruct u; cbn; try lia; [destruct td as [|[] td]; cbn; try lia| |]; unfold thread_alive; cbn; destruct w; cbn; lia.
      - destruct w; cbn; try lia; destruct (oracle n); cbn; lia. }
    assert (Hex : exists n more, post ++ [true] = repeat false n ++ true :: more).
    { clear. induction post as [|[] post IH]; [exists 0, []; reflexivity|exists 0, (post ++ [true]); reflexivity|].
      destruct IH as (n & more & IH). exists (S n), more. cbn. rewrite IH. reflexivity. }
    destruct Hex as (n & more & ->). rewrite run_app.
    assert (Hd : gui_run false oracle (repeat false n) s1 = s1).
    { clear -H1. assert (Hw : g_worker s1 = WDead) by (unfold thread_alive in H1; destruct (g_worker s1); congruence).
      assert (E : gui_worker false oracle s1 = s1) by (unfold gui_worker; rewrite Hw; reflexivity).
      induction n as [|n IH]; [reflexivity|]. cbn. rewrite E. exact IH. }
    rewrite Hd. change (gui_run false oracle (true :: more) s1) with (gui_run false oracle more (gui_user false s1)).
    eapply Nat.lt_le_trans; [|apply Hmono]. unfold gui_user at 1. rewrite H2, H1. cbn. apply Nat.lt_succ_r. apply Hmono.
Qed.
Example gui_close_returns_ex :
  let oracle n := if n =? 3 then Complete else Works in
  let s := gui_run false oracle (turns 2 5 ++ turns 1 0) (gui_start [Start; Close]) in
  g_stop s = true /\ g_user s = UJoin /\ g_count s = 0 /\
  let s' := gui_run false oracle (turns 0 26 ++ [true]) s in
  returned Close (g_log s') = 1 /\ iterations (g_log s') = 3.
Proof. vm_compute. repeat split. Qed.

(** ** C89 *)
(** No exception of an iteration ends the worker: it lives until Close or
    restart_thread is called. *)
Theorem gui_worker_survives oracle ops schedule :
  ~ In Close ops -> ~ In Restart ops ->
  thread_alive (gui_run false oracle schedule (gui_start ops)) = true.
Proof.
  intros H1 H2. assert (H : alive_inv (gui_run false oracle schedule (gui_start ops))).
  { apply run_inv; [apply alive_worker|apply alive_user|]. repeat split; assumption. }
  destruct H as (_ & _ & _ & _ & H). unfold thread_alive. destruct (g_worker (gui_run false oracle schedule (gui_start ops))); try contradiction; reflexivity.
Qed.
Example gui_worker_survives_ex :
  let s := gui_run false (always Fails) (turns 2 20 ++ turns 2 20) (gui_start [Start; Start]) in
  iterations (g_log s) = 2 /\ thread_alive s = true.
Proof. split; reflexivity. Qed.
(** A failed iteration, a complete tuning or a missing autotuner pauses: without
    another press there is no further iteration. *)
Theorem gui_failure_pauses oracle s more :
  g_worker s = WPause1 -> at_rest s -> iterations (g_log (gui_run false oracle more s)) = iterations (g_log s).
Proof.
  intros Hw [Hu Ht]. apply Nat.le_antisymm; [|apply iterations_mono].
  (* the window can at most pause; the two writes of the worker come first *)
  assert (G : forall more s, (g_worker s = WPause1 \/ g_worker s = WPause2 /\ g_cont s = false) -> no_more_work (g_todo s) ->
     match g_user s with UStart | UStep => False | _ => True end ->
     iterations (g_log (gui_run false oracle more s)) <= iterations (g_log s)).
  { clear. induction more as [|who more IH]; intros s Hw Ht Hu; [cbn; lia|]. destruct who.
    - change (gui_run false oracle (true :: more) s) with (gui_run false oracle more (gui_user false s)).
      assert (Hx : (g_worker (gui_user false s) = WPause1 \/ g_worker (gui_user false s) = WPause2 /\ g_cont (gui_user false s) = false) /\
        no_more_work (g_todo (gui_user false s)) /\ match g_user (gui_user false s) with UStart | UStep => False | _ => True end /\
        iterations (g_log (gui_user false s)) = iterations (g_log s)).
      { destruct s as [c st sp w n u td lg]. cbn in *. destruct u; cbn; try contradiction.
        - destruct td as [|b td]; [cbn; auto|]. apply no_more_tail in Ht. destruct Ht as (Ht & Ha & Hb).
          destruct b; cbn; try congruence; auto.
        - repeat split; try apply Ht. destruct Hw as [->|[-> _]]; auto.
        - repeat split; try apply Ht. exact Hw.
        - unfold thread_alive; cbn. destruct Hw as [->|[-> Hw]]; cbn; auto.
        - unfold thread_alive; cbn. destruct Hw as [->|[-> Hw]]; cbn; auto. }
      destruct Hx as (X1 & X2 & X3 & X4). rewrite <- X4. apply IH; assumption.
    - change (gui_run false oracle (false :: more) s) with (gui_run false oracle more (gui_worker false oracle s)).
      destruct s as [c st sp w n u td lg]. cbn in *. destruct Hw as [->|[-> ->]].
      + apply (IH (mk_gui false st sp WPause2 n u td lg)); cbn; auto.
      + apply (off_run false oracle (iterations lg) more (mk_gui false false sp WClear n u td lg)). repeat split; cbn; try apply Ht; auto; lia. }
  apply G; [left; exact Hw|exact Ht|rewrite Hu; exact I].
Qed.
Example gui_failure_pauses_ex :
  let s := gui_run false (always Fails) (turns 2 6) (gui_start [Start; Pause]) in
  g_worker s = WPause1 /\ at_rest s /\ iterations (g_log s) = 1 /\ g_cont s = true.
Proof. repeat split; cbn; intuition discriminate. Qed.
(** The claim that a returned Start leads to an iteration is false: the worker's
    own pause after a failure can swallow it. *)
Theorem gui_start_lost_refuted :
  exists oracle schedule, (forall n, oracle (S n) = Works) /\
    let s := gui_run false oracle schedule (gui_start [Start; Start]) in
    returned Start (g_log s) = 2 /\ forall more, iterations (g_log (gui_run false oracle more s)) = 1.
Proof.
  exists (fun n => if n =? 0 then Fails else Works), (turns 2 6 ++ turns 2 2). split; [reflexivity|]. split; [reflexivity|]. intros more.
  set (o := fun n => if n =? 0 then Fails else Works).
  set (s := gui_run false o (turns 2 6 ++ turns 2 2) (gui_start [Start; Start])).
  assert (H : off_inv 1 s) by (repeat split; cbn; intuition (discriminate || lia)).
  pose proof (off_run false o 1 more s H). pose proof (iterations_mono false o more s) as Hm.
  assert (iterations (g_log s) = 1) by reflexivity. lia.
Qed.

(** ** C90 *)
(** The entered number: kept if it is the number of a stored row, otherwise moved
    to the nearest one; a text counts as 0. *)
Theorem run_number_setter text stored :
  (0 < stored)%Z ->
  let r := set_run_number text stored in
  (0 <= r < stored)%Z /\ (forall i, text = Some i -> (0 <= i < stored)%Z -> r = i) /\ (text = None -> r = 0%Z).
Proof.
  intros Hs r. subst r. unfold set_run_number. destruct text as [i|]; cbn.
  - destruct (Z.ltb_spec i 0), (Z.leb_spec stored i); repeat split; try lia; try discriminate; intros j Hj; inversion Hj; subst; lia.
  - destruct (Z.leb_spec stored 0); repeat split; try lia; discriminate.
Qed.
Example run_number_setter_ex : set_run_number (Some 7%Z) 5 = 4%Z /\ set_run_number (Some (-3)%Z) 5 = 0%Z /\ set_run_number (Some 2%Z) 5 = 2%Z.
Proof. repeat split. Qed.
(** Without stored rows it becomes -1. *)
Theorem run_number_empty_refuted i : (0 <= i)%Z -> set_run_number (Some i) 0 = (-1)%Z /\ set_run_number None 0 = (-1)%Z.
Proof. intros H. unfold set_run_number. cbn. destruct (Z.ltb_spec i 0); [lia|]. destruct (Z.leb_spec 0 i); [split; reflexivity|lia]. Qed.
(** The same number means different runs in the two windows: the raw data window
    shows the run before, and for 0 the last one; the reload window takes the
    run itself.  A new reload window shows 1 but reloads run 0. *)
Theorem run_number_off_by_one {A} (rows : list A) k :
  0 < k < length rows ->
  plotted_run rows (Z.of_nat k) = nth_error rows (k - 1) /\ reloaded_run rows (Z.of_nat k) = nth_error rows k /\
  plotted_run rows 0 = nth_error rows (length rows - 1) /\
  reloaded_run rows initial_number = nth_error rows 0 /\ reloaded_run rows initial_shown = nth_error rows 1.
Proof.
  intros Hk. unfold plotted_run, reloaded_run, at_position, initial_number, initial_shown.
  destruct (Z.ltb_spec (Z.of_nat k - 1) 0); [lia|]. destruct (Z.ltb_spec (Z.of_nat k) 0); [lia|]. cbn [Z.ltb Z.compare Z.sub Z.add Z.opp].
  split; [f_equal; lia|]. split; [f_equal; lia|]. cbn.
  destruct (Z.leb_spec (- Z.of_nat (length rows)) (-1)); [|lia]. split; [f_equal; lia|]. split; reflexivity.
Qed.
Example run_number_off_by_one_ex :
  plotted_run [10; 11; 12; 13] 2 = Some 11 /\ reloaded_run [10; 11; 12; 13] 2 = Some 12 /\ plotted_run [10; 11; 12; 13] 0 = Some 13.
Proof. repeat split. Qed.

Print Assumptions gui_default_inert.
Print Assumptions gui_step_bound.
Print Assumptions gui_step_lost_refuted.
Print Assumptions gui_pause_last.
Print Assumptions gui_close_blocked.
Print Assumptions gui_close_returns.
Print Assumptions gui_worker_survives.
Print Assumptions gui_failure_pauses.
Print Assumptions gui_start_lost_refuted.
Print Assumptions run_number_setter.
Print Assumptions run_number_empty_refuted.
Print Assumptions run_number_off_by_one.
