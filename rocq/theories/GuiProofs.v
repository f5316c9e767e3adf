(** Invariants of the worker thread and the buttons. *)
From Coq Require Import List Bool Arith Lia.
From Verif Require Import GuiModel GuiSpec.
Import ListNotations.

Section P.
Variables (named : bool) (oracle : nat -> outcome).
Local Notation run := (gui_run named oracle).
Local Notation turn := (gui_turn named oracle).
Local Notation worker := (gui_worker named oracle).
Local Notation user := (gui_user named).

Lemma run_inv (P : gui -> Prop) : (forall s, P s -> P (worker s)) -> (forall s, P s -> P (user s)) ->
  forall schedule s, P s -> P (run schedule s).
Proof.
  intros Hw Hu schedule. induction schedule as [|who sch IH]; intros s Hs; [exact Hs|].
  cbn. apply IH. destruct who; [apply Hu|apply Hw]; exact Hs.
Qed.
Lemma run_app a b s : run (a ++ b) s = run b (run a s).
Proof. unfold gui_run. apply fold_left_app. Qed.
Lemma todo_worker s : g_todo (worker s) = g_todo s.
Proof. destruct s as [c st sp w n u td lg]; destruct w; cbn; try reflexivity; destruct (oracle n); reflexivity. Qed.

(** No work is asked for: the user part never switches work on. *)
Lemma no_more_tail b ops : no_more_work (b :: ops) -> no_more_work ops /\ b <> Start /\ b <> Step.
Proof.
  intros [H1 H2]. split; [split; intros H; [apply H1|apply H2]; right; exact H|].
  split; intros ->; [apply H1|apply H2]; left; reflexivity.
Qed.

Definition quiet_user (u : upc) : Prop := u <> UStart /\ u <> UStep.
End P.

(** ** The window with a named logger *)
Definition inert (s : gui) : Prop :=
  g_cont s = false /\ g_step s = false /\
  match g_worker s with WOuter | WIdleStop | WIdleCont | WIdleStep | WInCont | WInStep | WEnding | WDead => True | _ => False end /\
  match g_user s with UStart | UStep => False | _ => True end /\
  iterations (g_log s) = 0 /\ returned Start (g_log s) = 0 /\ returned Step (g_log s) = 0.
Lemma inert_worker oracle s : inert s -> inert (gui_worker true oracle s).
Proof.
  destruct s as [c st sp w n u td lg]. unfold inert; cbn. intros (-> & -> & Hw & Hu & H1 & H2 & H3).
  destruct w; cbn in *; try contradiction; try (repeat split; assumption); destruct sp; cbn; repeat split; assumption.
Qed.
Lemma inert_user s : inert s -> inert (gui_user true s).
Proof.
  destruct s as [c st sp w n u td lg]. unfold inert; cbn. intros (-> & -> & Hw & Hu & H1 & H2 & H3).
  destruct u; cbn in *; try contradiction.
  - destruct td as [|[] td]; cbn; try (repeat split; assumption);
      unfold thread_alive; cbn; destruct w; cbn in *; try contradiction; repeat split; assumption.
  - repeat split; assumption.
  - repeat split; assumption.
  - unfold thread_alive; cbn; destruct w; cbn in *; try contradiction; repeat split; assumption.
  - unfold thread_alive; cbn; destruct w; cbn in *; try contradiction; repeat split; assumption.
Qed.

(** ** Steps *)
(** Is a step promised? *)
Definition promised (s : gui) : nat :=
  match g_worker s with
  | WInStop | WWork => 1
  | WIterate | WPause1 | WPause2 | WClear => 0
  | _ => if g_step s then 1 else 0
  end.
Definition step_inv (s : gui) : Prop :=
  g_cont s = false /\ ~ In Start (g_todo s) /\ g_user s <> UStart /\
  iterations (g_log s) + promised s <= returned Step (g_log s).
Lemma step_worker oracle s : step_inv s -> step_inv (gui_worker false oracle s).
Proof.
  destruct s as [c st sp w n u td lg]. unfold step_inv, promised; cbn. intros (-> & H1 & H2 & H3).
  destruct w; cbn in *; try (destruct sp; cbn; repeat split; auto; fail);
    try (destruct sp, st; cbn in *; repeat split; auto; lia).
  - destruct (oracle n); cbn; repeat split; auto; destruct st; lia.
  - destruct (oracle n); cbn; repeat split; auto.
Qed.
Lemma step_user s : step_inv s -> step_inv (gui_user false s).
Proof.
  destruct s as [c st sp w n u td lg]. unfold step_inv, promised; cbn. intros (-> & H1 & H2 & H3).
  destruct u; cbn in *; try congruence.
  - destruct td as [|b td]; [repeat split; auto|]. assert (H1' : ~ In Start td) by (intros C; apply H1; right; exact C).
    destruct b; cbn in *; try (exfalso; apply H1; left; reflexivity); unfold thread_alive; cbn; destruct w; cbn in *; repeat split; auto; try congruence; lia.
  - repeat split; auto; try congruence. destruct w; cbn in *; try lia; destruct st; lia.
  - repeat split; auto; congruence.
  - repeat split; auto; try congruence. destruct w; cbn in *; try lia; destruct st; lia.
  - unfold thread_alive; cbn. destruct w; cbn in *; repeat split; auto; congruence.
  - unfold thread_alive; cbn. destruct w; cbn in *; repeat split; auto; try congruence; destruct st; lia.
Qed.

(** ** After the last request *)
(** At most [k] more iterations. *)
Definition committed (s : gui) : nat :=
  match g_worker s with WInStop | WWork => 1 | _ => 0 end.
Definition off_inv (k : nat) (s : gui) : Prop :=
  g_cont s = false /\ g_step s = false /\ no_more_work (g_todo s) /\ match g_user s with UStart | UStep => False | _ => True end /\
  iterations (g_log s) + committed s <= k.
Lemma off_worker named oracle k s : off_inv k s -> off_inv k (gui_worker named oracle s).
Proof.
  destruct s as [c st sp w n u td lg]. unfold off_inv, committed; cbn. intros (-> & -> & H1 & H2 & H3).
  destruct w; cbn in *; try (destruct sp; cbn; repeat split; auto; try apply H1; lia).
  - destruct (oracle n); cbn; repeat split; try apply H1; auto; destruct named; lia.
  - destruct (oracle n); cbn; repeat split; try apply H1; auto; destruct named; lia.
Qed.
Lemma off_user named k s : off_inv k s -> off_inv k (gui_user named s).
Proof.
  destruct s as [c st sp w n u td lg]. unfold off_inv, committed; cbn. intros (-> & -> & H1 & H2 & H3).
  destruct u; cbn in *; try contradiction.
  - destruct td as [|b td]; [repeat split; auto; apply H1|]. apply no_more_tail in H1. destruct H1 as (H1 & Ha & Hb).
    destruct b; cbn in *; try congruence; unfold thread_alive; cbn; destruct named, w; cbn in *; repeat split; auto; try apply H1; lia.
  - repeat split; auto; apply H1.
  - repeat split; auto; apply H1.
  - unfold thread_alive; cbn. destruct w; cbn in *; repeat split; auto; try apply H1; lia.
  - unfold thread_alive; cbn. destruct named, w; cbn in *; repeat split; auto; try apply H1; lia.
Qed.
Lemma off_run named oracle k schedule s : off_inv k s -> iterations (g_log (gui_run named oracle schedule s)) <= k.
Proof.
  intros H. assert (off_inv k (gui_run named oracle schedule s)) as (_ & _ & _ & _ & H').
  { revert H. apply run_inv; [apply off_worker|apply off_user]. }
  lia.
Qed.
Lemma iterations_mono_turn named oracle s who : iterations (g_log s) <= iterations (g_log (gui_turn named oracle s who)).
Proof.
  destruct s as [c st sp w n u td lg]. destruct who; cbn.
  - destruct u; cbn; try lia; [destruct td as [|[] td]; cbn; try lia| |]; unfold thread_alive; cbn; destruct named, w, c, st; cbn; lia.
  - destruct w; cbn; try lia; destruct (oracle n); cbn; lia.
Qed.
Lemma iterations_mono named oracle schedule : forall s, iterations (g_log s) <= iterations (g_log (gui_run named oracle schedule s)).
Proof.
  induction schedule as [|who sch IH]; intros s; cbn; [lia|]. etransitivity; [apply iterations_mono_turn|apply IH].
Qed.

(** Pause has just returned. *)
Definition paused_inv (s : gui) : Prop :=
  (g_user s = UPause2 -> g_cont s = false) /\
  (g_user s = UReady -> forall log, g_log s = Returned Pause :: log -> g_cont s = false /\ g_step s = false).
Lemma paused_worker named oracle s : paused_inv s -> paused_inv (gui_worker named oracle s).
Proof.
  destruct s as [c st sp w n u td lg]. unfold paused_inv; cbn. intros (H1 & H2).
  assert (H2' : forall log, u = UReady -> lg = Returned Pause :: log -> c = false /\ st = false) by (intros log Hu Hl; apply (H2 Hu log Hl)).
  destruct w; cbn; try (split; [exact H1|exact H2]).
  - destruct (oracle n); cbn; split; try exact H1; try exact H2; intros _ log Hl; discriminate.
  - split; [reflexivity|]. intros Hu log Hl. split; [reflexivity|]. apply (H2' log Hu Hl).
  - split; [exact H1|]. intros Hu log Hl. split; [apply (H2' log Hu Hl)|reflexivity].
  - split; [exact H1|]. intros Hu log Hl. split; [apply (H2' log Hu Hl)|reflexivity].
Qed.
Lemma paused_user named s : paused_inv s -> paused_inv (gui_user named s).
Proof.
  destruct s as [c st sp w n u td lg]. unfold paused_inv; cbn. intros (H1 & H2).
  destruct u; cbn.
  - destruct td as [|[] td]; cbn; [split; assumption|..]; unfold thread_alive; cbn; destruct named, w, c, st; cbn; split; intros; try discriminate; auto.
  - split; intros; discriminate.
  - split; intros; discriminate.
  - split; [reflexivity|intros; discriminate].
  - split; [intros; discriminate|]. intros _ log Hl. split; [apply H1; reflexivity|reflexivity].
  - unfold thread_alive; cbn; destruct w; cbn; split; intros; discriminate.
  - unfold thread_alive; cbn; destruct w, named; cbn; split; intros; discriminate.
Qed.

(** ** The worker dies only when it is told to *)
Definition alive_inv (s : gui) : Prop :=
  g_stop s = false /\ ~ In Close (g_todo s) /\ ~ In Restart (g_todo s) /\
  match g_user s with UJoin | URejoin => False | _ => True end /\
  match g_worker s with WEnding | WDead => False | _ => True end.
Lemma alive_worker oracle s : alive_inv s -> alive_inv (gui_worker false oracle s).
Proof.
  destruct s as [c st sp w n u td lg]. unfold alive_inv; cbn. intros (-> & H1 & H2 & H3 & H4).
  destruct w; cbn; try contradiction; try (destruct c, st; cbn; repeat split; auto; fail);
    destruct (oracle n); cbn; repeat split; auto.
Qed.
Lemma alive_user s : alive_inv s -> alive_inv (gui_user false s).
Proof.
  destruct s as [c st sp w n u td lg]. unfold alive_inv; cbn. intros (-> & H1 & H2 & H3 & H4).
  destruct u; cbn; try contradiction; try (repeat split; auto; fail).
  destruct td as [|b td]; [repeat split; auto|].
  assert (H1' : ~ In Close td) by (intros C; apply H1; right; exact C). assert (H2' : ~ In Restart td) by (intros C; apply H2; right; exact C).
  destruct b; cbn in *; try (exfalso; first [apply H1; left; reflexivity|apply H2; left; reflexivity]); unfold thread_alive; cbn; destruct w; cbn in *; try contradiction; repeat split; auto.
Qed.

(** ** Closing *)
(** Worker turns until the end, while the window waits; [d]: occasions until the
    work stops. *)
Definition rank (d : nat) (s : gui) : nat :=
  match g_worker s with
  | WDead => 0 | WEnding => 1 | WOuter => 2 | WInStop => 3 | WInStep => 4
  | WPause1 => 8
  | WInCont => if g_cont s then 12 + 4 * d else 5
  | WIdleStop => if g_cont s then 13 + 4 * d else 6
  | WIdleStep => if g_cont s then 14 + 4 * d else 7
  | WIdleCont => if g_cont s then 13 + 4 * d else 8
  | WClear => if g_cont s then 13 + 4 * d else 6
  | WPause2 => if g_cont s then 14 + 4 * d else 7
  | WIterate => if g_cont s then 10 + 4 * d else 9
  | WWork => if g_cont s then 11 + 4 * d else 10
  end.
Definition waiting (u : upc) : Prop := u = UJoin \/ u = URejoin.
Definition closing (k : nat) (s : gui) : Prop :=
  g_stop s = true /\ waiting (g_user s) /\
  (g_cont s = true -> g_worker s <> WPause1 -> g_count s <= k).
Local Ltac cl H3 := repeat split; auto; try lia; try (intros Hc _; apply H3; [exact Hc|discriminate]); try congruence.
Lemma closing_worker oracle k s : oracle k <> Works -> closing k s -> thread_alive s = true ->
  closing k (gui_worker false oracle s) /\
  rank (k - g_count (gui_worker false oracle s)) (gui_worker false oracle s) < rank (k - g_count s) s.
Proof.
  intros Ho. destruct s as [c st sp w n u td lg]. unfold closing, rank, thread_alive; cbn. intros (-> & H2 & H3) Ha.
  destruct w; cbn; try discriminate.
  - cl H3.
  - cl H3. destruct c; lia.
  - destruct c; cl H3.
  - destruct st, c; cl H3.
  - destruct c; cl H3.
  - destruct st; cl H3.
  - cl H3.
  - destruct c; cbn.
    + assert (n <= k) by (apply H3; [reflexivity|discriminate]).
      destruct (oracle n) eqn:E; cbn; cl H3.
    + destruct (oracle n) eqn:E; cbn; cl H3.
  - destruct c; cbn.
    + assert (Hn : n <= k) by (apply H3; [reflexivity|discriminate]).
      destruct (oracle n) eqn:E; cbn; repeat split; auto; try lia; try congruence.
      * intros _ _. destruct (Nat.eq_dec n k) as [->|]; [congruence|lia].
      * assert (n <> k) by congruence. lia.
    + destruct (oracle n) eqn:E; cbn; cl H3.
  - cl H3.
  - destruct c; cl H3.
  - destruct c; cl H3.
  - cl H3.
Qed.
Lemma rank_zero d s : rank d s = 0 -> thread_alive s = false.
Proof. destruct s as [c st sp w n u td lg]. unfold rank, thread_alive; cbn. destruct w, c; cbn; intros H; try reflexivity; discriminate. Qed.
Lemma waiting_user s : waiting (g_user s) -> thread_alive s = true -> gui_user false s = s.
Proof. destruct s as [c st sp w n u td lg]. cbn. intros [->| ->] H; cbn; rewrite H; reflexivity. Qed.
Lemma closing_run oracle k schedule : oracle k <> Works ->
  forall s, closing k s -> rank (k - g_count s) s <= worker_turns schedule ->
  exists pre post, schedule = pre ++ post /\ thread_alive (gui_run false oracle pre s) = false /\
    g_user (gui_run false oracle pre s) = g_user s /\ g_todo (gui_run false oracle pre s) = g_todo s.
Proof.
  intros Ho. induction schedule as [|who sch IH]; intros s Hc Hr.
  - exists [], []. repeat split. apply (rank_zero (k - g_count s) s). change (worker_turns []) with 0 in Hr. lia.
  - destruct (thread_alive s) eqn:Ea; [|exists [], (who :: sch); repeat split; exact Ea].
    destruct who.
    + change (worker_turns (true :: sch)) with (worker_turns sch) in Hr. destruct (IH s Hc Hr) as (pre & post & E & H1 & H2 & H3).
      assert (Hs : gui_run false oracle (true :: pre) s = gui_run false oracle pre s).
      { cbn. rewrite waiting_user; [reflexivity|apply Hc|exact Ea]. }
      exists (true :: pre), post. rewrite E, Hs. repeat split; assumption.
    + destruct (closing_worker oracle k s Ho Hc Ea) as [Hc' Hlt]. change (worker_turns (false :: sch)) with (S (worker_turns sch)) in Hr.
      destruct (IH (gui_worker false oracle s) Hc') as (pre & post & E & H1 & H2 & H3); [lia|].
      exists (false :: pre), post. cbn. rewrite E. repeat split; try assumption.
      * unfold gui_run in H2. rewrite H2. destruct s as [c st sp w n u td lg]; destruct w; cbn; try reflexivity; destruct (oracle n); reflexivity.
      * unfold gui_run in H3. rewrite H3. apply todo_worker.
Qed.

(** While the work goes on the window waits. *)
Definition busy (s : gui) : Prop :=
  g_cont s = true /\ match g_worker s with WInCont | WWork | WIterate | WClear => True | _ => False end.
Definition distance (s : gui) : nat :=
  match g_worker s with WWork => 1 | WInCont => 2 | WClear => 3 | _ => 4 end.
Lemma busy_worker oracle s : (forall k, oracle k = Works) -> busy s -> busy (gui_worker false oracle s) /\
  4 * iterations (g_log s) + 1 + distance (gui_worker false oracle s) <= 4 * iterations (g_log (gui_worker false oracle s)) + distance s.
Proof.
  intros Ho. destruct s as [c st sp w n u td lg]. unfold busy, distance; cbn. intros (-> & H).
  destruct w; cbn in *; try contradiction; rewrite ?Ho; cbn; repeat split; lia.
Qed.
