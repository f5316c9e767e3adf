(** Properties of the asynchronous writer, qtune/storage.py L297-369 (C39, C40). *)
From Coq Require Import List Bool Arith Lia.
From Verif Require Import WriterModel WriterSpec WriterProofs.
Import ListNotations.

(** The example programs write numbers; tasks above 9 fail. *)
Definition ex_fails (n : nat) : bool := Nat.ltb 9 n.
(** Two writes, one join, a refused write, a restart, one more write, a join. *)
Definition ex_ops : list (uop nat) := [Write 1; Write 2; Join; Write 3; Restart; Write 4; Join].
Fixpoint alternate (n : nat) : list bool := match n with 0 => [] | S n => true :: false :: alternate n end.
Lemma alternate_rounds n : rounds n (alternate n).
Proof.
  induction n as [|n IH]; [constructor|].
  change (alternate (S n)) with ([true; false] ++ alternate n). constructor; cbn; auto.
Qed.

(** C39.  In every interleaving and with every pattern of failures the files are
    written in the order of the accepted calls, each at most once, and nothing
    else is written; without [restart] they are the accepted tasks up to some
    point, at most up to the first failure. *)
Theorem writer_in_order {T} (fails : T -> bool) ops schedule :
  let s := writer_run fails schedule (writer_start ops) in
  part_of (w_files s) (accepted_tasks (w_log s)) /\
  (never_restarted ops -> prefix_of (w_files s) (before_failure fails (accepted_tasks (w_log s)))).
Proof.
  intros s. subst s. pose proof (files_fine fails ops schedule) as Hff. pose proof (not_restarted fails ops schedule) as Hnr.
  destruct (inv_run fails ops schedule) as [_ (old_f & old_a & cur & lost & ts & Hf & Ha & Hp & Hn & _ & _)].
  set (s := writer_run fails schedule (writer_start ops)) in *. split.
  - rewrite Hf, Ha. apply part_app; auto. rewrite <- (app_nil_r cur) at 1. apply part_app; [apply part_refl|apply part_nil_l].
  - intros H. specialize (Hn (Hnr H)). subst old_f. rewrite Ha, app_assoc, <- Hf, before_failure_fine by exact Hff. apply prefix_app.
Qed.
Example writer_in_order_ex :
  let s := writer_run ex_fails (alternate 12) (writer_start [Write 1; Write 12; Write 3; Write 4]) in
  w_files s = [1] /\ accepted_tasks (w_log s) = [1; 12; 3; 4] /\ before_failure ex_fails [1; 12; 3; 4] = [1].
Proof. now vm_compute. Qed.

(** When nothing moves any more, exactly the tasks before the first failure are
    written (without [restart]). *)
Theorem writer_stops_at_failure {T} (fails : T -> bool) ops schedule :
  let s := writer_run fails schedule (writer_start ops) in
  never_restarted ops -> stuck fails s -> w_files s = before_failure fails (accepted_tasks (w_log s)).
Proof.
  intros s Hr [Hu Hw]. subst s. pose proof (files_fine fails ops schedule) as Hff. pose proof (not_restarted fails ops schedule Hr) as Hnr.
  destruct (inv_run fails ops schedule) as [Hc (old_f & old_a & cur & lost & ts & Hf & Ha & Hp & Hn & _ & Hs)].
  set (s := writer_run fails schedule (writer_start ops)) in *. specialize (Hn Hnr). subst old_f.
  rewrite Ha, app_assoc, <- Hf, before_failure_fine by exact Hff.
  clearbody s. destruct s as [q u w f p opsr log]; cbn in *. unfold worker_step in Hw; cbn in Hw.
  inversion Hs; subst; try discriminate; cbn; rewrite ?app_nil_r; auto.
  - destruct (queue_of (joining p) ts) as [|t q] eqn:E; [|discriminate]. symmetry in E. apply queue_nil in E.
    destruct E as [_ ->]. cbn. now rewrite app_nil_r.
  - destruct (fails o); discriminate.
  - rewrite H0. now rewrite app_nil_r.
Qed.
Example writer_stops_at_failure_ex :
  let s := writer_run ex_fails (alternate 20) (writer_start [Write 1; Write 2; Write 12; Write 3]) in
  stuck ex_fails s /\ w_files s = [1; 2] /\ w_user s = Ready.
Proof. vm_compute. repeat split. Qed.

(** Without failing tasks: whatever was accepted before a [join] or [restart]
    returned is in the files, at the return and ever after. *)
Theorem writer_join_complete {T} (fails : T -> bool) ops schedule :
  (forall o, In o (wanted ops) -> fails o = false) ->
  let s := writer_run fails schedule (writer_start ops) in
  forall after before, w_log s = after ++ Joined :: before \/ w_log s = after ++ Restarted :: before ->
  prefix_of (accepted_tasks before) (w_files s).
Proof. intros H. apply joined_files. apply Forall_forall. exact H. Qed.
Example writer_join_complete_ex :
  let s := writer_run ex_fails (alternate 13) (writer_start ex_ops) in
  w_log s = [Rejected 3] ++ Joined :: [Accepted 2; Accepted 1] /\ w_files s = [1; 2].
Proof. now vm_compute. Qed.

(** Without failing tasks the answers do not depend on the interleaving: writes
    are accepted until [join] returns and again after [restart] has; and if both
    threads get enough turns all calls return and all accepted tasks are
    written. *)
Theorem writer_answers {T} (fails : T -> bool) ops schedule :
  (forall o, In o (wanted ops) -> fails o = false) ->
  let s := writer_run fails schedule (writer_start ops) in
  prefix_of (rev (w_log s)) (answers true ops).
Proof.
  intros H s. apply Forall_forall in H. pose proof (good_answers _ _ _ (good_run fails ops schedule H)) as A.
  fold s in A. rewrite <- A. apply prefix_app.
Qed.
Example writer_answers_ex :
  answers true ex_ops = [Accepted 1; Accepted 2; Joined; Rejected 3; Restarted; Accepted 4; Joined].
Proof. reflexivity. Qed.
Theorem writer_completes {T} (fails : T -> bool) ops schedule :
  (forall o, In o (wanted ops) -> fails o = false) -> rounds (8 * length ops) schedule ->
  let s := writer_run fails schedule (writer_start ops) in
  finished s /\ rev (w_log s) = answers true ops /\ w_files s = accepted_tasks (w_log s).
Proof.
  intros H Hr s. apply Forall_forall in H. pose proof (good_run fails ops schedule H) as G. fold s in G.
  assert (St : stuck fails s) by (eapply rounds_stuck'; eauto; apply start_cost).
  destruct (good_stuck _ _ _ G St) as [F Ff]. split; [exact F|split; [|exact Ff]].
  pose proof (good_answers _ _ _ G) as A. destruct F as [F1 F2]. rewrite F1, F2 in A. cbn in A.
  now rewrite app_nil_r in A.
Qed.
Example writer_completes_ex :
  rounds (8 * length ex_ops) (alternate 56) /\
  w_files (writer_run ex_fails (alternate 56) (writer_start ex_ops)) = [1; 2; 4].
Proof. split; [apply alternate_rounds|now vm_compute]. Qed.

(** With failures too: between a [join] and the next [restart] no task is
    accepted. *)
Theorem writer_closed_after_join {T} (fails : T -> bool) ops schedule :
  let s := writer_run fails schedule (writer_start ops) in
  forall after o before, w_log s = after ++ Accepted o :: before -> usable before = true.
Proof. exact (accepted_when_usable fails ops schedule). Qed.
Example writer_closed_after_join_ex :
  let s := writer_run ex_fails (alternate 56) (writer_start ex_ops) in
  w_log s = [Joined] ++ Accepted 4 :: [Restarted; Rejected 3; Joined; Accepted 2; Accepted 1].
Proof. now vm_compute. Qed.

(** Every schedule comes to rest after a number of steps linear in the number of
    calls, whatever fails.  At rest either all calls have returned or [join]
    waits forever for a queue that nobody empties. *)
Theorem writer_comes_to_rest {T} (fails : T -> bool) ops schedule :
  let s := writer_run fails schedule (writer_start ops) in
  moves fails schedule (writer_start ops) <= 8 * length ops /\
  (rounds (8 * length ops) schedule -> stuck fails s) /\
  (stuck fails s -> finished s \/
    exists again, w_user s = JoinQueue again /\ w_worker s = Dead /\ w_queue s <> []).
Proof.
  intros s. split; [|split].
  - pose proof (moves_cost fails schedule (writer_start ops)). pose proof (start_cost ops). lia.
  - intros H. eapply rounds_stuck'; eauto. apply start_cost.
  - apply stuck_cases.
Qed.
Example writer_comes_to_rest_ex :
  moves ex_fails (alternate 100) (writer_start ex_ops) = 34 /\
  (let s := writer_run ex_fails [true; true; true; true; false; false; false; false] (writer_start [Write 12; Join]) in
   stuck ex_fails s /\ w_user s = JoinQueue false /\ w_queue s = [Stop]).
Proof. now vm_compute. Qed.

(** C40.  When [join] (or [restart]) waits for the queue and a failing task is
    still on the way, or the worker has ended and left something in the queue,
    the call returns in no continuation of the schedule. *)
Theorem writer_join_deadlock {T} (fails : T -> bool) ops schedule again :
  let s := writer_run fails schedule (writer_start ops) in
  w_user s = JoinQueue again ->
  (exists o, on_the_way s o /\ fails o = true) \/
    (w_queue s <> [] /\ (w_worker s = Closing false \/ w_worker s = Ending \/ w_worker s = Dead)) ->
  forall more, let s' := writer_run fails more s in
  w_user s' = JoinQueue again /\ w_todo s' = w_todo s /\ w_log s' = w_log s.
Proof.
  intros s Hu Ho more s'. pose proof (run_hanging fails ops schedule again Hu Ho) as H.
  destruct (hanging_forever _ _ H more) as (_ & H1 & H2 & H3). subst s s'. rewrite Hu in H1. auto.
Qed.
Example writer_join_deadlock_ex :
  let s := writer_run ex_fails [true; true; true; true; true; true] (writer_start [Write 1; Write 12; Join; Write 2]) in
  w_user s = JoinQueue false /\ on_the_way s 12 /\ ex_fails 12 = true.
Proof. vm_compute. repeat split. right; right; left; reflexivity. Qed.

(** Such a deadlock is possible in every program that writes a failing task and
    calls [join] or [restart] afterwards. *)
Theorem writer_deadlock_possible {T} (fails : T -> bool) ts bad (again : bool) rest :
  In bad ts -> fails bad = true ->
  exists schedule, forall more,
  let s := writer_run fails (schedule ++ more) (writer_start (map Write ts ++ (if again then Restart else Join) :: rest)) in
  w_user s = JoinQueue again /\ ~ finished s /\ accepted_tasks (w_log s) = ts.
Proof.
  intros Hi Hb. exists (repeat true (2 * length ts) ++ [true; true]). intros more s.
  set (ops := map Write ts ++ (if again then Restart else Join) :: rest).
  assert (E : writer_run fails (repeat true (2 * length ts) ++ [true; true]) (writer_start ops) =
    mk_wstate (map Save ts ++ [Stop]) (S (length ts)) Waiting [] (JoinQueue again) rest (rev (map (@Accepted T) ts))).
  { rewrite run_app. unfold ops, writer_start. rewrite run_writes. rewrite app_nil_r. destruct again; reflexivity. }
  destruct (writer_join_deadlock fails ops (repeat true (2 * length ts) ++ [true; true]) again) with (more := more) as (H1 & H2 & H3).
  - now rewrite E.
  - left. exists bad. split; auto. rewrite E. right. cbn. apply in_or_app. left. now apply in_map.
  - unfold s. fold ops. rewrite run_app. split; [exact H1|split].
    + intros [_ F]. rewrite H1 in F. discriminate.
    + rewrite H3, E. cbn. clear. induction ts as [|o ts IH]; cbn; auto.
      rewrite accepted_app. cbn. now rewrite IH.
Qed.
Example writer_deadlock_possible_ex :
  w_user (writer_run ex_fails (repeat true 6 ++ alternate 50) (writer_start [Write 1; Write 12; Join])) = JoinQueue false /\
  finished (writer_run ex_fails (alternate 50) (writer_start [Write 12; Write 1; Write 2; Join])).
Proof. now vm_compute. Qed.

(** Claim "an accepted task is written or join() reports the loss": refuted.
    The worker is dead, [join] returns normally, the second task is lost. *)
Theorem writer_silent_loss_refuted :
  let s := writer_run ex_fails (alternate 4 ++ [false; false; false; false; false] ++ alternate 8) (writer_start [Write 12; Write 1; Join]) in
  finished s /\ rev (w_log s) = [Accepted 12; Accepted 1; Joined] /\ w_files s = [].
Proof. now vm_compute. Qed.

Print Assumptions writer_in_order.
Print Assumptions writer_stops_at_failure.
Print Assumptions writer_join_complete.
Print Assumptions writer_answers.
Print Assumptions writer_completes.
Print Assumptions writer_closed_after_join.
Print Assumptions writer_comes_to_rest.
Print Assumptions writer_join_deadlock.
Print Assumptions writer_deadlock_possible.
Print Assumptions writer_silent_loss_refuted.
