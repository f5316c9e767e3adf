(** Lemmas about the asynchronous writer. *)
From Coq Require Import List Bool Arith Lia.
From Verif Require Import WriterModel WriterSpec.
Import ListNotations.

Section W.
Context {T : Type}.
Variable fails : T -> bool.
Notation run := (writer_run fails).

Lemma part_refl (l : list T) : part_of l l.
Proof. induction l; constructor; auto. Qed.
Lemma part_nil_l (l : list T) : part_of [] l.
Proof. induction l; constructor; auto. Qed.
Lemma part_app (a b c d : list T) : part_of a b -> part_of c d -> part_of (a ++ c) (b ++ d).
Proof. induction 1; intros; cbn; auto; constructor; auto. Qed.

(** ** Termination *)
Definition op_cost (o : uop T) := match o with Write _ => 6 | _ => 8 end.
Definition task_cost (t : task T) := 4 + match t with Stop => 0 | Save _ => 0 end.
Definition user_cost (p : uphase T) :=
  match p with Ready => 0 | WritePut _ => 5 | JoinPut _ => 7 | JoinQueue _ => 2 | JoinWorker _ => 1 end.
Definition worker_cost (w : wphase T) :=
  match w with Waiting => 0 | Working _ => 3 | Closing true => 1 | Closing false => 2 | Ending => 1 | Dead => 0 end.
Definition cost (s : wstate T) : nat :=
  list_sum (map op_cost (w_todo s)) + user_cost (w_user s) + 4 * length (w_queue s) + worker_cost (w_worker s).

Lemma user_cost_step s s' : user_step s = Some s' -> cost s' < cost s.
Proof.
  destruct s as [q u w f p ops log]. unfold user_step, cost, alive; cbn.
  destruct p as [|o|b|b|b].
  - destruct ops as [|[o| |] ops]; [discriminate| | |];
    destruct w; intros H; inversion H; subst; cbn; lia.
  - intros H; inversion H; subst; cbn. rewrite app_length; cbn. lia.
  - intros H; inversion H; subst; cbn. rewrite app_length; cbn. lia.
  - destruct (Nat.eqb u 0); [|discriminate]. intros H; inversion H; subst; cbn. lia.
  - destruct w; try discriminate. destruct b; intros H; inversion H; subst; cbn; lia.
Qed.
Lemma worker_cost_step s s' : worker_step fails s = Some s' -> cost s' < cost s.
Proof.
  destruct s as [q u w f p ops log]. unfold worker_step, cost; cbn.
  destruct w as [|[|o]|[|]| |].
  - destruct q; [discriminate|]. intros H; inversion H; subst; cbn. lia.
  - intros H; inversion H; subst; cbn. lia.
  - destruct (fails o); intros H; inversion H; subst; cbn; lia.
  - intros H; inversion H; subst; cbn. lia.
  - intros H; inversion H; subst; cbn. lia.
  - intros H; inversion H; subst; cbn. lia.
  - discriminate.
Qed.
Lemma moves_cost schedule : forall s, moves fails schedule s + cost (run schedule s) <= cost s.
Proof.
  induction schedule as [|who schedule IH]; intros s; cbn; [lia|].
  specialize (IH (turn fails who s)). unfold writer_run in IH.
  enough ((match (if who then user_step s else worker_step fails s) with Some _ => 1 | None => 0 end) + cost (turn fails who s) <= cost s) by lia.
  unfold turn. destruct who.
  - destruct (user_step s) eqn:E; [apply user_cost_step in E|]; lia.
  - destruct (worker_step fails s) eqn:E; [apply worker_cost_step in E|]; lia.
Qed.
Lemma start_cost (ops : list (uop T)) : cost (writer_start ops) <= 8 * length ops.
Proof.
  unfold cost; cbn. rewrite !Nat.add_0_r. induction ops as [|o ops IH]; cbn; [lia|].
  unfold op_cost at 1. destruct o; lia.
Qed.
Lemma run_app a b s : run (a ++ b) s = run b (run a s).
Proof. unfold writer_run. apply fold_left_app. Qed.
Lemma moves_app a b s : moves fails (a ++ b) s = moves fails a s + moves fails b (run a s).
Proof. revert s. induction a as [|who a IH]; intros s; cbn; [reflexivity|]. rewrite IH. unfold writer_run. lia. Qed.
Lemma no_moves a : forall s, moves fails a s = 0 ->
  run a s = s /\ (In true a -> user_step s = None) /\ (In false a -> worker_step fails s = None).
Proof.
  induction a as [|who a IH]; intros s H; cbn in *; [now repeat split|].
  assert (E : turn fails who s = s) by (unfold turn; destruct who; [destruct (user_step s)|destruct (worker_step fails s)]; auto; discriminate).
  assert (E0 : (if who then user_step s else worker_step fails s) = None)
    by (destruct who; [destruct (user_step s)|destruct (worker_step fails s)]; auto; discriminate).
  rewrite E0, E in H. cbn in H. destruct (IH _ H) as (I1 & I2 & I3).
  rewrite E. split; [exact I1|split].
  - intros [Ew|Ht]; auto. subst. exact E0.
  - intros [Ew|Ht]; auto. subst. exact E0.
Qed.
Lemma stuck_run s : stuck fails s -> forall schedule, run schedule s = s.
Proof.
  intros [Hu Hw]. induction schedule as [|who schedule IH]; [reflexivity|].
  change (run schedule (turn fails who s) = s).
  replace (turn fails who s) with s; [exact IH|]. unfold turn. destruct who; [rewrite Hu|rewrite Hw]; reflexivity.
Qed.
Lemma rounds_stuck n schedule : rounds n schedule -> forall s, cost s <= n -> stuck fails (run schedule s) \/ cost (run schedule s) + n <= cost s.
Proof.
  induction 1 as [schedule|n part schedule Ht Hf _ IH]; intros s Hs.
  - right. pose proof (moves_cost schedule s). lia.
  - rewrite run_app. destruct (Nat.eq_dec (moves fails part s) 0) as [E|E].
    + destruct (no_moves _ _ E) as (E1 & E2 & E3).
      assert (St : stuck fails s) by (split; auto). left. rewrite E1, stuck_run; auto.
    + pose proof (moves_cost part s). destruct (IH (run part s)) as [S|S]; [lia|now left|right; lia].
Qed.
Lemma cost_zero_stuck s : cost s = 0 -> stuck fails s.
Proof.
  intros H. split.
  - destruct (user_step s) eqn:E; auto. apply user_cost_step in E. lia.
  - destruct (worker_step fails s) eqn:E; auto. apply worker_cost_step in E. lia.
Qed.
Lemma rounds_stuck' n schedule s : rounds n schedule -> cost s <= n -> stuck fails (run schedule s).
Proof.
  intros Hr Hs. destruct (rounds_stuck _ _ Hr s Hs) as [S|S]; auto. apply cost_zero_stuck. lia.
Qed.

(** ** The invariant *)
Definition saves (q : list (task T)) : list T := flat_map (fun t => match t with Save o => [o] | Stop => [] end) q.
Definition busy (w : wphase T) := match w with Working _ | Closing _ => 1 | _ => 0 end.
(** Is the queue [tasks] (false) or [tasks ++ stop] (true)? *)
Definition queue_of (stop : bool) (ts : list T) : list (task T) := map Save ts ++ (if stop then [Stop] else []).
Definition joining (p : uphase T) := match p with JoinQueue _ => true | _ => false end.
(** The worker has not ended: the queue contains the stop mark iff the user
    waits for the queue. *)
Inductive shape : wphase T -> uphase T -> list (task T) -> list T -> list T -> Prop :=
| sh_waiting p ts : (forall b, p <> JoinWorker b) -> shape Waiting p (queue_of (joining p) ts) [] ts
| sh_saving o p ts : (forall b, p <> JoinWorker b) -> shape (Working (Save o)) p (queue_of (joining p) ts) [o] ts
| sh_saved p ts : (forall b, p <> JoinWorker b) -> shape (Closing true) p (queue_of (joining p) ts) [] ts
| sh_stopping b : shape (Working Stop) (JoinQueue b) [] [] []
| sh_stopped b : shape (Closing false) (JoinQueue b) [] [] []
| sh_ending p : (exists b, p = JoinQueue b \/ p = JoinWorker b) -> shape Ending p [] [] []
| sh_dead p : (exists b, p = JoinQueue b \/ p = JoinWorker b \/ p = Ready) -> shape Dead p [] [] []
| sh_failed w o p ts : w = Closing false \/ w = Ending \/ w = Dead -> fails o = true ->
    (forall b, p = JoinWorker b -> w = Dead) ->
    shape w p (queue_of (joining p) ts) [o] ts.

Record inv (s : wstate T) : Prop := {
  inv_count : w_unfinished s = length (w_queue s) + busy (w_worker s);
  inv_shape : exists old_f old_a cur lost ts,
    w_files s = old_f ++ cur /\ accepted_tasks (w_log s) = old_a ++ cur ++ lost ++ ts /\
    part_of old_f old_a /\ (~ In Restarted (w_log s) -> old_f = old_a) /\
    (Forall (fun o => fails o = false) (accepted_tasks (w_log s)) -> old_f = old_a) /\
    shape (w_worker s) (w_user s) (w_queue s) lost ts
}.

Lemma queue_nil stop ts : [] = queue_of stop ts -> stop = false /\ ts = [].
Proof. destruct ts, stop; cbn; intros; try discriminate; auto. Qed.
Lemma queue_cons t q stop ts : t :: q = queue_of stop ts ->
  (exists o ts', t = Save o /\ ts = o :: ts' /\ q = queue_of stop ts') \/ (t = Stop /\ q = [] /\ stop = true /\ ts = []).
Proof.
  destruct ts as [|o ts]; cbn.
  - destruct stop; cbn; intros H; inversion H; auto.
  - intros H; inversion H; subst. left. eauto.
Qed.
Lemma queue_put_save ts o : queue_of false ts ++ [Save o] = queue_of false (ts ++ [o]).
Proof. unfold queue_of. rewrite !app_nil_r, map_app. reflexivity. Qed.
Lemma queue_put_stop ts : queue_of false ts ++ [Stop] = queue_of true ts.
Proof. unfold queue_of. rewrite !app_nil_r. reflexivity. Qed.

Lemma inv_start ops : inv (writer_start ops).
Proof.
  split; [reflexivity|]. exists [], [], [], [], []. cbn. repeat split; try constructor.
  apply (sh_waiting Ready []). discriminate.
Qed.

Ltac cut_shape := match goal with H : shape _ _ _ _ _ |- _ => inversion H; subst; clear H end.
Ltac give a b c d e := exists a, b, c, d, e; cbn; repeat split; auto.

Lemma inv_worker s s' : inv s -> worker_step fails s = Some s' -> inv s'.
Proof.
  intros [Hc (old_f & old_a & cur & lost & ts & Hf & Ha & Hp & Hn & Hm & Hs)] H.
  destruct s as [q u w f p ops log]; cbn in *.
  unfold worker_step in H; cbn in H.
  destruct w as [|[|o]|[|]| |].
  - inversion Hs; subst; [|destruct H0 as [?|[?|?]]; discriminate].
    destruct (queue_of (joining p) ts) as [|t q] eqn:Eq; [discriminate|].
    inversion H; subst; clear H. symmetry in Eq. apply queue_cons in Eq.
    destruct Eq as [(o & ts' & -> & -> & ->)|(-> & -> & Ej & ->)].
    + split; [cbn; lia|]. give old_f old_a cur [o] ts'. constructor; auto.
    + split; [cbn; lia|]. give old_f old_a cur (@nil T) (@nil T).
      destruct p; try discriminate. constructor.
  - inversion Hs; subst; [|destruct H0 as [?|[?|?]]; discriminate].
    inversion H; subst; clear H. split; [cbn; lia|]. give old_f old_a cur (@nil T) (@nil T). constructor.
  - inversion Hs; subst; [|destruct H0 as [?|[?|?]]; discriminate].
    destruct (fails o) eqn:Eo; inversion H; subst; clear H.
    + split; [cbn; lia|]. give old_f old_a cur [o] ts.
      apply sh_failed; auto. intros b ->. match goal with G : forall b, JoinWorker _ <> _ |- _ => now destruct (G b) end.
    + split; [cbn; lia|]. give old_f old_a (cur ++ [o]) (@nil T) ts.
      * now rewrite app_assoc.
      * rewrite Ha, <- app_assoc. reflexivity.
      * now constructor.
  - inversion Hs; subst; [|destruct H0 as [?|[?|?]]; discriminate].
    inversion H; subst; clear H. split; [cbn; lia|]. give old_f old_a cur (@nil T) ts. now constructor.
  - inversion H; subst; clear H. inversion Hs; subst.
    + split; [cbn; lia|]. give old_f old_a cur (@nil T) (@nil T). constructor. eauto.
    + split; [cbn in *; lia|]. give old_f old_a cur [o] ts. constructor; auto.
      intros b Hb. match goal with G : forall b, _ = JoinWorker b -> _ = Dead |- _ => specialize (G b Hb) end. discriminate.
  - inversion H; subst; clear H. inversion Hs; subst.
    + split; [cbn in *; lia|]. give old_f old_a cur (@nil T) (@nil T). constructor. destruct H as [b [?|?]]; eauto.
    + split; [cbn in *; lia|]. give old_f old_a cur [o] ts. constructor; auto.
  - discriminate.
Qed.

Lemma accepted_app (a b : list (uevent T)) : accepted_tasks (a ++ b) = accepted_tasks b ++ accepted_tasks a.
Proof.
  induction a as [|e a IH]; cbn; [now rewrite app_nil_r|].
  destruct e; auto. rewrite IH, app_assoc. reflexivity.
Qed.

(** The user thread goes to a place where it neither waits nor has put anything. *)
Lemma shape_move w p p' q lost ts : shape w p q lost ts -> joining p = false -> joining p' = false ->
  (forall b, p = JoinWorker b -> False) ->
  (forall b, p' = JoinWorker b -> w = Dead) -> (w = Dead -> p' = Ready \/ exists b, p' = JoinWorker b) -> shape w p' q lost ts.
Proof.
  intros Hs Hj Hj' Hp Hp' Hd.
  assert (Q : forall b, p = JoinQueue b -> False) by (intros b ->; discriminate).
  inversion Hs; subst; rewrite ?Hj; try rewrite <- Hj'.
  - constructor. intros b E. specialize (Hp' b E). discriminate.
  - constructor. intros b E. specialize (Hp' b E). discriminate.
  - constructor. intros b E. specialize (Hp' b E). discriminate.
  - discriminate.
  - discriminate.
  - destruct H as [b [E|E]]; [destruct (Q b E)|destruct (Hp b E)].
  - constructor. destruct (Hd eq_refl) as [E|[b E]]; [exists true|exists b]; auto.
  - constructor; auto.
Qed.

Lemma inv_user s s' : inv s -> user_step s = Some s' -> inv s'.
Proof.
  intros [Hc (old_f & old_a & cur & lost & ts & Hf & Ha & Hp & Hn & Hm & Hs)] H.
  destruct s as [q u w f p ops log]; cbn in *.
  unfold user_step, alive in H; cbn in H.
  assert (Sd : forall p', joining p = false -> (forall b, p <> JoinWorker b) -> joining p' = false ->
               (forall b, p' <> JoinWorker b) -> w <> Dead -> shape w p' q lost ts).
  { intros p' J Jw J' Jw' D. apply (shape_move w p p' q lost ts); auto.
    - intros b E. destruct (Jw' b E).
    - intros E. destruct (D E). }
  assert (Sj : forall b, p = Ready -> w = Dead -> shape w (JoinWorker b) q lost ts).
  { intros b -> ->. eapply shape_move; eauto; try discriminate. }
  destruct p as [|o|b|b|b].
  - destruct ops as [|[o| |] ops]; [discriminate| | |].
    + destruct w; inversion H; subst; clear H; (split; [cbn; auto; lia|]);
        try (give old_f old_a cur lost ts; apply Sd; solve [reflexivity | discriminate]).
    + destruct w; inversion H; subst; clear H; (split; [cbn; auto; lia|]);
        give old_f old_a cur lost ts; try (apply Sd; solve [reflexivity | discriminate]).
    + destruct w; inversion H; subst; clear H; (split; [cbn; auto; lia|]);
        give old_f old_a cur lost ts; try (apply Sd; solve [reflexivity | discriminate]).
  - inversion H; subst; clear H. split; [cbn; rewrite app_length; cbn; lia|].
    assert (E : exists ts', q = queue_of false ts /\ ts' = ts /\ shape w Ready (queue_of false (ts ++ [o])) lost (ts ++ [o])).
    { inversion Hs; subst; try (exists ts; repeat split; auto; now constructor).
      all: try (match goal with G : exists b, _ |- _ => destruct G as [? G]; intuition discriminate end). }
    destruct E as (_ & -> & _ & E). rewrite queue_put_save.
    give old_f old_a cur lost (ts ++ [o]).
    + rewrite Ha, <- !app_assoc. reflexivity.
    + rewrite Forall_app. intros [G _]. auto.
  - inversion H; subst; clear H. split; [cbn; rewrite app_length; cbn; lia|].
    assert (E : q = queue_of false ts /\ shape w (JoinQueue b) (queue_of true ts) lost ts).
    { inversion Hs; subst; try (repeat split; auto; now constructor).
      all: try (match goal with G : exists b, _ |- _ => destruct G as [? G]; intuition discriminate end). }
    destruct E as (-> & E). rewrite queue_put_stop. give old_f old_a cur lost ts.
  - destruct (Nat.eqb u 0) eqn:Eu; [|discriminate]. apply Nat.eqb_eq in Eu. inversion H; subst; clear H.
    split; [cbn; auto|].
    give old_f old_a cur lost ts.
    inversion Hs; subst; cbn in *; try lia;
      try (exfalso; unfold queue_of in *; rewrite app_length in Eu; cbn in Eu; lia); constructor; exists b; auto.
  - destruct w; try discriminate. destruct b; inversion H; subst; clear H.
    + split; [reflexivity|].
      give (old_f ++ cur) (old_a ++ cur ++ lost ++ ts) (@nil T) (@nil T) (@nil T).
      * now rewrite app_nil_r.
      * now rewrite !app_nil_r.
      * apply part_app; auto. rewrite <- (app_nil_r cur) at 1. apply part_app; [apply part_refl|apply part_nil_l].
      * intros G. exfalso. apply G. now left.
      * rewrite Ha, !Forall_app. intros (G1 & G2 & G3 & G4).
        inversion Hs; subst.
        -- rewrite !app_nil_r in *. f_equal. apply Hm. rewrite Ha, Forall_app. auto.
        -- inversion G3; congruence.
      * change (@nil (task T)) with (queue_of (joining (@Ready T)) []). constructor. discriminate.
    + split; [cbn; auto|].
      give old_f old_a cur lost ts.
      inversion Hs; subst.
      * constructor. exists true; auto.
      * apply (sh_failed Dead o Ready ts); auto.
Qed.

Lemma inv_run ops schedule : inv (run schedule (writer_start ops)).
Proof.
  assert (G : forall s, inv s -> inv (run schedule s)).
  { induction schedule as [|who schedule IH]; intros s Hs; [exact Hs|].
    apply IH. unfold turn. destruct who.
    - destruct (user_step s) eqn:E; auto. eapply inv_user; eauto.
    - destruct (worker_step fails s) eqn:E; auto. eapply inv_worker; eauto. }
  apply G, inv_start.
Qed.

(** Induction over runs. *)
Lemma run_invariant (P : wstate T -> Prop) :
  (forall s s', inv s -> P s -> user_step s = Some s' -> P s') ->
  (forall s s', inv s -> P s -> worker_step fails s = Some s' -> P s') ->
  forall ops schedule, P (writer_start ops) -> P (run schedule (writer_start ops)).
Proof.
  intros Hu Hw ops schedule.
  assert (G : forall s, inv s -> P s -> P (run schedule s)).
  { induction schedule as [|who schedule IH]; intros s Hi Hs; [exact Hs|].
    apply IH; unfold turn; destruct who.
    - destruct (user_step s) eqn:E; auto. eapply inv_user; eauto.
    - destruct (worker_step fails s) eqn:E; auto. eapply inv_worker; eauto.
    - destruct (user_step s) eqn:E; eauto.
    - destruct (worker_step fails s) eqn:E; eauto. }
  intros H. apply G; auto. apply inv_start.
Qed.

(** ** Without failures *)
(** The call the user thread is in. *)
Definition pending (p : uphase T) : list (uop T) :=
  match p with
  | Ready => [] | WritePut o => [Write o]
  | JoinPut again | JoinQueue again | JoinWorker again => [if again then Restart else Join]
  end.
Definition fine (o : T) := fails o = false.
Definition fine_worker (w : wphase T) := match w with Working (Save o) => fine o | _ => True end.
Definition fine_task (t : task T) := match t with Save o => fine o | _ => True end.
Record good (ops : list (uop T)) (s : wstate T) : Prop := {
  good_inv : inv s;
  good_todo : Forall fine (wanted (pending (w_user s) ++ w_todo s));
  good_log : Forall fine (accepted_tasks (w_log s));
  good_use : match w_user s with
             | Ready => usable (w_log s) = alive s
             | WritePut _ => usable (w_log s) = true /\ w_worker s <> Dead
             | _ => True
             end;
  good_answers : rev (w_log s) ++ answers (usable (w_log s)) (pending (w_user s) ++ w_todo s) = answers true ops
}.
(** Shapes without a failure. *)
Lemma good_shape ops s : good ops s -> exists lost ts,
  accepted_tasks (w_log s) = w_files s ++ lost ++ ts /\ Forall fine lost /\ shape (w_worker s) (w_user s) (w_queue s) lost ts.
Proof.
  intros [[_ (old_f & old_a & cur & lost & ts & Hf & Ha & Hp & Hn & Hm & Hs)] _ Hl _ _].
  exists lost, ts. rewrite Hf, Ha. specialize (Hm Hl). subst old_f. rewrite <- app_assoc.
  rewrite Ha, !Forall_app in Hl. intuition.
Qed.
Lemma good_worker ops s s' : good ops s -> worker_step fails s = Some s' -> good ops s'.
Proof.
  intros G H. pose proof (good_shape _ _ G) as (lost & ts & _ & Hl & Hs).
  destruct G as [Hi Ht Hg Hu Ha]. split; [eapply inv_worker; eauto| | | |];
  destruct s as [q u w f p opsr log]; cbn in *; unfold worker_step in H; cbn in H;
  destruct w as [|[|o]|[|]| |]; try destruct q as [|t q]; try discriminate; try destruct (fails o);
  inversion H; subst; clear H; cbn in *; auto; destruct p; cbn in *; auto; try (destruct Hu; split; [auto|discriminate]);
  inversion Hs; subst; repeat match goal with
    | G : exists b, _ |- _ => destruct G as [? G]
    | G : _ \/ _ |- _ => destruct G
    | G : Forall fine [_] |- _ => inversion G; subst; clear G
    end; try discriminate; unfold fine in *; congruence.
Qed.
Lemma good_user ops s s' : good ops s -> user_step s = Some s' -> good ops s'.
Proof.
  intros G H. pose proof (good_shape _ _ G) as (lost & ts & _ & Hl & Hs).
  destruct G as [Hi Ht Hg Hu Ha]. split; [eapply inv_user; eauto| | | |];
  destruct s as [q u w f p opsr log]; cbn in *; unfold user_step, alive in *; cbn in *.
  all: destruct p as [|o|b|b|b].
  all: try (destruct opsr as [|[o| |] opsr]; [discriminate| | |]).
  all: try (destruct (Nat.eqb u 0); [|discriminate]).
  all: destruct w; try discriminate; try destruct b; inversion H; subst; clear H; cbn in *; auto.
  all: try (inversion Ht; now auto).
  all: try (rewrite Forall_app; inversion Ht; now auto).
  all: try (rewrite Hu in *; now auto).
  all: try (rewrite <- Ha, Hu, <- app_assoc; reflexivity).
  all: try (destruct Hu as [Hu1 Hu2]; try (now split); try contradiction).
  all: try (split; [auto|discriminate]).
  all: try (rewrite <- Ha, ?Hu, ?Hu1, <- app_assoc; reflexivity).
Qed.
Lemma good_start ops : Forall fine (wanted ops) -> good ops (writer_start ops).
Proof. intros H. split; cbn; auto. apply inv_start. Qed.
Lemma good_run ops schedule : Forall fine (wanted ops) -> good ops (run schedule (writer_start ops)).
Proof.
  intros H. apply (run_invariant (good ops)); eauto using good_user, good_worker, good_start.
Qed.

Lemma good_joined ops s : good ops s -> w_worker s = Dead -> w_files s = accepted_tasks (w_log s).
Proof.
  intros G E. destruct (good_shape _ _ G) as (lost & ts & Ha & Hl & Hs). rewrite E in Hs.
  rewrite Ha. inversion Hs; subst; [now rewrite !app_nil_r|].
  inversion Hl. unfold fine in *. congruence.
Qed.
Lemma good_stuck ops s : good ops s -> stuck fails s -> finished s /\ w_files s = accepted_tasks (w_log s).
Proof.
  intros G [Hu Hw]. destruct (good_shape _ _ G) as (lost & ts & Ha & Hl & Hs).
  destruct s as [q u w f p opsr log]; cbn in *. unfold user_step, worker_step, alive, finished in *; cbn in *.
  inversion Hs; subst; try discriminate.
  - destruct (queue_of (joining p) ts) eqn:E; [|discriminate]. symmetry in E. apply queue_nil in E. destruct E as [E ->].
    rewrite app_nil_r in Ha. split; auto.
    destruct p; try discriminate.
    + destruct opsr as [|[]]; try discriminate. auto.
    + now destruct (H again).
  - destruct (fails o); discriminate.
  - cbn in Ha. rewrite app_nil_r in Ha. split; auto. destruct H as [b [H|[H|H]]]; subst p.
    + exfalso. pose proof (inv_count _ (good_inv _ _ G)) as Hc. cbn in Hc. subst u. cbn in Hu. discriminate.
    + destruct b; discriminate.
    + destruct opsr as [|[]]; try discriminate. auto.
  - inversion Hl. unfold fine in *. congruence.
Qed.

(** ** Consequences *)
Lemma prefix_refl (l : list T) : prefix_of l l.
Proof. exists []. now rewrite app_nil_r. Qed.
Lemma prefix_app (a b : list T) : prefix_of a (a ++ b).
Proof. now exists b. Qed.
Lemma prefix_trans (a b c : list T) : prefix_of a b -> prefix_of b c -> prefix_of a c.
Proof. intros [x ->] [y ->]. exists (x ++ y). now rewrite app_assoc. Qed.
Lemma prefix_antisym (a b : list T) : prefix_of a b -> prefix_of b a -> a = b.
Proof.
  intros [x ->] [y E]. rewrite <- app_assoc in E. rewrite <- (app_nil_r a) in E at 1.
  apply app_inv_head in E. symmetry in E. apply app_eq_nil in E. destruct E as [-> _]. now rewrite app_nil_r.
Qed.

(** Files are only added. *)
Lemma files_user (s s' : wstate T) : user_step s = Some s' -> w_files s' = w_files s.
Proof.
  destruct s as [q u w f p ops log]. unfold user_step, alive; cbn.
  destruct p; [destruct ops as [|[o| |] ops]| | | |]; destruct w; cbn; try (destruct (Nat.eqb u 0)); try discriminate;
  try destruct again; intros H; inversion H; reflexivity.
Qed.
Lemma files_worker s s' : worker_step fails s = Some s' -> prefix_of (w_files s) (w_files s') /\ w_log s' = w_log s.
Proof.
  destruct s as [q u w f p ops log]. unfold worker_step; cbn.
  destruct w as [|[|o]|go| |]; try destruct q; try discriminate; try destruct (fails o);
  intros H; inversion H; cbn; auto using prefix_refl, prefix_app.
Qed.

Lemma joined_files ops schedule : Forall fine (wanted ops) ->
  let s := run schedule (writer_start ops) in
  forall after before, w_log s = after ++ Joined :: before \/ w_log s = after ++ Restarted :: before ->
  prefix_of (accepted_tasks before) (w_files s).
Proof.
  intros Hf s.
  apply (run_invariant (fun s => good ops s /\ forall after before,
    w_log s = after ++ Joined :: before \/ w_log s = after ++ Restarted :: before -> prefix_of (accepted_tasks before) (w_files s))).
  - intros t t' _ [Hg IH] H. split; [eapply good_user; eauto|]. rewrite (files_user _ _ H).
    intros after before E.
    assert (C : (exists e, w_log t' = e :: w_log t /\ ((e = Joined \/ e = Restarted) -> w_worker t = Dead)) \/ w_log t' = w_log t).
    { destruct t as [q u w f p opsr log]. unfold user_step, alive in H; cbn in *.
      destruct p; [destruct opsr as [|[o| |] opsr]| | | |]; destruct w; cbn in *; try (destruct (Nat.eqb u 0)); try discriminate;
      try destruct again; inversion H; cbn; auto; left; eexists; (split; [reflexivity|auto]); intros [?|?]; discriminate. }
    destruct C as [(e & C & D)|C]; rewrite C in E; [|apply (IH after before); auto].
    destruct after as [|e' after].
    + assert (B : before = w_log t /\ (e = Joined \/ e = Restarted)) by (destruct E as [E|E]; inversion E; auto).
      destruct B as [-> B]. rewrite (good_joined _ _ Hg (D B)). apply prefix_refl.
    + apply (IH after before). destruct E as [E|E]; inversion E; auto.
  - intros t t' _ [Hg IH] H. split; [eapply good_worker; eauto|].
    destruct (files_worker _ _ H) as [P ->]. intros after before E. eapply prefix_trans; eauto.
  - split; [now apply good_start|]. cbn. intros after before [E|E]; destruct after; discriminate.
Qed.

(** A joined writer is dead. *)
Definition closed_dead (s : wstate T) : Prop :=
  usable (w_log s) = false -> w_worker s = Dead /\ (w_user s = Ready \/ exists b, w_user s = JoinWorker b).
Lemma closed_user s s' : closed_dead s -> user_step s = Some s' -> closed_dead s'.
Proof.
  unfold closed_dead. destruct s as [q u w f p ops log]. unfold user_step, alive; cbn.
  destruct p; [destruct ops as [|[o| |] ops]| | | |]; destruct w; cbn; try (destruct (Nat.eqb u 0)); try discriminate;
  try destruct again; intros D H; inversion H; subst; clear H; cbn; auto; try discriminate; intros U;
  try (destruct (D U) as [? [?|[b ?]]]; try discriminate; split; auto; eauto).
Qed.
Lemma closed_worker s s' : closed_dead s -> worker_step fails s = Some s' -> closed_dead s'.
Proof.
  unfold closed_dead. destruct s as [q u w f p ops log]. unfold worker_step; cbn.
  destruct w as [|[|o]|go| |]; try destruct q; try discriminate; try destruct (fails o);
  intros D H; inversion H; subst; clear H; cbn; intros U; destruct (D U); discriminate.
Qed.
Lemma accepted_when_usable ops schedule :
  let s := run schedule (writer_start ops) in
  forall after o before, w_log s = after ++ Accepted o :: before -> usable before = true.
Proof.
  intros s.
  apply (run_invariant (fun s => closed_dead s /\ forall after o before, w_log s = after ++ Accepted o :: before -> usable before = true)).
  - intros t t' _ [C IH] H. split; [eapply closed_user; eauto|]. intros after o before E.
    assert (D : (exists e, w_log t' = e :: w_log t /\ (forall o, e = Accepted o -> usable (w_log t) = true)) \/ w_log t' = w_log t).
    { unfold closed_dead in C. destruct t as [q u w f p opsr log]. unfold user_step, alive in H; cbn in *.
      destruct p as [|o'|b|b|b]; [destruct opsr as [|[o'| |] opsr]| | | |]; destruct w; cbn in *; try (destruct (Nat.eqb u 0)); try discriminate;
      try destruct b; inversion H; cbn; auto; left; eexists; (split; [reflexivity|auto]); intros o1 E1; try discriminate;
      (destruct (usable log); auto; destruct (C eq_refl) as [? [?|[? ?]]]; discriminate). }
    destruct D as [(e & D1 & D2)|D1]; rewrite D1 in E; [|eapply IH; eauto].
    destruct after as [|e' after]; inversion E; subst; [eapply D2; eauto|eapply IH; eauto].
  - intros t t' _ [C IH] H. split; [eapply closed_worker; eauto|].
    destruct (files_worker _ _ H) as [_ ->]. auto.
  - split; [intros U; discriminate U|]. cbn. intros after o before E; destruct after; discriminate.
Qed.

(** Written files did not fail. *)
Lemma files_fine ops schedule : Forall fine (w_files (run schedule (writer_start ops))).
Proof.
  apply (run_invariant (fun s => Forall fine (w_files s))).
  - intros t t' _ IH H. now rewrite (files_user _ _ H).
  - intros [q u w f p opsr log] t' _ IH. unfold worker_step; cbn in *.
    destruct w as [|[|o]|go| |]; try destruct q; try discriminate; try destruct (fails o) eqn:Eo;
    intros H; inversion H; cbn; auto; apply Forall_app; auto.
  - constructor.
Qed.
Lemma before_failure_fine l r : Forall fine l -> before_failure fails (l ++ r) = l ++ before_failure fails r.
Proof. induction 1 as [|o l Ho _ IH]; cbn; [reflexivity|]. rewrite Ho, IH. reflexivity. Qed.

(** Restart is reported only if it was called. *)
Lemma not_restarted ops schedule : never_restarted ops -> ~ In Restarted (w_log (run schedule (writer_start ops))).
Proof.
  intros Hn. enough (G : let s := run schedule (writer_start ops) in
    ~ In Restarted (w_log s) /\ ~ In Restart (pending (w_user s) ++ w_todo s)) by apply G.
  apply (run_invariant (fun s => ~ In Restarted (w_log s) /\ ~ In Restart (pending (w_user s) ++ w_todo s))).
  - intros [q u w f p opsr log] t' _ [H1 H2]. unfold user_step, alive; cbn in *.
    destruct p as [|o'|b|b|b]; [destruct opsr as [|[o'| |] opsr]| | | |]; destruct w; cbn in *; try (destruct (Nat.eqb u 0)); try discriminate;
    try destruct b; intros H; inversion H; subst; clear H; cbn; intuition (try discriminate).
  - intros [q u w f p opsr log] t' _ [H1 H2]. unfold worker_step; cbn in *.
    destruct w as [|[|o]|go| |]; try destruct q; try discriminate; try destruct (fails o) eqn:Eo;
    intros H; inversion H; subst; cbn; auto.
  - cbn. auto.
Qed.

(** ** Hanging *)
(** The user thread waits for the queue, its stop mark is in the queue, a
    failing task precedes it or has ended the worker. *)
Definition hanging (s : wstate T) : Prop :=
  joining (w_user s) = true /\ w_unfinished s = length (w_queue s) + busy (w_worker s) /\
  exists ts, w_queue s = queue_of true ts /\
  match w_worker s with
  | Waiting | Closing true => exists o, In o ts /\ fails o = true
  | Working (Save o) => fails o = true \/ exists o', In o' ts /\ fails o' = true
  | Working Stop => False
  | _ => True
  end.
Lemma hanging_user s : hanging s -> user_step s = None.
Proof.
  intros (Hj & Hc & ts & Hq & _). destruct s as [q u w f p opsr log]; cbn in *. unfold user_step; cbn.
  destruct p; try discriminate. subst u q. unfold queue_of. rewrite app_length; cbn.
  rewrite Nat.add_1_r. reflexivity.
Qed.
Lemma hanging_worker s s' : hanging s -> worker_step fails s = Some s' ->
  hanging s' /\ w_user s' = w_user s /\ w_todo s' = w_todo s /\ w_log s' = w_log s.
Proof.
  intros (Hj & Hc & ts & Hq & Hw) H. destruct s as [q u w f p opsr log]; cbn in *. unfold worker_step in H; cbn in H.
  destruct w as [|[|o]|[|]| |]; try contradiction.
  - destruct q as [|t q]; [discriminate|]. inversion H; subst; clear H. cbn. repeat split; auto; cbn; [lia|].
    apply queue_cons in Hq. destruct Hw as (o & Hi & Ho).
    destruct Hq as [(o' & ts' & -> & -> & ->)|(_ & _ & _ & ->)]; [|destruct Hi].
    exists ts'. split; auto. destruct Hi as [->|Hi]; eauto.
  - destruct (fails o) eqn:Eo; inversion H; subst; clear H; cbn; repeat split; auto; cbn; exists ts; split; auto.
    destruct Hw as [Hw|Hw]; [congruence|auto].
  - inversion H; subst; clear H; cbn; repeat split; auto; cbn; [lia|]. exists ts; auto.
  - inversion H; subst; clear H; cbn; repeat split; auto; cbn; [lia|]. exists ts; auto.
  - inversion H; subst; clear H; cbn; repeat split; auto; cbn. exists ts; auto.
  - discriminate.
Qed.
Lemma hanging_forever s : hanging s -> forall schedule,
  hanging (run schedule s) /\ w_user (run schedule s) = w_user s /\ w_todo (run schedule s) = w_todo s /\ w_log (run schedule s) = w_log s.
Proof.
  intros H schedule. revert s H. induction schedule as [|who schedule IH]; intros s H; [exact (conj H (conj eq_refl (conj eq_refl eq_refl)))|].
  change (run (who :: schedule) s) with (run schedule (turn fails who s)).
  unfold turn. destruct who.
  - rewrite (hanging_user _ H). now apply IH.
  - destruct (worker_step fails s) as [s'|] eqn:E; [|now apply IH].
    destruct (hanging_worker _ _ H E) as (H1 & H2 & H3 & H4). rewrite <- H2, <- H3, <- H4. now apply IH.
Qed.
(** In a run: the user waits for the queue while a failing task is on the way. *)
Lemma run_hanging ops schedule again :
  let s := run schedule (writer_start ops) in
  w_user s = JoinQueue again ->
  (exists o, on_the_way s o /\ fails o = true) \/
    (w_queue s <> [] /\ (w_worker s = Closing false \/ w_worker s = Ending \/ w_worker s = Dead)) ->
  hanging s.
Proof.
  intros s Hu Ho. subst s. destruct (inv_run ops schedule) as [Hc (old_f & old_a & cur & lost & ts & _ & _ & _ & _ & _ & Hs)].
  set (s := run schedule (writer_start ops)) in *.
  destruct s as [q u w f p opsr log]; cbn in *. subst p. unfold hanging; cbn. split; [reflexivity|split; [exact Hc|]].
  assert (M : forall o ts, In (Save o) (queue_of true ts) -> In o ts).
  { clear. intros o ts. unfold queue_of. rewrite in_app_iff, in_map_iff. cbn.
    intros [(x & E & ?)|[E|[]]]; [inversion E; subst; auto|discriminate]. }
  unfold on_the_way in Ho; cbn in Ho.
  inversion Hs; subst; cbn in *;
    try (destruct Ho as [(x & [E|E] & F)|[E [E'|[E'|E']]]]; try discriminate; try contradiction;
         first [contradiction | inversion E; subst; exists ts; split; [reflexivity|eauto] | exists ts; split; [reflexivity|eauto]]; fail).
  exists ts. split; [reflexivity|]. destruct H as [->|[->| ->]]; auto.
Qed.
(** Every stop of the whole program that is not the regular end is such a state. *)
Lemma stuck_cases ops schedule : let s := run schedule (writer_start ops) in stuck fails s ->
  finished s \/ exists again, w_user s = JoinQueue again /\ w_worker s = Dead /\ w_queue s <> [].
Proof.
  intros s [Hu Hw]. subst s. destruct (inv_run ops schedule) as [Hc (old_f & old_a & cur & lost & ts & _ & _ & _ & _ & _ & Hs)].
  set (s := run schedule (writer_start ops)) in *.
  destruct s as [q u w f p opsr log]; cbn in *. unfold user_step, worker_step, alive, finished in *; cbn in *.
  destruct p as [|o|b|b|b]; try discriminate.
  - destruct opsr as [|[]]; auto; destruct w; discriminate.
  - right. exists b. split; auto. destruct (Nat.eqb u 0) eqn:Eu; [discriminate|]. apply Nat.eqb_neq in Eu.
    inversion Hs; subst; cbn in *; try discriminate; try lia.
    + unfold queue_of in Hw. destruct ts; discriminate.
    + destruct (fails o); discriminate.
    + destruct H as [->|[->| ->]]; try discriminate. split; auto. unfold queue_of. destruct ts; discriminate.
  - exfalso. inversion Hs; subst; try discriminate; try (now destruct (H b)).
    + destruct b; discriminate.
    + rewrite (H1 b eq_refl) in *. destruct b; discriminate.
Qed.

(** The first calls, all made before the worker moves. *)
Lemma run_writes ts : forall q u f opsr log,
  run (repeat true (2 * length ts)) (mk_wstate q u Waiting f Ready (map Write ts ++ opsr) log) =
  mk_wstate (q ++ map Save ts) (u + length ts) Waiting f Ready opsr (rev (map Accepted ts) ++ log).
Proof.
  induction ts as [|o ts IH]; intros q u f opsr log; cbn -[Nat.mul].
  - rewrite app_nil_r, Nat.add_0_r. reflexivity.
  - replace (2 * S (length ts)) with (S (S (2 * length ts))) by lia.
    change (repeat true (S (S (2 * length ts)))) with ([true; true] ++ repeat true (2 * length ts)). rewrite run_app.
    match goal with |- run _ ?x = _ => change x with (mk_wstate (q ++ [Save o]) (S u) Waiting f Ready (map Write ts ++ opsr) (Accepted o :: log)) end.
    rewrite IH.
    rewrite <- !app_assoc; cbn. rewrite Nat.add_succ_r. reflexivity.
Qed.

End W.
