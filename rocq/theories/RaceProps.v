(** C100: the worker iterates while the user reloads voltages, restarts or
    changes targets in the window. *)
From Verif Require Import PyBase TargetModel AutotunerModel AutotunerSpec AutotunerProofs RaceModel RaceSpec RaceProofs.
From Coq Require Import Lra.
Local Open Scope string_scope.
Local Open Scope list_scope.

(** Whatever the schedule: the index stays in the hierarchy, only existing
    tuners are called, no NaN is sent, and what is sent was proposed before. *)
Theorem race_safe {W} (E : env W) p w todo schedule :
  let s := r_sys (race_run E schedule (started (fresh p w) todo)) in
  a_index (s_at s) <= e_n E /\ proposed_before (s_tr s) /\
  forall ev, In ev (s_tr s) -> tuner_exists E ev /\ no_nan_set ev.
Proof.
  intros s. destruct (any_run E schedule _ (any_started E p w todo)) as [H1 _ _ _ _ _ H7 H8].
  repeat split; [exact H1|exact H8|apply H7; assumption|apply H7; assumption].
Qed.

(** If the user acts only between two iterations, and the worker iterates only
    between two actions, the calls have the effect of calls one after the
    other; conversely every such sequence of calls is a run. *)
Theorem race_serialised {W} (E : env W) s todo :
  (forall schedule, exclusive E schedule (started s todo) ->
     let r := race_run E schedule (started s todo) in
     at_rest r -> exists cs, calls E cs s = (r_sys r, r_out r) /\ by_user cs ++ r_todo r = todo) /\
  (forall cs left, by_user cs ++ left = todo -> exists schedule,
     exclusive E schedule (started s todo) /\
     race_run E schedule (started s todo) = mk_race (fst (calls E cs s)) WOut UReady left (snd (calls E cs s))).
Proof.
  split.
  - intros schedule Hx r Hr. exact (exclusive_serial E _ _ _ _ Hx eq_refl Hr).
  - intros cs left <-. exact (calls_scheduled E cs s left).
Qed.

(** In such a run complete tuning means that every tuner was found tuned since
    the last change. *)
Theorem race_complete_tuned {W} (E : env W) p w todo schedule :
  exclusive E schedule (started (fresh p w) todo) ->
  let r := race_run E schedule (started (fresh p w) todo) in
  at_rest r -> is_tuning_complete E (s_at (r_sys r)) = true ->
  exists rest, climbed (e_n E) (milestones (s_tr (r_sys r))) rest /\ (0 < e_n E -> at_start rest).
Proof. intros Hx r Hr Hc. exact (exclusive_complete E _ _ _ _ _ Hx eq_refl Hr Hc). Qed.

(** *** Without the restriction *)
Section Overlap.
Variables (good : nat -> series -> bool) (next : nat -> series -> series).
Local Notation B := (bench 1 good next).

Definition reload (v : series) : list wop := [USet v; URestart].

Local Arguments subset : simpl never.
Local Arguments index : simpl never.
Local Arguments any_na : simpl never.

(** Six steps of the window reload the voltages and restart. *)
Lemma reload_steps s pc v todo out :
  race_run B (repeat true 6) (mk_race s pc UReady (reload v ++ todo) out) =
  mk_race (mk_sys (mk_at 0 (a_status (s_at s)) None (a_path (s_at s))) v (EvRead (Ok v) :: EvRestart :: s_tr s)) pc UReady todo out.
Proof. reflexivity. Qed.

Lemma eval_steps w p u todo out tr :
  race_run B (repeat false 9) (mk_race (mk_sys (mk_at 0 false None p) w tr) WOut u todo out) =
  mk_race (mk_sys (mk_at 0 false None p) w (EvEval 0 w (Ok (good 0 w)) :: EvRead (Ok w) :: EvRead (Ok w) :: tr))
          (if good 0 w then WLoad else WUntuned) u todo out.
Proof. reflexivity. Qed.

Lemma next_steps w p u todo out tr :
  race_run B (repeat false 9) (mk_race (mk_sys (mk_at 0 true None p) w tr) WOut u todo out) =
  mk_race (mk_sys (mk_at 0 true None p) w (EvNext 0 [] (Ok (next 0 w)) :: EvRead (Ok w) :: tr)) (WPut (next 0 w)) u todo out.
Proof. reflexivity. Qed.

Lemma check_steps w v u todo out tr p : subset (index v) (index w) = true ->
  race_run B (repeat false 6) (mk_race (mk_sys (mk_at 0 false (Some v) p) w tr) WOut u todo out) =
  mk_race (mk_sys (mk_at 0 false (Some v) p) w (EvRead (Ok w) :: tr)) WNan u todo out.
Proof. intros H. cbn. rewrite H. reflexivity. Qed.

Lemma set_steps w v u todo out tr : any_na v = false ->
  race_run B (repeat false 7) (mk_race (mk_sys (mk_at 0 false (Some v) None) w tr) WNan u todo out) =
  mk_race (mk_sys (mk_at 0 false None None) v (EvSet v (Ok tt) :: tr)) WOut u todo (Ok tt :: out).
Proof. intros H. cbn. rewrite H. reflexivity. Qed.

(** Reloading while the evaluation is running: tuning ends as complete although
    nothing was evaluated at the reloaded voltages. *)
Theorem race_complete_untuned_refuted v0 v1 : good 0 v0 = true -> exists schedule,
  let r := race_run B schedule (started (fresh None v0) (reload v1)) in
  at_rest r /\ r_todo r = [] /\ r_out r = [Ok tt] /\ s_w (r_sys r) = v1 /\
  is_tuning_complete B (s_at (r_sys r)) = true /\
  milestones (s_tr (r_sys r)) = [EvRestart; EvEval 0 v0 (Ok true)].
Proof.
  intros H. exists (repeat false 9 ++ repeat true 6 ++ repeat false 3).
  rewrite !run_app. unfold started, fresh. rewrite eval_steps, H.
  rewrite <- (app_nil_r (reload v1)), reload_steps. cbn. repeat split.
Qed.

(** Reloading while the next voltages are being computed: the worker sends
    them afterwards, without an evaluation, and the reloaded voltages are
    gone. *)
Theorem race_reload_undone_refuted v0 v1 :
  good 0 v0 = false -> any_na (next 0 v0) = false -> subset (index (next 0 v0)) (index v1) = true -> exists schedule,
  let r := race_run B schedule (started (fresh None v0) (reload v1)) in
  at_rest r /\ r_todo r = [] /\ r_out r = [Ok tt; Ok tt; Ok tt] /\ s_w (r_sys r) = next 0 v0 /\
  exists tuned, milestones (s_tr (r_sys r)) =
    [EvSet (next 0 v0) (Ok tt); EvRestart; EvNext 0 tuned (Ok (next 0 v0)); EvEval 0 v0 (Ok false)].
Proof.
  intros H Hna Hsub.
  exists (repeat false 9 ++ repeat false 3 ++ repeat false 9 ++ repeat true 6 ++ repeat false 3 ++ repeat false 6 ++ repeat false 7).
  rewrite !run_app. unfold started, fresh. rewrite eval_steps, H.
  match goal with |- context [race_run B (repeat false 3) (mk_race (mk_sys _ v0 ?tr) _ ?u ?todo ?out)] =>
    change (race_run B (repeat false 3) (mk_race (mk_sys (mk_at 0 false None None) v0 tr) WUntuned u todo out))
    with (mk_race (mk_sys (mk_at 0 true None None) v0 tr) WOut u todo [Ok tt : res unit]) end.
  rewrite next_steps. rewrite <- (app_nil_r (reload v1)), reload_steps. cbn [s_at a_status a_path s_tr].
  match goal with |- context [race_run B (repeat false 3) (mk_race (mk_sys _ v1 ?tr) _ ?u ?todo ?out)] =>
    change (race_run B (repeat false 3) (mk_race (mk_sys (mk_at 0 true None None) v1 tr) (WPut (next 0 v0)) u todo out))
    with (mk_race (mk_sys (mk_at 0 false (Some (next 0 v0)) None) v1 tr) WOut u todo [Ok tt : res unit; Ok tt]) end.
  rewrite (check_steps _ _ _ _ _ _ _ Hsub), (set_steps _ _ _ _ _ _ Hna). cbn. repeat split. exists []. reflexivity.
Qed.

(** Reloading while pending voltages are being checked, logged or sent: [iterate]
    fails with AttributeError or TypeError, which the code does not mean. *)
Theorem race_iterate_fails_refuted v0 v1 :
  good 0 v0 = false -> any_na (next 0 v0) = false -> subset (index (next 0 v0)) (index v0) = true ->
  forall e, In e [AttributeError; TypeError] -> exists schedule,
  let r := race_run B schedule (started (fresh None v0) (reload v1)) in
  at_rest r /\ r_todo r = [] /\ r_out r = [Raise e; Ok tt; Ok tt].
Proof.
  intros H Hna Hsub e He.
  exists (repeat false 9 ++ repeat false 3 ++ repeat false 9 ++ repeat false 3 ++ repeat false 6 ++
          (match e with TypeError => repeat false 2 | _ => [] end) ++ repeat true 6 ++ repeat false 1).
  rewrite !run_app. unfold started, fresh. rewrite eval_steps, H.
  match goal with |- context [race_run B (repeat false 3) (mk_race (mk_sys _ v0 ?tr) _ ?u ?todo ?out)] =>
    change (race_run B (repeat false 3) (mk_race (mk_sys (mk_at 0 false None None) v0 tr) WUntuned u todo out))
    with (mk_race (mk_sys (mk_at 0 true None None) v0 tr) WOut u todo [Ok tt : res unit]) end.
  rewrite next_steps.
  match goal with |- context [race_run B (repeat false 3) (mk_race (mk_sys _ v0 ?tr) _ ?u ?todo ?out)] =>
    change (race_run B (repeat false 3) (mk_race (mk_sys (mk_at 0 true None None) v0 tr) (WPut (next 0 v0)) u todo out))
    with (mk_race (mk_sys (mk_at 0 false (Some (next 0 v0)) None) v0 tr) WOut u todo [Ok tt : res unit; Ok tt]) end.
  rewrite (check_steps _ _ _ _ _ _ _ Hsub).
  destruct He as [<-|[<-|[]]].
  - rewrite <- (app_nil_r (reload v1)). change (race_run B [] ?x) with x. rewrite reload_steps. repeat split.
  - match goal with |- context [race_run B (repeat false 2) (mk_race ?s WNan ?u ?todo ?out)] =>
      assert (Hl : race_run B (repeat false 2) (mk_race s WNan u todo out) = mk_race s WLogTarget u todo out)
        by (cbn; rewrite Hna; reflexivity); rewrite Hl end.
    rewrite <- (app_nil_r (reload v1)), reload_steps. repeat split.
Qed.
End Overlap.

(** *** Concrete runs *)
Definition case_gate (x : R) : series := [("P1", Fin x)].
Definition case_good (_ : nat) (v : series) : bool :=
  match v with (_, Fin x) :: _ => if Rlt_dec x (1/2) then true else false | _ => false end.
Definition case_next (_ : nat) (_ : series) : series := case_gate 0.

Lemma case_good_0 : case_good 0 (case_gate 0) = true.
Proof. cbn. destruct (Rlt_dec 0 (1 / 2)); [reflexivity|lra]. Qed.
Lemma case_good_1 i : case_good i (case_gate 1) = false.
Proof. cbn. destruct (Rlt_dec 1 (1 / 2)); [lra|reflexivity]. Qed.

(** Complete at a voltage that is not good, for a device whose only good
    voltages are below 1/2. *)
Example case_complete_untuned : exists schedule,
  let r := race_run (bench 1 case_good case_next) schedule (started (fresh None (case_gate 0)) (reload (case_gate 1))) in
  is_tuning_complete (bench 1 case_good case_next) (s_at (r_sys r)) = true /\ case_good 0 (s_w (r_sys r)) = false.
Proof.
  destruct (race_complete_untuned_refuted case_good case_next (case_gate 0) (case_gate 1) case_good_0) as [sch H].
  exists sch. cbn zeta in *. destruct H as [_ [_ [_ [Hw [Hc _]]]]]. split; [exact Hc|]. rewrite Hw. apply case_good_1.
Qed.

(** The user reloads 1 V, the device ends at 0 V. *)
Example case_reload_undone : exists schedule,
  s_w (r_sys (race_run (bench 1 case_good case_next) schedule (started (fresh None (case_gate 1)) (reload (case_gate 1))))) = case_gate 0.
Proof.
  destruct (race_reload_undone_refuted case_good case_next (case_gate 1) (case_gate 1) (case_good_1 0) eq_refl eq_refl) as [sch H].
  exists sch. exact (proj1 (proj2 (proj2 (proj2 H)))).
Qed.

Example case_iterate_fails : exists schedule,
  r_out (race_run (bench 1 case_good case_next) schedule (started (fresh None (case_gate 1)) (reload (case_gate 1)))) =
  [Raise TypeError; Ok tt; Ok tt].
Proof.
  destruct (race_iterate_fails_refuted case_good case_next (case_gate 1) (case_gate 1) (case_good_1 0) eq_refl eq_refl TypeError ltac:(right; left; reflexivity)) as [sch H].
  exists sch. exact (proj2 (proj2 H)).
Qed.

(** An exclusive run with an evaluation, a reload and another evaluation that
    completes the tuning. *)
Definition case_schedule : list bool := repeat false 12 ++ repeat true 6 ++ repeat false 12.
Definition case_start : race series := started (fresh None (case_gate 1)) (reload (case_gate 0)).
Definition case_always (_ : nat) (_ : series) : bool := true.
Example case_exclusive :
  exclusive (bench 1 case_always case_next) case_schedule case_start /\
  at_rest (race_run (bench 1 case_always case_next) case_schedule case_start) /\
  is_tuning_complete (bench 1 case_always case_next) (s_at (r_sys (race_run (bench 1 case_always case_next) case_schedule case_start))) = true.
Proof. vm_compute. repeat split. Qed.
Example case_exclusive_calls :
  calls (bench 1 case_always case_next) [None; Some (USet (case_gate 0)); Some URestart; None] (fresh None (case_gate 1)) =
  (r_sys (race_run (bench 1 case_always case_next) case_schedule case_start),
   r_out (race_run (bench 1 case_always case_next) case_schedule case_start)).
Proof. reflexivity. Qed.
(** The run of [race_complete_untuned_refuted] is not exclusive. *)
Example case_not_exclusive :
  ~ exclusive (bench 1 case_always case_next) (repeat false 9 ++ repeat true 6 ++ repeat false 3) case_start.
Proof. vm_compute. intros H. decompose [and] H. discriminate. Qed.

(** Any schedule: here the reload lies inside the evaluation, and the hypotheses
    of no theorem are needed. *)
Example case_safe :
  let s := r_sys (race_run (bench 1 case_always case_next) (repeat false 9 ++ repeat true 6 ++ repeat false 3) case_start) in
  a_index (s_at s) = 1 /\ milestones (s_tr s) = [EvRestart; EvEval 0 (case_gate 1) (Ok true)].
Proof. split; reflexivity. Qed.

Print Assumptions race_safe.
Print Assumptions race_serialised.
Print Assumptions race_complete_tuned.
Print Assumptions race_complete_untuned_refuted.
Print Assumptions race_reload_undone_refuted.
Print Assumptions race_iterate_fails_refuted.
