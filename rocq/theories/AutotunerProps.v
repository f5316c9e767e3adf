(** Properties C01-C08 and C51 of the Autotuner. *)
From Verif Require Import PyBase TargetModel AutotunerModel AutotunerSpec AutotunerProofs.

(** ** C01 *)
Theorem no_nan_to_hardware {W} (E : env W) p w ops ev :
  In ev (s_tr (run E (fresh p w) ops)) -> no_nan_set ev.
Proof. exact (run_no_nan E p w ops ev). Qed.

Theorem nan_voltage_refused {W} (E : env W) s v l :
  a_to_set (s_at s) = Some v -> In (l, NaN) v ->
  exists e, snd (iterate E s) = Raise e /\ s_at (fst (iterate E s)) = s_at s /\
    exists evs, s_tr (fst (iterate E s)) = evs ++ s_tr s /\ filter is_action evs = [] /\
      filter is_save evs = [].
Proof. exact (nan_refused E s v l). Qed.

Theorem nan_voltage_runtime_error {W} (E : env W) s v l volts :
  a_to_set (s_at s) = Some v -> In (l, NaN) v ->
  snd (e_read E (s_w s)) = Ok volts -> incl_labels (index v) (index volts) ->
  coherent (index volts) (e_views E (fst (e_read E (s_w s)))) ->
  snd (iterate E s) = Raise RuntimeError.
Proof. exact (nan_runtime_error E s v l volts). Qed.

(** ** C02 and C07 *)
Theorem one_action_per_iterate {W} (E : env W) s s' :
  iterate E s = (s', Ok tt) ->
  exists evs ev a',
    s_tr s' = evs ++ s_tr s /\ filter is_action evs = [ev] /\ due (s_at s) ev /\
    raised ev = None /\ advance (s_at s) ev = Some a' /\ s_at s' = a' /\
    filter is_save evs = saves_due a'.
Proof.
  intros H. apply iterate_cases in H. destruct H as [evs [Ht [[_ [_ [_ [_ [e H]]]]]|[ev [H1 [H2 [_ [_ H3]]]]]]]]; [discriminate|].
  exists evs, ev. destruct (advance (s_at s) ev) as [a'|] eqn:Ha.
  - exists a'. destruct H3 as [H3 [[_ H4]|[e [H4 _]]]]; [|discriminate]. repeat split; auto.
    destruct ev; cbn in Ha |- *; try reflexivity; destruct r; try reflexivity; discriminate.
  - destruct H3 as [_ [_ [e [_ H3]]]]. discriminate.
Qed.

Theorem exception_safety {W} (E : env W) s s' e :
  iterate E s = (s', Raise e) ->
  exists evs, s_tr s' = evs ++ s_tr s /\
    ((filter is_action evs = [] /\ filter is_save evs = [] /\ s_at s' = s_at s) \/
     (exists ev, filter is_action evs = [ev] /\ due (s_at s) ev /\
        match raised ev with
        | Some e' => e' = e /\ s_at s' = s_at s /\ filter is_save evs = []
        | None => advance (s_at s) ev = Some (s_at s') /\
                  (filter is_save evs = [] \/ filter is_save evs = [EvSave (s_at s') (Raise e)])
        end)).
Proof.
  intros H. apply iterate_cases in H. destruct H as [evs [Ht [[H1 [H2 [H3 _]]]|[ev [H1 [H2 [_ [_ H3]]]]]]]];
    exists evs; split; auto.
  right. exists ev. repeat split; auto. destruct (advance (s_at s) ev) as [a'|] eqn:Ha.
  - assert (Hr : raised ev = None).
    { destruct ev; cbn in Ha |- *; try reflexivity; destruct r; try reflexivity; discriminate. }
    rewrite Hr. destruct H3 as [-> [[H3 _]|[e' [H3 H4]]]]; [discriminate|]. inversion H3; subst. auto.
  - destruct H3 as [H4 [H5 [e' [H6 H7]]]]. rewrite H6. inversion H7; subst; auto.
Qed.

Theorem iterate_when_complete {W} (E : env W) s :
  is_tuning_complete E (s_at s) = true ->
  (exists e, snd (iterate E s) = Raise e) /\ s_at (fst (iterate E s)) = s_at s /\
  exists r, s_tr (fst (iterate E s)) = EvRead r :: s_tr s.
Proof. exact (complete_raises E s). Qed.

(** ** C03 *)
Theorem complete_means_all_tuned {W} (E : env W) p w ops :
  let s := run E (fresh p w) ops in
  is_tuning_complete E (s_at s) = true ->
  exists rest, climbed (e_n E) (milestones (s_tr s)) rest /\ (0 < e_n E -> at_start rest).
Proof. exact (complete_means_tuned E p w ops). Qed.

(** ** C04 *)
Theorem bottom_up_evaluation {W} (E : env W) p w ops newer i v r older :
  s_tr (run E (fresh p w) ops) = newer ++ EvEval i v r :: older ->
  (exists tl, older = EvRead (Ok v) :: tl) /\
  exists rest, climbed i (milestones older) rest /\ at_start rest.
Proof. exact (eval_bottom_up E p w ops newer i v r older). Qed.

(** ** C05 *)
Theorem voltages_from_untuned_tuner {W} (E : env W) p w k newer v r older :
  s_tr (run E (fresh p w) (repeat OpIterate k)) = newer ++ EvSet v r :: older ->
  exists i t u ms' rest,
    milestones older = EvNext i t (Ok v) :: EvEval i u (Ok false) :: ms' /\
    climbed i ms' rest /\ at_start rest.
Proof. exact (set_provenance E p w k newer v r older). Qed.

Theorem tuned_parameters_reported {W} (E : env W) s i t r evs :
  s_tr (fst (iterate E s)) = evs ++ s_tr s -> In (EvNext i t r) evs ->
  i = a_index (s_at s) /\
  forall l, In l t <-> exists j, j < i /\ relevant_param (e_target E j (fst (e_read E (s_w s)))) l.
Proof.
  intros H1 H2. destruct (next_arguments E s i t r evs H1 H2) as [-> [-> _]].
  split; [reflexivity|]. intros l. apply tuned_parameters_spec.
Qed.

(** ** C06 *)
Theorem restart_keeps_pending_status {W} (E : env W) s s1 r evs ev :
  restart E s = (s1, r) ->
  s_tr (fst (iterate E s1)) = evs ++ s_tr s1 -> In ev evs -> is_action ev = true ->
  kind_of ev = Some (if a_status (s_at s) then KNext 0 else KEval 0).
Proof.
  intros H1. apply restart_cases in H1. destruct H1 as [Ha _]. intros H2 H3 H4.
  rewrite (first_action_after_reset E s1 evs ev); rewrite ?Ha; auto.
Qed.

Theorem change_targets_keeps_pending_status {W} (E : env W) s chs s1 evs ev :
  change_targets E chs s = (s1, Ok tt) ->
  s_tr (fst (iterate E s1)) = evs ++ s_tr s1 -> In ev evs -> is_action ev = true ->
  kind_of ev = Some (if a_status (s_at s) then KNext 0 else KEval 0).
Proof.
  intros H1. apply change_cases in H1. destruct H1 as [evs0 [_ [[_ [_ Ha]]|[[e H] _]]]]; [|discriminate].
  intros H2 H3 H4. rewrite (first_action_after_reset E s1 evs ev); rewrite ?Ha; auto.
Qed.

(** With restarts and target changes every set still comes from a
    [get_next_voltages] call, but that call may directly follow a reset. *)
Theorem voltages_origin_with_resets {W} (E : env W) p w ops newer v r older :
  s_tr (run E (fresh p w) ops) = newer ++ EvSet v r :: older ->
  exists i t ms1,
    milestones older = EvNext i t (Ok v) :: ms1 /\
    ((exists u ms' rest, ms1 = EvEval i u (Ok false) :: ms' /\ climbed i ms' rest /\ at_start rest) \/
     (i = 0 /\ reset_head ms1)).
Proof. exact (set_provenance_general E p w ops newer v r older). Qed.

(** ** C08 *)
(** A file always holds the state at the end of the iteration that wrote it. *)
Theorem saves_are_final_states {W} (E : env W) s evs a r :
  s_tr (fst (iterate E s)) = evs ++ s_tr s -> In (EvSave a r) evs -> a = s_at (fst (iterate E s)).
Proof. exact (save_is_state E s evs a r). Qed.

(** Reloading restores everything but the storage path. *)
Theorem reload_restores_state js a :
  (forall p, js p <> ""%string) -> a_path a <> Some ""%string ->
  same_but_path (at_from_hdf5 js (at_to_hdf5 a)) a.
Proof. exact (reload_same_but_path js a). Qed.

(** The action repeated after a reload is the one that was interrupted,
    whatever the interrupted attempt did to the rest of the world. *)
Theorem reload_repeats_same_action {W} (E : env W) js a w w' tr tr' evs evs' ev ev' :
  let s := mk_sys a w tr in
  let s' := mk_sys (at_from_hdf5 js (at_to_hdf5 a)) w' tr' in
  s_tr (fst (iterate E s)) = evs ++ tr -> In ev evs -> is_action ev = true ->
  s_tr (fst (iterate E s')) = evs' ++ tr' -> In ev' evs' -> is_action ev' = true ->
  kind_of ev' = kind_of ev.
Proof.
  cbv zeta. intros H1 H2 H3 H4 H5 H6.
  rewrite (action_kind E _ evs ev H1 H2 H3), (action_kind E _ evs' ev' H4 H5 H6). reflexivity.
Qed.

(** A reloaded system in the same world behaves like the original for ever. *)
Theorem reload_bisimulation {W} (E : env W) js a w tr ops :
  (forall p, js p <> ""%string) -> a_path a <> Some ""%string ->
  let s1 := run E (mk_sys (at_from_hdf5 js (at_to_hdf5 a)) w tr) ops in
  let s2 := run E (mk_sys a w tr) ops in
  same_but_path (s_at s1) (s_at s2) /\ s_w s1 = s_w s2 /\
  milestones (s_tr s1) = milestones (s_tr s2).
Proof.
  intros H1 H2. apply (run_twin E ops). split; [apply reload_restores_state; assumption|]. split; reflexivity.
Qed.

(** Crash after the hardware write, before the save. *)
Theorem crash_between_set_and_save {W} (E : env W) js a v w volts w2 volts2 tr tr' evs :
  (forall p, js p <> ""%string) -> a_path a <> Some ""%string ->
  a_to_set a = Some v ->
  e_read E w = (w, Ok volts) -> e_set E v w = (w2, Ok tt) ->
  s_tr (fst (iterate E (mk_sys a w tr))) = evs ++ tr -> In (EvSet v (Ok tt)) evs ->
  e_read E w2 = (w2, Ok volts2) -> index volts2 = index volts ->
  e_views E w2 = e_views E w -> e_log_step E v w2 = e_log_step E v w ->
  e_set E v w2 = (w2, Ok tt) ->
  let direct := iterate E (mk_sys a w tr) in
  let again := iterate E (mk_sys (at_from_hdf5 js (at_to_hdf5 a)) w2 tr') in
  same_but_path (s_at (fst again)) (s_at (fst direct)) /\
  s_w (fst again) = s_w (fst direct) /\ snd again = snd direct /\
  exists evs', s_tr (fst again) = evs' ++ tr' /\ filter is_action evs' = [EvSet v (Ok tt)].
Proof.
  intros H1 H2. apply crash_after_set. apply reload_restores_state; assumption.
Qed.

(** ** C51 *)
Theorem action_only_if_names_coherent {W} (E : env W) s evs ev :
  s_tr (fst (iterate E s)) = evs ++ s_tr s -> In ev evs -> is_action ev = true ->
  exists volts, snd (e_read E (s_w s)) = Ok volts /\
    coherent (index volts) (e_views E (fst (e_read E (s_w s)))) /\
    (forall v, a_to_set (s_at s) = Some v -> incl_labels (index v) (index volts)).
Proof. exact (action_needs_coherence E s evs ev). Qed.

Theorem coherent_iterate_succeeds {W} (E : env W) s volts :
  never_fails E ->
  is_tuning_complete E (s_at s) = false ->
  snd (e_read E (s_w s)) = Ok volts ->
  coherent (index volts) (e_views E (fst (e_read E (s_w s)))) ->
  (forall v, a_to_set (s_at s) = Some v -> incl_labels (index v) (index volts) /\ any_na v = false) ->
  snd (iterate E s) = Ok tt.
Proof. exact (iterate_succeeds E s volts). Qed.

(** ** Concrete system: two tuners and one gate "g" driven by a counter;
    tuner 0 is satisfied from 1 V on, tuner 1 from 2 V on. *)
Section Toy.
Local Open Scope string_scope.
Definition volt (k : nat) : series := [("g", Fin (INR k))].
Definition toy_row (l : label) (x : num) : trow := mk_trow l x NaN NaN (Fin 1) NaN (Fin 1).
Definition toy : env nat := {|
  e_n := 2;
  e_read := fun w => (w, Ok (volt w));
  e_set := fun _ w => (w + 1, Ok tt);
  e_views := fun _ => [mk_view None ["g"] None None; mk_view (Some ["g"]) ["g"] (Some [Some ["g"]]) (Some ["g"])];
  e_is_tuned := fun i _ w => (w, Ok (Nat.leb (i + 1) w));
  e_next := fun i _ w => (w, Ok (volt (w + 1)));
  e_target := fun i _ => match i with
     | 0 => [toy_row "a" (Fin 1); toy_row "b" NaN] | _ => [toy_row "c" (Fin 1)] end;
  e_set_target := fun i ch w => match i with 0 => (w, Ok tt) | _ => (w, Raise KeyError) end;
  e_restart := fun _ _ w => (w, Ok tt);
  e_log_step := fun _ _ => Ok tt;
  e_log_dist := fun _ _ => Ok tt;
  e_write := fun w => (w, Ok tt) |}.

(** Nine iterations tune everything: evaluate 0 (not tuned), compute, set,
    evaluate 0 (tuned), evaluate 1 (not tuned), compute, set, evaluate 0, 1. *)
Example toy_tunes :
  let s := run toy (fresh None 0) (repeat OpIterate 9) in
  is_tuning_complete toy (s_at s) = true /\
  milestones (s_tr s) =
    [EvEval 1 (volt 2) (Ok true); EvEval 0 (volt 2) (Ok true); EvSet (volt 2) (Ok tt);
     EvNext 1 ["a"] (Ok (volt 2)); EvEval 1 (volt 1) (Ok false); EvEval 0 (volt 1) (Ok true);
     EvSet (volt 1) (Ok tt); EvNext 0 [] (Ok (volt 1)); EvEval 0 (volt 0) (Ok false)].
Proof. split; reflexivity. Qed.

Example toy_saves :
  filter is_save (s_tr (run toy (fresh (Some "p") 0) (repeat OpIterate 2))) =
    [EvSave (mk_at 0 false (Some (volt 1)) (Some "p")) (Ok tt);
     EvSave (mk_at 0 true None (Some "p")) (Ok tt)].
Proof. reflexivity. Qed.

Example toy_nan :
  snd (iterate toy (mk_sys (mk_at 0 false (Some [("g", NaN)]) None) 0 [])) = Raise RuntimeError.
Proof. reflexivity. Qed.

Example toy_never_fails : never_fails toy /\
  coherent (index (volt 0)) (e_views toy 0) /\ is_tuning_complete toy (s_at (fresh None 0)) = false.
Proof.
  split; [|split; [|reflexivity]].
  - repeat split; intros; cbn; eauto.
  - apply (views_coherent_spec (index (volt 0)) (e_views toy 0) true). reflexivity.
Qed.

Example toy_relevant : relevant_param (e_target toy 0 0) "a" /\ ~ relevant_param (e_target toy 0 0) "b".
Proof.
  split.
  - exists (toy_row "a" (Fin 1)). repeat split; [cbn; auto|]. intros c [r [[<-|[<-|[]]] Hc]]; destruct c; cbn in *; congruence.
  - intros [r [[<-|[<-|[]]] [Hn Hc]]]; cbn in Hn; [discriminate|].
    apply (Hc Desired); [|reflexivity]. exists (toy_row "a" (Fin 1)). split; [cbn; auto|discriminate].
Qed.

(** C06: the surviving status makes tuner 0 propose voltages, and the
    Autotuner set them, without any evaluation after the restart. *)
Theorem restart_forces_evaluation_refuted :
  exists (E : env nat) w ops v tl,
    milestones (s_tr (run E (fresh None w) (ops ++ [OpRestart; OpIterate; OpIterate]))) =
      EvSet v (Ok tt) :: EvNext 0 [] (Ok v) :: EvRestart :: tl.
Proof. exists toy, 0, [OpIterate], (volt 1). eexists. reflexivity. Qed.

(** C03: a change_targets() that raises half-way has changed targets but keeps
    the position in the hierarchy. *)
Theorem failed_change_targets_keeps_position_refuted :
  exists (E : env nat) w ops chs e,
    let s := run E (fresh None w) ops in
    snd (change_targets E chs s) = Raise e /\
    filter (fun ev => match ev with EvTarget _ (Ok _) => true | _ => false end)
      (s_tr (fst (change_targets E chs s))) <> [] /\
    is_tuning_complete E (s_at (fst (change_targets E chs s))) = true.
Proof.
  exists toy, 0, (repeat OpIterate 9), [[]; []], KeyError.
  cbv zeta. split; [reflexivity|]. split; [discriminate|reflexivity].
Qed.

(** C08: hypotheses of [crash_between_set_and_save] for hardware with an
    idempotent write. *)
Definition toy2 : env nat := {|
  e_n := 1; e_read := fun w => (w, Ok (volt w));
  e_set := fun v w => match v with [(_, Fin _)] => (7, Ok tt) | _ => (w, Raise KeyError) end;
  e_views := fun _ => [mk_view None ["g"] None None];
  e_is_tuned := fun _ _ w => (w, Ok false); e_next := fun _ _ w => (w, Ok (volt 7));
  e_target := fun _ _ => []; e_set_target := fun _ _ w => (w, Ok tt);
  e_restart := fun _ _ w => (w, Ok tt); e_log_step := fun _ _ => Ok tt;
  e_log_dist := fun _ _ => Ok tt; e_write := fun w => (w, Ok tt) |}.
Example toy2_crash :
  let a := mk_at 0 false (Some (volt 7)) (Some "p") in
  let s := iterate toy2 (mk_sys a 3 []) in
  e_set toy2 (volt 7) 3 = (7, Ok tt) /\ e_set toy2 (volt 7) 7 = (7, Ok tt) /\
  In (EvSet (volt 7) (Ok tt)) (s_tr (fst s)) /\ snd s = Ok tt /\ s_w (fst s) = 7.
Proof. cbv zeta. repeat split; cbn; auto. Qed.

(** C51: a gate unknown to the experiment stops everything. *)
Example toy_incoherent :
  let E := {| e_n := 1; e_read := fun w => (w, Ok (volt w));
    e_set := fun _ w => (w, Ok tt); e_views := fun _ => [mk_view None ["g"; "h"] None None];
    e_is_tuned := fun _ _ w => (w, Ok false); e_next := fun _ _ w => (w, Ok (volt 7));
    e_target := fun _ _ => []; e_set_target := fun _ _ w => (w, Ok tt);
    e_restart := fun _ _ w => (w, Ok tt); e_log_step := fun _ _ => Ok tt;
    e_log_dist := fun _ _ => Ok tt; e_write := fun w => (w, Ok tt) |} : env nat in
  snd (iterate E (fresh None 0)) = Raise RuntimeError.
Proof. reflexivity. Qed.
End Toy.

Print Assumptions no_nan_to_hardware.
Print Assumptions nan_voltage_refused.
Print Assumptions nan_voltage_runtime_error.
Print Assumptions one_action_per_iterate.
Print Assumptions exception_safety.
Print Assumptions iterate_when_complete.
Print Assumptions complete_means_all_tuned.
Print Assumptions bottom_up_evaluation.
Print Assumptions voltages_from_untuned_tuner.
Print Assumptions tuned_parameters_reported.
Print Assumptions restart_keeps_pending_status.
Print Assumptions change_targets_keeps_pending_status.
Print Assumptions voltages_origin_with_resets.
Print Assumptions saves_are_final_states.
Print Assumptions reload_restores_state.
Print Assumptions reload_repeats_same_action.
Print Assumptions reload_bisimulation.
Print Assumptions crash_between_set_and_save.
Print Assumptions action_only_if_names_coherent.
Print Assumptions coherent_iterate_succeeds.
Print Assumptions restart_forces_evaluation_refuted.
Print Assumptions failed_change_targets_keeps_position_refuted.
