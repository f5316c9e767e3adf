From Verif Require Import PyBase TargetModel AutotunerModel AutotunerSpec.

Section P.
Context {W : Type} (E : env W).

Local Opaque tuned_parameters.

(** Case analysis of one iteration. *)
Lemma iterate_cases (s s' : sys W) (r : res unit) :
  iterate E s = (s', r) ->
  exists evs, s_tr s' = evs ++ s_tr s /\
    ((filter is_action evs = [] /\ filter is_save evs = [] /\ s_at s' = s_at s /\
      filter milestone evs = [] /\ (exists e, r = Raise e)) \/
     (exists ev, filter is_action evs = [ev] /\ due (s_at s) ev /\
        (forall v x, ev = EvSet v x -> any_na v = false) /\
        filter milestone evs = filter milestone [ev] /\
        match advance (s_at s) ev with
        | None => s_at s' = s_at s /\ filter is_save evs = [] /\
                  exists e, raised ev = Some e /\ r = Raise e
        | Some a' =>
            s_at s' = a' /\
            ((r = Ok tt /\ filter is_save evs = saves_due a') \/
             (exists e, r = Raise e /\
                (filter is_save evs = [] \/ filter is_save evs = [EvSave a' (Raise e)])))
        end)).
Proof.
  destruct s as [a w tr].
  unfold iterate, ready_to_tune, save_current_status, do_set, do_eval, do_next; 
  unfold bind, call, get_at, get_w, lift, raise, ret, put_at; cbn.
  destruct (e_read E w) as [w1 r1]; cbn.
  destruct r1 as [volts|e1]; cbn.
  2:{ intros H; inversion H; subst; cbn. exists [EvRead (Raise e1)]; split; [reflexivity|].
      left; repeat split; eauto. }
  assert (Hstop : forall e, (mk_sys a w1 (EvRead (Ok volts) :: tr), Raise e) = (s', r) ->
     exists evs, s_tr s' = evs ++ tr /\
    ((filter is_action evs = [] /\ filter is_save evs = [] /\ s_at s' = a /\
      filter milestone evs = [] /\ (exists e, r = Raise e)) \/
     (exists ev, filter is_action evs = [ev] /\ due a ev /\
        (forall v x, ev = EvSet v x -> any_na v = false) /\
        filter milestone evs = filter milestone [ev] /\
        match advance a ev with
        | None => s_at s' = a /\ filter is_save evs = [] /\
                  exists e, raised ev = Some e /\ r = Raise e
        | Some a' =>
            s_at s' = a' /\
            ((r = Ok tt /\ filter is_save evs = saves_due a') \/
             (exists e, r = Raise e /\
                (filter is_save evs = [] \/ filter is_save evs = [EvSave a' (Raise e)])))
        end))).
  { intros e H; inversion H; subst; cbn. exists [EvRead (Ok volts)]; split; [reflexivity|].
    left; repeat split; eauto. }
  destruct a as [i st ts p]; cbn in *.
  destruct ts as [v|]; cbn.
  - (* pending voltages *)
    (destruct (subset (index v) (index volts)); cbn; [|apply Hstop]).
    destruct (views_coherent (index volts) (e_views E w1) true) as [rd|e2]; cbn; [|apply Hstop].
    destruct rd; cbn; [|apply Hstop].
    unfold is_tuning_complete; cbn.
    destruct (i =? e_n E); cbn; [apply Hstop|].
    destruct (any_na v) eqn:Hna; cbn; [apply Hstop|].
    destruct (e_log_step E v w1) as [[]|e3]; cbn; [|apply Hstop].
    destruct (e_set E v w1) as [w2 r2]; cbn.
    destruct r2 as [[]|e4]; cbn.
    2:{ intros H; inversion H; subst; cbn. exists [EvSet v (Raise e4); EvRead (Ok volts)]; split; [reflexivity|].
        right; exists (EvSet v (Raise e4)); cbn. repeat split; eauto.
        intros v0 x Hv; inversion Hv; subst; assumption. }
    destruct p as [p|]; cbn.
    + destruct (e_write E w2) as [w3 r3]; cbn. intros H; inversion H; subst; clear H; cbn.
      exists [EvSave (mk_at 0 st None (Some p)) r; EvSet v (Ok tt); EvRead (Ok volts)]; split; [reflexivity|].
      right; exists (EvSet v (Ok tt)); cbn. repeat split; eauto.
      * intros v0 x Hv; inversion Hv; subst; assumption.
      * destruct r as [[]|e]; [left; split; reflexivity|right; exists e; split; [reflexivity|right; reflexivity]].
    + intros H; inversion H; subst; clear H; cbn.
      exists [EvSet v (Ok tt); EvRead (Ok volts)]; split; [reflexivity|].
      right; exists (EvSet v (Ok tt)); cbn. repeat split; eauto.
      intros v0 x Hv; inversion Hv; subst; assumption.
  - destruct (views_coherent (index volts) (e_views E w1) true) as [rd|e2]; cbn; [|apply Hstop].
    destruct rd; cbn; [|apply Hstop].
    unfold is_tuning_complete; cbn.
    destruct (i =? e_n E); cbn; [apply Hstop|].
    destruct st; cbn.
    + (* next voltages *)
      set (t := tuned_parameters E _ w1).
      destruct (e_next E i t w1) as [w2 r2]; cbn.
      destruct r2 as [v|e4]; cbn.
      2:{ intros H; inversion H; subst; cbn. exists [EvNext i t (Raise e4); EvRead (Ok volts)]; split; [reflexivity|].
          right; exists (EvNext i t (Raise e4)); cbn. repeat split; eauto. discriminate. }
      destruct p as [p|]; cbn.
      * destruct (e_write E w2) as [w3 r3]; cbn. intros H; inversion H; subst; clear H; cbn.
        exists [EvSave (mk_at i false (Some v) (Some p)) r; EvNext i t (Ok v); EvRead (Ok volts)]; split; [reflexivity|].
        right; exists (EvNext i t (Ok v)); cbn. repeat split; eauto; [discriminate|].
        destruct r as [[]|e]; [left; split; reflexivity|right; exists e; split; [reflexivity|right; reflexivity]].
      * intros H; inversion H; subst; clear H; cbn.
        exists [EvNext i t (Ok v); EvRead (Ok volts)]; split; [reflexivity|].
        right; exists (EvNext i t (Ok v)); cbn. repeat split; eauto. discriminate.
    + (* evaluation *)
      destruct (e_read E w1) as [w2 r2]; cbn.
      destruct r2 as [volts2|e3]; cbn.
      2:{ intros H; inversion H; subst; cbn. exists [EvRead (Raise e3); EvRead (Ok volts)]; split; [reflexivity|].
          left; repeat split; eauto. }
      destruct (e_is_tuned E i volts2 w2) as [w3 r3]; cbn.
      destruct r3 as [b|e4]; cbn.
      2:{ intros H; inversion H; subst; cbn.
          exists [EvEval i volts2 (Raise e4); EvRead (Ok volts2); EvRead (Ok volts)]; split; [reflexivity|].
          right; exists (EvEval i volts2 (Raise e4)); cbn. repeat split; eauto. discriminate. }
      destruct b; cbn.
      * destruct p as [p|]; cbn.
        -- destruct (e_write E w3) as [w4 r4]; cbn. intros H; inversion H; subst; clear H; cbn.
           exists [EvSave (mk_at (S i) false None (Some p)) r; EvEval i volts2 (Ok true); EvRead (Ok volts2); EvRead (Ok volts)];
             split; [reflexivity|].
           right; exists (EvEval i volts2 (Ok true)); cbn. rewrite Nat.add_1_r. repeat split; eauto; [discriminate|].
           destruct r as [[]|e]; [left; split; reflexivity|right; exists e; split; [reflexivity|right; reflexivity]].
        -- intros H; inversion H; subst; clear H; cbn.
           exists [EvEval i volts2 (Ok true); EvRead (Ok volts2); EvRead (Ok volts)]; split; [reflexivity|].
           right; exists (EvEval i volts2 (Ok true)); cbn. rewrite Nat.add_1_r. repeat split; eauto. discriminate.
      * destruct (e_log_dist E i w3) as [[]|e5]; cbn.
        2:{ intros H; inversion H; subst; clear H; cbn.
           exists [EvEval i volts2 (Ok false); EvRead (Ok volts2); EvRead (Ok volts)]; split; [reflexivity|].
           right; exists (EvEval i volts2 (Ok false)); cbn. repeat split; eauto. discriminate. }
        destruct p as [p|]; cbn.
        -- destruct (e_write E w3) as [w4 r4]; cbn. intros H; inversion H; subst; clear H; cbn.
           exists [EvSave (mk_at i true None (Some p)) r; EvEval i volts2 (Ok false); EvRead (Ok volts2); EvRead (Ok volts)];
             split; [reflexivity|].
           right; exists (EvEval i volts2 (Ok false)); cbn. repeat split; eauto; [discriminate|].
           destruct r as [[]|e]; [left; split; reflexivity|right; exists e; split; [reflexivity|right; reflexivity]].
        -- intros H; inversion H; subst; clear H; cbn.
           exists [EvEval i volts2 (Ok false); EvRead (Ok volts2); EvRead (Ok volts)]; split; [reflexivity|].
           right; exists (EvEval i volts2 (Ok false)); cbn. repeat split; eauto. discriminate.
Qed.
Lemma restart_tuners_frame is v : forall s s' r,
  restart_tuners E is v s = (s', r) -> s_at s' = s_at s /\ s_tr s' = s_tr s.
Proof.
  induction is as [|i is IH]; intros s s' r; cbn.
  - unfold ret; intros H; inversion H; subst; auto.
  - unfold bind, silent; cbn. destruct (e_restart E i v (s_w s)) as [w1 [u|e]]; cbn.
    + intros H; apply IH in H; cbn in H; exact H.
    + intros H; inversion H; subst; cbn; auto.
Qed.

Lemma restart_cases s s' r :
  restart E s = (s', r) ->
  s_at s' = mk_at 0 (a_status (s_at s)) None (a_path (s_at s)) /\
  exists rr, s_tr s' = EvRead rr :: EvRestart :: s_tr s.
Proof.
  unfold restart, bind, call, get_at, put_at, emit; cbn.
  destruct (e_read E (s_w s)) as [w1 [v|e]]; cbn.
  - intros H. apply restart_tuners_frame in H. destruct H as [H1 H2]; cbn in *.
    split; [assumption|eauto].
  - intros H; inversion H; subst; cbn. split; eauto.
Qed.

Lemma change_tuners_frame chs : forall i s s' r,
  change_tuners E i chs s = (s', r) ->
  s_at s' = s_at s /\
  exists evs, s_tr s' = evs ++ s_tr s /\ (forall ev, In ev evs -> exists j q, ev = EvTarget j q).
Proof.
  induction chs as [|ch chs IH]; intros i s s' r; cbn.
  - unfold ret; intros H; inversion H; subst. split; [reflexivity|]. exists []; split; [reflexivity|intros ? []].
  - unfold bind, call; cbn. destruct (e_set_target E i ch (s_w s)) as [w1 [u|e]]; cbn.
    + intros H; apply IH in H; cbn in H. destruct H as [H1 [evs [H2 H3]]]. split; [assumption|].
      exists (evs ++ [EvTarget i (Ok u)]). rewrite <- app_assoc; split; [assumption|].
      intros ev Hin. apply in_app_or in Hin. destruct Hin as [Hin|[<-|[]]]; eauto.
    + intros H; inversion H; subst; cbn. split; [reflexivity|].
      exists [EvTarget i (Raise e)]; split; [reflexivity|]. intros ev [<-|[]]; eauto.
Qed.

Lemma filter_targets f evs :
  (forall j q, f (EvTarget j q) = false) ->
  (forall ev, In ev evs -> exists j q, ev = EvTarget j q) -> filter f evs = [].
Proof.
  intros Hf. induction evs as [|ev evs IH]; intros H; cbn; [reflexivity|].
  destruct (H ev (or_introl eq_refl)) as [j [q ->]]. rewrite Hf. apply IH. intros; apply H; right; assumption.
Qed.

Lemma change_cases chs s s' r :
  change_targets E chs s = (s', r) ->
  exists evs, (forall ev, In ev evs -> exists j q, ev = EvTarget j q) /\
    ((r = Ok tt /\ s_tr s' = EvChange :: evs ++ s_tr s /\
      s_at s' = mk_at 0 (a_status (s_at s)) None (a_path (s_at s))) \/
     ((exists e, r = Raise e) /\ s_tr s' = evs ++ s_tr s /\ s_at s' = s_at s)).
Proof.
  unfold change_targets.
  destruct (length chs <=? e_n E).
  - unfold bind at 1. destruct (change_tuners E 0 chs s) as [s1 r1] eqn:H1.
    apply change_tuners_frame in H1. destruct H1 as [Ha [evs [Ht He]]].
    destruct r1 as [u|e]; unfold bind, get_at, put_at, emit; cbn.
    + intros H; inversion H; subst; cbn. exists evs; split; [assumption|].
      left. rewrite Ht, Ha. auto.
    + intros H; inversion H; subst. exists evs; split; [assumption|]. right; eauto.
  - unfold raise; intros H; inversion H; subst. exists []; split; [intros ? []|]. right; eauto.
Qed.

(** *** Invariants over histories *)

(** State versus newest milestones; [stale] is the situation after a reset
    with a surviving status. *)
Definition link (stale : bool) (a : at_state) (ms : list event) : Prop :=
  match a_to_set a with
  | None =>
      if a_status a then
        (exists v ms' rest, ms = EvEval (a_index a) v (Ok false) :: ms' /\
                            climbed (a_index a) ms' rest /\ at_start rest)
        \/ (stale = true /\ a_index a = 0 /\ reset_head ms)
      else exists rest, climbed (a_index a) ms rest /\ at_start rest
  | Some v =>
      a_status a = false /\
      exists t ms1, ms = EvNext (a_index a) t (Ok v) :: ms1 /\
        ((exists u ms' rest, ms1 = EvEval (a_index a) u (Ok false) :: ms' /\
                            climbed (a_index a) ms' rest /\ at_start rest)
         \/ (stale = true /\ a_index a = 0 /\ reset_head ms1))
  end.

(** What must hold of the milestones older than an event. *)
Definition good (stale : bool) (ev : event) (older : list event) : Prop :=
  match ev with
  | EvEval i v _ =>
      (exists tl, older = EvRead (Ok v) :: tl) /\
      exists rest, climbed i (milestones older) rest /\ at_start rest
  | EvSet v _ =>
      any_na v = false /\
      exists i t ms1, milestones older = EvNext i t (Ok v) :: ms1 /\
        ((exists u ms' rest, ms1 = EvEval i u (Ok false) :: ms' /\
                             climbed i ms' rest /\ at_start rest)
         \/ (stale = true /\ i = 0 /\ reset_head ms1))
  | _ => True
  end.

Fixpoint good_trace (stale : bool) (tr : list event) : Prop :=
  match tr with
  | [] => True
  | ev :: older => good stale ev older /\ good_trace stale older
  end.

Definition Inv (stale : bool) (s : sys W) : Prop :=
  link stale (s_at s) (milestones (s_tr s)) /\ good_trace stale (s_tr s).

Lemma good_trace_split stale tr newer ev older :
  good_trace stale tr -> tr = newer ++ ev :: older -> good stale ev older.
Proof.
  revert tr; induction newer as [|x newer IH]; intros tr H ->; cbn in H.
  - apply H.
  - eapply IH; [apply H|reflexivity].
Qed.

Lemma milestones_app a b : milestones (a ++ b) = milestones a ++ milestones b.
Proof. apply filter_app. Qed.

Lemma inv_fresh stale p w : Inv stale (fresh p w).
Proof. split; cbn; [|exact I]. unfold link; cbn. exists []; split; [constructor|exact I]. Qed.

Local Arguments good : simpl never.
Local Ltac gt :=
  cbn [good_trace s_tr];
  repeat match goal with |- _ /\ _ => split end;
  first [exact I | assumption | match goal with H : _ |- _ => apply H end].

Lemma iterate_inv stale s : Inv stale s -> Inv stale (fst (iterate E s)).
Proof.
  destruct s as [a w tr]. intros [HL HG]. cbn in HL, HG.
  unfold iterate, ready_to_tune, save_current_status, do_set, do_eval, do_next; 
  unfold bind, call, get_at, get_w, lift, raise, ret, put_at; cbn.
  destruct (e_read E w) as [w1 [volts|e1]]; cbn.
  2:{ split; cbn; [auto|gt]. }
  assert (Hstop : Inv stale (mk_sys a w1 (EvRead (Ok volts) :: tr))) by (split; cbn; [auto|gt]).
  destruct a as [i st ts p]; cbn in *.
  destruct ts as [v|]; cbn.
  - destruct (subset (index v) (index volts)); cbn; [|exact Hstop].
    destruct (views_coherent (index volts) (e_views E w1) true) as [[|]|e2]; cbn; [|exact Hstop..].
    unfold is_tuning_complete; cbn.
    destruct (i =? e_n E); cbn; [exact Hstop|].
    destruct (any_na v) eqn:Hna; cbn; [exact Hstop|].
    destruct (e_log_step E v w1) as [[]|e3]; cbn; [|exact Hstop].
    unfold link in HL; cbn in HL. destruct HL as [Hst [t [ms1 [Hms HL]]]].
    assert (Hg : forall r, good stale (EvSet v r) (EvRead (Ok volts) :: tr)).
    { intros r; cbn. split; [assumption|]. exists i, t, ms1. split; [assumption|]. exact HL. }
    destruct (e_set E v w1) as [w2 [[]|e4]]; cbn.
    2:{ split; cbn; [|gt]. unfold link; cbn. split; [assumption|]. exists t, ms1; split; [exact Hms|exact HL]. }
    subst st.
    destruct p as [p|]; cbn.
    + destruct (e_write E w2) as [w3 r3]; cbn. split; cbn; [|gt].
      unfold link; cbn. eexists; split; [constructor|exact I].
    + split; cbn; [|gt]. unfold link; cbn. eexists; split; [constructor|exact I].
  - destruct (views_coherent (index volts) (e_views E w1) true) as [[|]|e2]; cbn; [|exact Hstop..].
    unfold is_tuning_complete; cbn.
    destruct (i =? e_n E); cbn; [exact Hstop|].
    destruct st; cbn.
    + set (t := tuned_parameters E _ w1).
      destruct (e_next E i t w1) as [w2 [v|e4]]; cbn.
      2:{ split; cbn; [auto|gt]. }
      unfold link in HL; cbn in HL.
      destruct p as [p|]; cbn.
      * destruct (e_write E w2) as [w3 r3]; cbn. split; cbn; [|gt].
        unfold link; cbn. split; [reflexivity|]. exists t; eexists; split; [reflexivity|]. exact HL.
      * split; cbn; [|gt].
        unfold link; cbn. split; [reflexivity|]. exists t; eexists; split; [reflexivity|]. exact HL.
    + destruct (e_read E w1) as [w2 [volts2|e3]]; cbn.
      2:{ split; cbn; [auto|gt]. }
      unfold link in HL; cbn in HL. destruct HL as [rest [HC HS]].
      assert (Hg : forall r, good stale (EvEval i volts2 r) (EvRead (Ok volts2) :: EvRead (Ok volts) :: tr)).
      { intros r; cbn. split; [eauto|]. exists rest; split; assumption. }
      destruct (e_is_tuned E i volts2 w2) as [w3 [[|]|e4]]; cbn.
      * destruct p as [p|]; cbn.
        -- destruct (e_write E w3) as [w4 r4]; cbn. split; [|gt].
           unfold link; cbn. exists rest; split; [constructor|]; assumption.
        -- split; [|gt].
           unfold link; cbn. exists rest; split; [constructor|]; assumption.
      * assert (HI : link stale (mk_at i true None p) (EvEval i volts2 (Ok false) :: milestones tr)).
        { unfold link; cbn. left. exists volts2. do 2 eexists. split; [reflexivity|]. split; eassumption. }
        destruct (e_log_dist E i w3) as [[]|e5]; cbn.
        2:{ split; [exact HI|gt]. }
        destruct p as [p|]; cbn.
        -- destruct (e_write E w3) as [w4 r4]; cbn. split; [exact HI|gt].
        -- split; [exact HI|gt].
      * split; [|gt]. unfold link; cbn. exists rest; split; assumption.
Qed.

Lemma restart_inv s : Inv true s -> Inv true (fst (restart E s)).
Proof.
  intros [HL HG]. destruct (restart E s) as [s' r] eqn:Hr. apply restart_cases in Hr.
  destruct Hr as [Ha [rr Ht]]. cbn. split; rewrite Ht, ?Ha; cbn; [|gt].
  unfold link; cbn. destruct (a_status (s_at s)).
  - right. repeat split.
  - eexists; split; [constructor|exact I].
Qed.

Lemma good_trace_targets stale evs tr :
  (forall ev, In ev evs -> exists j q, ev = EvTarget j q) ->
  good_trace stale tr -> good_trace stale (evs ++ tr).
Proof.
  induction evs as [|ev evs IH]; intros H HG; cbn; [assumption|].
  destruct (H ev (or_introl eq_refl)) as [j [q ->]]. split; [exact I|].
  apply IH; [|assumption]. intros; apply H; right; assumption.
Qed.

Lemma change_inv chs s : Inv true s -> Inv true (fst (change_targets E chs s)).
Proof.
  intros [HL HG]. destruct (change_targets E chs s) as [s' r] eqn:Hr. apply change_cases in Hr.
  destruct Hr as [evs [Hev [[_ [Ht Ha]]|[_ [Ht Ha]]]]]; cbn; split; rewrite Ht, ?Ha; cbn.
  - unfold link; cbn. destruct (a_status (s_at s)).
    + right. repeat split.
    + eexists; split; [constructor|exact I].
  - split; [exact I|]. apply good_trace_targets; assumption.
  - rewrite milestones_app. unfold milestones at 1. rewrite (filter_targets milestone evs); auto.
  - apply good_trace_targets; assumption.
Qed.

Lemma run_inv ops : forall s, Inv true s -> Inv true (run E s ops).
Proof.
  induction ops as [|o ops IH]; intros s H; cbn; [assumption|].
  apply IH. destruct o; unfold step; auto using iterate_inv, restart_inv, change_inv.
Qed.

Lemma run_iterate_inv k : forall s, Inv false s -> Inv false (run E s (repeat OpIterate k)).
Proof.
  induction k as [|k IH]; intros s H; cbn; [assumption|].
  apply IH. apply iterate_inv; assumption.
Qed.

(** *** C01 *)
Lemma any_na_false v : any_na v = false -> forall l x, In (l, x) v -> x <> NaN.
Proof.
  unfold any_na. intros H l x Hin ->.
  assert (existsb (fun p : label * num => isna (snd p)) v = true); [|congruence].
  apply existsb_exists. exists (l, NaN); auto.
Qed.

Lemma any_na_true v : any_na v = true <-> exists l, In (l, NaN) v.
Proof.
  unfold any_na. rewrite existsb_exists. split.
  - intros [[l x] [Hin Hx]]. cbn in Hx. destruct x; try discriminate. eauto.
  - intros [l Hin]. exists (l, NaN); auto.
Qed.

Lemma run_no_nan p w ops ev :
  In ev (s_tr (run E (fresh p w) ops)) -> no_nan_set ev.
Proof.
  intros Hin. destruct (run_inv ops _ (inv_fresh true p w)) as [_ HG].
  apply in_split in Hin. destruct Hin as [newer [older Hs]].
  pose proof (good_trace_split _ _ _ _ _ HG Hs) as Hg.
  destruct ev; unfold good in Hg; cbn in *; auto. destruct Hg as [Hna _]. apply any_na_false; assumption.
Qed.

Lemma nan_refused s v l :
  a_to_set (s_at s) = Some v -> In (l, NaN) v ->
  exists e, snd (iterate E s) = Raise e /\ s_at (fst (iterate E s)) = s_at s /\
    exists evs, s_tr (fst (iterate E s)) = evs ++ s_tr s /\ filter is_action evs = [] /\
      filter is_save evs = [].
Proof.
  intros Hv Hl. destruct (iterate E s) as [s' r] eqn:Hi.
  apply iterate_cases in Hi. destruct Hi as [evs [Ht [[H1 [H2 [H3 [_ [e H4]]]]]|[ev [_ [Hd [Hn _]]]]]]].
  - exists e; cbn; eauto 10.
  - exfalso. unfold due in Hd. rewrite Hv in Hd. destruct Hd as [q ->].
    specialize (Hn v q eq_refl).
    assert (any_na v = true) by (apply any_na_true; eauto). congruence.
Qed.

(** *** C02/C07 are [iterate_cases]. *)

(** *** C03 *)
Lemma complete_climbed p w ops :
  is_tuning_complete E (s_at (run E (fresh p w) ops)) = true ->
  0 < e_n E ->
  let s := run E (fresh p w) ops in
  a_to_set (s_at s) = None -> a_status (s_at s) = false ->
  exists rest, climbed (e_n E) (milestones (s_tr s)) rest /\ at_start rest.
Proof.
  intros Hc Hn s Hts Hst. destruct (run_inv ops _ (inv_fresh true p w)) as [HL _].
  fold s in HL, Hc. unfold link in HL. rewrite Hts, Hst in HL.
  unfold is_tuning_complete in Hc. apply Nat.eqb_eq in Hc. rewrite <- Hc. exact HL.
Qed.

(** Index bound: complete is only reached by climbing. *)
Definition bounded (s : sys W) : Prop :=
  a_index (s_at s) <= e_n E /\
  (a_index (s_at s) = e_n E -> 0 < e_n E -> a_to_set (s_at s) = None /\ a_status (s_at s) = false).

Lemma iterate_bounded s : Inv true s -> bounded s -> bounded (fst (iterate E s)).
Proof.
  destruct s as [a w tr]. intros [HL _] [HB1 HB2]. cbn in HL, HB1, HB2.
  unfold iterate, ready_to_tune, save_current_status, do_set, do_eval, do_next; 
  unfold bind, call, get_at, get_w, lift, raise, ret, put_at; cbn.
  destruct (e_read E w) as [w1 [volts|e1]]; cbn; [|split; assumption].
  destruct a as [i st ts p]; cbn in *.
  destruct ts as [v|]; cbn.
  - destruct (subset (index v) (index volts)); cbn; [|split; assumption].
    destruct (views_coherent (index volts) (e_views E w1) true) as [[|]|e2]; cbn; [|split; assumption..].
    unfold is_tuning_complete; cbn.
    destruct (i =? e_n E); cbn; [split; assumption|].
    destruct (any_na v); cbn; [split; assumption|].
    destruct (e_log_step E v w1) as [[]|e3]; cbn; [|split; assumption].
    destruct (e_set E v w1) as [w2 [[]|e4]]; cbn; [|split; assumption].
    destruct HL as [Hst _]. cbn in Hst. subst st.
    destruct p as [p|]; cbn.
    + destruct (e_write E w2) as [w3 r3]; cbn. split; cbn; [lia|]. auto.
    + split; cbn; [lia|]. auto.
  - destruct (views_coherent (index volts) (e_views E w1) true) as [[|]|e2]; cbn; [|split; assumption..].
    unfold is_tuning_complete; cbn.
    destruct (Nat.eqb_spec i (e_n E)) as [Heq|Hne]; cbn; [split; assumption|].
    destruct st; cbn.
    + destruct (e_next E i _ w1) as [w2 [v|e4]]; cbn; [|split; assumption].
      destruct p as [p|]; cbn.
      * destruct (e_write E w2) as [w3 r3]; cbn. split; cbn; [assumption|]. intros; contradiction.
      * split; cbn; [assumption|]. intros; contradiction.
    + destruct (e_read E w1) as [w2 [volts2|e3]]; cbn; [|split; assumption].
      destruct (e_is_tuned E i volts2 w2) as [w3 [[|]|e4]]; cbn; [..|split; assumption].
      * destruct p as [p|]; cbn; [destruct (e_write E w3) as [w4 r4]|]; split; cbn; [lia|auto|lia|auto].
      * destruct (e_log_dist E i w3) as [[]|e5]; cbn.
        2:{ split; cbn; [assumption|]. intros; contradiction. }
        destruct p as [p|]; cbn; [destruct (e_write E w3) as [w4 r4]|]; split; cbn; auto; intros; contradiction.
Qed.

Lemma run_bounded ops : forall s, Inv true s -> bounded s -> bounded (run E s ops).
Proof.
  induction ops as [|o ops IH]; intros s HI HB; cbn; [assumption|].
  assert (HI' : Inv true (step E s o)).
  { destruct o; unfold step; auto using iterate_inv, restart_inv, change_inv. }
  apply IH; [assumption|]. destruct o; unfold step.
  - apply iterate_bounded; assumption.
  - destruct (restart E s) as [s' r] eqn:Hr. apply restart_cases in Hr. destruct Hr as [Ha _].
    split; cbn; rewrite Ha; cbn; [lia|]. intros; lia.
  - destruct (change_targets E chs s) as [s' r] eqn:Hr. apply change_cases in Hr.
    destruct Hr as [evs [_ [[_ [_ Ha]]|[_ [_ Ha]]]]]; cbn.
    + split; cbn; rewrite Ha; cbn; [lia|]. intros; lia.
    + destruct HB as [HB1 HB2]. split; cbn; rewrite Ha; auto.
Qed.

Lemma complete_means_tuned p w ops :
  let s := run E (fresh p w) ops in
  is_tuning_complete E (s_at s) = true ->
  exists rest, climbed (e_n E) (milestones (s_tr s)) rest /\ (0 < e_n E -> at_start rest).
Proof.
  intros s Hc. destruct (Nat.eq_dec (e_n E) 0) as [Hz|Hn].
  - exists (milestones (s_tr s)). rewrite Hz. split; [constructor|lia].
  - assert (HB : bounded s).
    { apply run_bounded; [apply inv_fresh|]. split; cbn; [lia|]. intros; lia. }
    destruct HB as [_ HB]. pose proof Hc as Hc'. unfold is_tuning_complete in Hc'. apply Nat.eqb_eq in Hc'.
    destruct (HB Hc') as [H1 H2]; [lia|].
    destruct (complete_climbed p w ops Hc) as [rest [HC HS]]; auto; [lia|]. eauto.
Qed.

(** *** C04, C05 *)
Lemma eval_bottom_up p w ops newer i v r older :
  s_tr (run E (fresh p w) ops) = newer ++ EvEval i v r :: older ->
  (exists tl, older = EvRead (Ok v) :: tl) /\
  exists rest, climbed i (milestones older) rest /\ at_start rest.
Proof.
  intros Hs. destruct (run_inv ops _ (inv_fresh true p w)) as [_ HG].
  exact (good_trace_split _ _ _ _ _ HG Hs).
Qed.

Lemma set_provenance p w k newer v r older :
  s_tr (run E (fresh p w) (repeat OpIterate k)) = newer ++ EvSet v r :: older ->
  exists i t u ms' rest,
    milestones older = EvNext i t (Ok v) :: EvEval i u (Ok false) :: ms' /\
    climbed i ms' rest /\ at_start rest.
Proof.
  intros Hs. destruct (run_iterate_inv k _ (inv_fresh false p w)) as [_ HG].
  pose proof (good_trace_split _ _ _ _ _ HG Hs) as Hg. unfold good in Hg.
  destruct Hg as [_ [i [t [ms1 [Hm [[u [ms' [rest [-> [HC HS]]]]]|[Hf _]]]]]]]; [|discriminate].
  exists i, t, u, ms', rest. auto.
Qed.

Lemma set_provenance_general p w ops newer v r older :
  s_tr (run E (fresh p w) ops) = newer ++ EvSet v r :: older ->
  exists i t ms1,
    milestones older = EvNext i t (Ok v) :: ms1 /\
    ((exists u ms' rest, ms1 = EvEval i u (Ok false) :: ms' /\ climbed i ms' rest /\ at_start rest) \/
     (i = 0 /\ reset_head ms1)).
Proof.
  intros Hs. destruct (run_inv ops _ (inv_fresh true p w)) as [_ HG].
  pose proof (good_trace_split _ _ _ _ _ HG Hs) as Hg. unfold good in Hg.
  destruct Hg as [_ [i [t [ms1 [Hm [H|[_ [Hi Hst]]]]]]]]; exists i, t, ms1; split; auto.
Qed.

(** *** The list of tuned parameters *)
Transparent tuned_parameters.
Lemma relevant_spec t l : In l (relevant t) <-> relevant_param t l.
Proof.
  unfold relevant, relevant_param. rewrite in_map_iff. split.
  - intros [row [Hn Hin]]. apply filter_In in Hin. destruct Hin as [Hin Hf].
    exists row; repeat split; auto. intros c [row' [Hin' Hc']] Hc.
    rewrite forallb_forall in Hf. specialize (Hf c).
    rewrite Hc in Hf. change (negb (isna NaN)) with false in Hf.
    assert (HX : In c (used_columns t)); [|specialize (Hf HX); discriminate].
    unfold used_columns. apply filter_In. split.
    { destruct c; cbn; auto 10. }
    apply Bool.negb_true_iff. apply Bool.not_true_iff_false. intros Hall.
    rewrite forallb_forall in Hall. specialize (Hall _ Hin'). destruct (cell c row'); try discriminate. auto.
  - intros [row [Hin [Hn Hc]]]. exists row; split; [assumption|]. apply filter_In; split; [assumption|].
    apply forallb_forall. intros c Hu. unfold used_columns in Hu. apply filter_In in Hu. destruct Hu as [_ Hu].
    apply Bool.negb_true_iff in Hu. apply Bool.not_true_iff_false in Hu.
    destruct (cell c row) eqn:Hcr; try reflexivity. exfalso.
    apply Hu. apply forallb_forall. intros row' Hin'. destruct (cell c row') eqn:Hcr'; try reflexivity; exfalso;
      apply (Hc c); auto; exists row'; split; auto; congruence.
Qed.

Lemma tuned_parameters_spec a w l :
  In l (tuned_parameters E a w) <-> exists j, j < a_index a /\ relevant_param (e_target E j w) l.
Proof.
  unfold tuned_parameters. rewrite in_flat_map. split.
  - intros [j [Hj Hl]]. apply in_seq in Hj. apply relevant_spec in Hl. exists j; split; [lia|assumption].
  - intros [j [Hj Hl]]. exists j. split; [apply in_seq; lia|]. apply relevant_spec; assumption.
Qed.
Opaque tuned_parameters.

(** The arguments of a [get_next_voltages] call made by an iteration. *)
Lemma next_arguments s i t r evs :
  s_tr (fst (iterate E s)) = evs ++ s_tr s -> In (EvNext i t r) evs ->
  i = a_index (s_at s) /\ t = tuned_parameters E (s_at s) (fst (e_read E (s_w s))) /\
  exists volts, snd (e_read E (s_w s)) = Ok volts /\
    views_coherent (index volts) (e_views E (fst (e_read E (s_w s)))) true = Ok true.
Proof.
  destruct s as [a w tr].
  unfold iterate, ready_to_tune, save_current_status, do_set, do_eval, do_next; 
  unfold bind, call, get_at, get_w, lift, raise, ret, put_at; cbn.
  assert (K : forall es, es ++ tr = evs ++ tr -> es = evs) by (intros; eapply app_inv_tail; eassumption).
  destruct (e_read E w) as [w1 [volts|e1]]; cbn.
  2:{ intros H. apply (K [_]) in H. subst. intros [H|[]]; discriminate. }
  assert (Hs : EvRead (Ok volts) :: tr = evs ++ tr -> ~ In (EvNext i t r) evs).
  { intros H. apply (K [_]) in H. subst. intros [H|[]]; discriminate. }
  destruct a as [i0 st ts p]; cbn.
  destruct ts as [v|]; cbn.
  - destruct (subset (index v) (index volts)); cbn; [|intros; exfalso; eapply Hs; eauto].
    destruct (views_coherent (index volts) (e_views E w1) true) as [[|]|e2]; cbn; [|intros; exfalso; eapply Hs; eauto..].
    unfold is_tuning_complete; cbn.
    destruct (i0 =? e_n E); cbn; [intros; exfalso; eapply Hs; eauto|].
    destruct (any_na v); cbn; [intros; exfalso; eapply Hs; eauto|].
    destruct (e_log_step E v w1) as [[]|e3]; cbn; [|intros; exfalso; eapply Hs; eauto].
    destruct (e_set E v w1) as [w2 [[]|e4]]; cbn.
    2:{ intros H. apply (K [_;_]) in H. subst. intros [H|[H|[]]]; discriminate. }
    destruct p as [p|]; cbn; [destruct (e_write E w2) as [w3 r3]; cbn|].
    + intros H. apply (K [_;_;_]) in H. subst. intros [H|[H|[H|[]]]]; discriminate.
    + intros H. apply (K [_;_]) in H. subst. intros [H|[H|[]]]; discriminate.
  - destruct (views_coherent (index volts) (e_views E w1) true) as [[|]|e2] eqn:Hv; cbn; [|intros; exfalso; eapply Hs; eauto..].
    unfold is_tuning_complete; cbn.
    destruct (i0 =? e_n E); cbn; [intros; exfalso; eapply Hs; eauto|].
    destruct st; cbn.
    + set (t0 := tuned_parameters E _ w1).
      destruct (e_next E i0 t0 w1) as [w2 [v|e4]]; cbn.
      2:{ intros H. apply (K [_;_]) in H. subst. intros [H|[H|[]]]; inversion H; subst. eauto. }
      destruct p as [p|]; cbn; [destruct (e_write E w2) as [w3 r3]; cbn|].
      * intros H. apply (K [_;_;_]) in H. subst. intros [H|[H|[H|[]]]]; inversion H; subst. eauto.
      * intros H. apply (K [_;_]) in H. subst. intros [H|[H|[]]]; inversion H; subst. eauto.
    + destruct (e_read E w1) as [w2 [volts2|e3]]; cbn.
      2:{ intros H. apply (K [_;_]) in H. subst. intros [H|[H|[]]]; discriminate. }
      destruct (e_is_tuned E i0 volts2 w2) as [w3 [[|]|e4]]; cbn.
      * destruct p as [p|]; cbn; [destruct (e_write E w3) as [w4 r3]; cbn|].
        -- intros H. apply (K [_;_;_;_]) in H. subst. intros [H|[H|[H|[H|[]]]]]; discriminate.
        -- intros H. apply (K [_;_;_]) in H. subst. intros [H|[H|[H|[]]]]; discriminate.
      * destruct (e_log_dist E i0 w3) as [[]|e5]; cbn.
        2:{ intros H. apply (K [_;_;_]) in H. subst. intros [H|[H|[H|[]]]]; discriminate. }
        destruct p as [p|]; cbn; [destruct (e_write E w3) as [w4 r3]; cbn|].
        -- intros H. apply (K [_;_;_;_]) in H. subst. intros [H|[H|[H|[H|[]]]]]; discriminate.
        -- intros H. apply (K [_;_;_]) in H. subst. intros [H|[H|[H|[]]]]; discriminate.
      * intros H. apply (K [_;_;_]) in H. subst. intros [H|[H|[H|[]]]]; discriminate.
Qed.

(** *** Coherence of the names *)
Lemma mem_In l ls : mem l ls = true <-> In l ls.
Proof.
  unfold mem. rewrite existsb_exists. split.
  - intros [x [Hin Hx]]. apply String.eqb_eq in Hx. subst; assumption.
  - intros H. exists l; split; [assumption|apply String.eqb_refl].
Qed.
Lemma subset_incl a b : subset a b = true <-> incl_labels a b.
Proof.
  unfold subset, incl_labels. rewrite forallb_forall. split; intros H l Hl.
  - apply mem_In; auto.
  - apply mem_In; auto.
Qed.

Lemma estimators_coherent_spec gates sg ests : forall acc,
  estimators_coherent gates sg ests acc = Ok true <->
  acc = true /\
  (forall pos, In pos ests ->
     (forall p, pos = Some p -> incl_labels p gates) /\
     (forall tg, sg = Some tg -> exists p, pos = Some p /\ incl_labels tg p)).
Proof.
  induction ests as [|pos ests IH]; intros acc; cbn.
  - split; [intros H; inversion H; split; [reflexivity|intros _ []]|intros [-> _]; reflexivity].
  - destruct sg as [tg|].
    + destruct pos as [p|].
      * rewrite IH. split.
        -- intros [Ha Hr]. apply andb_prop in Ha. destruct Ha as [Ha H2]. apply andb_prop in Ha. destruct Ha as [-> H1].
           rewrite subset_incl in H1, H2. split; [reflexivity|]. intros pos [<-|Hin]; [|apply Hr; assumption].
           split; [intros q Hq; inversion Hq; subst; assumption|]. intros tg' Ht; inversion Ht; subst; eauto.
        -- intros [-> H]. destruct (H _ (or_introl eq_refl)) as [H1 H2].
           specialize (H1 _ eq_refl). destruct (H2 _ eq_refl) as [q [Hq Hi]]. inversion Hq; subst.
           apply subset_incl in H1, Hi. rewrite H1, Hi. split; [reflexivity|]. intros; apply H; right; assumption.
      * split; [discriminate|]. intros [_ H]. destruct (H _ (or_introl eq_refl)) as [_ H2].
        destruct (H2 _ eq_refl) as [q [Hq _]]. discriminate.
    + destruct pos as [p|]; rewrite IH.
      * split.
        -- intros [Ha Hr]. apply andb_prop in Ha. destruct Ha as [-> H1]. rewrite subset_incl in H1.
           split; [reflexivity|]. intros pos [<-|Hin]; [|apply Hr; assumption].
           split; [intros q Hq; inversion Hq; subst; assumption|discriminate].
        -- intros [-> H]. destruct (H _ (or_introl eq_refl)) as [H1 _]. specialize (H1 _ eq_refl).
           apply subset_incl in H1. rewrite H1. split; [reflexivity|]. intros; apply H; right; assumption.
      * split.
        -- intros [-> Hr]. split; [reflexivity|]. intros pos [<-|Hin]; [split; discriminate|auto].
        -- intros [-> H]. split; [reflexivity|]. intros; apply H; right; assumption.
Qed.

Lemma views_coherent_spec gates vs : forall acc,
  views_coherent gates vs acc = Ok true <-> acc = true /\ coherent gates vs.
Proof.
  induction vs as [|v vs IH]; intros acc; cbn.
  - split; [intros H; inversion H; split; [reflexivity|intros _ []]|intros [-> _]; reflexivity].
  - assert (Hc : coherent gates (v :: vs) <->
      ((forall l, tv_last v = Some l -> incl_labels l gates) /\
       incl_labels (tv_gates v) gates /\
       (forall ests pos, tv_newton v = Some ests -> In pos ests ->
         (forall p, pos = Some p -> incl_labels p gates) /\
         (forall tg, tv_subset v = Some tg -> exists p, pos = Some p /\ incl_labels tg p))) /\
      coherent gates vs).
    { unfold coherent. split.
      - intros H. split; [apply H; left; reflexivity|]. intros; apply H; right; assumption.
      - intros [H1 H2] v' [<-|Hin]; auto. }
    rewrite Hc.
    set (acc2 := (match tv_last v with Some l => acc && subset l gates | None => acc end) && subset (tv_gates v) gates).
    assert (Ha : acc2 = true <-> acc = true /\ (forall l, tv_last v = Some l -> incl_labels l gates) /\
                incl_labels (tv_gates v) gates).
    { subst acc2. rewrite andb_true_iff, subset_incl. destruct (tv_last v) as [l|].
      - rewrite andb_true_iff, subset_incl. split.
        + intros [[H1 H2] H3]. repeat split; auto. intros q Hq; inversion Hq; subst; auto.
        + intros [H1 [H2 H3]]. auto.
      - split; [intros [H1 H2]; repeat split; auto; discriminate|intros [H1 [_ H2]]; auto]. }
    destruct (tv_newton v) as [ests|].
    + destruct (estimators_coherent gates (tv_subset v) ests acc2) as [acc3|e] eqn:He.
      * rewrite IH. split.
        -- intros [-> H]. apply estimators_coherent_spec in He. destruct He as [H2 H3].
           apply Ha in H2. destruct H2 as [H2 [H4 H5]]. split; [assumption|]. split; [|assumption].
           split; [assumption|]. split; [assumption|].
           intros ests' pos Hests Hin. inversion Hests; subst. apply H3; assumption.
        -- intros [-> [[H1 [H2 H3]] H4]].
           assert (Hok : estimators_coherent gates (tv_subset v) ests acc2 = Ok true).
           { apply estimators_coherent_spec. split; [apply Ha; auto|]. intros; apply (H3 ests); auto. }
           rewrite Hok in He. inversion He. auto.
      * split; [discriminate|]. intros [-> [[H1 [H2 H3]] H4]].
        assert (Hok : estimators_coherent gates (tv_subset v) ests acc2 = Ok true).
        { apply estimators_coherent_spec. split; [apply Ha; auto|]. intros; apply (H3 ests); auto. }
        rewrite Hok in He. discriminate.
    + rewrite IH. rewrite Ha. split.
      * intros [[H1 [H2 H3]] H4]. split; [assumption|]. split; [|assumption].
        split; [assumption|]. split; [assumption|]. discriminate.
      * intros [H1 [[H2 [H3 _]] H4]]. auto.
Qed.

(** No action unless the names are coherent. *)
Lemma action_needs_coherence s evs ev :
  s_tr (fst (iterate E s)) = evs ++ s_tr s -> In ev evs -> is_action ev = true ->
  exists volts, snd (e_read E (s_w s)) = Ok volts /\
    coherent (index volts) (e_views E (fst (e_read E (s_w s)))) /\
    (forall v, a_to_set (s_at s) = Some v -> incl_labels (index v) (index volts)).
Proof.
  destruct s as [a w tr].
  unfold iterate, ready_to_tune, save_current_status, do_set, do_eval, do_next; 
  unfold bind, call, get_at, get_w, lift, raise, ret, put_at; cbn.
  assert (K : forall es, es ++ tr = evs ++ tr -> es = evs) by (intros; eapply app_inv_tail; eassumption).
  destruct (e_read E w) as [w1 [volts|e1]]; cbn.
  2:{ intros H. apply (K [_]) in H. subst. intros [<-|[]]; discriminate. }
  assert (Hs : EvRead (Ok volts) :: tr = evs ++ tr -> In ev evs -> is_action ev = true -> False).
  { intros H. apply (K [_]) in H. subst. intros [<-|[]]; discriminate. }
  destruct a as [i0 st ts p]; cbn.
  destruct ts as [v|]; cbn.
  - destruct (subset (index v) (index volts)) eqn:Hsub; cbn; [|intros; exfalso; eapply Hs; eauto].
    destruct (views_coherent (index volts) (e_views E w1) true) as [[|]|e2] eqn:Hv; cbn; [|intros; exfalso; eapply Hs; eauto..].
    intros _ _ _. exists volts. split; [reflexivity|]. apply views_coherent_spec in Hv. split; [apply Hv|].
    intros v' Hv'; inversion Hv'; subst. apply subset_incl; assumption.
  - destruct (views_coherent (index volts) (e_views E w1) true) as [[|]|e2] eqn:Hv; cbn; [|intros; exfalso; eapply Hs; eauto..].
    intros _ _ _. exists volts. split; [reflexivity|]. apply views_coherent_spec in Hv. split; [apply Hv|].
    discriminate.
Qed.

(** *** C06: reset keeps the status *)
Lemma first_action_after_reset s evs ev :
  a_index (s_at s) = 0 -> a_to_set (s_at s) = None ->
  s_tr (fst (iterate E s)) = evs ++ s_tr s -> In ev evs -> is_action ev = true ->
  kind_of ev = Some (if a_status (s_at s) then KNext 0 else KEval 0).
Proof.
  intros Hi Ht Htr Hin Ha. destruct (iterate E s) as [s' r] eqn:He. apply iterate_cases in He.
  destruct He as [evs' [Htr' H]]. cbn in Htr. rewrite Htr in Htr'. apply app_inv_tail in Htr'. subst evs'.
  assert (Hf : In ev (filter is_action evs)) by (apply filter_In; auto).
  destruct H as [[H _]|[ev' [H [Hd _]]]]; rewrite H in Hf; [destruct Hf|].
  destruct Hf as [->|[]]. unfold due in Hd. rewrite Ht, Hi in Hd.
  destruct (a_status (s_at s)).
  - destruct Hd as [t [q ->]]. reflexivity.
  - destruct Hd as [t [q ->]]. reflexivity.
Qed.

(** *** C08 *)
(** The action of an iteration is determined by the saved state. *)
Lemma action_kind s evs ev :
  s_tr (fst (iterate E s)) = evs ++ s_tr s -> In ev evs -> is_action ev = true ->
  kind_of ev = Some (match a_to_set (s_at s), a_status (s_at s) with
                     | Some v, _ => KSet v
                     | None, true => KNext (a_index (s_at s))
                     | None, false => KEval (a_index (s_at s))
                     end).
Proof.
  intros Htr Hin Ha. destruct (iterate E s) as [s' r] eqn:He. apply iterate_cases in He.
  destruct He as [evs' [Htr' H]]. cbn in Htr. rewrite Htr in Htr'. apply app_inv_tail in Htr'. subst evs'.
  assert (Hf : In ev (filter is_action evs)) by (apply filter_In; auto).
  destruct H as [[H _]|[ev' [H [Hd _]]]]; rewrite H in Hf; [destruct Hf|].
  destruct Hf as [->|[]]. unfold due in Hd.
  destruct (a_to_set (s_at s)); [|destruct (a_status (s_at s))].
  - destruct Hd as [q ->]. reflexivity.
  - destruct Hd as [t [q ->]]. reflexivity.
  - destruct Hd as [t [q ->]]. reflexivity.
Qed.

(** Systems that differ only in the storage path (and the recorded trace). *)
Definition twin (s1 s2 : sys W) : Prop :=
  same_but_path (s_at s1) (s_at s2) /\ s_w s1 = s_w s2 /\
  milestones (s_tr s1) = milestones (s_tr s2).

Lemma iterate_twin s1 s2 : twin s1 s2 ->
  twin (fst (iterate E s1)) (fst (iterate E s2)) /\
  snd (iterate E s1) = snd (iterate E s2).
Proof.
  destruct s1 as [[i st ts p1] w tr1], s2 as [[i2 st2 ts2 p2] w2 tr2].
  intros [[H1 [H2 [H3 H4]]] [H5 H6]]. cbn in H1, H2, H3, H4, H5. subst i2 st2 ts2 w2.
  change (milestones tr1 = milestones tr2) in H6.
  assert (Hp : (exists q1 q2, p1 = Some q1 /\ p2 = Some q2) \/ (p1 = None /\ p2 = None)).
  { destruct p1, p2; auto; [left; eauto|exfalso; destruct H4 as [_ H]; discriminate H; reflexivity|
     exfalso; destruct H4 as [H _]; discriminate H; reflexivity]. }
  unfold twin, same_but_path.
  unfold iterate, ready_to_tune, save_current_status, do_set, do_eval, do_next; 
  unfold bind, call, get_at, get_w, lift, raise, ret, put_at; cbn.
  assert (Hms : forall es, milestones (es ++ tr1) = milestones (es ++ tr2)).
  { intros; rewrite !milestones_app, H6; reflexivity. }
  Local Ltac fin Hms H4 H6 := cbn; repeat split; auto; try (apply H4); try congruence; try (apply (Hms [])); try (unfold milestones in H6; congruence).
  destruct (e_read E w) as [w1 [volts|e1]]; cbn; [|fin Hms H4 H6].
  change (tuned_parameters E (mk_at i st ts p1)) with (tuned_parameters E (mk_at i st ts p2)).
  destruct ts as [v|]; cbn.
  - destruct (subset (index v) (index volts)) eqn:Hsub; cbn; [|fin Hms H4 H6].
    destruct (views_coherent (index volts) (e_views E w1) true) as [[|]|e2] eqn:Hv; cbn; [|fin Hms H4 H6..].
    unfold is_tuning_complete; cbn.
    destruct (i =? e_n E); cbn; [fin Hms H4 H6|].
    destruct (any_na v); cbn; [fin Hms H4 H6|].
    destruct (e_log_step E v w1) as [[]|e3]; cbn; [|fin Hms H4 H6].
    destruct (e_set E v w1) as [w2 [[]|e4]]; cbn; [|fin Hms H4 H6].
    destruct Hp as [[q1 [q2 [-> ->]]]|[-> ->]]; cbn; [destruct (e_write E w2) as [w3 r3]|]; fin Hms H4 H6.
  - destruct (views_coherent (index volts) (e_views E w1) true) as [[|]|e2] eqn:Hv; cbn; [|fin Hms H4 H6..].
    unfold is_tuning_complete; cbn.
    destruct (i =? e_n E); cbn; [fin Hms H4 H6|].
    destruct st; cbn.
    + replace (tuned_parameters E (mk_at i true None p1)) with (tuned_parameters E (mk_at i true None p2)) by reflexivity.
      set (t0 := tuned_parameters E _ w1).
      destruct (e_next E i t0 w1) as [w2 [v|e4]]; cbn; [|fin Hms H4 H6].
      destruct Hp as [[q1 [q2 [-> ->]]]|[-> ->]]; cbn; [destruct (e_write E w2) as [w3 r3]|]; fin Hms H4 H6.
    + destruct (e_read E w1) as [w2 [volts2|e3]]; cbn; [|fin Hms H4 H6].
      destruct (e_is_tuned E i volts2 w2) as [w3 [[|]|e4]]; cbn.
      * destruct Hp as [[q1 [q2 [-> ->]]]|[-> ->]]; cbn; [destruct (e_write E w3) as [w4 r3]|]; fin Hms H4 H6.
      * destruct (e_log_dist E i w3) as [[]|e5]; cbn; [|fin Hms H4 H6].
        destruct Hp as [[q1 [q2 [-> ->]]]|[-> ->]]; cbn; [destruct (e_write E w3) as [w4 r3]|]; fin Hms H4 H6.
      * fin Hms H4 H6.
Qed.

Lemma restart_tuners_twin is v : forall s1 s2, twin s1 s2 ->
  twin (fst (restart_tuners E is v s1)) (fst (restart_tuners E is v s2)).
Proof.
  induction is as [|i is IH]; intros s1 s2 H; cbn; [assumption|].
  unfold bind, silent. destruct H as [H1 [H2 H3]]. rewrite H2.
  destruct (e_restart E i v (s_w s2)) as [w1 [u|e]]; [apply IH|]; cbn; split; cbn; auto.
Qed.

Lemma restart_twin s1 s2 : twin s1 s2 -> twin (fst (restart E s1)) (fst (restart E s2)).
Proof.
  intros H. unfold restart, bind, call, get_at, put_at, emit; cbn.
  destruct H as [[H1 [H2 [H3 H4]]] [H5 H6]]. rewrite H5.
  destruct (e_read E (s_w s2)) as [w1 [v|e]]; cbn; [apply restart_tuners_twin|];
    split; cbn; try (split; [reflexivity|congruence]); unfold same_but_path; cbn; auto;
    split; auto; f_equal; auto.
Qed.

Lemma change_tuners_twin chs : forall i s1 s2, twin s1 s2 ->
  twin (fst (change_tuners E i chs s1)) (fst (change_tuners E i chs s2)) /\
  snd (change_tuners E i chs s1) = snd (change_tuners E i chs s2).
Proof.
  induction chs as [|ch chs IH]; intros i s1 s2 H; cbn; [split; [assumption|reflexivity]|].
  unfold bind, call. destruct H as [H1 [H2 H3]]. rewrite H2.
  destruct (e_set_target E i ch (s_w s2)) as [w1 [u|e]]; [apply IH|]; cbn; repeat split; cbn; auto;
   try apply H1.
Qed.

Lemma change_twin chs s1 s2 : twin s1 s2 ->
  twin (fst (change_targets E chs s1)) (fst (change_targets E chs s2)).
Proof.
  intros H. unfold change_targets. destruct (length chs <=? e_n E); [|exact H].
  unfold bind. pose proof (change_tuners_twin chs 0 s1 s2 H) as [HT HR].
  destruct (change_tuners E 0 chs s1) as [t1 [u1|e1]], (change_tuners E 0 chs s2) as [t2 [u2|e2]];
    cbn in HT, HR; try discriminate; [|exact HT].
  unfold get_at, put_at, emit; cbn. destruct HT as [[H1 [H2 [H3 H4]]] [H5 H6]].
  split; cbn; [|split; [assumption|f_equal; assumption]]. unfold same_but_path; cbn; auto.
Qed.

Lemma run_twin ops : forall s1 s2, twin s1 s2 -> twin (run E s1 ops) (run E s2 ops).
Proof.
  induction ops as [|o ops IH]; intros s1 s2 H; [exact H|].
  cbn [run fold_left]. apply IH. destruct o; unfold step.
  - apply iterate_twin; assumption.
  - apply restart_twin; assumption.
  - apply change_twin; assumption.
Qed.

(** *** Which exception, and when an iteration succeeds *)
Lemma nan_runtime_error s v l volts :
  a_to_set (s_at s) = Some v -> In (l, NaN) v ->
  snd (e_read E (s_w s)) = Ok volts -> incl_labels (index v) (index volts) ->
  coherent (index volts) (e_views E (fst (e_read E (s_w s)))) ->
  snd (iterate E s) = Raise RuntimeError.
Proof.
  destruct s as [[i st ts p] w tr]; cbn. intros -> Hl Hr Hs Hc.
  unfold iterate, ready_to_tune, do_set, bind, call, get_at, get_w, lift, raise; cbn.
  destruct (e_read E w) as [w1 r1]; cbn in *. subst r1; cbn.
  apply subset_incl in Hs. rewrite Hs; cbn.
  assert (Hv : views_coherent (index volts) (e_views E w1) true = Ok true) by (apply views_coherent_spec; auto).
  rewrite Hv; cbn. destruct (i =? e_n E); cbn; [reflexivity|].
  assert (Hn : any_na v = true) by (apply any_na_true; eauto). rewrite Hn. reflexivity.
Qed.

Lemma complete_raises s :
  is_tuning_complete E (s_at s) = true ->
  (exists e, snd (iterate E s) = Raise e) /\ s_at (fst (iterate E s)) = s_at s /\
  exists r, s_tr (fst (iterate E s)) = EvRead r :: s_tr s.
Proof.
  destruct s as [a w tr]. intros Hc; cbn in Hc.
  unfold iterate, ready_to_tune, bind, call, get_at, get_w, lift, raise; cbn.
  destruct (e_read E w) as [w1 [volts|e1]]; cbn; [|eauto 10].
  destruct (a_to_set a) as [v|]; cbn.
  - destruct (subset (index v) (index volts)); cbn; [|eauto 10].
    destruct (views_coherent (index volts) (e_views E w1) true) as [[|]|e2]; cbn; [|eauto 10..].
    rewrite Hc; cbn; eauto 10.
  - destruct (views_coherent (index volts) (e_views E w1) true) as [[|]|e2]; cbn; [|eauto 10..].
    rewrite Hc; cbn; eauto 10.
Qed.

(** An environment without failures. *)
Definition never_fails : Prop :=
  (forall w, exists v, snd (e_read E w) = Ok v) /\
  (forall v w, exists u, snd (e_set E v w) = Ok u) /\
  (forall i v w, exists b, snd (e_is_tuned E i v w) = Ok b) /\
  (forall i t w, exists v, snd (e_next E i t w) = Ok v) /\
  (forall v w, e_log_step E v w = Ok tt) /\
  (forall i w, e_log_dist E i w = Ok tt) /\
  (forall w, snd (e_write E w) = Ok tt).

Lemma iterate_succeeds s volts :
  never_fails ->
  is_tuning_complete E (s_at s) = false ->
  snd (e_read E (s_w s)) = Ok volts ->
  coherent (index volts) (e_views E (fst (e_read E (s_w s)))) ->
  (forall v, a_to_set (s_at s) = Some v -> incl_labels (index v) (index volts) /\ any_na v = false) ->
  snd (iterate E s) = Ok tt.
Proof.
  intros [NR [NS [NT [NN [NL [ND NW]]]]]] Hc Hr Hco Hp.
  destruct s as [[i st ts p] w tr]; cbn in *.
  unfold iterate, ready_to_tune, save_current_status, do_set, do_eval, do_next;
  unfold bind, call, get_at, get_w, lift, raise, ret, put_at; cbn.
  destruct (e_read E w) as [w1 r1]; cbn in *. subst r1; cbn.
  assert (Hv : views_coherent (index volts) (e_views E w1) true = Ok true) by (apply views_coherent_spec; auto).
  destruct ts as [v|]; cbn.
  - destruct (Hp v eq_refl) as [Hs Hn]. apply subset_incl in Hs. rewrite Hs, Hv; cbn. rewrite Hc; cbn.
    rewrite Hn; cbn. rewrite NL; cbn. destruct (NS v w1) as [u Hu]. destruct (e_set E v w1) as [w2 r2]; cbn in *.
    subst r2; cbn. destruct p as [p|]; cbn; [|reflexivity].
    specialize (NW w2). destruct (e_write E w2) as [w3 r3]; cbn in *. assumption.
  - rewrite Hv; cbn. rewrite Hc; cbn. destruct st; cbn.
    + set (t0 := tuned_parameters E _ w1). destruct (NN i t0 w1) as [v Hv']. destruct (e_next E i t0 w1) as [w2 r2]; cbn in *.
      subst r2; cbn. destruct p as [p|]; cbn; [|reflexivity].
      specialize (NW w2). destruct (e_write E w2) as [w3 r3]; cbn in *. assumption.
    + destruct (NR w1) as [v2 Hv2]. destruct (e_read E w1) as [w2 r2]; cbn in *. subst r2; cbn.
      destruct (NT i v2 w2) as [b Hb]. destruct (e_is_tuned E i v2 w2) as [w3 r3]; cbn in *. subst r3; cbn.
      destruct b; cbn; [|rewrite ND; cbn]; destruct p as [p|]; cbn; try reflexivity;
        specialize (NW w3); destruct (e_write E w3) as [w4 r4]; cbn in *; assumption.
Qed.

(** *** Crash between the hardware write and the save *)
Lemma crash_after_set a a' v w volts w2 volts2 tr tr' evs :
  same_but_path a' a -> a_to_set a = Some v ->
  e_read E w = (w, Ok volts) -> e_set E v w = (w2, Ok tt) ->
  s_tr (fst (iterate E (mk_sys a w tr))) = evs ++ tr -> In (EvSet v (Ok tt)) evs ->
  e_read E w2 = (w2, Ok volts2) -> index volts2 = index volts ->
  e_views E w2 = e_views E w -> e_log_step E v w2 = e_log_step E v w ->
  e_set E v w2 = (w2, Ok tt) ->
  let direct := iterate E (mk_sys a w tr) in
  let again := iterate E (mk_sys a' w2 tr') in
  same_but_path (s_at (fst again)) (s_at (fst direct)) /\
  s_w (fst again) = s_w (fst direct) /\ snd again = snd direct /\
  exists evs', s_tr (fst again) = evs' ++ tr' /\ filter is_action evs' = [EvSet v (Ok tt)].
Proof.
  intros Hsame Hv Hread Hset Htr Hin Hread2 Hidx Hviews Hlog Hset2.
  cbv zeta.
  destruct a as [i st ts p1], a' as [i' st' ts' p2]. cbn in Hv. subst ts.
  destruct Hsame as [H1 [H2 [H3 H4]]]. cbn in H1, H2, H3, H4. subst i' st' ts'.
  assert (Hp : (exists q1 q2, p1 = Some q1 /\ p2 = Some q2) \/ (p1 = None /\ p2 = None)).
  { destruct p1, p2; auto; [left; eauto|exfalso; destruct H4 as [H _]; discriminate H; reflexivity|
     exfalso; destruct H4 as [_ H]; discriminate H; reflexivity]. }
  revert Htr.
  unfold iterate, ready_to_tune, save_current_status, do_set, do_eval, do_next;
  unfold bind, call, get_at, get_w, lift, raise, ret, put_at; cbn.
  assert (K : forall es, es ++ tr = evs ++ tr -> es = evs) by (intros; eapply app_inv_tail; eassumption).
  rewrite Hread, Hread2; cbn. rewrite Hidx, Hviews.
  assert (Hbad : EvRead (Ok volts) :: tr = evs ++ tr -> False).
  { intros H. apply (K [_]) in H. subst. destruct Hin as [H|[]]; discriminate. }
  destruct (subset (index v) (index volts)); cbn; [|intros; exfalso; auto].
  destruct (views_coherent (index volts) (e_views E w) true) as [[|]|e2]; cbn; [|intros; exfalso; auto..].
  unfold is_tuning_complete; cbn. destruct (i =? e_n E); cbn; [intros; exfalso; auto|].
  destruct (any_na v); cbn; [intros; exfalso; auto|].
  rewrite Hlog. destruct (e_log_step E v w) as [[]|e3]; cbn; [|intros; exfalso; auto].
  rewrite Hset, Hset2; cbn. intros _.
  destruct Hp as [[q1 [q2 [-> ->]]]|[-> ->]]; cbn.
  - destruct (e_write E w2) as [w3 r3]; cbn. unfold same_but_path; cbn.
    repeat split; auto; try discriminate. exists [EvSave (mk_at 0 st None (Some q2)) r3; EvSet v (Ok tt); EvRead (Ok volts2)]. auto.
  - unfold same_but_path; cbn. repeat split; auto. exists [EvSet v (Ok tt); EvRead (Ok volts2)]; auto.
Qed.

(** *** Saves are snapshots of reachable states *)
Lemma save_is_state s evs a r :
  s_tr (fst (iterate E s)) = evs ++ s_tr s -> In (EvSave a r) evs -> a = s_at (fst (iterate E s)).
Proof.
  intros Htr Hin. destruct (iterate E s) as [s' q] eqn:He. apply iterate_cases in He.
  destruct He as [evs' [Htr' H]]. cbn in Htr. rewrite Htr in Htr'. apply app_inv_tail in Htr'. subst evs'.
  assert (Hf : In (EvSave a r) (filter is_save evs)) by (apply filter_In; auto). cbn.
  destruct H as [[_ [H _]]|[ev' [_ [_ [_ [_ H]]]]]]; [rewrite H in Hf; destruct Hf|].
  destruct (advance (s_at s) ev') as [a'|].
  - destruct H as [Ha [[_ H]|[e [_ [H|H]]]]]; rewrite H in Hf.
    + unfold saves_due in Hf. destruct (a_path a'); [|destruct Hf]. destruct Hf as [Hf|[]]. congruence.
    + destruct Hf.
    + destruct Hf as [Hf|[]]. congruence.
  - destruct H as [_ [H _]]. rewrite H in Hf. destruct Hf.
Qed.

End P.

Lemma reload_same_but_path js a :
  (forall p, js p <> ""%string) -> a_path a <> Some ""%string ->
  same_but_path (at_from_hdf5 js (at_to_hdf5 a)) a.
Proof.
  intros Hjs Hp. unfold same_but_path; cbn. repeat split.
  - unfold storage_path. destruct (a_path a) as [p|] eqn:He; [|auto].
    destruct (String.eqb_spec p ""); [subst; congruence|discriminate].
  - intros ->. reflexivity.
Qed.

(** *** C17, the part of the Autotuner *)
Lemma nan_forever {W} (E : env W) n : forall s v l,
  a_to_set (s_at s) = Some v -> In (l, NaN) v ->
  s_at (run E s (repeat OpIterate n)) = s_at s /\
  (exists evs, s_tr (run E s (repeat OpIterate n)) = evs ++ s_tr s /\
     filter is_action evs = [] /\ filter is_save evs = []).
Proof.
  induction n as [|n IH]; intros s v l Hv Hl; cbn [repeat run fold_left].
  - split; [reflexivity|]. exists []. auto.
  - destruct (nan_refused E s v l Hv Hl) as [e [_ [H2 [e1 [H3 [H4 H5]]]]]].
    assert (Hv' : a_to_set (s_at (step E s OpIterate)) = Some v) by (cbn [step]; rewrite H2; assumption).
    destruct (IH _ v l Hv' Hl) as [H6 [e2 [H7 [H8 H9]]]]. split.
    + etransitivity; [exact H6|exact H2].
    + exists (e2 ++ e1). unfold run in H7. rewrite H7. cbn [step]. rewrite H3, app_assoc, !filter_app, H4, H5, H8, H9. auto.
Qed.
