From Verif Require Import PyBase TargetModel AutotunerModel AutotunerSpec AutotunerProofs RaceModel RaceSpec.

Section P.
Context {W : Type}.
Variable E : env W.
Local Notation sys := (sys W).
Local Notation race := (race W).

(** *** Every schedule *)
Definition inside (p : wpc) : bool :=
  match p with
  | WOut | WTest _ | WAssert _ | WViews _ | WComplete | WSave => false
  | _ => true
  end.
Definition named (p : wpc) : Prop :=
  match p with WRead i | WEval i _ | WStore i | WTuned i | WNext i _ => i < e_n E | _ => True end.
Definition checked (p : wpc) : bool :=
  match p with WLogIndex | WLogTarget | WSetting => true | _ => false end.

Definition proposed (v : series) (tr : list event) : Prop := exists i t, In (EvNext i t (Ok v)) tr.

Record Any (r : race) : Prop := {
  any_index : a_index (s_at (r_sys r)) <= e_n E;
  any_inside : inside (r_worker r) = true -> a_index (s_at (r_sys r)) < e_n E;
  any_named : named (r_worker r);
  any_nan : checked (r_worker r) = true -> forall x, a_to_set (s_at (r_sys r)) = Some x -> any_na x = false;
  any_from : forall x, a_to_set (s_at (r_sys r)) = Some x -> proposed x (s_tr (r_sys r));
  any_put : forall v, r_worker r = WPut v -> proposed v (s_tr (r_sys r));
  any_trace : forall ev, In ev (s_tr (r_sys r)) -> tuner_exists E ev /\ no_nan_set ev;
  any_sets : proposed_before (s_tr (r_sys r)) }.

Lemma proposed_cons v ev tr : proposed v tr -> proposed v (ev :: tr).
Proof. intros [i [t H]]. exists i, t. right; exact H. Qed.

Lemma no_nan_of v r : any_na v = false -> no_nan_set (EvSet v r).
Proof. intros H; cbn. apply any_na_false; exact H. Qed.

Ltac rest H := destruct H as [H1 H2 H3 H4 H5 H6 H7 H8]; cbn in *.

Local Ltac fin :=
  constructor; cbn; intros; try discriminate; auto; try lia;
  try (match goal with H : _ = Some _ |- _ => apply proposed_cons; auto end);
  try (match goal with H : WPut _ = WPut _ |- _ => inversion H; subst end);
  try (match goal with H : _ \/ _ |- _ => destruct H as [H|H]; [subst; cbn; auto|auto] end);
  repeat match goal with |- _ /\ _ => split end; auto; try lia.

Lemma any_worker r : Any r -> Any (race_worker E r).
Proof.
  destruct r as [[[i st ts p] w tr] pc u todo out]. intros H.
  assert (Hz : inside pc = true -> 0 < e_n E) by (destruct H as [H1 H2]; cbn in *; intros Hi; apply H2 in Hi; lia).
  rest H. unfold race_worker; cbn. destruct pc; cbn; cbn in Hz.
  - unfold call; cbn. destruct (e_read E w) as [w1 [v|e]]; cbn; fin.
  - destruct ts; fin.
  - destruct ts as [x|]; [destruct (subset (index x) (index volts))|]; fin.
  - destruct (views_coherent (index volts) (e_views E w) true) as [[|]|e]; fin.
  - destruct (Nat.eqb_spec i (e_n E)); fin.
  - destruct ts; fin.
  - destruct ts as [x|]; [destruct (any_na x) eqn:Hna|]; fin.
    match goal with H : Some _ = Some _ |- _ => inversion H; subst end; auto.
  - destruct ts as [x|]; fin.
  - destruct ts as [x|]; [unfold lift; cbn; destruct (e_log_step E x w) as [[]|e]|]; fin.
  - destruct ts as [x|]; [unfold call; cbn; destruct (e_set E x w) as [w1 [[]|e]]|]; cbn; fin;
      try (apply H5; auto); apply (no_nan_of _ (Ok tt)); auto.
  - fin.
  - fin.
  - destruct st; fin.
  - fin.
  - unfold call; cbn. destruct (e_read E w) as [w1 [v|e]]; cbn; fin.
  - unfold call; cbn. destruct (e_is_tuned E i0 volts w) as [w1 [[|]|e]]; cbn; fin.
  - fin.
  - fin.
  - fin.
  - unfold lift; cbn. destruct (e_log_dist E i w) as [[]|e]; cbn; fin.
  - fin.
  - fin.
  - unfold call; cbn. destruct (e_next E i0 tuned w) as [w1 [v|e]]; cbn; fin.
    exists i0, tuned; left; reflexivity.
  - fin. match goal with H : Some _ = Some _ |- _ => inversion H; subst end; auto.
  - fin.
  - unfold save_current_status, bind, get_at; cbn. destruct p as [q|]; cbn.
    + unfold call; cbn. destruct (e_write E w) as [w1 [[]|e]]; cbn; fin.
    + fin.
Qed.

Lemma any_user r : Any r -> Any (race_user E r).
Proof.
  destruct r as [[[i st ts p] w tr] pc u todo out]. intros H.
  assert (Hz : inside pc = true -> 0 < e_n E) by (destruct H as [H1 H2]; cbn in *; intros Hi; apply H2 in Hi; lia).
  rest H. unfold race_user; cbn. destruct u; cbn.
  - destruct todo as [|[v| |chs] ops]; cbn.
    + constructor; auto.
    + unfold silent; cbn. destruct (e_set E v w) as [w1 [[]|e]]; cbn; fin.
    + fin.
    + destruct (length chs <=? e_n E); fin.
  - fin. apply proposed_cons; auto.
  - unfold call; cbn. destruct (e_read E w) as [w1 [v|e]]; cbn; fin; apply proposed_cons; auto.
  - destruct is as [|k is]; [fin|]. unfold silent; cbn. destruct (e_restart E k v w) as [w1 [[]|e]]; cbn; fin.
  - destruct chs as [|ch chs]; [fin|]. unfold call; cbn. destruct (e_set_target E i0 ch w) as [w1 [[]|e]]; cbn; fin; apply proposed_cons; auto.
  - fin. apply proposed_cons; auto.
Qed.

Lemma any_run sch : forall r, Any r -> Any (race_run E sch r).
Proof.
  induction sch as [|who sch IH]; intros r H; cbn; [exact H|].
  apply IH. destruct who; cbn; [apply any_user|apply any_worker]; exact H.
Qed.

Lemma any_started p w todo : Any (started (fresh p w) todo).
Proof. constructor; cbn; intros; try discriminate; auto; try lia; contradiction. Qed.

(** *** What a thread still has to do *)
Definition at_ (f : sys -> sys) (m : M unit) : M unit := fun s => m (f s).
Definition r_save : M unit := save_current_status E.
Definition r_reset2 : M unit := at_ (with_to_set None) r_save.
Definition r_reset1 : M unit := at_ (with_index 0) r_reset2.
Definition r_setting : M unit := fun s =>
  match a_to_set (s_at s) with
  | None => (s, Raise AttributeError)
  | Some x => bind (call (e_set E x) (EvSet x)) (fun _ => r_reset1) s
  end.
Definition r_logtarget : M unit := fun s =>
  match a_to_set (s_at s) with
  | None => (s, Raise TypeError)
  | Some x => bind (lift (e_log_step E x (s_w s))) (fun _ => r_setting) s
  end.
Definition r_logindex : M unit := fun s =>
  match a_to_set (s_at s) with None => (s, Raise AttributeError) | Some _ => r_logtarget s end.
Definition r_nan : M unit := fun s =>
  match a_to_set (s_at s) with
  | None => (s, Raise AttributeError)
  | Some x => if any_na x then (s, Raise RuntimeError) else r_logindex s
  end.
Definition r_store (j : nat) : M unit := at_ (with_index (S j)) r_save.
Definition r_load : M unit := fun s => r_store (a_index (s_at s)) s.
Definition r_logdist : M unit := fun s => bind (lift (e_log_dist E (a_index (s_at s)) (s_w s))) (fun _ => r_save) s.
Definition r_untuned : M unit := at_ (with_status true) r_logdist.
Definition r_eval i v : M unit := bind (call (e_is_tuned E i v) (EvEval i v)) (fun b : bool => if b then r_load else r_untuned).
Definition r_read i : M unit := bind (call (e_read E) EvRead) (r_eval i).
Definition r_pickeval : M unit := fun s => r_read (a_index (s_at s)) s.
Definition r_clear : M unit := at_ (with_status false) r_save.
Definition r_put v : M unit := at_ (with_to_set (Some v)) r_clear.
Definition r_next i tuned : M unit := bind (call (e_next E i tuned) (EvNext i tuned)) r_put.
Definition r_tuned i : M unit := fun s => r_next i (tuned_parameters E (s_at s) (s_w s)) s.
Definition r_picknext : M unit := fun s => r_tuned (a_index (s_at s)) s.
Definition r_status : M unit := fun s => if a_status (s_at s) then r_picknext s else r_pickeval s.
Definition r_branch : M unit := fun s => match a_to_set (s_at s) with None => r_status s | Some _ => r_nan s end.
Definition r_complete : M unit := fun s => if a_index (s_at s) =? e_n E then (s, Raise RuntimeError) else r_branch s.
Definition r_views v : M unit := fun s =>
  match views_coherent (index v) (e_views E (s_w s)) true with
  | Ok true => r_complete s
  | Ok false => (s, Raise RuntimeError)
  | Raise e => (s, Raise e)
  end.
Definition r_assert v : M unit := fun s =>
  match a_to_set (s_at s) with
  | None => (s, Raise AttributeError)
  | Some x => if subset (index x) (index v) then r_views v s else (s, Raise AssertionError)
  end.
Definition r_test v : M unit := fun s => match a_to_set (s_at s) with None => r_views v s | Some _ => r_assert v s end.

Definition wrest (p : wpc) : M unit :=
  match p with
  | WOut => iterate E
  | WTest v => r_test v | WAssert v => r_assert v | WViews v => r_views v
  | WComplete => r_complete | WBranch => r_branch | WNan => r_nan
  | WLogIndex => r_logindex | WLogTarget => r_logtarget | WSetting => r_setting
  | WReset1 => r_reset1 | WReset2 => r_reset2 | WStatus => r_status
  | WPickEval => r_pickeval | WRead i => r_read i | WEval i v => r_eval i v
  | WLoad => r_load | WStore j => r_store j | WUntuned => r_untuned | WLogDist => r_logdist
  | WPickNext => r_picknext | WTuned i => r_tuned i | WNext i t => r_next i t
  | WPut v => r_put v | WClear => r_clear | WSave => r_save
  end.

Definition wrank (p : wpc) : nat :=
  match p with
  | WOut => 15
  | WTest _ => 14 | WAssert _ => 13 | WViews _ => 12
  | WComplete => 11 | WBranch => 10 | WNan => 9
  | WLogIndex => 8 | WLogTarget => 7 | WSetting => 6
  | WReset1 => 5 | WReset2 => 4 | WStatus => 9
  | WPickEval => 8 | WRead i => 7 | WEval i v => 6
  | WLoad => 5 | WStore j => 4 | WUntuned => 5 | WLogDist => 4
  | WPickNext => 8 | WTuned i => 7 | WNext i t => 6
  | WPut v => 5 | WClear => 4 | WSave => 1
  end.

Lemma iterate_rest s : iterate E s = bind (call (e_read E) EvRead) r_test s.
Proof.
  destruct s as [[i st ts p] w tr].
  unfold iterate, ready_to_tune, do_set, do_eval, do_next, bind, call, get_at, get_w, put_at, lift, raise, ret; cbn.
  destruct (e_read E w) as [w1 [v|e]]; cbn; [|reflexivity].
  unfold r_test, r_assert, r_views, r_complete, is_tuning_complete; cbn.
  destruct ts as [x|]; cbn.
  - destruct (subset (index x) (index v)); cbn; [|reflexivity].
    destruct (views_coherent (index v) (e_views E w1) true) as [[|]|e]; cbn; try reflexivity.
    destruct (i =? e_n E); cbn; [reflexivity|].
    unfold r_branch, r_nan, r_logindex, r_logtarget, r_setting, r_reset1, r_reset2, at_, bind, call, lift; cbn.
    destruct (any_na x); cbn; [reflexivity|].
    destruct (e_log_step E x w1) as [q|e]; cbn; [destruct q|reflexivity].
    destruct (e_set E x w1) as [w2 [[]|e]]; cbn; reflexivity.
  - destruct (views_coherent (index v) (e_views E w1) true) as [[|]|e]; cbn; try reflexivity.
    destruct (i =? e_n E); cbn; [reflexivity|].
    unfold r_branch, r_status, r_picknext, r_pickeval; cbn. destruct st; cbn.
    + unfold r_tuned, r_next, r_put, r_clear, at_, bind, call; cbn.
      match goal with |- context [e_next E i ?t w1] => destruct (e_next E i t w1) as [w2 [y|e]] end; reflexivity.
    + unfold r_read, r_eval, r_load, r_store, r_untuned, r_logdist, at_, bind, call, lift; cbn.
      destruct (e_read E w1) as [w2 [v2|e]]; cbn; [|reflexivity].
      destruct (e_is_tuned E i v2 w2) as [w3 [[|]|e]]; cbn; try reflexivity.
Qed.

(** One step of the worker does a part of what it has to do. *)
Definition wdone (r r' : race) : Prop :=
  r_user r' = r_user r /\ r_todo r' = r_todo r /\
  ((r_worker r' <> WOut /\ r_out r' = r_out r /\ wrest (r_worker r') (r_sys r') = wrest (r_worker r) (r_sys r) /\
    wrank (r_worker r') < wrank (r_worker r)) \/
   (r_worker r' = WOut /\ exists o, r_out r' = o :: r_out r /\ wrest (r_worker r) (r_sys r) = (r_sys r', o))).

Local Ltac going := left; repeat split; cbn; try discriminate; try lia; auto.
Local Ltac ended := right; split; [reflexivity|]; eexists; split; [reflexivity|].

Local Arguments save_current_status : simpl never.
Lemma worker_done r : wdone r (race_worker E r).
Proof.
  destruct r as [s pc u todo out]. unfold wdone, race_worker; cbn.
  destruct pc; cbn.
  - rewrite iterate_rest. unfold bind. destruct (call (e_read E) EvRead s) as [s' [v|e]]; cbn; repeat split; [going|ended; reflexivity].
  - unfold r_test, r_assert. destruct (a_to_set (s_at s)) eqn:Ht; cbn; repeat split; going; unfold r_assert; rewrite ?Ht; reflexivity.
  - unfold r_assert. destruct (a_to_set (s_at s)) as [x|]; [destruct (subset (index x) (index volts))|]; cbn; repeat split; solve [going|ended; reflexivity].
  - unfold r_views. destruct (views_coherent (index volts) (e_views E (s_w s)) true) as [[|]|e]; cbn; repeat split; solve [going|ended; reflexivity].
  - unfold r_complete. destruct (a_index (s_at s) =? e_n E); cbn; repeat split; solve [going|ended; reflexivity].
  - unfold r_branch. destruct (a_to_set (s_at s)); cbn; repeat split; going.
  - unfold r_nan. destruct (a_to_set (s_at s)) as [x|]; [destruct (any_na x)|]; cbn; repeat split; solve [going|ended; reflexivity].
  - unfold r_logindex. destruct (a_to_set (s_at s)) as [x|]; cbn; repeat split; solve [going|ended; reflexivity].
  - unfold r_logtarget. destruct (a_to_set (s_at s)) as [x|]; [unfold bind, lift; destruct (e_log_step E x (s_w s)) as [[]|e]|]; cbn; repeat split; solve [going|ended; reflexivity].
  - unfold r_setting. destruct (a_to_set (s_at s)) as [x|]; [unfold bind; destruct (call (e_set E x) (EvSet x) s) as [s' [[]|e]]|]; cbn; repeat split; solve [going|ended; reflexivity].
  - repeat split; going.
  - repeat split; going.
  - unfold r_status. destruct (a_status (s_at s)); cbn; repeat split; going.
  - repeat split; going.
  - unfold r_read, bind. destruct (call (e_read E) EvRead s) as [s' [v|e]]; cbn; repeat split; solve [going|ended; reflexivity].
  - unfold r_eval, bind. destruct (call (e_is_tuned E i volts) (EvEval i volts) s) as [s' [[|]|e]]; cbn; repeat split; solve [going|ended; reflexivity].
  - repeat split; going.
  - repeat split; going.
  - repeat split; going.
  - unfold r_logdist, bind, lift. destruct (e_log_dist E (a_index (s_at s)) (s_w s)) as [[]|e]; cbn; repeat split; solve [going|ended; reflexivity].
  - repeat split; going.
  - repeat split; going.
  - unfold r_next, bind. destruct (call (e_next E i tuned) (EvNext i tuned) s) as [s' [v|e]]; cbn; repeat split; solve [going|ended; reflexivity].
  - repeat split; going.
  - repeat split; going.
  - unfold r_save. destruct (save_current_status E s) as [s' [[]|e]]; cbn; repeat split; ended; reflexivity.
Qed.

(** *** The thread of the window *)
Definition u_change2 : M unit := fun s : sys => (fst (emit EvChange (with_to_set None s)), Ok tt).
Definition urest (u : upc) : M unit :=
  match u with
  | UReady => ret tt
  | URestart1 => fun s => bind (call (e_read E) EvRead) (restart_tuners E (seq 0 (e_n E))) (fst (emit EvRestart (with_to_set None s)))
  | URestart2 => bind (call (e_read E) EvRead) (restart_tuners E (seq 0 (e_n E)))
  | URestart3 v is => restart_tuners E is v
  | UChange1 i chs => bind (change_tuners E i chs) (fun _ s => u_change2 (with_index 0 s))
  | UChange2 => u_change2
  end.
Definition urank (u : upc) : nat :=
  match u with
  | UReady => 0
  | URestart1 => 3 + e_n E | URestart2 => 2 + e_n E | URestart3 _ is => S (length is)
  | UChange1 _ chs => 2 + length chs | UChange2 => 1
  end.

(** The effect of an operation of the window as one call. *)
Definition wop_call (o : wop) (s : sys) : sys :=
  match o with
  | USet v => mk_sys (s_at s) (fst (e_set E v (s_w s))) (s_tr s)
  | URestart => fst (restart E s)
  | UChange chs => fst (change_targets E chs s)
  end.

Lemma restart_rest s : restart E s = urest URestart1 (with_index 0 s).
Proof.
  destruct s as [[i st ts p] w tr]. reflexivity.
Qed.

Lemma change_rest chs s : length chs <=? e_n E = true -> change_targets E chs s = urest (UChange1 0 chs) s.
Proof.
  intros H. unfold change_targets. rewrite H. cbn. unfold bind.
  destruct (change_tuners E 0 chs s) as [[[i st ts p] w tr] [u|e]]; reflexivity.
Qed.

Lemma user_inside r : r_user r <> UReady ->
  let r' := race_user E r in
  r_worker r' = r_worker r /\ r_out r' = r_out r /\ r_todo r' = r_todo r /\
  fst (urest (r_user r') (r_sys r')) = fst (urest (r_user r) (r_sys r)) /\ urank (r_user r') < urank (r_user r).
Proof.
  destruct r as [s pc u todo out]. cbn. intros Hu. unfold race_user; cbn.
  destruct u; cbn; try contradiction.
  - repeat split; cbn; lia.
  - unfold bind. destruct (call (e_read E) EvRead s) as [s' [v|e]]; cbn; repeat split; rewrite ?seq_length; lia.
  - destruct is as [|k is]; cbn; [repeat split; lia|]. unfold bind.
    destruct (silent (e_restart E k v) s) as [s' [[]|e]]; cbn; repeat split; lia.
  - destruct chs as [|ch chs]; cbn; [repeat split; lia|]. unfold bind; cbn. unfold bind.
    destruct (call (e_set_target E i ch) (EvTarget i) s) as [s' [[]|e]]; cbn; repeat split; lia.
  - repeat split; lia.
Qed.

Lemma user_begins r o ops : r_user r = UReady -> r_todo r = o :: ops ->
  let r' := race_user E r in
  r_worker r' = r_worker r /\ r_out r' = r_out r /\ r_todo r' = ops /\
  fst (urest (r_user r') (r_sys r')) = wop_call o (r_sys r).
Proof.
  destruct r as [s pc u todo out]. cbn. intros -> ->. unfold race_user; cbn. destruct o as [v| |chs].
  - cbn. unfold silent. destruct (e_set E v (s_w s)) as [w1 q]; cbn. auto.
  - cbn [r_user r_sys r_worker r_out r_todo]. repeat split.
  - destruct (length chs <=? e_n E) eqn:H; cbn [r_user r_sys r_worker r_out r_todo]; repeat split; cbn [wop_call].
    + rewrite (change_rest _ _ H). reflexivity.
    + unfold change_targets. rewrite H. reflexivity.
Qed.

(** *** Calls that are not interrupted *)
Lemma worker_finishes n : forall r, wrank (r_worker r) <= n ->
  exists k, race_run E (repeat false k) r =
    mk_race (fst (wrest (r_worker r) (r_sys r))) WOut (r_user r) (r_todo r) (snd (wrest (r_worker r) (r_sys r)) :: r_out r).
Proof.
  induction n as [|n IH]; intros r Hr.
  { destruct r as [s pc u todo out]; destruct pc; cbn in Hr; lia. }
  destruct (worker_done r) as [Hu [Ht H]]. destruct H as [[Hw [Ho [Hrest Hrk]]]|[Hw [o [Ho Hrest]]]].
  - destruct (IH (race_worker E r)) as [k Hk]; [lia|]. exists (S k). cbn [repeat race_run fold_left].
    change (fold_left (race_turn E) (repeat false k) (race_turn E r false)) with (race_run E (repeat false k) (race_worker E r)).
    rewrite Hk, Hrest, Hu, Ht, Ho. reflexivity.
  - exists 1. cbn. rewrite Hrest. cbn. destruct (race_worker E r) as [s' pc' u' todo' out']; cbn in *. congruence.
Qed.

Lemma user_finishes n : forall r, urank (r_user r) <= n ->
  exists k, race_run E (repeat true k) r =
    mk_race (fst (urest (r_user r) (r_sys r))) (r_worker r) UReady (r_todo r) (r_out r).
Proof.
  induction n as [|n IH]; intros r Hr; destruct r as [s pc u todo out]; cbn in Hr.
  - exists 0. destruct u; cbn in Hr; try lia. reflexivity.
  - destruct u as [| | |v is|i chs|] eqn:Eu; [exists 0; reflexivity| | | | |];
      (destruct (user_inside (mk_race s pc u todo out)) as [Hw [Ho [Ht [Hrest Hrk]]]]; [rewrite Eu; discriminate|];
       rewrite Eu in *;
       match type of Hrest with fst (urest (r_user ?rr) _) = _ =>
         destruct (IH rr) as [k Hk]; [cbn [r_user] in Hrk; lia|]; exists (S k);
         change (race_run E (repeat true (S k)) (mk_race s pc _ todo out)) with (race_run E (repeat true k) rr);
         rewrite Hk, Hrest, Hw, Ho, Ht; reflexivity end).
Qed.

Lemma iterate_uninterrupted s u todo out :
  exists k, race_run E (repeat false k) (mk_race s WOut u todo out) =
            mk_race (fst (iterate E s)) WOut u todo (snd (iterate E s) :: out).
Proof. destruct (worker_finishes 15 (mk_race s WOut u todo out)) as [k H]; [cbn; lia|]. exists k. exact H. Qed.

Lemma user_uninterrupted s pc o ops out :
  exists k, race_run E (repeat true k) (mk_race s pc UReady (o :: ops) out) =
            mk_race (wop_call o s) pc UReady ops out.
Proof.
  set (r := mk_race s pc UReady (o :: ops) out).
  destruct (user_begins r o ops eq_refl eq_refl) as [Hw [Ho [Ht Hrest]]].
  destruct (user_finishes _ (race_user E r) (le_n _)) as [k Hk]. exists (S k).
  change (race_run E (repeat true (S k)) r) with (race_run E (repeat true k) (race_user E r)).
  rewrite Hk, Hw, Ho, Ht, Hrest. reflexivity.
Qed.

(** *** Exclusive schedules *)
Definition Serial (s0 : sys) (todo0 : list wop) (r : race) : Prop :=
  exists cs s out,
    calls E cs s0 = (s, out) /\
    ((r_worker r = WOut /\ r_user r = UReady /\ r_sys r = s /\ r_out r = out /\ by_user cs ++ r_todo r = todo0) \/
     (r_worker r <> WOut /\ r_user r = UReady /\ wrest (r_worker r) (r_sys r) = iterate E s /\ r_out r = out /\
      by_user cs ++ r_todo r = todo0) \/
     (r_worker r = WOut /\ r_user r <> UReady /\
      exists o, fst (urest (r_user r) (r_sys r)) = wop_call o s /\ r_out r = out /\ by_user (cs ++ [Some o]) ++ r_todo r = todo0)).

Lemma calls_snoc cs c s : calls E (cs ++ [c]) s = one_call E (calls E cs s) c.
Proof. unfold calls. rewrite fold_left_app. reflexivity. Qed.
Lemma by_user_app a b : by_user (a ++ b) = by_user a ++ by_user b.
Proof. apply flat_map_app. Qed.
Lemma one_call_wop o s out : one_call E (s, out) (Some o) = (wop_call o s, out).
Proof. destruct o; reflexivity. Qed.

Lemma serial_turn s0 todo0 r (who : bool) :
  (if who then r_worker r = WOut else r_user r = UReady) -> Serial s0 todo0 r -> Serial s0 todo0 (race_turn E r who).
Proof.
  intros Hx [cs [s [out [Hc H]]]]. destruct who; cbn.
  - destruct H as [[Hw [Hu [Hs [Ho Ht]]]]|[[Hw _]|[Hw [Hu [o [Hr [Ho Ht]]]]]]]; [|contradiction|].
    + destruct (r_todo r) as [|o ops] eqn:Etodo.
      { assert (race_user E r = r) as ->.
        { destruct r as [s1 pc u todo out1]; cbn in *; subst. unfold race_user; reflexivity. }
        exists cs, s, out. split; [exact Hc|]. left. rewrite Etodo. auto. }
      destruct (user_begins r o ops Hu Etodo) as [Hw' [Ho' [Ht' Hrest]]].
      destruct (r_user (race_user E r)) eqn:Eu.
      * exists (cs ++ [Some o]), (wop_call o s), out. rewrite calls_snoc, Hc, one_call_wop. split; [reflexivity|].
        left. cbn in Hrest. subst s. repeat split; try congruence.
        rewrite by_user_app, Ht', <- app_assoc. exact Ht.
      * exists cs, s, out. split; [exact Hc|]. right; right. rewrite Hw', Eu. repeat split; try congruence.
        exists o. subst s. repeat split; try congruence. rewrite by_user_app, Ht', <- app_assoc. exact Ht.
      * exists cs, s, out. split; [exact Hc|]. right; right. rewrite Hw', Eu. repeat split; try congruence.
        exists o. subst s. repeat split; try congruence. rewrite by_user_app, Ht', <- app_assoc. exact Ht.
      * exists cs, s, out. split; [exact Hc|]. right; right. rewrite Hw', Eu. repeat split; try congruence.
        exists o. subst s. repeat split; try congruence. rewrite by_user_app, Ht', <- app_assoc. exact Ht.
      * exists cs, s, out. split; [exact Hc|]. right; right. rewrite Hw', Eu. repeat split; try congruence.
        exists o. subst s. repeat split; try congruence. rewrite by_user_app, Ht', <- app_assoc. exact Ht.
      * exists cs, s, out. split; [exact Hc|]. right; right. rewrite Hw', Eu. repeat split; try congruence.
        exists o. subst s. repeat split; try congruence. rewrite by_user_app, Ht', <- app_assoc. exact Ht.
    + destruct (user_inside r Hu) as [Hw' [Ho' [Ht' [Hrest _]]]].
      assert (Hcase : r_user (race_user E r) = UReady \/ r_user (race_user E r) <> UReady)
        by (destruct (r_user (race_user E r)); [left; reflexivity|right; discriminate..]).
      destruct Hcase as [Eu|Eu].
      * exists (cs ++ [Some o]), (wop_call o s), out. rewrite calls_snoc, Hc, one_call_wop. split; [reflexivity|].
        left. rewrite Eu in Hrest. cbn in Hrest. rewrite <- Ht' in Ht. repeat split; congruence.
      * exists cs, s, out. split; [exact Hc|]. right; right. repeat split; try congruence.
        exists o. rewrite <- Ht' in Ht. repeat split; congruence.
  - destruct (worker_done r) as [Hu' [Ht' Hd]].
    destruct H as [[Hw [Hu [Hs [Ho Ht]]]]|[[Hw [Hu [Hr [Ho Ht]]]]|[Hw [Hu _]]]]; [| |contradiction].
    + assert (Hr : wrest (r_worker r) (r_sys r) = iterate E s) by (rewrite Hw, Hs; reflexivity).
      destruct Hd as [[Hw' [Ho' [Hrest _]]]|[Hw' [o [Ho' Hrest]]]].
      * exists cs, s, out. split; [exact Hc|]. right; left. rewrite <- Ht' in Ht. repeat split; congruence.
      * exists (cs ++ [None]), (fst (iterate E s)), (snd (iterate E s) :: out). rewrite calls_snoc, Hc. split; [reflexivity|].
        left. rewrite by_user_app. cbn [by_user flat_map]. rewrite app_nil_r, Ht'.
        assert (Hit : iterate E s = (r_sys (race_worker E r), o)) by congruence.
        rewrite Hit; cbn. repeat split; congruence.
    + destruct Hd as [[Hw' [Ho' [Hrest _]]]|[Hw' [o [Ho' Hrest]]]].
      * exists cs, s, out. split; [exact Hc|]. right; left. rewrite <- Ht' in Ht. repeat split; congruence.
      * exists (cs ++ [None]), (fst (iterate E s)), (snd (iterate E s) :: out). rewrite calls_snoc, Hc. split; [reflexivity|].
        left. rewrite by_user_app. cbn [by_user flat_map]. rewrite app_nil_r, Ht'.
        assert (Hit : iterate E s = (r_sys (race_worker E r), o)) by congruence.
        rewrite Hit; cbn. repeat split; congruence.
Qed.

Lemma serial_run s0 todo0 sch : forall r, exclusive E sch r -> Serial s0 todo0 r -> Serial s0 todo0 (race_run E sch r).
Proof.
  induction sch as [|who sch IH]; intros r Hx H; cbn; [exact H|].
  destruct Hx as [Hx1 Hx2]. apply IH; [exact Hx2|]. apply serial_turn; assumption.
Qed.

Lemma exclusive_serial s0 todo sch r :
  exclusive E sch (started s0 todo) -> race_run E sch (started s0 todo) = r -> at_rest r ->
  exists cs, calls E cs s0 = (r_sys r, r_out r) /\ by_user cs ++ r_todo r = todo.
Proof.
  intros Hx Hr [Hw Hu].
  assert (H : Serial s0 todo r).
  { rewrite <- Hr. apply serial_run; [exact Hx|]. exists [], s0, []. split; [reflexivity|]. left. repeat split. }
  destruct H as [cs [s [out [Hc [H|[H|H]]]]]].
  - destruct H as [_ [_ [Hs [Ho Ht]]]]. exists cs. rewrite Hs, Ho. auto.
  - destruct H as [H _]. contradiction.
  - destruct H as [_ [H _]]. contradiction.
Qed.

(** The converse: every sequence of calls is such a run. *)
Lemma exclusive_app a : forall b r, exclusive E a r -> exclusive E b (race_run E a r) -> exclusive E (a ++ b) r.
Proof.
  induction a as [|x a IH]; intros b r Ha Hb; cbn; [exact Hb|].
  destruct Ha as [H1 H2]. split; [exact H1|]. apply IH; [exact H2|exact Hb].
Qed.
Lemma run_app a b r : race_run E (a ++ b) r = race_run E b (race_run E a r).
Proof. apply fold_left_app. Qed.
Lemma worker_keeps_user r : r_user (race_worker E r) = r_user r.
Proof. destruct (worker_done r) as [H _]. exact H. Qed.
Lemma user_keeps_worker r : r_worker (race_user E r) = r_worker r.
Proof.
  destruct (r_user r) eqn:Eu; [destruct (r_todo r) as [|o ops] eqn:Et|..];
    try (refine (proj1 (user_inside r _)); congruence).
  - destruct r as [s1 pc u todo out1]; cbn in *; subst. reflexivity.
  - exact (proj1 (user_begins r o ops Eu Et)).
Qed.
Lemma exclusive_worker k : forall r, r_user r = UReady -> exclusive E (repeat false k) r.
Proof.
  induction k as [|k IH]; intros r H; cbn; [exact I|]. split; [exact H|]. apply IH. rewrite worker_keeps_user. exact H.
Qed.
Lemma exclusive_user k : forall r, r_worker r = WOut -> exclusive E (repeat true k) r.
Proof.
  induction k as [|k IH]; intros r H; cbn; [exact I|]. split; [exact H|]. apply IH. rewrite user_keeps_worker. exact H.
Qed.

Lemma calls_scheduled cs s0 todo : exists sch,
  exclusive E sch (started s0 (by_user cs ++ todo)) /\
  race_run E sch (started s0 (by_user cs ++ todo)) = mk_race (fst (calls E cs s0)) WOut UReady todo (snd (calls E cs s0)).
Proof.
  revert todo. induction cs as [|c cs IH] using rev_ind; intros todo.
  - exists []. split; [exact I|reflexivity].
  - rewrite by_user_app, <- app_assoc. destruct (IH (by_user [c] ++ todo)) as [sch [Hx Hr]].
    rewrite calls_snoc. destruct (calls E cs s0) as [s out]; cbn [fst snd] in *.
    destruct c as [o|]; cbn [by_user flat_map app] in *.
    + destruct (user_uninterrupted s WOut o todo out) as [k Hk].
      exists (sch ++ repeat true k). rewrite run_app, Hr, one_call_wop.
      split; [|exact Hk]. apply exclusive_app; [exact Hx|]. rewrite Hr. apply exclusive_user. reflexivity.
    + destruct (iterate_uninterrupted s UReady todo out) as [k Hk].
      exists (sch ++ repeat false k). rewrite run_app, Hr.
      split; [|exact Hk]. apply exclusive_app; [exact Hx|]. rewrite Hr. apply exclusive_worker. reflexivity.
Qed.

(** What holds of calls one after the other. *)
Lemma calls_inv cs : forall s out s' out', fold_left (one_call E) cs (s, out) = (s', out') ->
  Inv true s -> bounded E s -> Inv true s' /\ bounded E s'.
Proof.
  induction cs as [|c cs IH]; intros s out s' out' H HI HB; cbn [fold_left] in H.
  - inversion H; subst; auto.
  - destruct (one_call E (s, out) c) as [s1 out1] eqn:H1. cbn [one_call] in H1.
    apply IH in H; [exact H| |].
    + destruct c as [[v| |chs]|]; inversion H1; subst.
      * exact HI.
      * apply restart_inv; exact HI.
      * apply change_inv; exact HI.
      * apply iterate_inv; exact HI.
    + destruct c as [[v| |chs]|]; inversion H1; subst.
      * exact HB.
      * exact (run_bounded E [OpRestart] s HI HB).
      * exact (run_bounded E [OpChange chs] s HI HB).
      * apply iterate_bounded; assumption.
Qed.

Lemma exclusive_complete p w todo sch r :
  exclusive E sch (started (fresh p w) todo) -> race_run E sch (started (fresh p w) todo) = r -> at_rest r ->
  is_tuning_complete E (s_at (r_sys r)) = true ->
  exists rest, climbed (e_n E) (milestones (s_tr (r_sys r))) rest /\ (0 < e_n E -> at_start rest).
Proof.
  intros Hx Hr Hrest Hc. destruct (exclusive_serial _ _ _ _ Hx Hr Hrest) as [cs [Hcs _]].
  unfold calls in Hcs. apply calls_inv in Hcs; [|apply inv_fresh|split; cbn; [lia|intros; auto]].
  destruct Hcs as [[HL _] [HB1 HB2]]. unfold is_tuning_complete in Hc. apply Nat.eqb_eq in Hc.
  destruct (Nat.eq_dec (e_n E) 0) as [Hz|Hn].
  - exists (milestones (s_tr (r_sys r))). rewrite Hz. split; [constructor|lia].
  - destruct (HB2 Hc ltac:(lia)) as [Hts Hst]. unfold link in HL. rewrite Hts, Hst, Hc in HL.
    destruct HL as [rest [Hcl Hat]]. exists rest. auto.
Qed.
End P.
