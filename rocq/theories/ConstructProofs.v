(** A hierarchy runs alike with and without the voltages that the constructor
    provides. *)
From Verif Require Import PyBase TargetModel TunerModel TunerSpec SeriesLemmas AutotunerModel ComposeModel ComposeSpec ComposeProofs ReloadProofs ConstructModel.
Local Open Scope list_scope.

Section Alike.
Context {S : Type} (O : solver_ops S).
Variables (sg : S -> list label) (sn : S -> option (list (option (list label)))) (results : nat -> series -> res (series * series)) (n : nat).
Let E := hierarchy O sg sn results n.
Let tuned i v := @subset_is_tuned S series O (fun x => (x, results i x)) v.

(** [is_tuned] starts by storing the voltages. *)
Lemma tuned_any i v g t s x tr : tuned i v (mk_tsys (with_last g t) s x tr) = tuned i v (mk_tsys t s x tr).
Proof. reflexivity. Qed.
Lemma tuned_last i v s : t_last (ts_t (fst (tuned i v s))) = Some v /\ ts_x (fst (tuned i v s)) = ts_x s.
Proof.
  unfold tuned, subset_is_tuned, evaluate, tbind, temit, tget, tput, tsolver, teval, ttarget, tlift, tret. cbn.
  destruct (negb _); cbn.
  - destruct (so_set_position O v (ts_s s)) as [s' [[]|e]]; cbn; auto.
  - destruct (results i (ts_x s)) as [raw|e]; cbn; [|auto].
    destruct (select _ (fst raw)) as [p|e]; cbn; [|auto]. destruct (select _ (snd raw)) as [var|e]; cbn; [|auto].
    destruct (select _ (map _ p)) as [lp|e]; cbn; [|auto].
    destruct (select _ (map _ var)) as [lv|e]; cbn; [|auto].
    destruct (any_na lp); cbn; [auto|]. match goal with |- context [so_update O v ?a ?b ?c] => destruct (so_update O v a b c) as [s' [[]|e]] end; cbn; [|auto].
    destruct (within_tolerance _ _); cbn; auto.
Qed.
Lemma next_last L ts s : t_last (ts_t (fst (@subset_next S series O L ts s))) = t_last (ts_t s) /\ ts_x (fst (@subset_next S series O L ts s)) = ts_x s.
Proof.
  unfold subset_next, tbind, tget, tput, tsolver, tlift, tret, traise. destruct (t_failed (ts_t s)).
  - destruct (t_evaluatable (ts_t s)); cbn; auto.
  - destruct (so_suggest O ts (ts_s s)) as [s' [sol|e]]; cbn; [|auto]. destruct (assign _ sol) as [new|e]; cbn; [|auto].
    destruct (nltb _ _); cbn; [|auto]. destruct (queue_after _ _ _) as [q|e]; cbn; auto.
Qed.

Lemma provided_some g (p : part S) : t_last (p_tuner p) <> None -> provided g p = p.
Proof. intros H. unfold provided. destruct (t_last (p_tuner p)); [reflexivity|congruence]. Qed.
Lemma provided_solver g (p : part S) : p_solver (provided g p) = p_solver p /\ p_limits (provided g p) = p_limits p /\ p_gates (provided g p) = p_gates p /\ t_params (p_tuner (provided g p)) = t_params (p_tuner p).
Proof. unfold provided. destruct (t_last (p_tuner p)); auto. Qed.
Lemma set_provided g p' : forall i (parts : list (part S)), t_last (p_tuner p') <> None -> set_nth i p' (map (provided g) parts) = map (provided g) (set_nth i p' parts).
Proof.
  intros i parts H. revert i. induction parts as [|p parts IH]; intros i; [destruct i; reflexivity|]. destruct i as [|i]; cbn; [rewrite (provided_some g p' H); reflexivity|]. rewrite IH. reflexivity.
Qed.
Lemma nth_set (p' : part S) : forall i parts p, nth_error parts i = Some p -> nth_error (set_nth i p' parts) i = Some p'.
Proof. induction i as [|i IH]; intros [|q parts] p H; try discriminate; [reflexivity|]. cbn in H |- *. exact (IH parts p H). Qed.
Lemma head_set (p' : part S) i parts : t_last (p_tuner p') <> None -> (forall p L, parts = p :: L -> t_last (p_tuner p) <> None \/ i = 0%nat) ->
  forall p L, set_nth i p' parts = p :: L -> t_last (p_tuner p) <> None.
Proof.
  intros H Hp p L HL. destruct parts as [|q parts]; [destruct i; discriminate|]. destruct i as [|i]; cbn in HL; injection HL as <- _; [exact H|]. destruct (Hp q parts eq_refl) as [K|K]; [exact K|discriminate].
Qed.
Lemma views_alike g gates parts : incl (index g) gates -> forall acc, views_coherent gates (map (view sg sn) (map (provided g) parts)) acc = views_coherent gates (map (view sg sn) parts) acc.
Proof.
  intros H. induction parts as [|p parts IH]; intros acc; [reflexivity|]. destruct (provided_solver g p) as [H1 [_ [H3 _]]]. cbn [map views_coherent].
  assert (G : tv_gates (view sg sn (provided g p)) = tv_gates (view sg sn p)) by (cbn; rewrite H1; reflexivity).
  assert (N : tv_newton (view sg sn (provided g p)) = tv_newton (view sg sn p)) by (cbn; rewrite H1; reflexivity).
  assert (T : tv_subset (view sg sn (provided g p)) = tv_subset (view sg sn p)) by (cbn; rewrite H3; reflexivity).
  assert (K : match tv_last (view sg sn (provided g p)) with Some l => acc && subset l gates | None => acc end = match tv_last (view sg sn p) with Some l => acc && subset l gates | None => acc end).
  { cbn. unfold provided. destruct (t_last (p_tuner p)) eqn:Ep; [rewrite Ep; reflexivity|]. cbn. rewrite (proj2 (subset_incl _ _) H). apply Bool.andb_true_r. }
  rewrite K, G, N, T. destruct (tv_newton (view sg sn p)) as [ests|]; [|apply IH]. destruct (estimators_coherent _ _ _ _); [apply IH|reflexivity].
Qed.

(** The two systems: all is equal but the last voltages of tuners that have not
    been evaluated. *)
Definition alike (g : series) (s1 s2 : sys (world S)) : Prop :=
  s_at s2 = s_at s1 /\ s_tr s2 = s_tr s1 /\ w_gates (s_w s2) = w_gates (s_w s1) /\ w_parts (s_w s2) = map (provided g) (w_parts (s_w s1)).
(** What has been evaluated. *)
Definition evaluated (s : sys (world S)) : Prop :=
  (a_status (s_at s) = true -> a_to_set (s_at s) = None -> exists p, nth_error (w_parts (s_w s)) (a_index (s_at s)) = Some p /\ t_last (p_tuner p) <> None) /\
  (a_index (s_at s) <> 0%nat \/ a_status (s_at s) = true \/ a_to_set (s_at s) <> None -> forall p L, w_parts (s_w s) = p :: L -> t_last (p_tuner p) <> None).

Lemma alike_step g s1 s2 : alike g s1 s2 -> evaluated s1 -> incl (index g) (index (w_gates (s_w s1))) ->
  let (s1', r1) := iterate E s1 in let (s2', r2) := iterate E s2 in
  r2 = r1 /\ alike g s1' s2' /\ (r1 = Ok tt -> evaluated s1' /\ incl (index g) (index (w_gates (s_w s1')))).
Proof.
  destruct s1 as [[idx status to_set path] [gates parts] tr], s2 as [a2 [gates2 parts2] tr2]. intros (H1 & H2 & H3 & H4) [V1 V2] Hg. cbn in H1, H2, H3, H4, V1, V2, Hg. subst a2 tr2 gates2 parts2.
  unfold E. unfold iterate, ready_to_tune, AutotunerModel.bind, call, get_at, get_w, lift, raise. cbn [e_read e_views hierarchy s_at s_w s_tr a_to_set w_gates w_parts].
  rewrite views_alike by exact Hg.
  set (vc := views_coherent (index gates) (map (view sg sn) parts) true).
  assert (Save : forall a w1 t, save_current_status (hierarchy O sg sn results n) (mk_sys a w1 t) = (mk_sys a w1 (match a_path a with None => t | Some _ => EvSave a (Ok tt) :: t end), Ok tt)).
  { intros a w1 t. unfold save_current_status, AutotunerModel.bind, get_at, call, ret, hierarchy. cbn. destruct (a_path a); reflexivity. }
  destruct to_set as [v|].
  - destruct (subset (index v) (index gates)) eqn:Es; [|split; [reflexivity|]; split; [repeat split|discriminate]].
    destruct vc as [b|e]; [|split; [reflexivity|]; split; [repeat split|discriminate]].
    destruct b; cbn [negb]; [|split; [reflexivity|]; split; [repeat split|discriminate]].
    unfold is_tuning_complete. cbn [a_index e_n hierarchy s_at]. destruct (idx =? n); [split; [reflexivity|]; split; [repeat split|discriminate]|].
    cbn [a_to_set]. unfold do_set, AutotunerModel.bind, raise, get_w, lift, call, get_at, put_at. cbn [s_w s_at s_tr].
    destruct (any_na v); [split; [reflexivity|]; split; [repeat split|discriminate]|].
    cbn [e_log_step e_set hierarchy s_w s_at s_tr w_gates w_parts]. unfold log_step. cbn [w_parts w_gates].
    destruct parts as [|p parts]; cbn [map]; [split; [reflexivity|]; split; [repeat split|discriminate]|].
    assert (Hp : t_last (p_tuner p) <> None) by (apply (V2 ltac:(right; right; discriminate) p parts eq_refl)). rewrite (provided_some g p Hp).
    destruct (t_last (p_tuner p)) as [last|] eqn:El; [|congruence].
    destruct (select (index v) last); [|split; [reflexivity|]; split; [repeat split; cbn; rewrite provided_some by congruence; reflexivity|discriminate]].
    destruct (assign gates v) as [gates'|e] eqn:Ea; [|split; [reflexivity|]; split; [repeat split; cbn; rewrite provided_some by congruence; reflexivity|discriminate]].
    cbn [s_at s_w s_tr a_status a_path]. rewrite !Save. split; [reflexivity|]. split; [repeat split; cbn; rewrite provided_some by congruence; reflexivity|].
    intros _. split; [|change (incl (index g) (index gates')); rewrite (index_assign _ _ _ Ea); exact Hg]. split; cbn.
    + intros _ _. exists p. split; [reflexivity|congruence].
    + intros _ q L HL. injection HL as <- _. congruence.
  - destruct vc as [b|e]; [|split; [reflexivity|]; split; [repeat split|discriminate]].
    destruct b; cbn [negb]; [|split; [reflexivity|]; split; [repeat split|discriminate]].
    unfold is_tuning_complete. cbn [a_index e_n hierarchy s_at]. destruct (idx =? n); [split; [reflexivity|]; split; [repeat split|discriminate]|].
    cbn [a_to_set a_status]. destruct status.
    + destruct (V1 eq_refl eq_refl) as (p & Ep & Hp).
      unfold do_next, AutotunerModel.bind, get_at, get_w, call, put_at. cbn [s_w s_at s_tr a_index e_next hierarchy].
      assert (Et : tuned_parameters (hierarchy O sg sn results n) (mk_at idx true None path) (mk_world gates (map (provided g) parts)) = tuned_parameters (hierarchy O sg sn results n) (mk_at idx true None path) (mk_world gates parts)).
      { unfold tuned_parameters. apply flat_map_ext. intros i. cbn [e_target hierarchy w_parts]. rewrite nth_error_map. destruct (nth_error parts i) as [q|]; [|reflexivity]. cbn [option_map]. rewrite (proj1 (provided_solver g q)). reflexivity. }
      rewrite Et. set (ts := tuned_parameters _ _ _). unfold on_part. cbn [w_parts w_gates]. rewrite nth_error_map, Ep. cbn [option_map]. rewrite (provided_some g p Hp).
      pose proof (next_last (p_limits p) ts (mk_tsys (p_tuner p) (p_solver p) gates [])) as [N1 N2].
      destruct (subset_next O (p_limits p) ts (mk_tsys (p_tuner p) (p_solver p) gates [])) as [s' r]. cbn [fst ts_t ts_x] in N1, N2.
      assert (Hp' : t_last (p_tuner (mk_part (ts_t s') (ts_s s') (p_limits p) (p_gates p))) <> None) by (cbn; congruence).
      rewrite (set_provided g _ idx parts Hp').
      destruct r as [v|e]; [|split; [reflexivity|]; split; [repeat split|discriminate]]. cbn [s_at s_w s_tr a_path]. rewrite !Save. split; [reflexivity|]. split; [repeat split|].
      intros _. split; [|cbn; rewrite N2; exact Hg]. split; cbn; [discriminate|]. intros _. apply head_set; [exact Hp'|]. intros q L HL. left. apply (V2 ltac:(auto) q L HL).
    + unfold do_eval, AutotunerModel.bind, get_at, get_w, call, put_at, lift. cbn [s_w s_at s_tr a_index e_read e_is_tuned e_log_dist hierarchy w_gates].
      unfold on_part. cbn [w_parts w_gates]. rewrite nth_error_map. destruct (nth_error parts idx) as [p|] eqn:Ep; cbn [option_map]; [|split; [reflexivity|]; split; [repeat split|discriminate]].
      assert (Eq : subset_is_tuned O (fun x => (x, results idx x)) gates (mk_tsys (p_tuner (provided g p)) (p_solver (provided g p)) gates []) = subset_is_tuned O (fun x => (x, results idx x)) gates (mk_tsys (p_tuner p) (p_solver p) gates [])).
      { unfold provided. destruct (t_last (p_tuner p)); [reflexivity|]. cbn [p_tuner p_solver]. apply tuned_any. }
      rewrite Eq. destruct (provided_solver g p) as (P1 & P2 & P3 & P4). rewrite P2, P3.
      pose proof (tuned_last idx gates (mk_tsys (p_tuner p) (p_solver p) gates [])) as [N1 N2]. unfold tuned in N1, N2.
      destruct (subset_is_tuned O (fun x => (x, results idx x)) gates (mk_tsys (p_tuner p) (p_solver p) gates [])) as [s' r]. cbn [fst ts_t ts_x] in N1, N2.
      set (p' := mk_part (ts_t s') (ts_s s') (p_limits p) (p_gates p)).
      assert (Hp' : t_last (p_tuner p') <> None) by (cbn; congruence).
      rewrite (set_provided g p' idx parts Hp').
      assert (Hh : forall q L, set_nth idx p' parts = q :: L -> t_last (p_tuner q) <> None).
      { apply head_set; [exact Hp'|]. intros q L HL. destruct idx as [|idx]; [right; reflexivity|]. left. apply (V2 ltac:(left; discriminate) q L HL). }
      destruct r as [b|e]; [|split; [reflexivity|]; split; [repeat split|discriminate]]. destruct b; cbn [s_at s_w s_tr a_path a_status a_to_set a_index].
      * rewrite !Save. split; [reflexivity|]. split; [repeat split|]. intros _. split; [|cbn; rewrite N2; exact Hg]. split; cbn; [discriminate|]. intros _. exact Hh.
      * unfold log_dist. cbn [w_parts]. rewrite nth_error_map, (nth_set p' idx parts p Ep). cbn [option_map]. rewrite (provided_some g p' Hp').
        destruct (forallb _ _); [destruct (select _ _); [|split; [reflexivity|]; split; [repeat split|discriminate]]|];
        (rewrite !Save; split; [reflexivity|]; split; [repeat split|]; intros _; split; [|cbn; rewrite N2; exact Hg]; split; cbn; [intros _ _; exists p'; split; [exact (nth_set p' idx parts p Ep)|exact Hp']|intros _; exact Hh]).
Qed.

Lemma alike_run g : forall m s1 s2, alike g s1 s2 -> evaluated s1 -> incl (index g) (index (w_gates (s_w s1))) ->
  snd (iterates E m s2) = snd (iterates E m s1) /\ alike g (fst (iterates E m s1)) (fst (iterates E m s2)).
Proof.
  induction m as [|m IH]; intros s1 s2 HA HE Hg; [split; [reflexivity|exact HA]|]. cbn [iterates]. pose proof (alike_step g s1 s2 HA HE Hg) as H.
  destruct (iterate E s1) as [s1' r1], (iterate E s2) as [s2' r2]. destruct H as (-> & HA' & H). destruct r1 as [[]|e]; [|split; [reflexivity|exact HA']].
  destruct (H eq_refl) as [HE' Hg']. apply IH; assumption.
Qed.
End Alike.
