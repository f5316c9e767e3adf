From Verif Require Import PyBase TargetModel TunerModel TunerSpec SeriesLemmas TunerProofs SolverModel SolverSpec SensingDotProofs NewtonModel EstimatorModel NewtonSpec NewtonProofs EstimatorProofs ReadyModel ReadySpec.

(** *** One pass over a list of estimators *)
Section R.
Context {G : Type} (E : est_ops G).

(** The answer for a list of estimators. *)
Fixpoint pass (qs : list (list label * G)) : res bool :=
  match qs with
  | [] => Ok true
  | q :: qs' => match snd (eo_require E (fst q) None (snd q)) with
                | Raise e => Raise e
                | Ok (Some (_ :: _)) => Ok false
                | Ok _ => pass qs'
                end
  end.

Lemma pass_true qs : pass qs = Ok true <-> Forall (content E) qs.
Proof.
  induction qs as [|q qs IH]; cbn; [split; auto|]. split.
  - intros H. constructor.
    + unfold content, no_request. destruct (snd (eo_require _ _ _ _)) as [[[|? ?]|]|]; try discriminate; eauto.
    + apply IH. destruct (snd (eo_require _ _ _ _)) as [[[|? ?]|]|]; try discriminate; exact H.
  - intros H. inversion H as [|? ? Hq Hqs]; subst. destruct Hq as [a [Ha [->| ->]]]; rewrite Ha; apply IH, Hqs.
Qed.

Lemma first_with_cons {A} (Q P : A -> Prop) a l : first_with Q P (a :: l) <-> P a \/ (Q a /\ first_with Q P l).
Proof.
  split.
  - intros [[|b l1] [c [l2 [H1 [H2 H3]]]]]; cbn in H1; inversion H1; subst; [left; assumption|right].
    inversion H2; subst. split; [assumption|]. exists l1, c, l2. auto.
  - intros [H|[H [l1 [c [l2 [H1 [H2 H3]]]]]]].
    + exists [], a, l. auto.
    + exists (a :: l1), c, l2. cbn. subst. auto.
Qed.
Lemma first_with_nil {A} (Q P : A -> Prop) : ~ first_with Q P [].
Proof. intros [l1 [c [l2 [H _]]]]. destruct l1; discriminate. Qed.

Lemma pass_false qs : pass qs = Ok false <-> first_with (content E) (asking E) qs.
Proof.
  induction qs as [|q qs IH]; cbn.
  - split; [discriminate|]. intros H. destruct (first_with_nil _ _ H).
  - rewrite first_with_cons, <- IH. unfold asking, content, no_request.
    destruct (snd (eo_require _ _ _ _)) as [[[|p s]|]|e]; split; intros H.
    + right. split; [eauto|exact H].
    + destruct H as [[p [s H]]|[_ H]]; [discriminate|exact H].
    + left. eauto.
    + reflexivity.
    + right. split; [eauto|exact H].
    + destruct H as [[p [s H]]|[_ H]]; [discriminate|exact H].
    + discriminate.
    + destruct H as [[p [s H]]|[[a [H _]] _]]; discriminate.
Qed.

Lemma pass_raise e qs : pass qs = Raise e <-> first_with (content E) (failing E e) qs.
Proof.
  induction qs as [|q qs IH]; cbn.
  - split; [discriminate|]. intros H. destruct (first_with_nil _ _ H).
  - rewrite first_with_cons, <- IH. unfold failing, content, no_request.
    destruct (snd (eo_require _ _ _ _)) as [[[|p s]|]|e']; split; intros H.
    + right. split; [eauto|exact H].
    + destruct H as [H|[_ H]]; [discriminate|exact H].
    + discriminate.
    + destruct H as [H|[[a [H [->| ->]]] _]]; discriminate.
    + right. split; [eauto|exact H].
    + destruct H as [H|[_ H]]; [discriminate|exact H].
    + left. congruence.
    + destruct H as [H|[[a [H _]] _]]; congruence.
Qed.

Lemma pass_app a b : pass (a ++ b) = match pass a with Ok true => pass b | r => r end.
Proof.
  induction a as [|q a IH]; cbn; [reflexivity|].
  destruct (snd (eo_require _ _ _ _)) as [[[|? ?]|]|]; auto.
Qed.

Lemma ready_ests_pass (gates : list label) : steady E -> gates <> [] -> forall gs,
  snd (ready_ests E gates gs) = pass (map (fun g => (gates, g)) gs).
Proof.
  intros St Hne. induction gs as [|g gs IH]; cbn; [reflexivity|]. destruct (St gates None g Hne) as [St1 _].
  destruct (eo_require E gates None g) as [g1 [[s|]|e]]; cbn in *; auto.
  - destruct (eo_require E gates None g1) as [g2 r]; cbn in *. subst r. destruct s as [|p s]; cbn; auto.
    destruct (ready_ests E gates gs); auto.
  - destruct (ready_ests E gates gs); auto.
Qed.

Lemma has_gates_tl s h : has_gates (G := G) (s :: h) -> has_gates h.
Proof. intros H st Hin. apply H. right. exact Hin. Qed.
Lemma ready_pass : steady E -> forall h, has_gates h -> snd (all_estimators_ready E h) = pass (estimators h).
Proof.
  intros St. induction h as [|[st|] h IH]; intros Hg; cbn; [reflexivity|..]; pose proof (has_gates_tl _ _ Hg) as Hg'.
  - rewrite pass_app, <- ready_ests_pass by (try assumption; apply Hg; left; reflexivity).
    destruct (ready_ests E _ _) as [gs [[|]|e]]; cbn; auto.
    destruct (all_estimators_ready E h); auto.
  - destruct (all_estimators_ready E h); auto.
Qed.

(** *** A positive answer changes nothing *)
Lemma ready_ests_true gates : steady E -> gates <> [] -> forall gs, snd (ready_ests E gates gs) = Ok true -> fst (ready_ests E gates gs) = gs.
Proof.
  intros St Hne. induction gs as [|g gs IH]; cbn; [auto|]. destruct (St gates None g Hne) as [St1 St2].
  destruct (eo_require E gates None g) as [g1 [[s|]|e]]; cbn in *; try discriminate.
  - destruct (eo_require E gates None g1) as [g2 r] eqn:H2; cbn in *. subst r. destruct s as [|p s]; [|discriminate].
    pose proof (St2 _ eq_refl (or_intror eq_refl)) as ->.
    destruct (St gates None g Hne) as [_ St2']. rewrite H2 in St2'. cbn in St2'.
    pose proof (St2' _ eq_refl (or_intror eq_refl)) as ->.
    destruct (ready_ests E gates gs); cbn in *. intros H. rewrite IH; auto.
  - pose proof (St2 _ eq_refl (or_introl eq_refl)) as ->.
    destruct (ready_ests E gates gs); cbn in *. intros H. rewrite IH; auto.
Qed.
Lemma ready_true : steady E -> forall h, has_gates h -> snd (all_estimators_ready E h) = Ok true -> fst (all_estimators_ready E h) = h.
Proof.
  intros St. induction h as [|[st|] h IH]; intros Hg; cbn; [auto|..]; pose proof (has_gates_tl _ _ Hg) as Hg'.
  - pose proof (ready_ests_true (index (nw_pos st)) St (Hg _ (or_introl eq_refl)) (nw_ests st)) as Hr.
    destruct (ready_ests E _ _) as [gs [[|]|e]]; cbn in *; try discriminate.
    rewrite (Hr eq_refl). destruct (all_estimators_ready E h); cbn in *. intros H. rewrite IH by assumption.
    destruct st; reflexivity.
  - destruct (all_estimators_ready E h); cbn in *. intros H. rewrite IH; auto.
Qed.

(** *** The solver *)
Lemma ask_content gates : steady E -> gates <> [] -> forall qs,
  (forall r g, In (r, g) qs -> content E (gates, g)) -> ask E gates None qs = (map snd qs, Ok None).
Proof.
  intros St Hne. induction qs as [|[r g] qs IH]; intros H; cbn; [reflexivity|].
  rewrite IH by (intros r' g' Hin; apply (H r' g'); right; exact Hin).
  destruct (isna (t_desired r)); [reflexivity|].
  destruct (H r g (or_introl eq_refl)) as [a [Ha Hn]]. cbn in Ha.
  destruct (St gates None g Hne) as [_ St2]. pose proof (St2 a Ha Hn) as Hg.
  destruct (eo_require E gates None g) as [g1 r1]; cbn in *. subst. destruct Hn as [->| ->]; reflexivity.
Qed.

Lemma no_tuned_jacobian tuned (st : newton G) :
  (forall row, In row (nw_target st) -> ~ In (t_name row) tuned) -> tuned_jacobian E tuned st = Ok None.
Proof.
  intros H. unfold tuned_jacobian, tuned_gradients.
  replace (flat_map _ _) with (@nil (option series)); [reflexivity|].
  assert (Hc : forall q, In q (combine (nw_target st) (nw_ests st)) -> In (fst q) (nw_target st)).
  { intros [r g] Hin. apply in_combine_l in Hin. exact Hin. }
  induction (combine _ _) as [|q qs IH]; cbn; [reflexivity|].
  destruct (mem (t_name (fst q)) tuned) eqn:Hm.
  - exfalso. apply mem_In in Hm. exact (H _ (Hc q (or_introl eq_refl)) Hm).
  - cbn. apply IH. intros q' Hq. apply Hc. right; exact Hq.
Qed.

Lemma suggest_when_ready lstsq tuned (st : newton G) :
  steady E -> index (nw_pos st) <> [] -> length (nw_target st) = length (nw_ests st) ->
  (forall row, In row (nw_target st) -> ~ In (t_name row) tuned) ->
  (forall g, In g (nw_ests st) -> content E (index (nw_pos st), g)) ->
  nw_suggest E lstsq tuned st = (st, newton_step E lstsq st).
Proof.
  intros St Hne Hl Ht Hc. unfold nw_suggest. rewrite no_tuned_jacobian by assumption.
  rewrite ask_content; [|assumption|assumption|].
  - rewrite map_snd_combine by assumption. destruct st; reflexivity.
  - intros r g Hin. apply Hc. eapply in_combine_r; eauto.
Qed.

Lemma ask_asking gates : forall qs,
  (forall r g, In (r, g) qs -> t_desired r <> NaN) ->
  first_with (content E) (asking E) (map (fun q => (gates, snd q)) qs) ->
  exists r g p s, In (r, g) qs /\ snd (eo_require E gates None g) = Ok (Some (p :: s)) /\ snd (ask E gates None qs) = Ok (Some (p :: s)).
Proof.
  induction qs as [|[r g] qs IH]; intros Hd H; [destruct (first_with_nil _ _ H)|]. cbn in H.
  apply first_with_cons in H. cbn.
  assert (Hna : isna (t_desired r) = false) by (apply isna_not, (Hd r g); left; reflexivity). rewrite Hna.
  destruct H as [[p [s H]]|[[a [Ha Hn]] H]]; cbn in *.
  - exists r, g, p, s. destruct (eo_require E gates None g) as [g1 r1]; cbn in *. subst. auto.
  - destruct IH as [r' [g' [p [s [H1 [H2 H3]]]]]]; [intros r' g' Hin; apply (Hd r' g'); auto|exact H|].
    exists r', g', p, s. split; [auto|]. split; [exact H2|].
    destruct (eo_require E gates None g) as [g1 r1]; cbn in *. subst r1.
    destruct (ask E gates None qs) as [gs o]. cbn in *. destruct Hn as [->| ->]; exact H3.
Qed.

Lemma first_with_app {A} (Q P : A -> Prop) a b : first_with Q P (a ++ b) <-> first_with Q P a \/ (Forall Q a /\ first_with Q P b).
Proof.
  induction a as [|x a IH]; cbn.
  - split; [auto|]. intros [H|[_ H]]; [destruct (first_with_nil _ _ H)|exact H].
  - rewrite !first_with_cons, IH. split.
    + intros [H|[H [K|[K K']]]]; auto.
    + intros [[H|[H K]]|[H K]]; auto. inversion H; subst. auto.
Qed.

Lemma asking_suggests lstsq tuned : forall h,
  (forall st, In (Newton st) h -> length (nw_target st) = length (nw_ests st) /\
     forall row, In row (nw_target st) -> t_desired row <> NaN /\ ~ In (t_name row) tuned) ->
  first_with (content E) (asking E) (estimators h) ->
  exists st g s, In (Newton st) h /\ In g (nw_ests st) /\ s <> [] /\
    snd (eo_require E (index (nw_pos st)) None g) = Ok (Some s) /\ snd (nw_suggest E lstsq tuned st) = Ok s.
Proof.
  induction h as [|[st|] h IH]; intros Hh H; [destruct (first_with_nil _ _ H)|..].
  - cbn in H. apply first_with_app in H. destruct H as [H|[_ H]].
    + destruct (Hh st (or_introl eq_refl)) as [Hl Hr].
      replace (map (fun g => (index (nw_pos st), g)) (nw_ests st))
        with (map (fun q : trow * G => (index (nw_pos st), snd q)) (combine (nw_target st) (nw_ests st))) in H.
      2:{ rewrite <- (map_map snd (fun g => (index (nw_pos st), g))), map_snd_combine by assumption. reflexivity. }
      apply ask_asking in H.
      2:{ intros r g Hin. apply in_combine_l in Hin. apply Hr in Hin. tauto. }
      destruct H as [r [g [p [s [H1 [H2 H3]]]]]]. exists st, g, (p :: s).
      split; [left; reflexivity|]. split; [eapply in_combine_r; eauto|]. split; [discriminate|]. split; [exact H2|].
      unfold nw_suggest. rewrite no_tuned_jacobian by (intros row Hin; apply Hr in Hin; tauto).
      destruct (ask E _ _ _) as [gs o]. cbn in H3. subst o. reflexivity.
    + destruct IH as [st' [g [s [H1 H2]]]]; [intros st' Hin; apply Hh; right; exact Hin|exact H|].
      exists st', g, s. split; [right; exact H1|exact H2].
  - destruct IH as [st' [g [s [H1 H2]]]]; [intros st' Hin; apply Hh; right; exact Hin|exact H|].
    exists st', g, s. split; [right; exact H1|exact H2].
Qed.

(** *** A parameter without desired value keeps its estimator *)
Lemma index_move_position c v : index (move_position c v) = index c.
Proof.
  unfold move_position. generalize (reindex (intersection (index c) (index v)) v). intros l. revert c.
  induction l as [|p l IH]; intros c; cbn; [reflexivity|]. rewrite IH. apply index_set_label.
Qed.

Definition undesired (st0 st : newton G) (i : nat) (g : G) : Prop :=
  well_formed st /\ nw_target st = nw_target st0 /\ index (nw_pos st) = index (nw_pos st0) /\ nth_error (nw_ests st) i = Some g.

Lemma undesired_step lstsq op st0 st i row g :
  no_restart op -> nth_error (nw_target st0) i = Some row -> t_desired row = NaN ->
  undesired st0 st i g -> undesired st0 (nw_do E lstsq op st) i g.
Proof.
  intros Hop Hrow Hd [Hwf [Ht [Hp Hg]]]. destruct op as [tuned|p v w|v|v]; cbn; [..|destruct Hop].
  - split; [apply suggest_wf; assumption|]. destruct Hwf as [W1 [W2 W3]].
    destruct (nw_suggest E lstsq tuned st) as [st' r] eqn:Hs. apply suggest_spec in Hs; [|assumption].
    destruct Hs as [S1 [S2 [S3 [S4 [S5 _]]]]]. cbn. rewrite S1, S2. repeat split; auto.
    eapply S5; eauto. rewrite Ht. exact Hrow.
  - split; [apply update_wf; assumption|].
    destruct (nw_update E p v w st) as [st' r] eqn:Hs. pose proof Hs as Hu. apply update_spec in Hs; [|assumption].
    destruct Hs as [S1 [S2 [S3 _]]]. cbn. rewrite S1. repeat split; auto.
    + revert Hu. unfold nw_update. destruct (select (index (nw_vals st)) v); [|intros H; inversion H; subst; exact Hp].
      destruct (update_ests _ _ _ _ _ _) as [gs [[]|]]; [|intros H; inversion H; subst; exact Hp].
      destruct (select (index (nw_pos st)) p) as [q|] eqn:Hq; intros H; inversion H; subst; cbn; [|exact Hp].
      apply select_ok in Hq. subst q. rewrite reindex_tab, index_tab. exact Hp.
    + eapply S3; eauto. rewrite Ht. exact Hrow.
  - split; [exact Hwf|]. cbn. rewrite index_move_position. auto.
Qed.

Lemma undesired_run lstsq st0 i row g : nth_error (nw_target st0) i = Some row -> t_desired row = NaN ->
  forall ops st, Forall no_restart ops -> undesired st0 st i g -> undesired st0 (nw_run E lstsq ops st) i g.
Proof.
  intros Hrow Hd. induction ops as [|op ops IH]; intros st Ho Hu; [exact Hu|]. inversion Ho; subst. cbn.
  apply IH; [assumption|]. eapply undesired_step; eauto.
Qed.

Lemma never_ready lstsq st i row g ops :
  steady E -> index (nw_pos st) <> [] -> well_formed st -> Forall no_restart ops ->
  nth_error (nw_target st) i = Some row -> t_desired row = NaN -> nth_error (nw_ests st) i = Some g ->
  asking E (index (nw_pos st), g) ->
  snd (all_estimators_ready E [Newton (nw_run E lstsq ops st)]) <> Ok true.
Proof.
  intros St Hne Hwf Ho Hrow Hd Hg Ha.
  assert (Hu : undesired st (nw_run E lstsq ops st) i g).
  { eapply undesired_run; eauto. split; auto. }
  destruct Hu as [_ [_ [Hp Hn]]]. rewrite ready_pass; [|assumption|intros st' [H|[]]; injection H as <-; congruence].
  rewrite pass_true. intros H. cbn in H. rewrite app_nil_r, Forall_forall in H.
  destruct (H (index (nw_pos st), g)) as [a [K1 K2]].
  { rewrite Hp. apply in_map_iff. exists g. split; [reflexivity|]. eapply nth_error_In; eauto. }
  destruct Ha as [p [s Ha]]. rewrite Ha in K1. destruct K2 as [->| ->]; discriminate.
Qed.
End R.

(** *** The estimators of the package are steady *)
Lemma fd_point_requests ortho gates st rs :
  fd_point ortho gates (mk_fd (fd_pos st) (fd_eps st) (fd_est st) (fd_cov st) (fd_stored st) rs (fd_sym st)) = fd_point ortho gates st.
Proof. reflexivity. Qed.


Lemma select_nonempty gates s r : gates <> [] -> select gates s = Ok r -> r <> [].
Proof. intros Hg H. apply select_ok in H. subst. destruct gates; [congruence|discriminate]. Qed.

Lemma displaced_nonempty pos dir eps : pos <> [] -> dir <> [] -> displaced pos dir eps <> [].
Proof. destruct pos, dir; cbn; congruence. Qed.
Lemma first_step_nonempty pos v : first_step pos = Ok v -> v <> [].
Proof. destruct pos; cbn; [discriminate|]. intros H. injection H as <-. discriminate. Qed.

Lemma fd_point_nonempty ortho gates st p : some_direction ortho -> gates <> [] -> fd_point ortho gates st = Ok p -> p <> [].
Proof.
  intros Ho Hg. unfold fd_point. destruct (all_ok _) as [points|]; [|discriminate].
  destruct (select gates (fd_pos st)) as [pos|] eqn:Hpos; [|discriminate].
  destruct (select gates (fd_eps st)) as [eps|] eqn:Heps; [|discriminate].
  pose proof (select_nonempty _ _ _ Hg Hpos) as Hpos'.
  assert (Ht : forall r q, (forall v, r = Ok v -> v <> []) ->
    match r with Ok ov => Ok (displaced pos ov eps) | Raise e => Raise e end = Ok q -> q <> []).
  { intros r q Hr. destruct r as [v|]; [|discriminate]. intros H. injection H as <-. apply displaced_nonempty; auto. }
  destruct points as [|p0 ps].
  - apply Ht. apply first_step_nonempty.
  - destruct (fd_sym st).
    + destruct (Nat.odd _).
      * intros H. injection H as <-. destruct pos; [congruence|discriminate].
      * apply Ht. apply Ho.
    + destruct (Nat.eqb _ 1); [apply Ht; apply Ho|]. destruct (Nat.leb _ _); [apply Ht; apply Ho|discriminate].
Qed.

Lemma steady_fd ortho calc : some_direction ortho -> steady (fd_ops ortho calc).
Proof.
  intros Ho gates tj g Hne. cbn.
  destruct (fd_require ortho gates tj g) as [g1 r] eqn:H1. pose proof H1 as H2. cbn. revert H1. unfold fd_require at 1.
  destruct (unknown (fd_pos g)) eqn:Hu.
  - intros H; inversion H; subst. rewrite H2. split; [reflexivity|]. discriminate.
  - destruct (fd_est g) as [e|] eqn:He; [intros H; inversion H; subst; rewrite H2; split; reflexivity|].
    destruct (fd_point ortho gates g) as [p|x] eqn:Hp; intros H; inversion H; subst; clear H.
    + unfold fd_require. cbn [fd_pos fd_est fst snd]. rewrite Hu, <- He, fd_point_requests, Hp, He. split; [reflexivity|].
      intros a Ha [->| ->]; [discriminate|]. injection Ha as ->.
      destruct (fd_point_nonempty _ _ _ _ Ho Hne Hp eq_refl).
    + rewrite H2. split; [reflexivity|discriminate].
Qed.

Lemma steady_ke {K} (k_grad : K -> list num) k_update k_require : steady (ke_ops k_grad k_update k_require).
Proof. intros gates tj g _. cbn. split; reflexivity. Qed.

Lemma steady_si {K} (k_grad : K -> list num) k_update k_require ortho calc :
  some_direction ortho -> steady (si_ops k_grad k_update k_require ortho calc).
Proof.
  intros Ho gates tj [f [k|]] Hne; cbn; [split; reflexivity|].
  destruct (steady_fd ortho calc Ho gates tj f Hne) as [S1 S2]. cbn in *.
  destruct (fd_require ortho gates tj f) as [f' r] eqn:Hf. cbn in *.
  destruct (fd_require ortho gates tj f') as [f'' r']. cbn in *. split; [exact S1|].
  intros a Ha Hn. rewrite (S2 a Ha Hn). reflexivity.
Qed.

(** *** Finite differences *)
Section FDReady.
Variable ortho : list (list num) -> res (list num).
Variable calc : list measurement -> res (list num * list (list num)).
Let E := fd_ops ortho calc.

Lemma unknown_false s : unknown s = false <-> exists l x, In (l, x) s /\ x <> NaN.
Proof.
  unfold unknown. split.
  - intros H. induction s as [|[l x] s IH]; cbn in H; [discriminate|].
    destruct (isna x) eqn:Hx; cbn in H.
    + destruct (IH H) as [l' [x' [H1 H2]]]. exists l', x'. split; [right; exact H1|exact H2].
    + exists l, x. split; [left; reflexivity|]. apply isna_not. exact Hx.
  - intros [l [x [H1 H2]]]. destruct (forallb _ s) eqn:Hf; [|reflexivity]. rewrite forallb_forall in Hf.
    specialize (Hf _ H1). cbn in Hf. apply isna_NaN in Hf. contradiction.
Qed.

Lemma content_determined gates g : some_direction ortho -> gates <> [] -> content E (gates, g) <-> determined g.
Proof.
  intros Ho Hne. unfold content, determined. rewrite <- unknown_false. cbn [fst snd E fd_ops eo_require]. unfold fd_require.
  destruct (unknown (fd_pos g)); cbn; [split; [intros [a [H _]]; discriminate|intros [_ H]; discriminate]|].
  destruct (fd_est g) as [e|]; cbn.
  - split; [split; [discriminate|reflexivity]|]. intros _. exists None. split; [reflexivity|left; reflexivity].
  - destruct (fd_point ortho gates g) as [p|x] eqn:Hp; cbn; (split; [intros [a [H Hn]]|intros [H _]; congruence]); [|discriminate].
    destruct Hn as [->| ->]; [discriminate|]. injection H as ->. destruct (fd_point_nonempty _ _ _ _ Ho Hne Hp eq_refl).
Qed.

(** *** What the reading leaves behind *)
Lemma same_refl g : same_but_requests g g.
Proof. repeat split. Qed.

Lemma require_same gates tj g : same_but_requests g (fst (fd_require ortho gates tj g)).
Proof.
  unfold fd_require. destruct (unknown _); [apply same_refl|]. destruct (fd_est g) eqn:He; [apply same_refl|].
  destruct (fd_point _ _ _); [|apply same_refl]. repeat split; cbn; auto.
Qed.
Lemma same_trans a b c : same_but_requests a b -> same_but_requests b c -> same_but_requests a c.
Proof. unfold same_but_requests. intuition congruence. Qed.

Lemma Forall2_refl' {A} (R : A -> A -> Prop) l : (forall a, R a a) -> Forall2 R l l.
Proof. intros H. induction l; constructor; auto. Qed.

Lemma ready_ests_same gates : forall gs, Forall2 same_but_requests gs (fst (ready_ests E gates gs)).
Proof.
  induction gs as [|g gs IH]; cbn; [constructor|].
  pose proof (require_same gates None g) as H1.
  destruct (fd_require ortho gates None g) as [g1 [[s|]|e]]; cbn in *.
  - pose proof (require_same gates None g1) as H2.
    destruct (fd_require ortho gates None g1) as [g2 [[[|p s']|]|e]]; cbn in *;
      pose proof (same_trans _ _ _ H1 H2) as H3.
    + destruct (ready_ests E gates gs); cbn in *. constructor; auto.
    + constructor; [exact H3|apply Forall2_refl'; exact same_refl].
    + constructor; [exact H3|apply Forall2_refl'; exact same_refl].
    + constructor; [exact H3|apply Forall2_refl'; exact same_refl].
  - destruct (ready_ests E gates gs); cbn in *. constructor; auto.
  - constructor; [exact H1|apply Forall2_refl'; exact same_refl].
Qed.

Lemma same_newton_refl st : same_newton st st.
Proof. repeat split. apply Forall2_refl', same_refl. Qed.
Lemma same_solver_refl s : same_solver s s.
Proof. destruct s; cbn; [apply same_newton_refl|exact I]. Qed.

Lemma ready_same : forall h, Forall2 same_solver h (fst (all_estimators_ready E h)).
Proof.
  induction h as [|[st|] h IH]; cbn; [constructor|..].
  - pose proof (ready_ests_same (index (nw_pos st)) (nw_ests st)) as Hs.
    destruct (ready_ests E _ _) as [gs [[|]|e]]; cbn in *.
    + destruct (all_estimators_ready E h); cbn in *. constructor; [|exact IH]. repeat split. exact Hs.
    + constructor; [|apply Forall2_refl', same_solver_refl]. repeat split. exact Hs.
    + constructor; [|apply Forall2_refl', same_solver_refl]. repeat split. exact Hs.
  - destruct (all_estimators_ready E h); cbn in *. constructor; [exact I|exact IH].
Qed.

(** The list of requested points grows by two equal points, at one estimator. *)
Definition grown (a b : list (list series)) : Prop :=
  exists l1 rs l2 p, a = l1 ++ rs :: l2 /\ b = l1 ++ (rs ++ [p; p]) :: l2.
Lemma grown_app l a b r : grown a b -> grown (l ++ a ++ r) (l ++ b ++ r).
Proof.
  intros [l1 [rs [l2 [p [-> ->]]]]]. exists (l ++ l1), rs, (l2 ++ r), p.
  rewrite <- !app_assoc. cbn. auto.
Qed.

Lemma require_twice gates g g1 p s :
  fd_require ortho gates None g = (g1, Ok (Some (p :: s))) ->
  exists g2, fd_require ortho gates None g1 = (g2, Ok (Some (p :: s))) /\ fd_requested g2 = fd_requested g ++ [p :: s; p :: s].
Proof.
  unfold fd_require. destruct (unknown (fd_pos g)) eqn:Hu; [discriminate|]. destruct (fd_est g) eqn:He; [discriminate|].
  destruct (fd_point ortho gates g) as [q|] eqn:Hp; [|discriminate]. intros H. inversion H; subst; clear H.
  cbn [fd_pos fd_est fst snd]. rewrite Hu, <- He, fd_point_requests, Hp. rewrite He. eexists. split; [reflexivity|]. cbn. rewrite <- app_assoc. reflexivity.
Qed.

Lemma ready_ests_requests gates : some_direction ortho -> gates <> [] -> forall gs gs' a, ready_ests E gates gs = (gs', a) ->
  match a with
  | Ok false => grown (map fd_requested gs) (map fd_requested gs')
  | _ => gs' = gs
  end.
Proof.
  intros Ho Hne. induction gs as [|g gs IH]; intros gs' a; cbn.
  - intros H. inversion H; subst. reflexivity.
  - destruct (fd_require ortho gates None g) as [g1 [[s|]|e]] eqn:H1.
    + assert (Hs : s <> []).
      { revert H1. unfold fd_require. destruct (unknown _); [discriminate|]. destruct (fd_est g); [discriminate|].
        destruct (fd_point ortho gates g) eqn:Hp; [|discriminate]. intros H; inversion H; subst.
        eapply fd_point_nonempty; eauto. }
      destruct s as [|p s]; [congruence|]. destruct (require_twice _ _ _ _ _ H1) as [g2 [H2 H3]]. rewrite H2.
      intros H; inversion H; subst. exists [], (fd_requested g), (map fd_requested gs), (p :: s). cbn. rewrite H3. auto.
    + assert (Hg : g1 = g).
      { revert H1. unfold fd_require. destruct (unknown _); [discriminate|]. destruct (fd_est g); [congruence|].
        destruct (fd_point ortho gates g) eqn:Hp; discriminate. }
      subst g1. destruct (ready_ests E gates gs) as [r b]. intros H; inversion H; subst; clear H.
      specialize (IH _ _ eq_refl). destruct a as [[|]|]; [congruence| |congruence].
      cbn. destruct IH as [l1 [rs [l2 [p [-> ->]]]]]. exists (fd_requested g :: l1), rs, l2, p. auto.
    + intros H; inversion H; subst.
      revert H1. unfold fd_require. destruct (unknown _); [congruence|]. destruct (fd_est g); [discriminate|].
      destruct (fd_point ortho gates g) eqn:Hp; [discriminate|congruence].
Qed.

Lemma requests_cons st h : requests (Newton st :: h) = map fd_requested (nw_ests st) ++ requests h.
Proof. unfold requests. cbn. rewrite map_app, map_map. reflexivity. Qed.

Lemma ready_requests : some_direction ortho -> forall h h' a, has_gates h -> all_estimators_ready E h = (h', a) ->
  match a with
  | Ok false => grown (requests h) (requests h')
  | _ => h' = h
  end.
Proof.
  intros Ho. induction h as [|[st|] h IH]; intros h' a Hg; cbn -[requests].
  - intros H. inversion H; subst. reflexivity.
  - destruct (ready_ests E _ _) as [gs b] eqn:Hr. apply ready_ests_requests in Hr; [|assumption|apply Hg; left; reflexivity].
    destruct b as [[|]|e].
    + subst gs. destruct (all_estimators_ready E h) as [r b]. intros H; inversion H; subst; clear H.
      specialize (IH _ _ (has_gates_tl _ _ Hg) eq_refl).
      assert (Hst : with_ests st (nw_ests st) = st) by (destruct st; reflexivity). rewrite Hst.
      destruct a as [[|]|]; [congruence| |congruence]. rewrite !requests_cons.
      rewrite <- (app_nil_r (requests h)), <- (app_nil_r (requests r)). apply grown_app. exact IH.
    + intros H; inversion H; subst; clear H. rewrite !requests_cons. cbn [nw_ests with_ests].
      apply (grown_app [] _ _ (requests h)). exact Hr.
    + intros H; inversion H; subst; clear H. destruct st; reflexivity.
  - destruct (all_estimators_ready E h) as [r b]. intros H; inversion H; subst; clear H.
    specialize (IH _ _ (has_gates_tl _ _ Hg) eq_refl). destruct a as [[|]|]; [congruence|exact IH|congruence].
Qed.
End FDReady.

(** *** Reading has no effect on the tuning *)
Section Bisim.
Variable ortho : list (list num) -> res (list num).
Variable calc : list measurement -> res (list num * list (list num)).
Variable lstsq : list series -> list num -> res (list num).
Let E := fd_ops ortho calc.

Definition sim {A} (x y : fd * res A) : Prop := same_but_requests (fst x) (fst y) /\ snd x = snd y.

Lemma sim_require gates tj a b : same_but_requests a b -> sim (fd_require ortho gates tj a) (fd_require ortho gates tj b).
Proof.
  destruct a as [a1 a2 a3 a4 a5 a6 a7], b as [b1 b2 b3 b4 b5 b6 b7]. intros (H1 & H2 & H3 & H4 & H5 & H6). cbn in *. subst.
  unfold fd_require. cbn [fd_pos fd_est]. destruct (unknown b1); [repeat split|]. destruct b3; [repeat split|].
  unfold fd_point. cbn [fd_pos fd_eps fd_stored fd_sym].
  match goal with |- sim (match ?x with Ok _ => _ | Raise _ => _ end) _ => destruct x end; repeat split.
Qed.

Lemma sim_finish a b : same_but_requests a b -> sim (fd_finish calc a) (fd_finish calc b).
Proof.
  destruct a as [a1 a2 a3 a4 a5 a6 a7], b as [b1 b2 b3 b4 b5 b6 b7]. intros (H1 & H2 & H3 & H4 & H5 & H6). cbn in *. subst.
  unfold fd_finish. cbn [fd_pos fd_stored fd_sym fd_eps fd_requested].
  match goal with |- sim (match ?x with Some _ => _ | None => _ end) _ => destruct x end; [|repeat split].
  destruct (calc _) as [[g c]|e]; repeat split.
Qed.

Lemma sim_update pos x v a b : same_but_requests a b -> sim (fd_update calc pos x v a) (fd_update calc pos x v b).
Proof.
  intros H. pose proof H as (H1 & H2 & H3 & H4 & H5 & H6). unfold fd_update. rewrite H1, H2, H3, H4, H5, H6.
  destruct (unknown (fd_pos b)).
  - destruct (assign (fd_pos b) _) as [cur|]; [|split; [exact H|reflexivity]].
    destruct (fd_sym b); [repeat split|]. destruct (select (index cur) _); repeat split.
  - destruct (fd_est b) eqn:He; [split; [exact H|reflexivity]|].
    destruct (select (index (fd_pos b)) _); [|split; [exact H|reflexivity]].
    apply sim_finish. unfold fd_store. repeat split; cbn; congruence.
Qed.

Lemma sim_restart v a b : same_but_requests a b -> sim (fd_restart v a) (fd_restart v b).
Proof.
  intros H. pose proof H as (H1 & H2 & H3 & H4 & H5 & H6). unfold fd_restart. rewrite H1, H2, H3, H4, H5, H6.
  destruct (set_est_position (fd_pos b) v); [repeat split|split; [exact H|reflexivity]].
Qed.

Definition sims {A} (x y : list fd * res A) : Prop := Forall2 same_but_requests (fst x) (fst y) /\ snd x = snd y.

Lemma sim_ask gates tj t : forall gs1 gs2, Forall2 same_but_requests gs1 gs2 ->
  sims (ask E gates tj (combine t gs1)) (ask E gates tj (combine t gs2)).
Proof.
  revert t.
  assert (Hrest : forall (t : target) gs1 gs2, Forall2 same_but_requests gs1 gs2 ->
     Forall2 same_but_requests (map snd (combine t gs1)) (map snd (combine t gs2))).
  { induction t as [|r t IH]; intros gs1 gs2 H; cbn; [constructor|]. inversion H; subst; cbn; constructor; auto. }
  induction t as [|r t IH]; intros gs1 gs2 H; cbn; [repeat split; constructor|].
  inversion H as [|g1 g2 r1 r2 Hg Hr]; subst; cbn; [repeat split; constructor|].
  specialize (IH _ _ Hr). specialize (Hrest t _ _ Hr).
  destruct (isna (t_desired r)).
  - destruct (ask E gates tj (combine t r1)), (ask E gates tj (combine t r2)). destruct IH as [I1 I2]; cbn in *.
    split; [constructor; assumption|assumption].
  - pose proof (sim_require gates tj _ _ Hg) as [S1 S2].
    destruct (fd_require ortho gates tj g1) as [g1' a1], (fd_require ortho gates tj g2) as [g2' a2]. cbn in S1, S2. subst a2.
    destruct (ask E gates tj (combine t r1)), (ask E gates tj (combine t r2)). destruct IH as [I1 I2]; cbn in *.
    destruct a1 as [[[|p s]|]|e]; (split; [constructor; assumption|cbn; auto]).
Qed.

Lemma sim_estimates gs1 gs2 : Forall2 same_but_requests gs1 gs2 -> map fd_est gs1 = map fd_est gs2.
Proof. intros H. induction H as [|a b l l' H ? IH]; cbn; [reflexivity|]. destruct H as (_ & _ & H & _). congruence. Qed.

Lemma sim_tuned_gradients tuned : forall (t : target) gs1 gs2, Forall2 same_but_requests gs1 gs2 ->
  flat_map (fun q => if mem (t_name (fst q)) tuned then [eo_estimate E (snd q)] else []) (combine t gs1) =
  flat_map (fun q => if mem (t_name (fst q)) tuned then [eo_estimate E (snd q)] else []) (combine t gs2).
Proof.
  induction t as [|r t IH]; intros gs1 gs2 H; [reflexivity|]. inversion H as [|g1 g2 r1 r2 Hg Hr]; subst; [reflexivity|].
  cbn [combine flat_map fst snd]. rewrite (IH _ _ Hr). destruct Hg as (_ & _ & Hg & _).
  change (eo_estimate E g1) with (fd_est g1). change (eo_estimate E g2) with (fd_est g2). rewrite Hg. reflexivity.
Qed.

Lemma sim_step a b : same_newton a b -> newton_step E lstsq a = newton_step E lstsq b.
Proof.
  intros (H1 & H2 & H3 & H4). unfold newton_step, required_diff. rewrite H1, H3, H4.
  change (map (eo_estimate E) (nw_ests a)) with (map fd_est (nw_ests a)). rewrite (sim_estimates _ _ H2). reflexivity.
Qed.

Lemma sim_suggest tuned a b : same_newton a b ->
  same_newton (fst (nw_suggest E lstsq tuned a)) (fst (nw_suggest E lstsq tuned b)) /\
  snd (nw_suggest E lstsq tuned a) = snd (nw_suggest E lstsq tuned b).
Proof.
  intros H. pose proof H as (H1 & H2 & H3 & H4). unfold nw_suggest, tuned_jacobian, tuned_gradients.
  rewrite H1, H3, (sim_tuned_gradients tuned _ _ _ H2).
  set (tj := match flat_map _ _ with [] => Ok None | _ => _ end). destruct tj as [tj|e]; [|split; [exact H|reflexivity]].
  pose proof (sim_ask (index (nw_pos b)) tj (nw_target b) _ _ H2) as [A1 A2].
  destruct (ask E _ tj (combine (nw_target b) (nw_ests a))) as [gs1 x1], (ask E _ tj (combine (nw_target b) (nw_ests b))) as [gs2 x2].
  cbn in A1, A2. subst x2.
  assert (Hs : same_newton (mk_newton (nw_target b) gs1 (nw_pos b) (nw_vals a)) (mk_newton (nw_target b) gs2 (nw_pos b) (nw_vals b))).
  { repeat split; cbn; auto. }
  destruct x1 as [[s|]|e]; cbn [fst snd]; (split; [exact Hs|try reflexivity]). apply sim_step. exact Hs.
Qed.

Lemma sim_update_ests t pos : forall gs1 gs2 vals vars, Forall2 same_but_requests gs1 gs2 ->
  sims (update_ests E t pos gs1 vals vars) (update_ests E t pos gs2 vals vars).
Proof.
  intros gs1 gs2 vals vars H. revert vals vars. induction H as [|g1 g2 r1 r2 Hg Hr IH]; intros vals vars; cbn; [repeat split; constructor|].
  assert (Hstop : sims (g1 :: r1, Ok tt) (g2 :: r2, Ok tt)) by (split; [constructor; assumption|reflexivity]).
  destruct vals as [|[l x] vals]; [exact Hstop|]. destruct vars as [|var vars]; [exact Hstop|].
  specialize (IH vals vars). destruct (update_ests E t pos r1 vals vars), (update_ests E t pos r2 vals vars).
  destruct IH as [I1 I2]; cbn in *.
  destruct (isna _); [split; [constructor; assumption|assumption]|].
  pose proof (sim_update pos x var _ _ Hg) as [S1 S2].
  destruct (fd_update calc pos x var g1) as [g1' a1], (fd_update calc pos x var g2) as [g2' a2]. cbn in S1, S2. subst a2.
  destruct a1; (split; [constructor; assumption|cbn; auto]).
Qed.

Lemma sim_nw_update p v w a b : same_newton a b ->
  same_newton (fst (nw_update E p v w a)) (fst (nw_update E p v w b)) /\
  snd (nw_update E p v w a) = snd (nw_update E p v w b).
Proof.
  intros H. pose proof H as (H1 & H2 & H3 & H4). unfold nw_update. rewrite H1, H3, H4.
  destruct (select (index (nw_vals b)) v) as [vals|e]; [|split; [exact H|reflexivity]].
  pose proof (sim_update_ests (nw_target b) p _ _ vals (map snd w) H2) as [S1 S2].
  destruct (update_ests E (nw_target b) p (nw_ests a) vals (map snd w)) as [gs1 x1],
    (update_ests E (nw_target b) p (nw_ests b) vals (map snd w)) as [gs2 x2]. cbn in S1, S2. subst x2.
  destruct x1; [|split; [repeat split; cbn; auto|reflexivity]].
  destruct (select (index (nw_pos b)) p); split; try reflexivity; repeat split; cbn; auto.
Qed.

Lemma sim_restart_ests v gs1 gs2 : Forall2 same_but_requests gs1 gs2 -> sims (restart_ests E v gs1) (restart_ests E v gs2).
Proof.
  intros H. induction H as [|g1 g2 r1 r2 Hg Hr IH]; cbn; [repeat split; constructor|].
  pose proof (sim_restart v _ _ Hg) as [S1 S2]. destruct (fd_restart v g1) as [g1' a1], (fd_restart v g2) as [g2' a2]. cbn in S1, S2. subst a2.
  destruct (restart_ests E v r1), (restart_ests E v r2). destruct IH as [I1 I2]; cbn in *.
  destruct a1; (split; [constructor; assumption|cbn; auto]).
Qed.

Lemma sim_do op a b : same_newton a b -> same_newton (nw_do E lstsq op a) (nw_do E lstsq op b).
Proof.
  intros H. destruct op as [tuned|p v w|v|v]; cbn.
  - apply sim_suggest. exact H.
  - apply sim_nw_update. exact H.
  - destruct H as (H1 & H2 & H3 & H4). unfold nw_move. rewrite H3. repeat split; cbn; auto.
  - destruct H as (H1 & H2 & H3 & H4). unfold nw_restart. pose proof (sim_restart_ests v _ _ H2) as [S1 S2].
    destruct (restart_ests E v (nw_ests a)) as [gs1 x1], (restart_ests E v (nw_ests b)) as [gs2 x2]. cbn in S1, S2. subst x2.
    destruct x1; unfold nw_move; cbn; rewrite ?H1, ?H3, ?H4; repeat split; cbn; auto.
Qed.

Lemma sim_run ops : forall a b, same_newton a b -> same_newton (nw_run E lstsq ops a) (nw_run E lstsq ops b).
Proof. induction ops as [|op ops IH]; intros a b H; [exact H|]. cbn. apply IH, sim_do, H. Qed.

Lemma reading_harmless tuned ops a b : same_newton a b ->
  suggestion ortho calc lstsq tuned ops a = suggestion ortho calc lstsq tuned ops b.
Proof. intros H. unfold suggestion. apply sim_suggest, sim_run, H. Qed.
End Bisim.
