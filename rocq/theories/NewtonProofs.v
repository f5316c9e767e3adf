From Verif Require Import PyBase TargetModel TunerModel TunerSpec SeriesLemmas TunerProofs SolverModel SolverSpec SensingDotProofs NewtonModel EstimatorModel NewtonSpec.
From Coq Require Import Lra ZArith.

Lemma nth_error_combine {A B} (a : list A) (b : list B) i x y :
  nth_error a i = Some x -> nth_error b i = Some y -> nth_error (combine a b) i = Some (x, y).
Proof.
  revert b i. induction a as [|x' a IH]; intros [|y' b] [|i]; cbn; try discriminate; auto.
  intros H1 H2; inversion H1; inversion H2; reflexivity.
Qed.
Lemma combine_nth_error {A B} (a : list A) (b : list B) i x y :
  nth_error (combine a b) i = Some (x, y) -> nth_error a i = Some x /\ nth_error b i = Some y.
Proof.
  revert b i. induction a as [|x' a IH]; intros [|y' b] [|i]; cbn; try discriminate; auto.
  intros H1; inversion H1; auto.
Qed.
Lemma map_snd_combine {A B} (a : list A) (b : list B) : length a = length b -> map snd (combine a b) = b.
Proof. revert b. induction a as [|x a IH]; intros [|y b]; cbn; try discriminate; intros H; [reflexivity|]. f_equal. auto. Qed.
Lemma isna_NaN x : isna x = true <-> x = NaN.
Proof. destruct x; cbn; split; congruence. Qed.
Lemma isna_not x : isna x = false <-> x <> NaN.
Proof. destruct x; cbn; split; congruence. Qed.

Section N.
Context {G : Type} (E : est_ops G) (lstsq : list series -> list num -> res (list num)).

(** *** C20 *)
Definition asks gates tj (g : G) (a : res (option series)) : Prop := snd (eo_require E gates tj g) = a.

Lemma ask_spec gates tj qs : forall gs a,
  ask E gates tj qs = (gs, a) ->
  length gs = length qs /\
  (forall i r g, nth_error qs i = Some (r, g) -> t_desired r = NaN -> nth_error gs i = Some g) /\
  match a with
  | Ok (Some s) =>
      s <> [] /\ exists k r g g', nth_error qs k = Some (r, g) /\ t_desired r <> NaN /\
        eo_require E gates tj g = (g', Ok (Some s)) /\ nth_error gs k = Some g' /\
        (forall j r' g', (k < j)%nat -> nth_error qs j = Some (r', g') -> nth_error gs j = Some g') /\
        (forall j r' g', (j < k)%nat -> nth_error qs j = Some (r', g') -> t_desired r' <> NaN ->
           exists b, asks gates tj g' (Ok b) /\ no_request b)
  | Ok None =>
      forall j r' g', nth_error qs j = Some (r', g') -> t_desired r' <> NaN ->
        exists b, asks gates tj g' (Ok b) /\ no_request b
  | Raise e =>
      exists k r g g', nth_error qs k = Some (r, g) /\ t_desired r <> NaN /\
        eo_require E gates tj g = (g', Raise e) /\
        (forall j r' g', (k < j)%nat -> nth_error qs j = Some (r', g') -> nth_error gs j = Some g')
  end.
Proof.
  induction qs as [|[r g] qs IH]; intros gs a; cbn.
  - intros H; inversion H; subst. split; [reflexivity|]. split; intros [|i]; discriminate.
  - assert (Hrest : forall j r' g', nth_error qs j = Some (r', g') -> nth_error (map snd qs) j = Some g').
    { intros j r' g' H. rewrite nth_error_map, H. reflexivity. }
    destruct (isna (t_desired r)) eqn:Hna.
    + destruct (ask E gates tj qs) as [gs' a'] eqn:Ha. intros H; inversion H; subst; clear H.
      destruct (IH _ _ eq_refl) as [H1 [H2 H3]]. split; [cbn; congruence|]. split.
      { intros [|i] r0 g0; cbn; [intros H _; inversion H; reflexivity|apply H2]. }
      destruct a as [[s|]|e].
      * destruct H3 as [Hs [k [r0 [g0 [g0' [K1 [K2 [K3 [K4 [K5 K6]]]]]]]]]]. split; [assumption|].
        exists (S k), r0, g0, g0'. repeat split; auto.
        -- intros [|j] r' g' Hj; [lia|]. apply K5. lia.
        -- intros [|j] r' g' Hj Hq Hd; [|apply (K6 j r' g'); auto; lia].
           cbn in Hq. inversion Hq; subst. apply isna_NaN in Hna. contradiction.
      * intros [|j] r' g'; [|apply H3]. cbn. intros H Hd. inversion H; subst. apply isna_NaN in Hna. contradiction.
      * destruct H3 as [k [r0 [g0 [g0' [K1 [K2 [K3 K4]]]]]]]. exists (S k), r0, g0, g0'. repeat split; auto.
        intros [|j] r' g' Hj; [lia|]. apply K4. lia.
    + apply isna_not in Hna.
      assert (Hstop : forall g', nth_error (g' :: map snd qs) 0 = Some g' /\
        (forall j r' g0, (0 < j)%nat -> nth_error ((r, g) :: qs) j = Some (r', g0) -> nth_error (g' :: map snd qs) j = Some g0) /\
        (forall i r0 g0, nth_error ((r, g) :: qs) i = Some (r0, g0) -> t_desired r0 = NaN -> nth_error (g' :: map snd qs) i = Some g0)).
      { intros g'. split; [reflexivity|]. split.
        - intros [|j] r' g0 Hj; [lia|]. apply Hrest.
        - intros [|i] r0 g0; cbn; [intros H Hd; inversion H; subst; contradiction|intros H _; eapply Hrest; eauto]. }
      destruct (eo_require E gates tj g) as [g' [[[|p s]|]|e]] eqn:Hr.
      1,3: destruct (ask E gates tj qs) as [gs' a'] eqn:Ha; intros H; inversion H; subst; clear H;
        destruct (IH _ _ eq_refl) as [H1 [H2 H3]]; (split; [cbn; congruence|]); (split;
        [intros [|i] r0 g0; cbn; [intros H Hd; inversion H; subst; contradiction|apply H2]|]).
      1,2: (assert (Hg : exists b, asks gates tj g (Ok b) /\ no_request b) by
             (unfold asks, no_request; rewrite Hr; eexists; split; [reflexivity|auto]);
        destruct a as [[s|]|e];
        [ destruct H3 as [Hs [k [r0 [g0 [g0' [K1 [K2 [K3 [K4 [K5 K6]]]]]]]]]]; (split; [assumption|]);
          exists (S k), r0, g0, g0'; repeat split; auto;
          [ intros [|j] r' g1 Hj; [lia|]; apply K5; lia
          | intros [|j] r' g1 Hj Hq Hd; [cbn in Hq; inversion Hq; subst; assumption|apply (K6 j r' g1); auto; lia] ]
        | intros [|j] r' g1; [cbn; intros H Hd; inversion H; subst; assumption|apply H3]
        | destruct H3 as [k [r0 [g0 [g0' [K1 [K2 [K3 K4]]]]]]]; exists (S k), r0, g0, g0'; repeat split; auto;
          intros [|j] r' g1 Hj; [lia|]; apply K4; lia ]).
      * intros H; inversion H; subst; clear H. destruct (Hstop g') as [Q1 [Q2 Q3]].
        split; [cbn; rewrite map_length; reflexivity|]. split; [exact Q3|]. split; [discriminate|].
        exists 0%nat, r, g, g'. repeat split; auto. intros j r' g0 Hj; lia.
      * intros H; inversion H; subst; clear H. destruct (Hstop g') as [Q1 [Q2 Q3]].
        split; [cbn; rewrite map_length; reflexivity|]. split; [exact Q3|].
        exists 0%nat, r, g, g'. repeat split; auto.
Qed.

Lemma stack_ok gates gs rows :
  stack gates gs = Ok rows ->
  rows = map (reindex gates) (flat_map (fun g => match g with Some s => [s] | None => [] end) gs) /\ rows <> [].
Proof.
  unfold stack. destruct (flat_map _ gs) as [|s l] eqn:Hf; [discriminate|].
  destruct (forallb _ gates); [|discriminate]. intros H; inversion H; subst. split; [reflexivity|discriminate].
Qed.

Lemma tuned_jacobian_spec tuned st tj :
  tuned_jacobian E tuned st = Ok tj ->
  match tj with
  | None => forall i r g, nth_error (nw_target st) i = Some r -> nth_error (nw_ests st) i = Some g -> ~ In (t_name r) tuned
  | Some rows => rows = tuned_rows E tuned (index (nw_pos st)) (nw_target st) (nw_ests st) /\ rows <> []
  end.
Proof.
  unfold tuned_jacobian. destruct (tuned_gradients E tuned st) as [|o l] eqn:Ht.
  - intros H; inversion H; subst. intros i r g Hr Hg Hin.
    pose proof (nth_error_In _ _ (nth_error_combine _ _ _ _ _ Hr Hg)) as Hc.
    assert (Hx : In (eo_estimate E g) (tuned_gradients E tuned st)).
    { unfold tuned_gradients. apply in_flat_map. exists (r, g). split; [assumption|]. cbn.
      apply mem_In in Hin. rewrite Hin. left; reflexivity. }
    rewrite Ht in Hx. destruct Hx.
  - rewrite <- Ht. destruct (stack _ _) as [rows|e] eqn:Hs; [|discriminate].
    intros H; inversion H; subst. apply stack_ok in Hs. destruct Hs as [-> Hne]. split; [|assumption].
    clear. unfold tuned_gradients, tuned_rows. induction (combine (nw_target st) (nw_ests st)) as [|[r g] c IH]; cbn; [reflexivity|].
    destruct (mem (t_name r) tuned); cbn; [|assumption].
    destruct (eo_estimate E g); cbn; [|assumption]. f_equal. assumption.
Qed.

(** The estimators of a solver while it suggests. *)
Lemma suggest_spec tuned st st' r :
  length (nw_target st) = length (nw_ests st) ->
  nw_suggest E lstsq tuned st = (st', r) ->
  nw_target st' = nw_target st /\ nw_pos st' = nw_pos st /\ nw_vals st' = nw_vals st /\
  length (nw_ests st') = length (nw_ests st) /\
  (forall i row g, nth_error (nw_target st) i = Some row -> nth_error (nw_ests st) i = Some g ->
     t_desired row = NaN -> nth_error (nw_ests st') i = Some g) /\
  (forall s, r = Ok s -> exists tj,
     match tj with
     | None => forall row, In row (nw_target st) -> ~ In (t_name row) tuned
     | Some rows => rows = tuned_rows E tuned (index (nw_pos st)) (nw_target st) (nw_ests st) /\ rows <> []
     end /\
     ((s <> [] /\ exists k row g g', nth_error (nw_target st) k = Some row /\ nth_error (nw_ests st) k = Some g /\
        t_desired row <> NaN /\ eo_require E (index (nw_pos st)) tj g = (g', Ok (Some s)) /\
        nth_error (nw_ests st') k = Some g' /\
        (forall j, (k < j)%nat -> nth_error (nw_ests st') j = nth_error (nw_ests st) j) /\
        (forall j row' g', (j < k)%nat -> nth_error (nw_target st) j = Some row' ->
           nth_error (nw_ests st) j = Some g' -> t_desired row' <> NaN ->
           exists b, snd (eo_require E (index (nw_pos st)) tj g') = Ok b /\ no_request b)) \/
      (newton_step E lstsq st' = Ok s /\
       (forall j row' g', nth_error (nw_target st) j = Some row' ->
           nth_error (nw_ests st) j = Some g' -> t_desired row' <> NaN ->
           exists b, snd (eo_require E (index (nw_pos st)) tj g') = Ok b /\ no_request b)))).
Proof.
  intros Hlen. unfold nw_suggest. destruct (tuned_jacobian E tuned st) as [tj|e] eqn:Htj.
  2:{ intros H; inversion H; subst. repeat split; auto. discriminate. }
  destruct (ask _ _ _ _) as [gs a] eqn:Ha. apply ask_spec in Ha. destruct Ha as [A1 [A2 A3]].
  rewrite combine_length, Hlen, Nat.min_id in A1.
  assert (Hst : nw_target st' = nw_target st /\ nw_pos st' = nw_pos st /\ nw_vals st' = nw_vals st /\ nw_ests st' = gs /\
     r = (match a with Raise e => Raise e | Ok (Some s) => Ok s | Ok None => newton_step E lstsq st' end) ->
     forall P : Prop, P -> P) by auto. clear Hst.
  intros H.
  assert (Hst' : st' = mk_newton (nw_target st) gs (nw_pos st) (nw_vals st)).
  { destruct a as [[s|]|e]; inversion H; reflexivity. }
  assert (Hr : r = match a with Raise e => Raise e | Ok (Some s) => Ok s | Ok None => newton_step E lstsq st' end).
  { rewrite Hst'. destruct a as [[s|]|e]; inversion H; reflexivity. }
  clear H. rewrite Hst'. cbn [nw_target nw_pos nw_vals nw_ests]. rewrite <- Hst'.
  repeat split; auto.
  { intros i row g H1 H2. apply A2 with (r := row). apply nth_error_combine; assumption. }
  intros s Hs. exists tj. apply tuned_jacobian_spec in Htj. split.
  { destruct tj; [exact Htj|]. intros row Hin. apply In_nth_error in Hin. destruct Hin as [i Hi].
    destruct (nth_error (nw_ests st) i) as [g|] eqn:Hg; [eapply Htj; eauto|].
    apply nth_error_None in Hg. assert (Hi' : nth_error (nw_target st) i <> None) by congruence.
    apply nth_error_Some in Hi'. lia. }
  rewrite Hs in Hr. destruct a as [[s'|]|e]; [..|discriminate].
  - injection Hr as <-. left. destruct A3 as [B1 [k [row [g [g' [B2 [B3 [B4 [B5 [B6 B7]]]]]]]]]]. split; [assumption|].
    apply combine_nth_error in B2. destruct B2 as [B2 B2']. exists k, row, g, g'. repeat split; auto.
    + intros j Hj. destruct (nth_error (nw_ests st) j) as [gj|] eqn:Hgj.
      * destruct (nth_error (nw_target st) j) as [rj|] eqn:Hrj.
        -- apply (B6 j rj gj Hj). apply nth_error_combine; assumption.
        -- apply nth_error_None in Hrj. assert (Hi' : nth_error (nw_ests st) j <> None) by congruence.
           apply nth_error_Some in Hi'. lia.
      * apply nth_error_None in Hgj. apply nth_error_None. lia.
    + intros j row' g0 Hj H1 H2 Hd. apply (B7 j row' g0 Hj); auto. apply nth_error_combine; assumption.
  - right. split; [congruence|]. intros j row' g0 H1 H2 Hd. apply (A3 j row' g0); auto. apply nth_error_combine; assumption.
Qed.

(** Updates. *)
Lemma update_ests_spec t pos : forall gs vals vars gs' a,
  update_ests E t pos gs vals vars = (gs', a) ->
  length gs' = length gs /\
  (forall i g l x, nth_error gs i = Some g -> nth_error vals i = Some (l, x) ->
     get l (t_column Desired t) = NaN -> nth_error gs' i = Some g) /\
  (a = Ok tt -> forall i g l x var, nth_error gs i = Some g -> nth_error vals i = Some (l, x) -> nth_error vars i = Some var ->
     get l (t_column Desired t) <> NaN ->
     exists g', eo_update E pos x var g = (g', Ok tt) /\ nth_error gs' i = Some g').
Proof.
  induction gs as [|g gs IH]; intros vals vars gs' a; cbn.
  { intros H; inversion H; subst. repeat split; auto; intros; destruct i; discriminate. }
  destruct vals as [|[l x] vals]; [|destruct vars as [|var vars]].
  { intros H; inversion H; subst. repeat split; auto; intros; destruct i; discriminate. }
  { intros H; inversion H; subst. repeat split; auto; intros; destruct i; discriminate. }
  destruct (isna (get l (t_column Desired t))) eqn:Hna.
  - destruct (update_ests E t pos gs vals vars) as [r a'] eqn:Hu. intros H; inversion H; subst; clear H.
    destruct (IH _ _ _ _ Hu) as [H1 [H2 H3]]. split; [cbn; congruence|]. split.
    + intros [|i] g0 l0 x0; cbn; [intros K1 K2 _; inversion K1; subst; reflexivity|apply H2].
    + intros Ha [|i] g0 l0 x0 v0; cbn; [|apply H3; assumption].
      intros K1 K2 K3 K4. inversion K2; subst. apply isna_NaN in Hna. contradiction.
  - apply isna_not in Hna. destruct (eo_update E pos x var g) as [g' [[]|e]] eqn:Hg.
    + destruct (update_ests E t pos gs vals vars) as [r a'] eqn:Hu. intros H; inversion H; subst; clear H.
      destruct (IH _ _ _ _ Hu) as [H1 [H2 H3]]. split; [cbn; congruence|]. split.
      * intros [|i] g0 l0 x0; cbn; [intros K1 K2 Hd; inversion K2; subst; contradiction|apply H2].
      * intros Ha [|i] g0 l0 x0 v0; cbn; [|apply H3; assumption].
        intros K1 K2 K3 _. inversion K1; inversion K2; inversion K3; subst. eauto.
    + intros H; inversion H; subst; clear H. split; [reflexivity|]. split; [|discriminate].
      intros [|i] g0 l0 x0; cbn; [intros K1 K2 Hd; inversion K2; subst; contradiction|auto].
Qed.

Lemma desired_of t i row : NoDup (t_index t) -> nth_error t i = Some row -> get (t_name row) (t_column Desired t) = t_desired row.
Proof. intros Hnd Hi. apply nth_error_In in Hi. rewrite (column_get Desired t _ Hnd row Hi eq_refl). reflexivity. Qed.

Lemma select_ok ls s r : select ls s = Ok r -> r = reindex ls s.
Proof. unfold select. destruct ls; [intros H; inversion H; reflexivity|]. destruct (existsb _ _); [|discriminate]. intros H; inversion H; reflexivity. Qed.

Lemma nth_reindex ls s i l : nth_error ls i = Some l -> nth_error (reindex ls s) i = Some (l, get l s).
Proof. intros H. unfold reindex. rewrite nth_error_map, H. reflexivity. Qed.

Lemma update_spec pos vals vars st st' a :
  well_formed st -> nw_update E pos vals vars st = (st', a) ->
  nw_target st' = nw_target st /\ length (nw_ests st') = length (nw_ests st) /\
  (forall i row g, nth_error (nw_target st) i = Some row -> nth_error (nw_ests st) i = Some g ->
     t_desired row = NaN -> nth_error (nw_ests st') i = Some g) /\
  (a = Ok tt ->
     nw_pos st' = reindex (index (nw_pos st)) pos /\ nw_vals st' = reindex (t_index (nw_target st)) vals /\
     (forall i row g l var, nth_error (nw_target st) i = Some row -> nth_error (nw_ests st) i = Some g ->
        t_desired row <> NaN -> nth_error vars i = Some (l, var) ->
        exists g', eo_update E pos (get (t_name row) vals) var g = (g', Ok tt) /\ nth_error (nw_ests st') i = Some g')).
Proof.
  intros [W1 [W2 W3]]. unfold nw_update. destruct (select (index (nw_vals st)) vals) as [vs|e] eqn:Hs.
  2:{ intros H; inversion H; subst. repeat split; auto; discriminate. }
  apply select_ok in Hs. rewrite W2 in Hs. subst vs.
  destruct (update_ests _ _ _ _ _ _) as [gs a'] eqn:Hu. apply update_ests_spec in Hu. destruct Hu as [U1 [U2 U3]].
  assert (Hn : forall i row, nth_error (nw_target st) i = Some row ->
     nth_error (reindex (t_index (nw_target st)) vals) i = Some (t_name row, get (t_name row) vals)).
  { intros i row Hi. apply nth_reindex. unfold t_index. rewrite nth_error_map, Hi. reflexivity. }
  assert (HA : forall i row g, nth_error (nw_target st) i = Some row -> nth_error (nw_ests st) i = Some g ->
     t_desired row = NaN -> nth_error gs i = Some g).
  { intros i row g Hi Hg Hd. eapply U2; eauto. rewrite (desired_of _ i); auto. }
  destruct a' as [[]|e].
  2:{ intros H; inversion H; subst. cbn. repeat split; auto; discriminate. }
  destruct (select (index (nw_pos st)) pos) as [p|e] eqn:Hp.
  2:{ intros H; inversion H; subst. cbn. repeat split; auto; discriminate. }
  intros H; inversion H; subst; cbn. repeat split; auto.
  - apply select_ok; assumption.
  - intros i row g l var Hi Hg Hd Hv. eapply (U3 eq_refl); eauto.
    + rewrite nth_error_map, Hv. reflexivity.
    + rewrite (desired_of _ i); auto.
Qed.

Lemma update_wf pos vals vars st : well_formed st -> well_formed (fst (nw_update E pos vals vars st)).
Proof.
  intros Hwf. destruct (nw_update E pos vals vars st) as [st' a] eqn:Hu.
  pose proof (update_spec _ _ _ _ _ _ Hwf Hu) as [U1 [U2 _]]. destruct Hwf as [W1 [W2 W3]]. cbn. unfold well_formed.
  rewrite U1, U2. repeat split; auto. revert Hu. unfold nw_update.
  destruct (select (index (nw_vals st)) vals) as [vs|] eqn:Hs; [|intros H; inversion H; subst; assumption].
  destruct (update_ests _ _ _ _ _ _) as [gs [[]|]]; [|intros H; inversion H; subst; assumption].
  destruct (select (index (nw_pos st)) pos); [|intros H; inversion H; subst; assumption].
  intros H; inversion H; subst. cbn. apply select_ok in Hs. subst. rewrite reindex_tab, index_tab. assumption.
Qed.

(** *** C21 *)
Lemma fill_sub_wanted d v : fin_or_nan d -> fin_or_nan v -> fill_sub d v = wanted d v.
Proof. destruct d, v; cbn; intros H1 H2; try contradiction; f_equal; try ring; reflexivity. Qed.

Lemma rows_all (gs : list (option series)) :
  length (flat_map (fun g => match g with Some s => [s] | None => [] end) gs) = length gs ->
  gs = map Some (flat_map (fun g => match g with Some s => [s] | None => [] end) gs).
Proof.
  assert (Hle : forall gs : list (option series), (length (flat_map (fun g => match g with Some s => [s] | None => [] end) gs) <= length gs)%nat).
  { induction gs0 as [|[g|] gs0 IH]; cbn; lia. }
  induction gs as [|[g|] gs IH]; cbn; intros H; [reflexivity|f_equal; apply IH; lia|].
  specialize (Hle gs). lia.
Qed.

Lemma step_inputs st s :
  length (nw_target st) = length (nw_ests st) -> index (nw_vals st) = t_index (nw_target st) ->
  newton_step E lstsq st = Ok s ->
  exists grads diffs step,
    map (eo_estimate E) (nw_ests st) = map Some grads /\
    lstsq (map (fun g => map (fun l => (l, get l g)) (index (nw_pos st))) grads) diffs = Ok step /\
    length diffs = length (nw_target st) /\
    (forall i row, nth_error (nw_target st) i = Some row ->
       fin_or_nan (t_desired row) -> fin_or_nan (get (t_name row) (nw_vals st)) ->
       nth_error diffs i = Some (wanted (t_desired row) (get (t_name row) (nw_vals st)))) /\
    s = add_array (nw_pos st) step.
Proof.
  intros W1 W2. unfold newton_step. destruct (stack _ _) as [rows|] eqn:Hs; [|discriminate].
  apply stack_ok in Hs. destruct Hs as [-> Hne]. rewrite map_length.
  destruct (Nat.eqb_spec (length (flat_map (fun g => match g with Some s0 => [s0] | None => [] end) (map (eo_estimate E) (nw_ests st)))) (length (nw_target st))) as [Heq|]; [|discriminate].
  destruct (lstsq _ _) as [step|] eqn:Hl; [|discriminate]. intros H; inversion H; subst; clear H.
  eexists _, _, step. split; [apply rows_all; rewrite Heq, map_length; assumption|].
  split; [exact Hl|]. unfold required_diff. rewrite map_length. split; [reflexivity|]. split; [|reflexivity].
  intros i row Hi Hd Hv. rewrite nth_error_map, Hi. cbn. rewrite fill_sub_wanted; auto.
Qed.

(** *** C52 *)
Lemma step_needs_gradients st g :
  length (nw_target st) = length (nw_ests st) ->
  In g (nw_ests st) -> eo_estimate E g = None ->
  exists e, newton_step E lstsq st = Raise e.
Proof.
  intros W1 Hin Hg. destruct (newton_step E lstsq st) as [s|e] eqn:Hs; [|eauto].
  exfalso. unfold newton_step in Hs. destruct (stack _ _) as [rows|] eqn:Hst; [|discriminate].
  apply stack_ok in Hst. destruct Hst as [-> _]. rewrite map_length in Hs.
  destruct (Nat.eqb_spec (length (flat_map (fun g => match g with Some s0 => [s0] | None => [] end) (map (eo_estimate E) (nw_ests st)))) (length (nw_target st))) as [Heq|]; [|discriminate].
  assert (Hr : map (eo_estimate E) (nw_ests st) = map Some (flat_map (fun g => match g with Some s0 => [s0] | None => [] end) (map (eo_estimate E) (nw_ests st)))).
  { apply rows_all. rewrite Heq, map_length. assumption. }
  assert (Hn : In None (map (eo_estimate E) (nw_ests st))) by (rewrite <- Hg; apply in_map; assumption).
  rewrite Hr in Hn. apply in_map_iff in Hn. destruct Hn as [x [Hx _]]. discriminate.
Qed.

Lemma suggest_wf tuned st : well_formed st -> well_formed (fst (nw_suggest E lstsq tuned st)).
Proof.
  intros [W1 [W2 W3]]. destruct (nw_suggest E lstsq tuned st) as [st' r] eqn:Hs. apply suggest_spec in Hs; [|assumption].
  destruct Hs as [S1 [S2 [S3 [S4 _]]]]. cbn. unfold well_formed. rewrite S1, S3, S4. auto.
Qed.

Lemma restart_ests_spec v : forall gs gs' a, restart_ests E v gs = (gs', a) ->
  length gs' = length gs /\
  forall i g, nth_error gs i = Some g -> nth_error gs' i = Some g \/ nth_error gs' i = Some (fst (eo_restart E v g)).
Proof.
  induction gs as [|g gs IH]; intros gs' a; cbn.
  - intros H; inversion H; subst. split; [reflexivity|]. intros [|i]; discriminate.
  - destruct (eo_restart E v g) as [g' [u|e]] eqn:Hg.
    + destruct (restart_ests E v gs) as [r a'] eqn:Hr. intros H; inversion H; subst; clear H.
      destruct (IH _ _ eq_refl) as [H1 H2]. split; [cbn; congruence|]. intros [|i] g0; cbn; [|apply H2].
      intros H; inversion H; subst. right. rewrite Hg. reflexivity.
    + intros H; inversion H; subst; clear H. split; [reflexivity|]. intros [|i] g0; cbn; [|auto].
      intros H; inversion H; subst. right. rewrite Hg. reflexivity.
Qed.

Lemma index_set_label l v s : index (set_label l v s) = index s.
Proof. induction s as [|[k w] s IH]; cbn; [reflexivity|]. destruct (label_eqb l k); cbn; [reflexivity|]. unfold index in *. congruence. Qed.

Lemma blocked_step op st :
  (forall v g, eo_estimate E g = None -> eo_estimate E (fst (eo_restart E v g)) = None) ->
  blocked E st -> blocked E (nw_do E lstsq op st).
Proof.
  intros Hrs [Hwf [i [row [g [H1 [H2 [H3 H4]]]]]]]. destruct op as [tuned|p v w|v|v]; cbn.
  - split; [apply suggest_wf; assumption|]. destruct Hwf as [W1 [W2 W3]].
    destruct (nw_suggest E lstsq tuned st) as [st' r] eqn:Hs. apply suggest_spec in Hs; [|assumption].
    destruct Hs as [S1 [S2 [S3 [S4 [S5 _]]]]]. exists i, row, g. cbn. rewrite S1. repeat split; auto. eapply S5; eauto.
  - split; [apply update_wf; assumption|].
    destruct (nw_update E p v w st) as [st' r] eqn:Hs. apply update_spec in Hs; [|assumption].
    destruct Hs as [S1 [S2 [S3 _]]]. exists i, row, g. cbn. rewrite S1. repeat split; auto. eapply S3; eauto.
  - split; [exact Hwf|]. exists i, row, g. auto.
  - unfold nw_restart. destruct (restart_ests E v (nw_ests st)) as [gs a] eqn:Hr. apply restart_ests_spec in Hr.
    destruct Hr as [R1 R2]. destruct Hwf as [W1 [W2 W3]].
    assert (Hb : forall p, blocked E (mk_newton (nw_target st) gs p (nw_vals st))).
    { intros p. split; [unfold well_formed; cbn; repeat split; auto; congruence|]. cbn.
      destruct (R2 i g H2) as [Hg|Hg]; [exists i, row, g|exists i, row, (fst (eo_restart E v g))]; auto. }
    destruct a as [u|e]; cbn; apply Hb.
Qed.

Lemma blocked_run ops : forall st,
  (forall v g, eo_estimate E g = None -> eo_estimate E (fst (eo_restart E v g)) = None) ->
  blocked E st -> blocked E (nw_run E lstsq ops st).
Proof.
  induction ops as [|op ops IH]; intros st Hrs Hb; [exact Hb|]. cbn. apply IH; [assumption|]. apply blocked_step; assumption.
Qed.

Lemma blocked_suggest tuned st s :
  blocked E st -> snd (nw_suggest E lstsq tuned st) = Ok s ->
  exists tj k g, nth_error (nw_ests st) k = Some g /\ snd (eo_require E (index (nw_pos st)) tj g) = Ok (Some s).
Proof.
  intros [Hwf [i [row [g [H1 [H2 [H3 H4]]]]]]] Hs.
  destruct (nw_suggest E lstsq tuned st) as [st' r] eqn:Hsg. cbn in Hs. subst r.
  destruct Hwf as [W1 [W2 W3]]. apply suggest_spec in Hsg; [|assumption].
  destruct Hsg as [S1 [S2 [S3 [S4 [S5 S6]]]]]. destruct (S6 s eq_refl) as [tj [_ [[_ [k [row' [g1 [g' [K1 [K2 [K3 [K4 _]]]]]]]]]|[Hst _]]]].
  - exists tj, k, g1. rewrite K4. auto.
  - exfalso. destruct (step_needs_gradients st' g) as [e He]; [congruence| |assumption|congruence].
    eapply nth_error_In. eapply S5; eauto.
Qed.
End N.
