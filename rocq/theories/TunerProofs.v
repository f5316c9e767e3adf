From Verif Require Import PyBase TargetModel TunerModel TunerSpec SeriesLemmas.
From Coq Require Import Lra ZArith.

Section P.
Context {S X : Type} (O : solver_ops S) (evals : X -> X * res (series * series)) (L : limits).

Local Ltac un :=
  unfold subset_is_tuned, evaluate, subset_next, tuner_restart, tuner_set_target,
    sd_is_tuned, sd_next, sd_evaluate;
  unfold tbind, temit, tget, tput, tsolver, teval, tlift, ttarget, tret, traise; cbn.

Local Arguments index : simpl never.
Local Arguments within_tolerance : simpl never.
Local Arguments any_na : simpl never.

(** *** Rows and tolerances *)
Lemma factor_row t r : NoDup (t_index t) -> In r t -> factor t (t_name r) = t_rescale r.
Proof.
  unfold factor. induction t as [|q t IH]; intros Hnd Hin; [destruct Hin|].
  cbn in *. inversion Hnd; subst. unfold label_eqb. destruct (String.eqb_spec (t_name q) (t_name r)) as [He|Hne].
  - destruct Hin as [->|Hin]; [reflexivity|]. exfalso. apply H1. rewrite He. apply in_map. assumption.
  - destruct Hin as [->|Hin]; [congruence|]. apply IH; assumption.
Qed.

Lemma select_tab ls s p : select ls s = Ok p -> p = tab ls (fun l => get l s).
Proof.
  unfold select. destruct ls as [|l ls]; [intros H; inversion H; reflexivity|].
  destruct (existsb _ _); [|discriminate]. intros H; inversion H. reflexivity.
Qed.

Lemma rescale_tab t ls f ls' g :
  rescale_values t (tab ls f) (tab ls' g) =
  (tab ls (fun l => ndiv (f l) (factor t l)),
   tab ls' (fun l => ndiv (g l) (nmul (factor t l) (factor t l)))).
Proof. unfold rescale_values, tab. rewrite !map_map. reflexivity. Qed.

Lemma row_check r x :
  plain_row r ->
  nltb (fillna (Fin 0) (nabs (nsub (t_desired r) (ndiv x (t_rescale r)))))
       (fillna PInf (t_tolerance r)) = true <-> row_met r x.
Proof.
  intros [Hd [Ht [Hf Hf0]]]. unfold row_met, nsub.
  assert (H0 : forall u, fin_or_nan u ->
     (nltb (Fin 0) (fillna PInf u) = true <-> forall tol, u = Fin tol -> (0 < tol)%R)).
  { intros u Hu. destruct u; cbn in *; try contradiction.
    - split; [discriminate|reflexivity].
    - rewrite Rltb_true. split; [intros H tol E; inversion E; subst; assumption|intros H; apply H; reflexivity]. }
  destruct (t_desired r) as [| | |d]; cbn in Hd; try contradiction; [apply (H0 _ Ht)|].
  destruct (t_rescale r) as [| | |f]; cbn in Hf; try contradiction.
  - destruct x; cbn; apply (H0 _ Ht).
  - assert (Hne : Reqb f 0 = false). { apply Reqb_false. intros ->. apply Hf0; reflexivity. }
    destruct x as [| | |m]; cbn.
    + apply (H0 _ Ht).
    + destruct (Rltb f 0); cbn; destruct (t_tolerance r); cbn in *; try contradiction; split; discriminate || contradiction.
    + destruct (Rltb f 0); cbn; destruct (t_tolerance r); cbn in *; try contradiction; split; discriminate || contradiction.
    + rewrite Hne. cbn. destruct (t_tolerance r); cbn in *; try contradiction.
      * split; [discriminate|reflexivity].
      * rewrite Rltb_true. unfold Rminus. split; [intros H tol E; inversion E; subst; assumption|intros H; apply H; reflexivity].
Qed.

(** *** C09 *)
Lemma subset_tuned_iff v s s' b :
  let T := so_target O (ts_s s) in
  (forall v p var st, so_target O (fst (so_update O v p var st)) = so_target O st) ->
  NoDup (t_index T) -> Forall plain_row T ->
  t_queue (ts_t s) = 0%Z ->
  subset_is_tuned O evals v s = (s', Ok b) ->
  exists raw rawvar, snd (evals (ts_x s)) = Ok (raw, rawvar) /\
    (b = true <->
     (forall l, In l (index (t_params (ts_t s))) ->
        exists r, In r T /\ t_name r = l /\ ~ missing (get l raw) (t_rescale r)) /\
     (forall r, In r T -> row_met r (get (t_name r) raw))).
Proof.
  intros T HT Hnd Hpl Hq. un. rewrite Hq; cbn.
  destruct (evals (ts_x s)) as [x' [[raw rawvar]|e]]; cbn; [|discriminate].
  fold T. destruct (select (t_index T) raw) as [p|] eqn:Hp; cbn; [|discriminate].
  destruct (select (t_index T) rawvar) as [var|] eqn:Hv; cbn; [|discriminate].
  apply select_tab in Hp, Hv. subst p var.
  pose proof (rescale_tab T (t_index T) (fun l => get l raw) (t_index T) (fun l => get l rawvar)) as Hrs.
  unfold rescale_values in Hrs. injection Hrs as Hrs1 Hrs2. fold T. rewrite Hrs1, Hrs2. clear Hrs1 Hrs2.
  set (P := fun l : label => ndiv (get l raw) (factor T l)).
  set (ps := index (t_params (ts_t s))).
  destruct (select ps (tab (t_index T) P)) as [lp|] eqn:Hlp; cbn; [|discriminate].
  apply select_tab in Hlp.
  destruct (select (index lp) _) as [lv|] eqn:Hlv; cbn; [|discriminate].
  assert (Hna : any_na lp = false <-> forall l, In l ps -> exists r, In r T /\ t_name r = l /\ ~ missing (get l raw) (t_rescale r)).
  { subst lp. unfold any_na, tab. rewrite <- not_true_iff_false, existsb_exists. split.
    - intros H l Hl. destruct (in_dec string_dec l (t_index T)) as [Hin|Hout].
      + unfold t_index in Hin. apply in_map_iff in Hin. destruct Hin as [r [Hr Hin]].
        exists r. repeat split; auto. intros Hm. apply H. exists (l, NaN). split; [|reflexivity].
        apply in_map_iff. exists l. split; [|assumption]. f_equal. fold (tab (t_index T) P).
        rewrite get_tab by (unfold t_index; rewrite <- Hr; apply in_map; assumption).
        unfold P. rewrite <- Hr, factor_row by assumption. rewrite Hr. exact Hm.
      + exfalso. apply H. exists (l, NaN). split; [|reflexivity]. apply in_map_iff. exists l. split; [|assumption].
        f_equal. apply get_tab_out. assumption.
    - intros H [q [Hin Hq']]. apply in_map_iff in Hin. destruct Hin as [l [<- Hl]]. cbn in Hq'.
      destruct (H l Hl) as [r [Hr [Hn Hm]]]. apply Hm. unfold missing.
      fold (tab (t_index T) P) in Hq'.
      rewrite get_tab in Hq' by (unfold t_index; rewrite <- Hn; apply in_map; assumption).
      unfold P in Hq'. rewrite <- Hn, factor_row in Hq' by assumption. rewrite Hn in Hq'.
      destruct (ndiv (get l raw) (t_rescale r)); try discriminate. reflexivity. }
  destruct (any_na lp) eqn:Hany; cbn.
  - intros H; inversion H; subst; clear H. exists raw, rawvar. split; [reflexivity|].
    split; [discriminate|]. intros [H1 _]. apply Hna in H1. discriminate.
  - destruct (so_update O v _ _ (ts_s s)) as [S' r] eqn:Hu; cbn.
    assert (HT' : so_target O S' = T).
    { specialize (HT v (tab (t_index T) P) (tab (t_index T) (fun l : label => ndiv (get l rawvar) (nmul (factor T l) (factor T l)))) (ts_s s)).
      rewrite Hu in HT. exact HT. }
    destruct r as [u|e]; cbn; [|discriminate]. rewrite HT'.
    assert (Hw : within_tolerance T (tab (t_index T) P) = true <-> forall r, In r T -> row_met r (get (t_name r) raw)).
    { unfold within_tolerance. rewrite forallb_forall. split; intros H r Hr.
      - apply row_check; [rewrite Forall_forall in Hpl; auto|]. specialize (H r Hr).
        rewrite get_tab in H by (apply in_map; assumption). unfold P in H.
        rewrite factor_row in H by assumption. exact H.
      - rewrite get_tab by (apply in_map; assumption). unfold P. rewrite factor_row by assumption.
        apply row_check; [rewrite Forall_forall in Hpl; auto|]. apply H; assumption. }
    destruct (within_tolerance T (tab (t_index T) P)); cbn; intros H; inversion H; subst; clear H;
      exists raw, rawvar; split; try reflexivity.
    + split; [intros _|reflexivity]. split; [apply Hna; reflexivity|apply Hw; reflexivity].
    + split; [discriminate|]. intros [_ H2]. apply Hw in H2. discriminate.
Qed.

(** *** C10 *)
Lemma failed_evaluation v s x' raw rawvar p var lp lv l :
  let T := so_target O (ts_s s) in
  t_queue (ts_t s) = 0%Z ->
  evals (ts_x s) = (x', Ok (raw, rawvar)) ->
  select (t_index T) raw = Ok p -> select (t_index T) rawvar = Ok var ->
  select (index (t_params (ts_t s))) (fst (rescale_values T p var)) = Ok lp ->
  select (index lp) (snd (rescale_values T p var)) = Ok lv ->
  In (l, NaN) lp ->
  exists s', subset_is_tuned O evals v s = (s', Ok false) /\
    t_failed (ts_t s') = true /\ t_evaluatable (ts_t s') = t_evaluatable (ts_t s) /\
    t_tuned (ts_t s') = t_tuned (ts_t s) /\ ts_s s' = ts_s s /\
    exists evs, ts_tr s' = evs ++ ts_tr s /\ filter is_update evs = [].
Proof.
  intros T Hq He Hp Hv Hlp Hlv Hin. un. rewrite Hq; cbn. rewrite He; cbn. fold T. rewrite Hp; cbn. rewrite Hv; cbn.
  cbn in Hlp, Hlv. fold T. rewrite Hlp; cbn. rewrite Hlv; cbn.
  assert (Hna : any_na lp = true). { apply existsb_exists. exists (l, NaN). auto. }
  rewrite Hna. eexists. split; [reflexivity|]. cbn. repeat split.
  exists [TEval true (Ok (raw, rawvar)); TEnter v]. split; reflexivity.
Qed.

(** The same without reference to intermediate results. *)
Lemma failed_evaluation_raw v s s' r raw rawvar l :
  let T := so_target O (ts_s s) in
  NoDup (t_index T) ->
  t_queue (ts_t s) = 0%Z ->
  snd (evals (ts_x s)) = Ok (raw, rawvar) ->
  In l (index (t_params (ts_t s))) ->
  (forall row, In row T -> t_name row = l -> missing (get l raw) (t_rescale row)) ->
  subset_is_tuned O evals v s = (s', r) ->
  ((r = Ok false /\ t_failed (ts_t s') = true) \/ exists e, r = Raise e) /\
  t_evaluatable (ts_t s') = t_evaluatable (ts_t s) /\ t_tuned (ts_t s') = t_tuned (ts_t s) /\
  ts_s s' = ts_s s /\ exists evs, ts_tr s' = evs ++ ts_tr s /\ filter is_update evs = [].
Proof.
  intros T Hnd Hq He Hl Hm. un. rewrite Hq; cbn.
  destruct (evals (ts_x s)) as [x' r0]; cbn in He |- *. subst r0. cbn.
  assert (Hevs : exists evs, TEval true (Ok (raw, rawvar)) :: TEnter v :: ts_tr s = evs ++ ts_tr s /\ filter is_update evs = []).
  { exists [TEval true (Ok (raw, rawvar)); TEnter v]. split; reflexivity. }
  fold T. destruct (select (t_index T) raw) as [p|] eqn:Hp; cbn; [|intros H; inversion H; subst; cbn; eauto 10].
  destruct (select (t_index T) rawvar) as [var|] eqn:Hv; cbn; [|intros H; inversion H; subst; cbn; eauto 10].
  fold T.
  destruct (select (index (t_params (ts_t s))) _) as [lp|] eqn:Hlp; cbn; [|intros H; inversion H; subst; cbn; eauto 10].
  destruct (select (index lp) _) as [lv|] eqn:Hlv; cbn; [|intros H; inversion H; subst; cbn; eauto 10].
  assert (Hna : any_na lp = true).
  { apply existsb_exists. exists (l, NaN). split; [|reflexivity].
    apply select_tab in Hlp. rewrite Hlp. apply in_map_iff. exists l. split; [|assumption]. f_equal.
    apply select_tab in Hp. subst p.
    replace (map (fun q : label * num => (fst q, ndiv (snd q) (factor T (fst q)))) (tab (t_index T) (fun l0 => get l0 raw)))
      with (tab (t_index T) (fun l0 => ndiv (get l0 raw) (factor T l0))) by (unfold tab; rewrite map_map; reflexivity).
    destruct (in_dec string_dec l (t_index T)) as [Hi|Ho].
    - rewrite get_tab by assumption. apply in_map_iff in Hi. destruct Hi as [row [Hn Hr]].
      rewrite <- Hn at 2. rewrite factor_row by assumption. apply Hm; assumption.
    - apply get_tab_out. assumption. }
  rewrite Hna. cbn. intros H; inversion H; subst; cbn; eauto 10.
Qed.

(** Trace entries that justify an evaluatable voltage vector. *)
Definition justified (rel : list label) (tr : list tevent) (v : series) : Prop :=
  exists newer older raw, tr = newer ++ TEval true (Ok raw) :: TEnter v :: older /\
    forall l, In l rel -> get l (fst raw) <> NaN.

Definition J (rel : list label) (s : tsys S X) : Prop :=
  index (t_params (ts_t s)) = rel /\
  (forall v, In v (t_evaluatable (ts_t s)) -> justified rel (ts_tr s) v) /\
  incl (t_tuned (ts_t s)) (t_evaluatable (ts_t s)).

Lemma justified_mono rel tr evs v : justified rel tr v -> justified rel (evs ++ tr) v.
Proof.
  intros [newer [older [raw [-> H]]]]. exists (evs ++ newer), older, raw. rewrite <- app_assoc. auto.
Qed.
Lemma justified_cons rel tr ev v : justified rel tr v -> justified rel (ev :: tr) v.
Proof. apply (justified_mono rel tr [ev]). Qed.

Lemma select_index ls s p : select ls s = Ok p -> index p = ls.
Proof. intros H. apply select_tab in H. subst. apply index_tab. Qed.

Lemma ndiv_nan f : ndiv NaN f = NaN.
Proof. reflexivity. Qed.

Lemma is_tuned_J rel v s : J rel s -> J rel (fst (subset_is_tuned O evals v s)).
Proof.
  intros [HI [HJ HT]]. un.
  destruct (t_queue (ts_t s) =? 0)%Z eqn:Hq; cbn.
  2:{ destruct (so_set_position O v (ts_s s)) as [S' [u|e]]; cbn; (split; [exact HI|split; [|exact HT]]);
      intros w Hw; cbn; apply justified_cons, justified_cons; auto. }
  destruct (evals (ts_x s)) as [x' [[raw rawvar]|e]]; cbn.
  2:{ split; [exact HI|split; [|exact HT]]. intros w Hw; cbn. apply justified_cons, justified_cons; auto. }
  assert (Hkeep : forall w, In w (t_evaluatable (ts_t s)) ->
     justified rel (TEval true (Ok (raw, rawvar)) :: TEnter v :: ts_tr s) w).
  { intros w Hw. apply justified_cons, justified_cons; auto. }
  set (T := so_target O (ts_s s)).
  destruct (select (t_index T) raw) as [p|] eqn:Hp; cbn; [|repeat split; assumption].
  destruct (select (t_index T) rawvar) as [var|] eqn:Hv; cbn; [|repeat split; assumption].
  destruct (select (index (t_params (ts_t s))) _) as [lp|] eqn:Hlp; cbn; [|repeat split; assumption].
  pose proof (select_index _ _ _ Hlp) as Hidx. rewrite HI in Hidx.
  destruct (select (index lp) _) as [lv|] eqn:Hlv; cbn; [|repeat split; assumption].
  destruct (any_na lp) eqn:Hna; cbn; [repeat split; assumption|].
  assert (Hnew : justified rel (TEval true (Ok (raw, rawvar)) :: TEnter v :: ts_tr s) v).
  { exists [], (ts_tr s), (raw, rawvar). split; [reflexivity|]. intros l Hl Hg. cbn in Hg.
    assert (any_na lp = true); [|congruence]. apply existsb_exists. exists (l, NaN). split; [|reflexivity].
    apply select_tab in Hlp. rewrite Hlp. apply in_map_iff. exists l. split; [|rewrite HI; assumption]. f_equal.
    apply select_tab in Hp. subst p. fold T.
    replace (map (fun q : label * num => (fst q, ndiv (snd q) (factor T (fst q)))) (tab (t_index T) (fun l0 => get l0 raw)))
      with (tab (t_index T) (fun l0 => ndiv (get l0 raw) (factor T l0))) by (unfold tab; rewrite map_map; reflexivity).
    destruct (in_dec string_dec l (t_index T)) as [Hi|Ho].
    - rewrite get_tab by assumption. rewrite Hg. reflexivity.
    - apply get_tab_out. assumption. }
  destruct (so_update O v _ _ (ts_s s)) as [S' [u|e]]; cbn.
  2:{ split; [exact Hidx|]. split; cbn; [|intros w Hw; right; auto].
      intros w [<-|Hw]; apply justified_cons; auto. }
  destruct (within_tolerance _ _); cbn.
  - split; [exact Hidx|]. split; cbn.
    + intros w [<-|Hw]; apply justified_cons; auto.
    + intros w [<-|Hw]; [left; reflexivity|right; auto].
  - split; [exact Hidx|]. split; cbn.
    + intros w [<-|Hw]; apply justified_cons; auto.
    + intros w Hw. right; auto.
Qed.

Lemma next_J rel tuned s : J rel s -> J rel (fst (subset_next O L tuned s)).
Proof.
  intros [HI [HJ HT]]. un.
  destruct (t_failed (ts_t s)); cbn.
  - destruct (t_evaluatable (ts_t s)) eqn:He; cbn; (split; [exact HI|split; [rewrite He; exact HJ|rewrite He; exact HT]]).
  - destruct (so_suggest O tuned (ts_s s)) as [S' [sol|e]]; cbn.
    2:{ split; [exact HI|split; [|exact HT]]; intros w Hw; cbn; apply justified_cons; auto. }
    assert (Hk : forall t, index (t_params t) = rel -> t_evaluatable t = t_evaluatable (ts_t s) ->
       t_tuned t = t_tuned (ts_t s) ->
       J rel (mk_tsys t S' (ts_x s) (TSuggest tuned (Ok sol) :: ts_tr s))).
    { intros t H1 H2 H3. split; [exact H1|]. cbn. rewrite H2, H3. split; [|exact HT].
      intros w Hw; apply justified_cons; auto. }
    destruct (assign _ sol) as [new|e]; cbn; [|apply Hk; auto].
    destruct (nltb (l_size L) _); cbn; [|apply Hk; auto].
    destruct (queue_after L _ _) as [q|e]; cbn; apply Hk; auto.
Qed.

Lemma restart_J rel v s : J rel s -> J rel (fst (tuner_restart O v s)).
Proof.
  intros [HI [HJ HT]]. un.
  destruct (so_restart O v (ts_s s)) as [S' r]; cbn.
  unfold set_last_voltages. destruct (t_last (ts_t s)) as [[|]|]; cbn; split; cbn; auto.
Qed.
Lemma target_J rel ch s : J rel s -> J rel (fst (tuner_set_target O ch s)).
Proof.
  intros [HI [HJ HT]]. un.
  destruct (so_set_target O ch (ts_s s)) as [S' r]; cbn. split; cbn; auto.
Qed.

Lemma run_J rel ops : forall s, J rel s -> J rel (subset_run O evals L s ops).
Proof.
  induction ops as [|o ops IH]; intros s H; [exact H|]. cbn [subset_run fold_left].
  apply IH. destruct o; unfold subset_step; auto using is_tuned_J, next_J, restart_J, target_J.
Qed.

Lemma fresh_J rel st x : J rel (mk_tsys (fresh_tuner rel) st x []).
Proof.
  split; cbn; [|split; [intros ? []|intros ? []]].
  unfold index. rewrite map_map. cbn. apply map_id.
Qed.

(** *** C11 *)
Lemma midpoint_vec ls f h :
  midpoint (vec ls f) (vec ls h) = vec ls (fun l => / 2 * (f l + h l))%R.
Proof.
  unfold midpoint. rewrite sadd_vec, vec_tab, smap_tab. apply tab_ext. intros l _. cbn. f_equal. lra.
Qed.

(** [k] rounds of recovery: new voltages are computed and fail again. *)
Inductive recovery : nat -> tsys S X -> tsys S X -> Prop :=
| rec_0 s : recovery 0 s s
| rec_S k s s1 tuned v s2 s3 :
    recovery k s s1 ->
    subset_next O L tuned s1 = (s2, Ok v) ->
    subset_is_tuned O evals v s2 = (s3, Ok false) -> t_failed (ts_t s3) = true ->
    recovery (Datatypes.S k) s s3.

Lemma next_failed tuned (s : tsys S X) good rest last :
  t_failed (ts_t s) = true -> t_evaluatable (ts_t s) = good :: rest -> t_last (ts_t s) = Some last ->
  subset_next O L tuned s = (s, Ok (midpoint good last)).
Proof. intros H1 H2 H3. un. rewrite H1, H2, H3. reflexivity. Qed.

Lemma is_tuned_still_failed v s s' b :
  subset_is_tuned O evals v s = (s', Ok b) -> t_failed (ts_t s') = true ->
  t_last (ts_t s') = Some v /\ t_evaluatable (ts_t s') = t_evaluatable (ts_t s).
Proof.
  un. destruct (t_queue (ts_t s) =? 0)%Z; cbn.
  2:{ destruct (so_set_position O v (ts_s s)) as [S' [u|e]]; cbn; [|discriminate].
      intros H; inversion H; subst; cbn. auto. }
  destruct (evals (ts_x s)) as [x' [[raw rawvar]|e]]; cbn; [|discriminate].
  destruct (select _ raw) as [p|]; cbn; [|discriminate].
  destruct (select _ rawvar) as [var|]; cbn; [|discriminate].
  destruct (select (index (t_params (ts_t s))) _) as [lp|]; cbn; [|discriminate].
  destruct (select (index lp) _) as [lv|]; cbn; [|discriminate].
  destruct (any_na lp); cbn; [intros H; inversion H; subst; cbn; auto|].
  destruct (so_update O v _ _ (ts_s s)) as [S' [u|e]]; cbn; [|discriminate].
  destruct (within_tolerance _ _); cbn; intros H; inversion H; subst; cbn; discriminate.
Qed.

Lemma recovery_halves k s s' ls good bad rest :
  t_failed (ts_t s) = true -> t_evaluatable (ts_t s) = vec ls good :: rest ->
  t_last (ts_t s) = Some (vec ls bad) ->
  recovery k s s' ->
  t_failed (ts_t s') = true /\ t_evaluatable (ts_t s') = vec ls good :: rest /\
  t_last (ts_t s') = Some (vec ls (fun l => good l + (bad l - good l) / 2 ^ k)%R).
Proof.
  intros Hf He Hl HR. induction HR as [s|k s s1 tuned v s2 s3 HR IH Hn Ht Hf3].
  - repeat split; auto. rewrite Hl. f_equal. apply vec_ext. intros. cbn. field.
  - destruct (IH Hf He Hl) as [IH1 [IH2 IH3]].
    rewrite (next_failed tuned s1 _ _ _ IH1 IH2 IH3) in Hn. inversion Hn; subst; clear Hn.
    destruct (is_tuned_still_failed _ _ _ _ Ht Hf3) as [Hl3 He3].
    repeat split; auto; [congruence|]. rewrite Hl3. f_equal. rewrite midpoint_vec. apply vec_ext.
    intros l _. cbn [pow]. field. apply pow_nonzero. lra.
Qed.

Lemma recovery_impossible tuned (s : tsys S X) :
  t_failed (ts_t s) = true -> t_evaluatable (ts_t s) = [] ->
  subset_next O L tuned s = (s, Raise IndexError).
Proof. intros H1 H2. un. rewrite H1, H2. reflexivity. Qed.

(** *** C12, C13 *)
Lemma nltb_fin a b : nltb (Fin a) (Fin b) = Rltb a b.
Proof. reflexivity. Qed.

Lemma trunc_pos m d : (0 < m)%R -> (m < d)%R ->
  exists k, trunc (ndiv (Fin d) (Fin m)) = Ok k /\ (1 <= k)%Z /\ (IZR k <= d / m < IZR k + 1)%R.
Proof.
  intros Hm Hd. cbn. assert (Hm0 : Reqb m 0 = false) by (apply Reqb_false; lra). rewrite Hm0.
  assert (Hq : (1 < d / m)%R). { apply Rmult_lt_reg_r with m; [lra|]. unfold Rdiv. rewrite Rmult_assoc, Rinv_l by lra. lra. }
  cbn. assert (Hle : Rleb 0 (d / m) = true) by (apply Rleb_true; lra). rewrite Hle.
  exists (Int_part (d / m)). split; [reflexivity|].
  destruct (base_Int_part (d / m)) as [H1 H2]. split; [|lra].
  apply Z.lt_succ_r || idtac.
  assert (H3 : (0 < Int_part (d / m) + 0)%Z \/ (Int_part (d / m) <= 0)%Z) by lia.
  destruct H3 as [H3|H3]; [lia|]. exfalso. apply IZR_le in H3. lra.
Qed.

Definition moved ls' (h f : label -> R) (l : label) : R := if mem l ls' then h l else f l.

Lemma step_vec ls ls' h f :
  ssub (vec ls (moved ls' h f)) (vec ls f) = vec ls (step_to ls' h f).
Proof.
  rewrite ssub_vec. apply vec_ext. intros l _. unfold moved, step_to. destruct (mem l ls'); ring.
Qed.

Lemma next_limited tuned (s : tsys S X) S' ls f ls' h m :
  t_failed (ts_t s) = false -> t_last (ts_t s) = Some (vec ls f) ->
  NoDup ls -> NoDup ls' -> incl ls' ls ->
  so_suggest O tuned (ts_s s) = (S', Ok (vec ls' h)) ->
  l_size L = Fin m -> (0 < m)%R ->
  let d := rnorm ls (step_to ls' h f) in
  subset_next O L tuned s =
    if Rltb m d then
      (mk_tsys (with_queue (match queue_after L (t_queue (ts_t s)) (Fin d) with Ok q => q | Raise _ => 0%Z end) (ts_t s))
               S' (ts_x s) (TSuggest tuned (Ok (vec ls' h)) :: ts_tr s),
       Ok (vec ls (fun l => f l + m / d * step_to ls' h f l)%R))
    else
      (mk_tsys (ts_t s) S' (ts_x s) (TSuggest tuned (Ok (vec ls' h)) :: ts_tr s),
       Ok (vec ls (fun l => f l + step_to ls' h f l)%R)).
Proof.
  intros Hf Hl Hnd Hnd' Hinc Hs Hm Hm0 d. un. rewrite Hf, Hl, Hs; cbn.
  rewrite assign_vec by assumption. cbn. fold (moved ls' h f). rewrite step_vec, nnorm_vec. fold d.
  rewrite Hm. cbn [nltb]. destruct (Rltb m d) eqn:Hc.
  - apply Rltb_true in Hc.
    assert (Hq : exists q, queue_after L (t_queue (ts_t s)) (Fin d) = Ok q).
    { unfold queue_after. destruct (t_queue (ts_t s) =? 0)%Z; [|eauto]. rewrite Hm.
      destruct (trunc_pos m d Hm0 Hc) as [k [-> _]]. eauto. }
    destruct Hq as [q Hq]. rewrite Hq; cbn.
    assert (Hd0 : Reqb d 0 = false) by (apply Reqb_false; lra). rewrite Hd0.
    rewrite smul_vec, sadd_vec. do 2 f_equal. apply vec_ext. intros; ring.
  - cbn. rewrite sadd_vec. reflexivity.
Qed.

Lemma next_unlimited tuned (s : tsys S X) S' ls f ls' h :
  t_failed (ts_t s) = false -> t_last (ts_t s) = Some (vec ls f) ->
  NoDup ls -> NoDup ls' -> incl ls' ls ->
  so_suggest O tuned (ts_s s) = (S', Ok (vec ls' h)) ->
  l_size L = NaN ->
  subset_next O L tuned s =
      (mk_tsys (ts_t s) S' (ts_x s) (TSuggest tuned (Ok (vec ls' h)) :: ts_tr s),
       Ok (vec ls (fun l => f l + step_to ls' h f l)%R)).
Proof.
  intros Hf Hl Hnd Hnd' Hinc Hs Hm. un. rewrite Hf, Hl, Hs; cbn.
  rewrite assign_vec by assumption. cbn. fold (moved ls' h f). rewrite step_vec, nnorm_vec.
  rewrite Hm. cbn. rewrite sadd_vec. reflexivity.
Qed.

Lemma step_limit tuned (s : tsys S X) S' ls f ls' h m s' r :
  t_failed (ts_t s) = false -> t_last (ts_t s) = Some (vec ls f) ->
  NoDup ls -> NoDup ls' -> incl ls' ls ->
  so_suggest O tuned (ts_s s) = (S', Ok (vec ls' h)) ->
  l_size L = Fin m -> (0 < m)%R ->
  subset_next O L tuned s = (s', r) ->
  exists c, (0 < c <= 1)%R /\
    r = Ok (vec ls (fun l => f l + c * step_to ls' h f l)%R) /\
    (rnorm ls (fun l => (f l + c * step_to ls' h f l) - f l) <= m)%R /\
    (c = 1 <-> rnorm ls (step_to ls' h f) <= m)%R.
Proof.
  intros Hf Hl Hnd Hnd' Hinc Hs Hm Hm0 HN.
  pose proof (next_limited tuned s S' ls f ls' h m Hf Hl Hnd Hnd' Hinc Hs Hm Hm0) as HE.
  cbv zeta in HE. rewrite HE in HN. clear HE. set (d := rnorm ls (step_to ls' h f)) in *.
  assert (Hsc : forall c, (0 < c)%R -> rnorm ls (fun l => (f l + c * step_to ls' h f l) - f l)%R = (c * d)%R).
  { intros c Hc. rewrite (rnorm_ext _ _ (fun l => c * step_to ls' h f l)%R) by (intros; ring).
    rewrite rnorm_scale. rewrite Rabs_right by lra. reflexivity. }
  destruct (Rltb m d) eqn:Hc.
  - apply Rltb_true in Hc. inversion HN; subst. exists (m / d)%R.
    assert (Hc0 : (0 < m / d)%R). { apply Rdiv_lt_0_compat; lra. }
    assert (Hcd : (m / d * d = m)%R) by (field; lra).
    assert (Hc1 : (m / d < 1)%R). { apply Rmult_lt_reg_r with d; lra. }
    split; [lra|]. split; [reflexivity|]. split; [rewrite Hsc by assumption; lra|]. split; intros; lra.
  - apply Rltb_false in Hc. inversion HN; subst. exists 1%R. split; [lra|]. split.
    + f_equal. apply vec_ext. intros; ring.
    + rewrite Hsc by lra. split; [lra|]. split; auto.
Qed.

(** *** C14 *)
Definition queue_ok (s : tsys S X) : Prop := (0 <= t_queue (ts_t s) <= l_number L - 1)%Z.

Lemma is_tuned_queue v s : t_queue (ts_t (fst (subset_is_tuned O evals v s))) = t_queue (ts_t s).
Proof.
  un. destruct (t_queue (ts_t s) =? 0)%Z; cbn.
  2:{ destruct (so_set_position O v (ts_s s)) as [S' [u|e]]; reflexivity. }
  destruct (evals (ts_x s)) as [x' [[raw rawvar]|e]]; cbn; [|reflexivity].
  destruct (select _ raw) as [p|]; cbn; [|reflexivity].
  destruct (select _ rawvar) as [var|]; cbn; [|reflexivity].
  destruct (select (index (t_params (ts_t s))) _) as [lp|]; cbn; [|reflexivity].
  destruct (select (index lp) _) as [lv|]; cbn; [|reflexivity].
  destruct (any_na lp); cbn; [reflexivity|].
  destruct (so_update O v _ _ (ts_s s)) as [S' [u|e]]; cbn; [|reflexivity].
  destruct (within_tolerance _ _); reflexivity.
Qed.

Lemma restart_queue v (s : tsys S X) : t_queue (ts_t (fst (tuner_restart O v s))) = t_queue (ts_t s).
Proof.
  un. destruct (so_restart O v (ts_s s)) as [S' r]; cbn.
  unfold set_last_voltages. destruct (t_last (ts_t s)) as [[|]|]; reflexivity.
Qed.
Lemma target_queue ch (s : tsys S X) : t_queue (ts_t (fst (tuner_set_target O ch s))) = t_queue (ts_t s).
Proof. un. destruct (so_set_target O ch (ts_s s)); reflexivity. Qed.

(** What a call does to the queue. *)
Lemma next_queue tuned (s : tsys S X) :
  let q := t_queue (ts_t s) in
  let q' := t_queue (ts_t (fst (subset_next O L tuned s))) in
  q' = q \/ exists n, nltb (l_size L) n = true /\ queue_after L q n = Ok q'.
Proof.
  cbv zeta. un. destruct (t_failed (ts_t s)); cbn; [destruct (t_evaluatable (ts_t s)); auto|].
  destruct (so_suggest O tuned (ts_s s)) as [S' [sol|e]]; cbn; [|auto].
  destruct (assign _ sol) as [new|e]; cbn; [|auto].
  destruct (nltb (l_size L) _) eqn:Hn; cbn; [|auto].
  destruct (queue_after L _ _) as [q|e] eqn:Hq; cbn; [|auto]. right. eauto.
Qed.

Lemma queue_after_ok m q n q' :
  l_size L = Fin m -> (0 < m)%R -> (1 <= l_number L)%Z ->
  nltb (l_size L) n = true -> queue_after L q n = Ok q' ->
  (0 <= q <= l_number L - 1)%Z -> (0 <= q' <= l_number L - 1)%Z.
Proof.
  intros Hm Hm0 HN Hn Hq Hb. unfold queue_after in Hq. rewrite Hm in *.
  destruct (Z.eqb_spec q 0); [|inversion Hq; lia].
  destruct n as [| | |d]; cbn [nltb] in Hn; try discriminate.
  - cbn in Hq. destruct (Rltb m 0); discriminate.
  - apply Rltb_true in Hn. destruct (trunc_pos m d Hm0 Hn) as [k [Hk [H1 _]]]. rewrite Hk in Hq.
    inversion Hq. lia.
Qed.

Lemma run_queue ops : forall s,
  (l_size L = NaN \/ exists m, l_size L = Fin m /\ (0 < m)%R) -> (1 <= l_number L)%Z ->
  queue_ok s -> queue_ok (subset_run O evals L s ops).
Proof.
  induction ops as [|o ops IH]; intros s Hm HN Hq; [exact Hq|]. cbn [subset_run fold_left].
  apply IH; [assumption..|]. unfold queue_ok in *. destruct o; unfold subset_step.
  - rewrite is_tuned_queue. assumption.
  - destruct (next_queue tuned s) as [->|[n [H1 H2]]]; [assumption|].
    destruct Hm as [Hm|[m [Hm Hm0]]]; [rewrite Hm in H1; discriminate|].
    eapply queue_after_ok; eauto.
  - rewrite restart_queue. assumption.
  - rewrite target_queue. assumption.
Qed.

(** A negative queue never recovers, and nothing is evaluated any more. *)
Lemma is_tuned_no_eval v s : t_queue (ts_t s) <> 0%Z ->
  exists evs, ts_tr (fst (subset_is_tuned O evals v s)) = evs ++ ts_tr s /\ filter is_eval evs = [] /\
    filter is_update evs = [] /\
    (forall b, snd (subset_is_tuned O evals v s) = Ok b -> b = false).
Proof.
  intros H. un. apply Z.eqb_neq in H. rewrite H; cbn.
  destruct (so_set_position O v (ts_s s)) as [S' [u|e]]; cbn.
  - exists [TSetPos v (Ok u); TEnter v]. repeat split. intros b Hb; inversion Hb; reflexivity.
  - exists [TSetPos v (Raise e); TEnter v]. repeat split. discriminate.
Qed.

Lemma next_events tuned (s : tsys S X) :
  exists evs, ts_tr (fst (subset_next O L tuned s)) = evs ++ ts_tr s /\ filter is_eval evs = [] /\ filter is_update evs = [].
Proof.
  un. destruct (t_failed (ts_t s)); cbn; [exists []; destruct (t_evaluatable (ts_t s)); auto|].
  destruct (so_suggest O tuned (ts_s s)) as [S' [sol|e]]; cbn.
  - exists [TSuggest tuned (Ok sol)]. destruct (assign _ sol) as [new|e]; cbn; [|auto].
    destruct (nltb (l_size L) _); cbn; [|auto].
    destruct (queue_after L _ _) as [q|e]; cbn; auto.
  - exists [TSuggest tuned (Raise e)]. auto.
Qed.

Lemma negative_queue_step o s :
  (t_queue (ts_t s) < 0)%Z ->
  (t_queue (ts_t (subset_step O evals L s o)) < 0)%Z /\
  exists evs, ts_tr (subset_step O evals L s o) = evs ++ ts_tr s /\ filter is_eval evs = [].
Proof.
  intros Hq. destruct o; unfold subset_step.
  - rewrite is_tuned_queue. split; [assumption|].
    destruct (is_tuned_no_eval v s) as [evs [H1 [H2 _]]]; [lia|]. eauto.
  - split.
    + destruct (next_queue tuned s) as [->|[n [H1 H2]]]; [assumption|].
      unfold queue_after in H2. destruct (Z.eqb_spec (t_queue (ts_t s)) 0); [lia|]. inversion H2. lia.
    + destruct (next_events tuned s) as [evs [H1 [H2 _]]]. eauto.
  - rewrite restart_queue. split; [assumption|]. exists []. un. destruct (so_restart O v (ts_s s)); auto.
  - rewrite target_queue. split; [assumption|]. exists []. un. destruct (so_set_target O ch (ts_s s)); auto.
Qed.

Lemma negative_queue_forever ops : forall s,
  (t_queue (ts_t s) < 0)%Z ->
  (t_queue (ts_t (subset_run O evals L s ops)) < 0)%Z /\
  exists evs, ts_tr (subset_run O evals L s ops) = evs ++ ts_tr s /\ filter is_eval evs = [].
Proof.
  induction ops as [|o ops IH]; intros s Hq; cbn [subset_run fold_left].
  - split; [assumption|]. exists []. auto.
  - destruct (negative_queue_step o s Hq) as [H1 [e1 [H2 H3]]].
    destruct (IH _ H1) as [H4 [e2 [H5 H6]]]. split; [assumption|].
    exists (e2 ++ e1). unfold subset_run in H5. rewrite H5, H2, app_assoc. split; [reflexivity|].
    rewrite filter_app, H3, H6. reflexivity.
Qed.

Lemma zero_number_negative tuned (s : tsys S X) S' ls f ls' h m :
  t_failed (ts_t s) = false -> t_last (ts_t s) = Some (vec ls f) ->
  NoDup ls -> NoDup ls' -> incl ls' ls ->
  so_suggest O tuned (ts_s s) = (S', Ok (vec ls' h)) ->
  l_size L = Fin m -> (0 < m)%R -> l_number L = 0%Z -> t_queue (ts_t s) = 0%Z ->
  (m < rnorm ls (step_to ls' h f))%R ->
  (t_queue (ts_t (fst (subset_next O L tuned s))) < 0)%Z.
Proof.
  intros Hf Hl Hnd Hnd' Hinc Hs Hm Hm0 HN Hq Hd.
  rewrite (next_limited tuned s S' ls f ls' h m) by assumption.
  set (d := rnorm ls (step_to ls' h f)) in *.
  destruct (Rltb m d) eqn:Hc; [|apply Rltb_false in Hc; lra]. cbn [fst ts_t with_queue t_queue].
  unfold queue_after. rewrite Hq, Hm. destruct (trunc_pos m d Hm0 Hd) as [k [-> [H1 _]]]. cbn. lia.
Qed.

(** A chain of [j] computations with long suggestions, with the [is_tuned]
    calls in between; [d] is the length of the first suggested step. *)
Inductive blind (m : R) : nat -> R -> tsys S X -> series -> tsys S X -> Prop :=
| blind_1 tuned s S' ls f ls' h v s' :
    t_last (ts_t s) = Some (vec ls f) -> NoDup ls -> NoDup ls' -> incl ls' ls ->
    so_suggest O tuned (ts_s s) = (S', Ok (vec ls' h)) ->
    (m < rnorm ls (step_to ls' h f))%R ->
    subset_next O L tuned s = (s', Ok v) ->
    blind m 1 (rnorm ls (step_to ls' h f)) s v s'
| blind_S j d s v s1 b s2 tuned S' ls f ls' h v' s' :
    blind m j d s v s1 ->
    subset_is_tuned O evals v s1 = (s2, Ok b) ->
    t_last (ts_t s2) = Some (vec ls f) -> NoDup ls -> NoDup ls' -> incl ls' ls ->
    so_suggest O tuned (ts_s s2) = (S', Ok (vec ls' h)) ->
    (m < rnorm ls (step_to ls' h f))%R ->
    subset_next O L tuned s2 = (s', Ok v') ->
    blind m (Datatypes.S j) d s v' s'.

Lemma blind_queue m j d s v s' K :
  l_size L = Fin m -> (0 < m)%R -> t_queue (ts_t s) = 0%Z -> t_failed (ts_t s) = false ->
  blind m j d s v s' ->
  (1 <= l_number L)%Z ->
  (IZR K <= d / m < IZR K + 1)%R ->
  (Z.of_nat j <= Z.min K (l_number L))%Z ->
  t_queue (ts_t s') = (Z.min K (l_number L) - Z.of_nat j)%Z /\ t_failed (ts_t s') = false /\
  exists evs, ts_tr s' = evs ++ ts_tr s /\ filter is_eval evs = [].
Proof.
  intros Hm Hm0 Hq Hf HB. induction HB as
    [tuned s S' ls f ls' h v s' Hl Hnd Hnd' Hinc Hs Hd Hn
    |j d s v s1 b s2 tuned S' ls f ls' h v' s' HB IH Ht Hl Hnd Hnd' Hinc Hs Hd Hn]; intros HN HK Hj.
  - rewrite (next_limited tuned s S' ls f ls' h m) in Hn by assumption.
    set (d := rnorm ls (step_to ls' h f)) in *.
    destruct (Rltb m d) eqn:Hc; [|apply Rltb_false in Hc; lra].
    inversion Hn; subst; clear Hn. cbn [ts_t with_queue t_queue t_failed ts_tr].
    split; [|split; [assumption|]].
    + unfold queue_after. rewrite Hq, Hm. destruct (trunc_pos m d Hm0 Hd) as [k [-> [H1 H2]]]. cbn [Z.eqb].
      assert (k = K).
      { assert (Hlt1 : (IZR k < IZR K + 1)%R) by lra. assert (Hlt2 : (IZR K < IZR k + 1)%R) by lra.
        rewrite <- plus_IZR in Hlt1, Hlt2. apply lt_IZR in Hlt1, Hlt2. lia. }
      subst. reflexivity.
    + exists [TSuggest tuned (Ok (vec ls' h))]. auto.
  - destruct IH as [IH1 [IH2 [evs [IH3 IH4]]]]; auto; [lia|].
    assert (Hq1 : t_queue (ts_t s1) <> 0%Z) by lia.
    pose proof (is_tuned_queue v s1) as Hq2. rewrite Ht in Hq2. cbn in Hq2.
    destruct (is_tuned_no_eval v s1 Hq1) as [e1 [He1 [He2 _]]]. rewrite Ht in He1; cbn in He1.
    assert (Hf2 : t_failed (ts_t s2) = false).
    { revert Ht. un. apply Z.eqb_neq in Hq1. rewrite Hq1; cbn.
      destruct (so_set_position O v (ts_s s1)) as [S1 [u|e]]; cbn; intros H; inversion H; subst; cbn; assumption. }
    rewrite (next_limited tuned s2 S' ls f ls' h m) in Hn by assumption.
    set (d' := rnorm ls (step_to ls' h f)) in *.
    destruct (Rltb m d') eqn:Hc; [|apply Rltb_false in Hc; lra].
    inversion Hn; subst; clear Hn. cbn [ts_t with_queue t_queue t_failed ts_tr].
    split; [|split; [assumption|]].
    + unfold queue_after. rewrite Hq2. apply Z.eqb_neq in Hq1. rewrite Hq1. rewrite IH1. lia.
    + exists (TSuggest tuned (Ok (vec ls' h)) :: e1 ++ evs). rewrite He1, IH3. cbn. rewrite app_assoc. split; [reflexivity|].
      rewrite filter_app, He2, IH4. reflexivity.
Qed.

(** Calling is_tuned with an empty queue runs the evaluators. *)
Lemma is_tuned_evaluates v s : t_queue (ts_t s) = 0%Z ->
  exists evs, ts_tr (fst (subset_is_tuned O evals v s)) = evs ++ ts_tr s /\ filter is_eval evs <> [].
Proof.
  intros H. un. rewrite H; cbn.
  destruct (evals (ts_x s)) as [x' [[raw rawvar]|e]]; cbn.
  2:{ exists [TEval true (Raise e); TEnter v]. split; [reflexivity|discriminate]. }
  assert (K : forall evs0, exists evs, evs0 ++ TEval true (Ok (raw, rawvar)) :: TEnter v :: ts_tr s = evs ++ ts_tr s /\ filter is_eval evs <> []).
  { intros e0. exists (e0 ++ [TEval true (Ok (raw, rawvar)); TEnter v]). rewrite <- app_assoc. split; [reflexivity|].
    rewrite filter_app. cbn. destruct (filter is_eval e0); discriminate. }
  destruct (select _ raw) as [p|]; cbn; [|apply (K [])].
  destruct (select _ rawvar) as [var|]; cbn; [|apply (K [])].
  destruct (select (index (t_params (ts_t s))) _) as [lp|]; cbn; [|apply (K [])].
  destruct (select (index lp) _) as [lv|]; cbn; [|apply (K [])].
  destruct (any_na lp); cbn; [apply (K [])|].
  destruct (so_update O v _ _ (ts_s s)) as [S' [u|e]]; cbn; [|apply (K [_])].
  destruct (within_tolerance _ _); cbn; apply (K [_]).
Qed.

(** *** C15 *)
(** One round of the tuning loop while steps are queued: new voltages are
    computed, set, and the tuner is asked again. *)
Definition round (tuned : list label) (s : tsys S X) : tsys S X :=
  match subset_next O L tuned s with
  | (s1, Ok v) => fst (subset_is_tuned O evals v s1)
  | (s1, Raise _) => s1
  end.

Lemma is_tuned_queued v s : t_queue (ts_t s) <> 0%Z ->
  (forall st, snd (so_set_position O v st) = Ok tt) ->
  t_last (ts_t (fst (subset_is_tuned O evals v s))) = Some v /\
  t_failed (ts_t (fst (subset_is_tuned O evals v s))) = t_failed (ts_t s).
Proof.
  intros H Hp. un. apply Z.eqb_neq in H. rewrite H; cbn.
  specialize (Hp (ts_s s)). destruct (so_set_position O v (ts_s s)) as [S' r]; cbn in *. subst. auto.
Qed.

Section Livelock.
Variables (ls ls' : list label) (h f : label -> R) (m : R) (k : nat).
Hypothesis Hnd : NoDup ls.
Hypothesis Hnd' : NoDup ls'.
Hypothesis Hinc : incl ls' ls.
Hypothesis Hm : l_size L = Fin m.
Hypothesis Hm0 : (0 < m)%R.
Hypothesis Hk : (2 <= k)%nat.
Hypothesis HkN : (Z.of_nat k <= l_number L)%Z.
Hypothesis Hfix : forall tuned st, snd (so_suggest O tuned st) = Ok (vec ls' h).
Hypothesis Hpos : forall v st, snd (so_set_position O v st) = Ok tt.
Hypothesis Hdist : rnorm ls (step_to ls' h f) = (INR k * m)%R.

Let g := step_to ls' h f.
Let at_ (n : nat) : label -> R := fun l => (f l + INR n / INR k * g l)%R.

Lemma kpos : (0 < INR k)%R.
Proof. apply lt_0_INR. lia. Qed.

Lemma remaining n : (n <= k)%nat ->
  rnorm ls (step_to ls' h (at_ n)) = (INR (k - n) * m)%R.
Proof.
  intros Hn. pose proof kpos as HK.
  rewrite (rnorm_ext ls _ (fun l => (INR (k - n) / INR k) * g l)%R).
  - rewrite rnorm_scale. unfold g. rewrite Hdist. rewrite Rabs_right.
    + field. lra.
    + apply Rle_ge. apply Rmult_le_pos; [apply pos_INR|]. apply Rlt_le, Rinv_0_lt_compat. assumption.
  - intros l _. unfold at_, g, step_to. rewrite minus_INR by assumption. destruct (mem l ls'); field; lra.
Qed.

Definition phase (n : nat) (q : Z) (s : tsys S X) : Prop :=
  t_failed (ts_t s) = false /\ t_queue (ts_t s) = q /\ t_last (ts_t s) = Some (vec ls (at_ n)).

Lemma round_long n s tuned q : (n + 2 <= k)%nat ->
  phase n q s -> (q = 0%Z /\ n = 0) \/ q = Z.of_nat (k - n) ->
  phase (n + 1) (Z.of_nat (k - (n + 1))) (round tuned s) /\
  exists evs, ts_tr (round tuned s) = evs ++ ts_tr s /\ filter is_eval evs = [].
Proof.
  intros Hn [Pf [Pq Pl]] Hqq. unfold round. pose proof kpos as HK.
  specialize (Hfix tuned (ts_s s)). destruct (so_suggest O tuned (ts_s s)) as [S' r] eqn:Hs. cbn in Hfix. subst r.
  rewrite (next_limited tuned s S' ls (at_ n) ls' h m) by assumption.
  rewrite remaining by lia. set (d := (INR (k - n) * m)%R).
  assert (Hd : (m < d)%R).
  { unfold d. assert (2 <= INR (k - n))%R. { change 2%R with (INR 2). apply le_INR. lia. }
    apply Rlt_le_trans with (2 * m)%R; [lra|]. apply Rmult_le_compat_r; lra. }
  assert (Hc : Rltb m d = true) by (apply Rltb_true; assumption). rewrite Hc.
  assert (Hqa : queue_after L (t_queue (ts_t s)) (Fin d) = Ok (Z.of_nat (k - (n + 1)))).
  { unfold queue_after. rewrite Pq. destruct Hqq as [[-> ->]| ->].
    - cbn [Z.eqb]. rewrite Hm. destruct (trunc_pos m d Hm0 Hd) as [j [-> [H1 H2]]].
      assert (Hj : (d / m = INR k)%R). { unfold d. replace (k - 0) with k by lia. field. lra. }
      rewrite Hj, INR_IZR_INZ in H2.
      assert (j = Z.of_nat k).
      { destruct H2 as [Ha Hb]. apply le_IZR in Ha. rewrite <- plus_IZR in Hb. apply lt_IZR in Hb. lia. }
      subst. f_equal. lia.
    - destruct (Z.eqb_spec (Z.of_nat (k - n)) 0); [lia|]. f_equal. lia. }
  rewrite Hqa. set (v := vec ls _). set (s1 := mk_tsys _ _ _ _).
  assert (Hq1 : t_queue (ts_t s1) <> 0%Z) by (cbn; lia).
  destruct (is_tuned_queued v s1 Hq1 (Hpos v)) as [HA HB].
  destruct (is_tuned_no_eval v s1 Hq1) as [evs [HE1 [HE2 _]]].
  split.
  - split; [rewrite HB; assumption|]. split; [rewrite is_tuned_queue; reflexivity|].
    rewrite HA. f_equal. apply vec_ext. intros l _. unfold d, at_, g, step_to. rewrite plus_INR, minus_INR by lia.
    assert (INR k - INR n <> 0)%R. { rewrite <- minus_INR by lia. apply not_0_INR. lia. }
    change (INR 1) with 1%R.
    destruct (mem l ls'); field; repeat split; lra.
  - exists (evs ++ [TSuggest tuned (Ok (vec ls' h))]). rewrite HE1. cbn. rewrite <- app_assoc. split; [reflexivity|].
    rewrite filter_app, HE2. reflexivity.
Qed.

Lemma round_short n s tuned : (k <= n + 1)%nat -> (n <= k)%nat ->
  phase n 1 s ->
  phase k 1 (round tuned s) /\
  exists evs, ts_tr (round tuned s) = evs ++ ts_tr s /\ filter is_eval evs = [].
Proof.
  intros Hn Hn' [Pf [Pq Pl]]. unfold round. pose proof kpos as HK.
  specialize (Hfix tuned (ts_s s)). destruct (so_suggest O tuned (ts_s s)) as [S' r] eqn:Hs. cbn in Hfix. subst r.
  rewrite (next_limited tuned s S' ls (at_ n) ls' h m) by assumption.
  rewrite remaining by lia. set (d := (INR (k - n) * m)%R).
  assert (Hd : (d <= m)%R).
  { unfold d. assert (INR (k - n) <= 1)%R. { change 1%R with (INR 1). apply le_INR. lia. }
    apply Rle_trans with (1 * m)%R; [apply Rmult_le_compat_r; lra|lra]. }
  assert (Hc : Rltb m d = false) by (apply Rltb_false; assumption). rewrite Hc.
  set (v := vec ls _). set (s1 := mk_tsys _ _ _ _).
  assert (Hq1 : t_queue (ts_t s1) <> 0%Z) by (cbn; lia).
  destruct (is_tuned_queued v s1 Hq1 (Hpos v)) as [HA HB].
  destruct (is_tuned_no_eval v s1 Hq1) as [evs [HE1 [HE2 _]]].
  split.
  - split; [rewrite HB; assumption|]. split; [rewrite is_tuned_queue; assumption|].
    rewrite HA. f_equal. apply vec_ext. intros l _. unfold at_, g, step_to.
    destruct (mem l ls'); field; lra.
  - exists (evs ++ [TSuggest tuned (Ok (vec ls' h))]). rewrite HE1. cbn. rewrite <- app_assoc. split; [reflexivity|].
    rewrite filter_app, HE2. reflexivity.
Qed.

Fixpoint rounds (tuneds : list (list label)) (s : tsys S X) : tsys S X :=
  match tuneds with
  | [] => s
  | t :: ts => rounds ts (round t s)
  end.

Lemma rounds_progress tuneds : forall n s,
  phase n (if n =? 0 then 0%Z else if n <? k then Z.of_nat (k - n) else 1%Z) s -> (n <= k)%nat ->
  let n' := Nat.min k (n + length tuneds) in
  phase n' (if n' =? 0 then 0%Z else if n' <? k then Z.of_nat (k - n') else 1%Z) (rounds tuneds s) /\
  exists evs, ts_tr (rounds tuneds s) = evs ++ ts_tr s /\ filter is_eval evs = [].
Proof.
  induction tuneds as [|t ts IH]; intros n s HP Hn; cbn [rounds length].
  - cbv zeta. replace (Nat.min k (n + 0)) with n by lia. split; [assumption|]. exists []. auto.
  - assert (HR : let n1 := Nat.min k (n + 1) in
       phase n1 (if n1 =? 0 then 0%Z else if n1 <? k then Z.of_nat (k - n1) else 1%Z) (round t s) /\
       exists evs, ts_tr (round t s) = evs ++ ts_tr s /\ filter is_eval evs = []).
    { cbv zeta. destruct (le_lt_dec (n + 2) k) as [Hlong|Hshort].
      - replace (Nat.min k (n + 1)) with (n + 1) by lia.
        replace (n + 1 =? 0) with false by (symmetry; apply Nat.eqb_neq; lia).
        replace (n + 1 <? k) with true by (symmetry; apply Nat.ltb_lt; lia).
        eapply round_long; [lia|exact HP|].
        destruct (Nat.eqb_spec n 0); [left; auto|right].
        destruct (Nat.ltb_spec n k); [reflexivity|lia].
      - replace (Nat.min k (n + 1)) with k by lia.
        replace (k =? 0) with false by (symmetry; apply Nat.eqb_neq; lia).
        rewrite Nat.ltb_irrefl. eapply round_short with (n := n); [lia|lia|].
        destruct (Nat.eqb_spec n 0); [lia|].
        destruct (Nat.ltb_spec n k); [|assumption].
        replace (Z.of_nat (k - n)) with 1%Z in HP by lia. assumption. }
    cbv zeta in HR. destruct HR as [H1 [e1 [H2 H3]]].
    specialize (IH (Nat.min k (n + 1)) (round t s) H1 ltac:(lia)). cbv zeta in IH.
    replace (Nat.min k (Nat.min k (n + 1) + length ts)) with (Nat.min k (n + Datatypes.S (length ts))) in IH by lia.
    destruct IH as [H4 [e2 [H5 H6]]]. split; [assumption|].
    exists (e2 ++ e1). rewrite H5, H2, app_assoc. split; [reflexivity|]. rewrite filter_app, H3, H6. reflexivity.
Qed.

End Livelock.

Lemma livelock ls ls' h f m k tuneds s :
  NoDup ls -> NoDup ls' -> incl ls' ls -> l_size L = Fin m -> (0 < m)%R ->
  2 <= k -> (Z.of_nat k <= l_number L)%Z ->
  (forall tuned st, snd (so_suggest O tuned st) = Ok (vec ls' h)) ->
  (forall v st, snd (so_set_position O v st) = Ok tt) ->
  rnorm ls (step_to ls' h f) = (INR k * m)%R ->
  t_failed (ts_t s) = false -> t_queue (ts_t s) = 0%Z -> t_last (ts_t s) = Some (vec ls f) ->
  let s' := rounds tuneds s in
  (exists evs, ts_tr s' = evs ++ ts_tr s /\ filter is_eval evs = []) /\
  (k <= length tuneds ->
   t_queue (ts_t s') = 1%Z /\ t_last (ts_t s') = Some (vec ls (fun l => f l + step_to ls' h f l)%R)).
Proof.
  intros Hnd Hnd' Hinc Hm Hm0 Hk HkN Hfix Hpos Hd Hf Hq Hl s'.
  assert (Hk0 : (INR k <> 0)%R) by (apply not_0_INR; lia).
  destruct (rounds_progress ls ls' h f m k Hnd Hnd' Hinc Hm Hm0 Hk HkN Hfix Hpos Hd tuneds 0 s) as [HP HE].
  - split; [assumption|]. split; [assumption|]. rewrite Hl. f_equal. apply vec_ext. intros. cbn. field. assumption.
  - lia.
  - split; [exact HE|]. intros Hlen. fold s' in HP. cbv zeta in HP.
    replace (Nat.min k (0 + length tuneds)) with k in HP by lia.
    replace (k =? 0) with false in HP by (symmetry; apply Nat.eqb_neq; lia).
    rewrite Nat.ltb_irrefl in HP. destruct HP as [_ [HQ HL]]. split; [assumption|].
    rewrite HL. f_equal. apply vec_ext. intros. field. assumption.
Qed.

End P.
