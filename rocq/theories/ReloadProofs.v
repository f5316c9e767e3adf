(** Proofs about saving and reloading. *)
From Verif Require Import PyBase TargetModel TunerModel TunerSpec SeriesLemmas TunerProofs SolverModel SolverSpec SensingDotProofs
  AutotunerModel AutotunerSpec AutotunerProofs NewtonModel EstimatorModel NewtonSpec NewtonProofs EstimatorProofs
  HistoryProofs ReloadModel ReloadSpec.
From Coq Require Import Lia ZArith.

(** ** Lists and series *)
Lemma sort_fixed l : sorted l -> sort_labels l = l.
Proof.
  induction 1 as [|x l Hx Hs IH]; [reflexivity|]. change (insert_label x (sort_labels l) = x :: l). rewrite IH. destruct l as [|y l]; [reflexivity|].
  cbn. rewrite (Hx y); [reflexivity|left; reflexivity].
Qed.
Lemma sort_idem l : sort_labels (sort_labels l) = sort_labels l.
Proof. apply sort_fixed, sort_sorted. Qed.
Lemma same_set_iff a b : same_set a b = true <-> (forall l, In l a <-> In l b).
Proof.
  unfold same_set. rewrite Bool.andb_true_iff, !SeriesLemmas.subset_incl. unfold incl. split; [intros [H1 H2] l; split; auto|].
  intros H; split; intros l; apply H.
Qed.
Lemma same_set_sort gates pos : same_set gates pos = true -> same_set (sort_labels gates) pos = true.
Proof. rewrite !same_set_iff. intros H l. rewrite HistoryProofs.sort_in. apply H. Qed.
Lemma has_duplicates_iff l : has_duplicates l = false <-> NoDup l.
Proof.
  induction l as [|a l IH]; cbn; [split; [constructor|reflexivity]|]. rewrite Bool.orb_false_iff, IH. split.
  - intros [H1 H2]. constructor; [|assumption]. apply SeriesLemmas.mem_false. exact H1.
  - intros H. inversion H; subst. split; [apply SeriesLemmas.mem_false; assumption|assumption].
Qed.
Lemma distinct_in l k : In k (distinct l) <-> In k l.
Proof.
  induction l as [|a l IH]; cbn; [tauto|]. destruct (mem a l) eqn:E; cbn; rewrite IH; [|tauto].
  apply SeriesLemmas.mem_In in E. split; [tauto|]. intros [<- |H]; assumption.
Qed.
Lemma index_blank l : index (blank l) = l.
Proof. unfold index, blank. rewrite map_map. apply map_id. Qed.
Lemma reindex_self s : NoDup (index s) -> reindex (index s) s = s.
Proof.
  induction s as [|[l x] s IH]; intros H; [reflexivity|]. inversion H as [|? ? H1 H2]; subst. cbn.
  unfold get at 1. cbn. rewrite String.eqb_refl. f_equal. transitivity (reindex (index s) s); [|apply IH; exact H2].
  unfold reindex. apply map_ext_in. intros k Hk. f_equal. unfold get. cbn.
  unfold label_eqb. destruct (String.eqb_spec k l) as [->|]; [contradiction|reflexivity].
Qed.
Lemma select_self s : NoDup (index s) -> select (index s) s = Ok s.
Proof.
  intros H. destruct s as [|[l x] s]; [reflexivity|]. unfold select. change (index ((l, x) :: s)) with (l :: index s) at 1. cbv iota.
  assert (E : existsb (fun k => mem k (index ((l, x) :: s))) (index ((l, x) :: s)) = true).
  { apply existsb_exists. exists l. split; [left; reflexivity|]. apply SeriesLemmas.mem_In. left; reflexivity. }
  rewrite E. rewrite reindex_self by exact H. reflexivity.
Qed.
Lemma index_reindex ls s : index (reindex ls s) = ls.
Proof. unfold index, reindex. rewrite map_map. apply map_id. Qed.
Lemma index_fold new : forall s, index (fold_left (fun acc (p : label * num) => set_label (fst p) (snd p) acc) new s) = index s.
Proof. induction new as [|p new IH]; intros s; cbn; [reflexivity|]. rewrite IH. apply index_set_label. Qed.
Lemma index_assign s new s' : assign s new = Ok s' -> index s' = index s.
Proof. unfold assign. destruct (subset _ _); [|discriminate]. intros H; inversion H; subst. apply index_fold. Qed.
Lemma index_move cur v : index (move_position cur v) = index cur.
Proof. apply index_fold. Qed.

(** ** Targets *)
Lemma t_index_set_column c ch t : t_index (set_column c ch t) = t_index t.
Proof.
  unfold t_index, set_column. rewrite map_map. apply map_ext. intros r. destruct (lookup (t_name r) ch); [|reflexivity]. destruct c; reflexivity.
Qed.
Lemma t_index_set_target ch : forall t, t_index (fst (set_target ch t)) = t_index t.
Proof.
  induction ch as [|[c s] ch IH]; intros t; cbn; [reflexivity|]. destruct (subset _ _); [|reflexivity]. rewrite IH. apply t_index_set_column.
Qed.
Lemma filled_relevant t : NoDup (t_index t) -> (all_filled t <-> incl (t_index t) (relevant t)).
Proof.
  intros N. split.
  - intros H l Hl. apply relevant_spec. apply in_map_iff in Hl. destruct Hl as [r [E Hr]]. exists r. repeat split; auto.
    intros c [r' [Hr' Hc]]. exact (H c r r' Hr Hr' Hc).
  - intros H c r r' Hr Hr' Hc. specialize (H (t_name r) (in_map t_name t r Hr)). apply relevant_spec in H.
    destruct H as [r2 [H2 [E2 Hf]]]. assert (r2 = r) as ->; [|apply Hf; eauto].
    clear -N Hr H2 E2. induction t as [|a t IH]; [contradiction|]. cbn in N. inversion N as [|? ? N1 N2]; subst.
    destruct Hr as [->|Hr], H2 as [->|H2]; auto.
    + exfalso. apply N1. rewrite <- E2. apply in_map. exact H2.
    + exfalso. apply N1. rewrite E2. apply in_map. exact Hr.
Qed.
Lemma not_empty_incl t : incl (not_empty_rows t) (t_index t).
Proof. intros l H. apply in_map_iff in H. destruct H as [r [<- H]]. apply filter_In in H. apply in_map. apply H. Qed.
Lemma full_incl t : incl (full_rows t) (t_index t).
Proof. intros l H. apply in_map_iff in H. destruct H as [r [<- H]]. apply filter_In in H. apply in_map. apply H. Qed.

Local Arguments index : simpl never.
Local Arguments within_tolerance : simpl never.
Local Arguments any_na : simpl never.
Local Arguments any_le : simpl never.

(** ** The tuners *)
Lemma pt_init_default tg names t : pt_init tg names no_args = Ok t ->
  t = fresh_tuner (relevant tg) /\ NoDup names.
Proof.
  unfold pt_init. cbn. destruct (has_duplicates names) eqn:E; [discriminate|]. destruct (subset _ _); [|discriminate].
  intros H; inversion H; subst. split; [reflexivity|apply has_duplicates_iff; exact E].
Qed.
Lemma pt_init_given tg names a p v : ta_params a = Some p -> ta_vars a = Some v ->
  NoDup names -> incl (full_rows tg) names -> incl (t_index tg) (index p) -> incl (t_index tg) (index v) ->
  pt_init tg names a = Ok (mk_tuner (ta_last a) p v (ta_failed a) (ta_evaluatable a) (ta_tuned a) (ta_queue a)).
Proof.
  intros Hp Hv Hn Hf H1 H2. unfold pt_init. rewrite Hp, Hv.
  assert (E1 : subset (not_empty_rows tg) (index p) = true) by (apply SeriesLemmas.subset_incl; intros l Hl; apply H1, not_empty_incl, Hl).
  assert (E2 : subset (t_index tg) (index v) = true) by (apply SeriesLemmas.subset_incl; exact H2).
  assert (E3 : subset (full_rows tg) names = true) by (apply SeriesLemmas.subset_incl; exact Hf).
  apply has_duplicates_iff in Hn. rewrite E1, E2, Hn, E3. reflexivity.
Qed.
Lemma pt_init_refused tg names a p v : ta_params a = Some p -> ta_vars a = Some v ->
  ~ incl (t_index tg) (index v) -> pt_init tg names a = Raise AssertionError.
Proof.
  intros Hp Hv H. unfold pt_init. rewrite Hp, Hv. destruct (subset (not_empty_rows tg) _); [|reflexivity].
  destruct (subset (t_index tg) (index v)) eqn:E; [|reflexivity]. exfalso. apply H, SeriesLemmas.subset_incl, E.
Qed.

Section T.
Context {S X : Type} (O : solver_ops S) (evals : X -> X * res (series * series)) (L : limits).
Implicit Type s : tsys S X.
Ltac un := unfold subset_is_tuned, subset_next, tuner_restart, tuner_set_target, evaluate, sd_is_tuned, sd_next, sd_evaluate,
  tbind, tret, traise, tget, tput, tlift, temit, tsolver, teval, ttarget; cbn.

(** Labels of the stored parameters and variances. *)
Definition labels (rel : list label) s : Prop := index (t_params (ts_t s)) = rel /\ index (t_vars (ts_t s)) = rel.
Lemma is_tuned_labels rel v s : labels rel s -> labels rel (fst (subset_is_tuned O evals v s)).
Proof.
  intros [HP HV]. un.
  destruct (t_queue (ts_t s) =? 0)%Z; cbn.
  2:{ destruct (so_set_position O v (ts_s s)) as [S' [u|e]]; cbn; split; assumption. }
  destruct (evals (ts_x s)) as [x' [[raw rawvar]|e]]; cbn; [|split; assumption].
  destruct (select (t_index _) raw) as [p|]; cbn; [|split; assumption].
  destruct (select (t_index _) rawvar) as [var|]; cbn; [|split; assumption].
  destruct (select (index (t_params (ts_t s))) _) as [lp|] eqn:Hlp; cbn; [|split; assumption].
  pose proof (select_index _ _ _ Hlp) as H1. rewrite HP in H1.
  destruct (select (index lp) _) as [lv|] eqn:Hlv; cbn; [|split; assumption].
  pose proof (select_index _ _ _ Hlv) as H2. rewrite H1 in H2.
  destruct (any_na lp); cbn; [split; assumption|].
  destruct (so_update O v _ _ (ts_s s)) as [S' [u|e]]; cbn; [|split; assumption].
  destruct (within_tolerance _ _); cbn; split; assumption.
Qed.
Lemma next_labels rel tuned s : labels rel s -> labels rel (fst (subset_next O L tuned s)).
Proof.
  intros [HP HV]. un. destruct (t_failed (ts_t s)); cbn.
  - destruct (t_evaluatable (ts_t s)); cbn; split; assumption.
  - destruct (so_suggest O tuned (ts_s s)) as [S' [sol|e]]; cbn; [|split; assumption].
    destruct (assign _ sol) as [new|e]; cbn; [|split; assumption].
    destruct (nltb (l_size L) _); cbn; [|split; assumption].
    destruct (queue_after L _ _) as [q|e]; cbn; split; assumption.
Qed.
Lemma restart_labels rel v s : labels rel s -> labels rel (fst (tuner_restart O v s)).
Proof.
  intros [HP HV]. un. destruct (so_restart O v (ts_s s)) as [S' r]; cbn.
  unfold set_last_voltages. destruct (t_last (ts_t s)) as [[|]|]; cbn; split; assumption.
Qed.
Lemma target_labels rel ch s : labels rel s -> labels rel (fst (tuner_set_target O ch s)).
Proof. intros [HP HV]. un. destruct (so_set_target O ch (ts_s s)) as [S' r]; cbn. split; assumption. Qed.
Lemma run_labels rel ops : forall s, labels rel s -> labels rel (subset_run O evals L s ops).
Proof.
  induction ops as [|o ops IH]; intros s H; [exact H|]. cbn [subset_run fold_left]. apply IH.
  destruct o; unfold subset_step; auto using is_tuned_labels, next_labels, restart_labels, target_labels.
Qed.

Lemma subset_reload_cases tg names pos gates t0 g0 st x ops :
  subset_init tg names pos gates no_args = Ok (t0, g0) ->
  NoDup (t_index tg) -> incl (t_index tg) names ->
  let s := subset_run O evals L (mk_tsys t0 st x []) ops in
  t_index (so_target O (ts_s s)) = t_index tg ->
  (all_filled tg -> subset_reload (so_target O (ts_s s)) names pos (ts_t s, g0) = Ok (ts_t s, g0)) /\
  (~ all_filled tg -> subset_reload (so_target O (ts_s s)) names pos (ts_t s, g0) = Raise AssertionError).
Proof.
  intros H0 N Hi s Ht. unfold subset_init in H0. destruct (pt_init tg names no_args) as [t|] eqn:Hp; [|discriminate].
  apply pt_init_default in Hp. destruct Hp as [-> Hn]. destruct (same_set gates pos) eqn:Hg; [|discriminate].
  inversion H0; subst t0 g0; clear H0.
  assert (Hl : labels (relevant tg) s).
  { apply run_labels. split; cbn; apply index_blank. }
  destruct Hl as [HP HV]. split; intros Hf.
  - unfold subset_reload, subset_init. cbn [fst snd].
    rewrite (pt_init_given _ _ _ (t_params (ts_t s)) (t_vars (ts_t s))); try reflexivity; auto.
    + rewrite same_set_sort by exact Hg. rewrite sort_idem. destruct (ts_t s); reflexivity.
    + intros l Hl. apply Hi. rewrite <- Ht. apply full_incl, Hl.
    + rewrite HP, Ht. apply filled_relevant; assumption.
    + rewrite HV, Ht. apply filled_relevant; assumption.
  - unfold subset_reload, subset_init. cbn [fst snd].
    rewrite (pt_init_refused _ _ _ (t_params (ts_t s)) (t_vars (ts_t s))); try reflexivity.
    rewrite HV, Ht. intros C. apply Hf. apply filled_relevant; assumption.
Qed.

(** What happens to the solver during a run of a tuner. *)
Lemma is_tuned_solver v s : exists l, ts_s (fst (subset_is_tuned O evals v s)) = so_run O (ts_s s) l.
Proof.
  un. destruct (t_queue (ts_t s) =? 0)%Z; cbn.
  2:{ exists [SSetPos v]. cbn. destruct (so_set_position O v (ts_s s)) as [S' [u|e]]; reflexivity. }
  destruct (evals (ts_x s)) as [x' [[raw rawvar]|e]]; cbn; [|exists []; reflexivity].
  destruct (select (t_index _) raw) as [p|]; cbn; [|exists []; reflexivity].
  destruct (select (t_index _) rawvar) as [var|]; cbn; [|exists []; reflexivity].
  destruct (select (index (t_params (ts_t s))) _) as [lp|]; cbn; [|exists []; reflexivity].
  destruct (select (index lp) _) as [lv|]; cbn; [|exists []; reflexivity].
  destruct (any_na lp); cbn; [exists []; reflexivity|].
  match goal with |- context [so_update O v ?a ?b (ts_s s)] => exists [SUpdate v a b]; cbn; destruct (so_update O v a b (ts_s s)) as [S' [u|e]]; cbn; [|reflexivity] end.
  destruct (within_tolerance _ _); reflexivity.
Qed.
Lemma next_solver tuned s : exists l, ts_s (fst (subset_next O L tuned s)) = so_run O (ts_s s) l.
Proof.
  un. destruct (t_failed (ts_t s)); cbn.
  - destruct (t_evaluatable (ts_t s)); cbn; exists []; reflexivity.
  - exists [SSuggest tuned]. cbn. destruct (so_suggest O tuned (ts_s s)) as [S' [sol|e]]; cbn; [|reflexivity].
    destruct (assign _ sol) as [new|e]; cbn; [|reflexivity]. destruct (nltb (l_size L) _); cbn; [|reflexivity].
    destruct (queue_after L _ _) as [q|e]; reflexivity.
Qed.
Lemma run_solver ops : forall s, exists l, ts_s (subset_run O evals L s ops) = so_run O (ts_s s) l.
Proof.
  induction ops as [|o ops IH]; intros s; [exists []; reflexivity|]. cbn [subset_run fold_left].
  destruct (IH (subset_step O evals L s o)) as [l1 H1].
  assert (exists l, ts_s (subset_step O evals L s o) = so_run O (ts_s s) l) as [l2 H2].
  { destruct o; unfold subset_step; [apply is_tuned_solver|apply next_solver| |].
    - exists [SRestart v]. un. destruct (so_restart O v (ts_s s)) as [S' r]; reflexivity.
    - exists [SSetTarget ch]. un. destruct (so_set_target O ch (ts_s s)) as [S' r]; reflexivity. }
  exists (l2 ++ l1). fold (subset_run O evals L (subset_step O evals L s o) ops). rewrite H1, H2. unfold so_run. symmetry. apply fold_left_app.
Qed.
End T.

(** ** NewtonSolver *)
Section N.
Context {G : Type} (E : est_ops G) (lstsq : list series -> list num -> res (list num)).
Hypothesis KG : keeps_gates E.

Definition covers (pos : list label) (gs : list G) : Prop := Forall (fun g => incl pos (index (eo_position E g))) gs.
Definition nw_good (t : list label) (pos : list label) (st : newton G) : Prop :=
  t_index (nw_target st) = t /\ index (nw_pos st) = pos /\ index (nw_vals st) = t /\
  length t = length (nw_ests st) /\ covers pos (nw_ests st).
Lemma ask_good pos gates tj qs : covers pos (map snd qs) ->
  covers pos (fst (ask E gates tj qs)) /\ length (fst (ask E gates tj qs)) = length qs.
Proof.
  induction qs as [|[r g] qs IH]; intros H; [split; [constructor|reflexivity]|]. cbn in H. inversion H as [|? ? Hg Hq]; subst.
  destruct (IH Hq) as [I1 I2]. cbn. destruct (isna (t_desired r)).
  - destruct (ask E gates tj qs) as [gs a]. cbn in *. split; [constructor; assumption|congruence].
  - destruct KG as [K1 _]. specialize (K1 gates tj g). destruct (eo_require E gates tj g) as [g' [[[|p s]|]|e]]; cbn in *;
    try (destruct (ask E gates tj qs) as [gs a]; cbn in *); (split; [constructor; [rewrite K1; assumption|assumption]|]); try congruence; rewrite map_length; reflexivity.
Qed.
Lemma update_good pos t p : forall gs vals vars, covers pos gs ->
  covers pos (fst (update_ests E t p gs vals vars)) /\ length (fst (update_ests E t p gs vals vars)) = length gs.
Proof.
  induction gs as [|g gs IH]; intros vals vars H; [destruct vals as [|[]], vars; split; (constructor || reflexivity)|].
  inversion H as [|? ? Hg Hq]; subst. destruct vals as [|[l x] vals]; [split; [assumption|reflexivity]|].
  destruct vars as [|v vars]; [split; [assumption|reflexivity]|]. destruct (IH vals vars Hq) as [I1 I2].
  cbn. destruct (isna _).
  - destruct (update_ests E t p gs vals vars) as [r a]. cbn in *. split; [constructor; assumption|congruence].
  - destruct KG as [_ [K2 _]]. specialize (K2 p x v g). destruct (eo_update E p x v g) as [g' [u|e]]; cbn in *.
    + destruct (update_ests E t p gs vals vars) as [r a]. cbn in *. split; [constructor; [rewrite K2|]; assumption|congruence].
    + split; [constructor; [rewrite K2|]; assumption|reflexivity].
Qed.
Lemma restart_good pos v : forall gs, covers pos gs ->
  covers pos (fst (restart_ests E v gs)) /\ length (fst (restart_ests E v gs)) = length gs.
Proof.
  induction gs as [|g gs IH]; intros H; [split; [constructor|reflexivity]|]. inversion H as [|? ? Hg Hq]; subst.
  destruct (IH Hq) as [I1 I2]. cbn. destruct KG as [_ [_ K3]]. specialize (K3 v g). destruct (eo_restart E v g) as [g' [u|e]]; cbn in *.
  - destruct (restart_ests E v gs) as [r a]. cbn in *. split; [constructor; [rewrite K3|]; assumption|congruence].
  - split; [constructor; [rewrite K3|]; assumption|reflexivity].
Qed.
Lemma nw_step_good t pos st op : nw_good t pos st -> nw_good t pos (so_do (nw_ops E lstsq) st op).
Proof.
  intros (H1 & H2 & H3 & H4 & H5). destruct op as [tuned|v p var|v|ch|v]; cbn.
  - unfold nw_suggest. destruct (tuned_jacobian E tuned st) as [tj|e]; [|repeat split; assumption].
    assert (Hm : map snd (combine (nw_target st) (nw_ests st)) = nw_ests st).
    { apply map_snd_combine. rewrite <- H4, <- H1. unfold t_index. rewrite map_length. reflexivity. }
    destruct (ask_good pos (index (nw_pos st)) tj (combine (nw_target st) (nw_ests st))) as [A1 A2]; [rewrite Hm; exact H5|].
    destruct (ask E _ tj _) as [gs a]. cbn in A1, A2.
    assert (Hg : nw_good t pos (mk_newton (nw_target st) gs (nw_pos st) (nw_vals st))).
    { repeat split; cbn; try assumption. rewrite A2, <- Hm, map_length in *. congruence. }
    destruct a as [[s|]|e]; exact Hg.
  - unfold nw_update. destruct (select (index (nw_vals st)) p) as [vals|e] eqn:Hv; [|repeat split; assumption].
    destruct (update_good pos (nw_target st) v (nw_ests st) vals (map snd var) H5) as [A1 A2].
    destruct (update_ests E _ v _ vals _) as [gs a]. cbn in A1, A2.
    pose proof (select_index _ _ _ Hv) as Hvi.
    destruct a as [u|e]; [|repeat split; cbn; try assumption; congruence].
    destruct (select (index (nw_pos st)) v) as [q|e] eqn:Hq; [|repeat split; cbn; try assumption; congruence].
    apply select_index in Hq. repeat split; cbn; try congruence; assumption.
  - repeat split; cbn; try assumption. rewrite index_move. assumption.
  - pose proof (t_index_set_target ch (nw_target st)) as Ht. destruct (set_target ch (nw_target st)) as [t' r]. cbn in *.
    repeat split; cbn; try assumption. congruence.
  - unfold nw_restart. destruct (restart_good pos v (nw_ests st) H5) as [A1 A2]. destruct (restart_ests E v (nw_ests st)) as [gs a].
    cbn in A1, A2. destruct a as [u|e]; repeat split; cbn; try assumption; try congruence. rewrite index_move. assumption.
Qed.
Lemma nw_run_good t pos ops : forall st, nw_good t pos st -> nw_good t pos (so_run (nw_ops E lstsq) st ops).
Proof. induction ops as [|op ops IH]; intros st H; [exact H|]. cbn. apply IH, nw_step_good, H. Qed.

Lemma nw_init_good t gs pos v st : nw_init E t gs pos v = Ok st ->
  nw_good (t_index t) (index pos) st /\ length (t_index t) <= length pos.
Proof.
  unfold nw_init. destruct (Nat.eqb (length t) (length gs)) eqn:El; [|discriminate]. apply Nat.eqb_eq in El. cbn [negb].
  destruct (forallb _ gs) eqn:Eg; [|discriminate]. cbn [negb]. rewrite forallb_forall in Eg.
  assert (Hc : covers (index pos) gs).
  { apply Forall_forall. intros g Hg. apply SeriesLemmas.subset_incl, Eg, Hg. }
  assert (Hgen : forall vv, index vv = t_index t ->
     (if Nat.leb (length vv) (length pos) then Ok (mk_newton t gs pos vv) else Raise AssertionError) = Ok st ->
     nw_good (t_index t) (index pos) st /\ length (t_index t) <= length pos).
  { intros vv Hv. destruct (Nat.leb (length vv) (length pos)) eqn:Ev; [|discriminate]. apply Nat.leb_le in Ev.
    intros H; inversion H; subst st. split; [|rewrite <- Hv; unfold index; rewrite map_length; exact Ev].
    repeat split; cbn; try assumption. unfold t_index. rewrite map_length. exact El. }
  destruct v as [v|].
  - destruct (subset (t_index t) (index v)); [|discriminate]. apply Hgen. apply index_reindex.
  - apply Hgen. apply index_blank.
Qed.
Lemma nw_good_reload t pos st : NoDup t -> length t <= length pos -> nw_good t pos st -> nw_reload E st = Ok st.
Proof.
  intros N Hl (H1 & H2 & H3 & H4 & H5). unfold nw_reload, nw_init.
  assert (A1 : length (nw_target st) = length (nw_ests st)).
  { rewrite <- H4, <- H1. unfold t_index. rewrite map_length. reflexivity. }
  apply Nat.eqb_eq in A1. rewrite A1. cbn [negb].
  assert (A2 : forallb (fun g => subset (index (nw_pos st)) (index (eo_position E g))) (nw_ests st) = true).
  { apply forallb_forall. intros g Hg. apply SeriesLemmas.subset_incl. rewrite H2. unfold covers in H5. rewrite Forall_forall in H5. apply H5, Hg. }
  rewrite A2. cbn [negb].
  assert (A3 : subset (t_index (nw_target st)) (index (nw_vals st)) = true) by (apply SeriesLemmas.subset_incl; rewrite H1, H3; intros l; auto).
  rewrite A3. rewrite H1, <- H3. rewrite reindex_self by (rewrite H3; exact N).
  assert (A4 : Nat.leb (length (nw_vals st)) (length (nw_pos st)) = true).
  { apply Nat.leb_le. rewrite <- H3, <- H2 in Hl. unfold index in Hl. rewrite !map_length in Hl. exact Hl. }
  rewrite A4. destruct st; reflexivity.
Qed.
Lemma nw_reload_reachable t gs pos v st0 ops : NoDup (t_index t) -> nw_init E t gs pos v = Ok st0 ->
  let st := so_run (nw_ops E lstsq) st0 ops in nw_reload E st = Ok st.
Proof.
  intros N H st. apply nw_init_good in H. destruct H as [H Hl].
  apply (nw_good_reload (t_index t) (index pos)); [assumption|unfold index; rewrite map_length; exact Hl|].
  apply nw_run_good. exact H.
Qed.
Lemma nw_index_stable t gs pos v st0 ops : nw_init E t gs pos v = Ok st0 ->
  let st := so_run (nw_ops E lstsq) st0 ops in t_index (nw_target st) = t_index t /\ index (nw_pos st) = index pos.
Proof. intros H st. apply nw_init_good in H. destruct H as [H _]. apply (nw_run_good _ _ ops) in H. destruct H as (H1 & H2 & _). split; assumption. Qed.
End N.

(** ** Estimators *)
Lemma fd_keeps ortho calc : keeps_gates (fd_ops ortho calc).
Proof.
  split; [|split]; cbn.
  - intros gates tj g. unfold fd_require. destruct (unknown (fd_pos g)); [reflexivity|]. destruct (fd_est g); [reflexivity|].
    destruct (fd_point ortho gates g); reflexivity.
  - intros p x v g. unfold fd_update. destruct (unknown (fd_pos g)).
    + destruct (assign (fd_pos g) _) as [cur|e] eqn:Ha; [|reflexivity]. apply index_assign in Ha. destruct (fd_sym g); [exact Ha|].
      destruct (select (index cur) _); exact Ha.
    + destruct (fd_est g); [reflexivity|]. destruct (select _ _) as [q|e]; [|reflexivity].
      unfold fd_finish. cbn. destruct (if fd_sym g then _ else _) as [ms|]; [|reflexivity]. destruct (calc ms) as [[a b]|e]; reflexivity.
  - intros v g. rewrite fd_restart_same. reflexivity.
Qed.
Lemma ke_keeps {K} (kg : K -> list num) ku kr : keeps_gates (ke_ops kg ku kr).
Proof.
  split; [|split]; cbn; [reflexivity| |].
  - intros p x v g. unfold ke_update. destruct (select (index (ke_pos g)) p) as [q|e] eqn:Hq; [|reflexivity]. apply select_index in Hq.
    destruct (ke_val g); [|exact Hq]. destruct (if negb _ then _ else _) as [f [u|e]]; [exact Hq|reflexivity].
  - intros v g. rewrite ke_restart_same. reflexivity.
Qed.
Lemma si_keeps {K} (kg : K -> list num) ku kr ortho calc : keeps_gates (si_ops kg ku kr ortho calc).
Proof.
  destruct (fd_keeps ortho calc) as [F1 [F2 F3]]. destruct (ke_keeps kg ku kr) as [K1 [K2 K3]].
  split; [|split]; cbn in *.
  - intros gates tj g. destruct (si_kal g) as [k|] eqn:E; cbn; [rewrite E; reflexivity|].
    specialize (F1 gates tj (si_fd g)). destruct (fd_require ortho gates tj (si_fd g)) as [f r]. exact F1.
  - intros p x v g. unfold si_update. specialize (F2 p x v (si_fd g)). destruct (fd_update calc p x v (si_fd g)) as [f [u|e]]; cbn in *.
    + destruct (si_kal g) as [k|]; cbn.
      * specialize (K2 p x v k). destruct (ke_update ku p x v k) as [k' r]. exact K2.
      * destruct (fd_est f); cbn; exact F2.
    + destruct (si_kal g); [reflexivity|exact F2].
  - intros v g. rewrite fd_restart_same. destruct (si_kal g) as [k|] eqn:E; cbn; [|reflexivity].
    rewrite set_est_position_same. reflexivity.
Qed.

(** *** Finite differences *)
Lemma fd_init_eps pos eps sym est cov stored req st : fd_init pos eps sym est cov stored req = Ok st ->
  index (fd_eps st) = index (fd_pos st) /\ fd_stored st = [] /\ fd_sym st = sym /\ fd_est st = est.
Proof.
  unfold fd_init.
  assert (Hgo : forall p, (if negb (subset (index (as_series (index p) eps)) (index p)) then Raise AssertionError
     else match select (index p) (as_series (index p) eps) with
         | Raise x => Raise x
         | Ok e' => match stored with
                    | Some (_ :: _) => Raise AssertionError
                    | _ => Ok (mk_fd p e' est cov [] (match req with Some l => l | None => [] end) sym)
                    end
         end) = Ok st -> index (fd_eps st) = index (fd_pos st) /\ fd_stored st = [] /\ fd_sym st = sym /\ fd_est st = est).
  { intros p. destruct (negb _); [discriminate|]. destruct (select _ _) as [e'|] eqn:Hs; [|discriminate]. apply select_index in Hs.
    destruct stored as [[|]|]; try discriminate; intros H; inversion H; subst; cbn; auto. }
  destruct pos as [p|]; [apply Hgo|]. destruct eps; [discriminate|apply Hgo].
Qed.
Section FD.
Variable ortho : list (list num) -> res (list num).
Variable calc : list measurement -> res (list num * list (list num)).
Notation FD := (fd_ops ortho calc).
Definition fd_good (gates : list label) (st : fd) : Prop :=
  index (fd_pos st) = gates /\ index (fd_eps st) = gates /\ (gates <> [] -> fd_est st <> None -> fd_stored st <> []).
Lemma fd_step_good gates op st : fd_good gates st -> fd_good gates (est_do FD op st).
Proof.
  intros (H1 & H2 & H3). destruct (fd_keeps ortho calc) as [F1 [F2 F3]].
  assert (HI : index (fd_pos (est_do FD op st)) = gates).
  { rewrite <- H1. destruct op as [g tj|p x v|v]; [apply F1|apply F2|apply F3]. }
  split; [exact HI|]. destruct op as [g tj|p x v|v]; cbn.
  - unfold fd_require. destruct (unknown (fd_pos st)); [split; assumption|]. destruct (fd_est st) eqn:E; [split; [assumption|intros Hg _; apply H3; [exact Hg|congruence]]|].
    destruct (fd_point ortho g st); (split; [assumption|cbn; congruence]).
  - unfold fd_update. destruct (unknown (fd_pos st)).
    + destruct (assign (fd_pos st) _) as [cur|e]; [|split; assumption]. destruct (fd_sym st); [split; assumption|].
      destruct (select (index cur) _); (split; [assumption|]); cbn; [|exact H3]. intros _ _ C. destruct (fd_stored st); discriminate.
    + destruct (fd_est st) eqn:E; [split; [assumption|intros Hg _; apply H3; [exact Hg|congruence]]|]. destruct (select _ _) as [q|e]; [|split; [assumption|cbn; congruence]].
      assert (Hs : fd_stored (fst (fd_finish calc (fd_store (q, x, v) st))) = fd_stored st ++ [(q, x, v)] /\
                   fd_eps (fst (fd_finish calc (fd_store (q, x, v) st))) = fd_eps st).
      { unfold fd_finish. cbn. destruct (if fd_sym st then _ else _) as [ms|]; [|split; reflexivity]. destruct (calc ms) as [[a b]|e]; split; reflexivity. }
      destruct Hs as [-> ->]. split; [assumption|]. intros _ _ C. destruct (fd_stored st); discriminate.
  - rewrite fd_restart_same. split; assumption.
Qed.
Lemma fd_run_good gates ops : forall st, fd_good gates st -> fd_good gates (est_run FD ops st).
Proof. induction ops as [|op ops IH]; intros st H; [exact H|]. cbn. apply IH, fd_step_good, H. Qed.
Lemma fd_reload_cases gates st : NoDup gates -> fd_good gates st ->
  (fd_stored st = [] -> fd_reload st = Ok st) /\ (fd_stored st <> [] -> fd_reload st = Raise AssertionError).
Proof.
  intros N (H1 & H2 & H3). unfold fd_reload, fd_init, as_series. cbv zeta.
  assert (Hs : subset (index (fd_eps st)) (index (fd_pos st)) = true) by (apply SeriesLemmas.subset_incl; rewrite H1, H2; intros l; auto).
  rewrite Hs. cbn [negb]. rewrite H1, <- H2. rewrite select_self by (rewrite H2; exact N).
  split; intros Hm.
  - rewrite Hm. destruct st; cbn in *; subst. reflexivity.
  - destruct (fd_stored st); [congruence|reflexivity].
Qed.
End FD.

(** *** Kalman estimator *)
Section KE.
Context {K : Type} (k_grad : K -> list num) (k_update : list num -> num -> num -> K -> K * res unit)
  (k_require : list label -> option (list series) -> kal K -> res (option series)) (k_shape : K -> nat * nat).
Hypothesis shape_kept : forall d v c k, k_shape (fst (k_update d v c k)) = k_shape k.
Notation KE := (ke_ops k_grad k_update k_require).

Definition ke_good (gates : list label) (c : kconst) (st : kal K) : Prop :=
  index (ke_pos st) = gates /\ index (kc_max c) = gates /\ index (kc_eps c) = gates /\ k_shape (ke_filter st) = (1, length gates).
Lemma ke_step_good gates c op st : ke_good gates c st -> ke_good gates c (est_do KE op st).
Proof.
  intros (H1 & H2 & H3 & H4). destruct (ke_keeps k_grad k_update k_require) as [F1 [F2 F3]].
  assert (HI : index (ke_pos (est_do KE op st)) = gates).
  { rewrite <- H1. destruct op as [g tj|p x v|v]; [apply F1|apply F2|apply F3]. }
  repeat split; try assumption. destruct op as [g tj|p x v|v]; cbn; [exact H4| |rewrite ke_restart_same; exact H4].
  unfold ke_update. destruct (select _ _) as [q|e]; [|exact H4]. destruct (ke_val st) as [last|]; [|exact H4].
  destruct (negb _).
  - match goal with |- context [k_update ?a ?b ?c ?f] => pose proof (shape_kept a b c f) as Hk; destruct (k_update a b c f) as [f' [u|e]] end; cbn in *; congruence.
  - exact H4.
Qed.
Lemma ke_run_good gates c ops : forall st, ke_good gates c st -> ke_good gates c (est_run KE ops st).
Proof. induction ops as [|op ops IH]; intros st H; [exact H|]. cbn. apply IH, ke_step_good, H. Qed.
Lemma ke_init_good f pos m e v st c : ke_init k_shape f pos m e v = Ok (st, c) ->
  ke_good (index pos) c st /\ st = mk_kal f pos v.
Proof.
  unfold ke_init.
  assert (Hp : forall a r, match a with
    | TScalar x => Ok (map (fun l => (l, x)) (index pos))
    | TSeries s => if same_set (index s) (index pos) then select (index pos) s else Raise AssertionError
    end = Ok r -> index r = index pos).
  { intros [x|s] r H; [inversion H; unfold index; rewrite map_map; cbn; rewrite map_map; reflexivity|].
    destruct (same_set _ _); [|discriminate]. apply select_index in H. exact H. }
  specialize (Hp m) as Hm. specialize (Hp e) as He.
  destruct (match m with TScalar _ => _ | TSeries _ => _ end) as [m'|]; [|discriminate].
  destruct (match e with TScalar _ => _ | TSeries _ => _ end) as [e'|]; [|discriminate].
  destruct (k_shape f) as [i j] eqn:Hs. destruct (Nat.eqb i 1) eqn:Ei; [|discriminate]. destruct (Nat.eqb j (length pos)) eqn:Ej; [|discriminate].
  cbn. intros H; inversion H; subst. apply Nat.eqb_eq in Ei, Ej. subst. split; [|reflexivity].
  repeat split; cbn; auto. rewrite Hs. unfold index. rewrite map_length. reflexivity.
Qed.
Lemma ke_good_reload gates c st : NoDup gates -> ke_good gates c st -> ke_reload k_shape (st, c) = Ok (st, c).
Proof.
  intros N (H1 & H2 & H3 & H4). unfold ke_reload, ke_init. cbn [fst snd].
  assert (E1 : same_set (index (kc_max c)) (index (ke_pos st)) = true) by (apply same_set_iff; rewrite H1, H2; tauto).
  assert (E2 : same_set (index (kc_eps c)) (index (ke_pos st)) = true) by (apply same_set_iff; rewrite H1, H3; tauto).
  rewrite E1, E2. rewrite H1. rewrite <- H2 at 1. rewrite select_self by (rewrite H2; exact N).
  rewrite <- H3 at 1. rewrite select_self by (rewrite H3; exact N). rewrite H4.
  assert (El : length (ke_pos st) = length gates) by (rewrite <- H1; unfold index; rewrite map_length; reflexivity).
  rewrite El, !Nat.eqb_refl. destruct st, c; reflexivity.
Qed.
End KE.

(** ** ForwardingSolver *)
Definition fwd_good (gates : list label) (st : fwd) : Prop := index (fw_cur st) = gates /\ index (fw_next st) = gates.
Lemma fwd_step_good gates st op : fwd_good gates st -> fwd_good gates (so_do fwd_ops st op).
Proof.
  intros [H1 H2]. destruct op as [tuned|v p var|v|ch|v]; cbn.
  - split; assumption.
  - unfold fwd_update. destruct (assign (fw_cur st) _) as [cur|e] eqn:Ha; [|split; assumption]. apply index_assign in Ha.
    destruct (assign (fw_next st) _) as [n1|e] eqn:Hb; [|split; cbn; congruence]. apply index_assign in Hb.
    destruct (assign n1 _) as [n2|e] eqn:Hc; [apply index_assign in Hc|]; split; cbn; congruence.
  - split; cbn; [rewrite index_move|]; assumption.
  - destruct (set_target ch (fw_target st)) as [t r]. split; assumption.
  - split; cbn; [rewrite index_move|]; assumption.
Qed.
Lemma fwd_run_good gates ops : forall st, fwd_good gates st -> fwd_good gates (so_run fwd_ops st ops).
Proof. induction ops as [|op ops IH]; intros st H; [exact H|]. cbn. apply IH, fwd_step_good, H. Qed.
Lemma fwd_init_good t m cur next st : fwd_init t m cur next = Ok st -> fwd_good (index cur) st.
Proof.
  unfold fwd_init. destruct next as [n|].
  - destruct (select (index cur) n) as [n'|] eqn:Hs; [|discriminate]. apply select_index in Hs. intros H; inversion H; subst. split; [reflexivity|exact Hs].
  - intros H; inversion H; subst. split; reflexivity.
Qed.
Lemma fwd_good_reload gates st : NoDup gates -> fwd_good gates st -> fwd_reload st = Ok st.
Proof.
  intros N [H1 H2]. unfold fwd_reload, fwd_init. rewrite H1, <- H2. rewrite select_self by (rewrite H2; exact N). destruct st; reflexivity.
Qed.

(** ** SensingDotTuner *)
Section SD.
Context {S X : Type} (O : solver_ops S) (cheap costly : X -> X * res (series * series)).
Implicit Type s : tsys S X.
Ltac un := unfold sd_is_tuned, sd_next, sd_evaluate, tuner_restart, tuner_set_target,
  tbind, tret, traise, tget, tput, tlift, temit, tsolver, teval, ttarget; cbn.
Lemma sd_step_labels rel s o : labels rel s -> labels rel (sd_step O cheap costly s o).
Proof.
  intros [HP HV]. destruct o as [v|tuned|v|ch]; unfold sd_step.
  - un. destruct (cheap (ts_x s)) as [x' [[raw rawvar]|e]]; cbn; [|split; assumption].
    destruct (assign (t_params (ts_t s)) _) as [lp|] eqn:H1; cbn; [|split; assumption]. apply index_assign in H1.
    destruct (assign (t_vars (ts_t s)) _) as [lv|] eqn:H2; cbn; [|split; cbn; congruence]. apply index_assign in H2.
    assert (L1 : index lp = rel) by congruence. assert (L2 : index lv = rel) by congruence.
    destruct (select _ lp) as [sel|]; cbn; [|split; assumption].
    destruct (any_na sel); cbn; [split; assumption|].
    destruct (any_le Minimum _ _); cbn; [|split; assumption].
    destruct (any_le Cost _ _); cbn.
    + destruct (costly x') as [x2 [[raw2 rawvar2]|e]]; cbn; [|split; assumption].
      destruct (assign lp _) as [lp2|] eqn:H3; cbn; [|split; assumption]. apply index_assign in H3.
      destruct (assign lv _) as [lv2|] eqn:H4; cbn; [|split; cbn; congruence]. apply index_assign in H4.
      destruct (so_update O v _ _ (ts_s s)) as [S' [u|e]]; cbn; split; cbn; congruence.
    + destruct (so_update O v _ _ (ts_s s)) as [S' [u|e]]; cbn; split; assumption.
  - un. destruct (t_failed (ts_t s)); cbn; [destruct (t_tuned (ts_t s)); split; assumption|].
    destruct (so_suggest O tuned (ts_s s)) as [S' r]; split; assumption.
  - apply restart_labels; split; assumption.
  - apply target_labels; split; assumption.
Qed.
Lemma sd_run_labels rel ops : forall s, labels rel s -> labels rel (sd_run O cheap costly s ops).
Proof. induction ops as [|o ops IH]; intros s H; [exact H|]. cbn [sd_run fold_left]. apply IH, sd_step_labels, H. Qed.
End SD.
