(** Properties C43, C44, C82-C84 of the history. *)
From Verif Require Import PyBase SeriesLemmas AutotunerModel HistoryModel HistorySpec HistoryProofs.
From Coq Require Import Lia Lra.
Local Open Scope string_scope.
Local Open Scope R_scope.
Local Open Scope list_scope.

(** ** C43 *)
(** The appended states fall into consecutive groups of states at the same
    point; there is one row and one reload path per group: the row shows the
    point, the path is the one of the group's last state. *)
Theorem history_rows gates l h :
  Forall (fun e => same_gates gates (fst e)) l -> hist_run empty_hist l = (h, Ok tt) ->
  exists groups, concat groups = l /\
    Forall2 (fun r g => group (r_volts r) g) (h_rows h) groups /\
    adjacent_differ (map r_volts (h_rows h)) /\
    Forall2 (fun p g => exists g' a, g = g' ++ [(a, p)]) (h_paths h) groups.
Proof.
  intros Hg H. exact (proj2 (run_grouped gates l [] empty_hist h (empty_ok gates) Hg empty_grouped H)).
Qed.

Lemma reachable_ok gates l h : Forall (fun e => same_gates gates (fst e)) l -> hist_run empty_hist l = (h, Ok tt) -> hist_ok gates h.
Proof. intros Hg H. exact (proj1 (run_grouped gates l [] empty_hist h (empty_ok gates) Hg empty_grouped H)). Qed.

(** Whatever an append does, also if it raises: rows are not removed, reordered
    or changed, except for the measured values of the latest row; reload paths
    likewise. *)
Theorem history_keeps_rows h a p old r ps q :
  h_rows h = old ++ [r] -> h_paths h = ps ++ [q] ->
  exists r' tail q' ptail,
    h_rows (fst (hist_append h a p)) = old ++ r' :: tail /\ r_volts r' = r_volts r /\
    (tail = [] \/ (r' = r /\ exists n, tail = [n])) /\
    h_paths (fst (hist_append h a p)) = ps ++ q' :: ptail /\ (q' = q \/ q' = p) /\
    (ptail = [] \/ (q' = q /\ ptail = [p])).
Proof. exact (append_prefix h a p old r ps q). Qed.

(** ** C44 *)
(** The history of a tuning: the newest row holds the present values of all
    tuners that were evaluated in the present round, if every round that
    follows a round that got beyond the first tuner starts at a new point. *)
Theorem history_up_to_date gates a p l h :
  tuning_run a (map fst l) -> always_moved (sn_index a) a (map fst l) ->
  Forall (fun e => same_gates gates (fst e) /\ well_named (fst e)) ((a, p) :: l) ->
  hist_run empty_hist ((a, p) :: l) = (h, Ok tt) ->
  exists old r, h_rows h = old ++ [r] /\ row_up_to_date r (last (map fst l) a).
Proof.
  intros Hr Hm Hf H. inversion Hf as [|? ? [Hg Hw] Hf']; subst. cbn in H, Hg, Hw.
  destruct (hist_append empty_hist a p) as [h1 [[]|e]] eqn:E; [|discriminate].
  destruct (newest_run gates l _ _ _ _ (newest_first gates a p h1 Hg Hw E) Hr Hm Hf' H) as (reached & _ & _ & old & r & v & Er & _ & _ & _ & Hhas).
  exists old, r. split; [exact Er|]. intros i t Hi Ht. apply row_has_holds. apply (Hhas i t Hi Ht).
Qed.
(** The iterations of an autotuner are such steps. *)
Theorem iterations_are_steps {W} (E : env W) obs s s' :
  local_env E obs -> (a_index (s_at s) <= e_n E)%nat -> iterate E s = (s', Ok tt) ->
  tuning_step (snapshot obs s) (snapshot obs s').
Proof. exact (iterate_step E obs s s'). Qed.

(** A state whose evaluated tuners all lie below the position stored in the
    row leaves the measured values of the row as they were. *)
Theorem same_point_ignored gates l h a p h' old r start v :
  Forall (fun e => same_gates gates (fst e)) l -> hist_run empty_hist l = (h, Ok tt) -> h_rows h = old ++ [r] -> r_index r = Some start -> same_gates gates a ->
  point_of a v -> same_point (r_volts r) v -> (evaluated a <= start)%nat ->
  hist_append h a p = (h', Ok tt) ->
  exists r', h_rows h' = old ++ [r'] /\ r_volts r' = r_volts r /\ r_cells r' = r_cells r.
Proof.
  intros Hl Hrun. assert (Hok := reachable_ok gates l h Hl Hrun). intros Er Ei Hg Hv Hs Hle H. apply append_inv in H.
  destruct H as (w & h1 & rows & r1 & Hw & Er1 & [[_ ->]|[C _]] & H2); [|rewrite Er in C; destruct old; discriminate].
  rewrite Er in Er1. apply app_inj_tail in Er1. destruct Er1 as [<- <-]. assert (w = v) as -> by (eapply point_unique; eauto).
  rewrite (row_point_eq gates h old r Hok Er) in H2. destruct (Hg v Hv) as [Nv _].
  assert (Hr : row_ok gates (r_volts r)).
  { apply hist_ok_alt in Hok. destruct Hok as (_ & _ & F). rewrite Er, map_app in F. apply Forall_app in F. destruct F as [_ F]. inversion F; assumption. }
  destruct Hr as (Nr & _ & Sr). assert (Es : sort_series v = r_volts r).
  { rewrite <- Sr. apply same_point_sorted; auto. apply same_point_sym. exact Hs. }
  destruct H2 as [[_ Hst]|[C _]]; [|contradiction].
  apply stay_inv in Hst. destruct Hst as (st & Est & _ & _ & Hrows). rewrite Ei in Est. injection Est as <-. rewrite eval_end_evaluated in Hrows.
  destruct Hrows as [[_ ->]|(_ & c & Hc & ->)].
  - exists r. rewrite Er. auto.
  - eexists. rewrite Er, set_last_snoc. split; [reflexivity|]. cbn. split; [reflexivity|].
    unfold slice in Hc. replace (evaluated a - start)%nat with 0%nat in Hc by lia. cbn in Hc. injection Hc as <-. reflexivity.
Qed.

(** *** Example: two tuners *)
Definition tun (v x : R) (p : label) : tsnap := mk_ts (Some [("g2", Fin 2); ("g1", Fin v)]) [(p, Fin x)] [(p, Fin 0)] None [] [(p ++ "_eval", Some 1%nat)%string].
Definition st (i : nat) (pend stat : bool) (v x y : R) : snap := mk_snap i pend stat [tun v x "p"; tun 1 y "q"].
(** First tuner tuned (p = 5), second not (q = 6); voltages calculated and set,
    first tuner evaluated again at g1 = [v] (p = 7). *)
Definition story (v : R) : list (snap * string) :=
  [(st 1 false false 1 5 0, "b"); (st 1 false true 1 5 6, "c"); (st 1 true false 1 5 6, "d"); (st 0 false false 1 5 6, "e");
   (st 1 false false v 7 6, "f")].
Lemma story_steps v : tuning_run (st 0 false false 1 0 0) (map fst (story v)).
Proof.
  cbn. repeat split.
  - apply (step_tuned 0 [] (tun 1 0 "p") (tun 1 5 "p") [tun 1 0 "q"]). reflexivity.
  - apply (step_not_tuned 1 [tun 1 5 "p"] (tun 1 0 "q") (tun 1 6 "q") []). reflexivity.
  - apply step_next.
  - apply (step_set 1 false).
  - apply (step_tuned 0 [] (tun 1 5 "p") (tun v 7 "p") [tun 1 6 "q"]). reflexivity.
Qed.
Lemma Reqb_same x : Reqb x x = true.
Proof. apply Reqb_true. reflexivity. Qed.
Lemma Reqb_diff x y : x <> y -> Reqb x y = false.
Proof. apply Reqb_false. Qed.
Ltac run_hist := repeat (cbn; rewrite ?Reqb_same; rewrite ?(Reqb_diff 3 1) by lra; rewrite ?(Reqb_diff 1 3) by lra).
Example story_moved : exists h, hist_run empty_hist ((st 0 false false 1 0 0, "a") :: story 3) = (h, Ok tt) /\
  h_paths h = ["e"; "f"] /\ map r_volts (h_rows h) = [[("g1", Fin 1); ("g2", Fin 2)]; [("g1", Fin 3); ("g2", Fin 2)]] /\
  map (fun r => (get "p" (r_cells r), get "q" (r_cells r))) (h_rows h) = [(Fin 5, Fin 6); (Fin 7, NaN)].
Proof. eexists. split; [run_hist; reflexivity|]. run_hist. repeat split. Qed.
(** The hypotheses of [history_up_to_date] hold for this story. *)
Lemma st_gates i b c v x y : same_gates ["g1"; "g2"] (st i b c v x y).
Proof.
  intros w (t & ts & E & Et). cbn in E. injection E as <- <-. cbn in Et. injection Et as <-. cbn. split.
  - repeat constructor; cbn; intuition discriminate.
  - intros g. intuition.
Qed.
Lemma st_named i b c v x y : well_named (st i b c v x y).
Proof. unfold well_named. cbn. repeat constructor; cbn; intuition discriminate. Qed.
Example story_hypotheses : always_moved 0 (st 0 false false 1 0 0) (map fst (story 3)) /\
  Forall (fun e => same_gates ["g1"; "g2"] (fst e) /\ well_named (fst e)) ((st 0 false false 1 0 0, "a") :: story 3).
Proof.
  split.
  - cbn. split; [auto|]. split; [intros (C & _); discriminate|]. split; [intros (_ & _ & C); discriminate|].
    split; [intros (_ & C & _); discriminate|]. split; [|exact I]. intros _. right. intros v w (t & ts & E & Ev) (t' & ts' & E' & Ew) [_ H].
    cbn in E, E'. injection E as <- <-. injection E' as <- <-. cbn in Ev, Ew. injection Ev as <-. injection Ew as <-.
    specialize (H "g1"). cbn in H. injection H as H. lra.
  - repeat (apply Forall_cons; [split; [apply st_gates|apply st_named]|]). apply Forall_nil.
Qed.

(** The claim is false if a round starts at the same point: the value p = 7 is
    not recorded. *)
Theorem history_up_to_date_refuted :
  exists a p l h, tuning_run a (map fst l) /\
    Forall (fun e => same_gates ["g1"; "g2"] (fst e) /\ well_named (fst e)) ((a, p) :: l) /\
    hist_run empty_hist ((a, p) :: l) = (h, Ok tt) /\
    forall old r, h_rows h = old ++ [r] -> ~ row_up_to_date r (last (map fst l) a).
Proof.
  exists (st 0 false false 1 0 0), "a", (story 1). eexists. split; [apply story_steps|]. split.
  - repeat (apply Forall_cons; [split; [apply st_gates|apply st_named]|]). apply Forall_nil.
  - split; [run_hist; reflexivity|]. intros old r. run_hist. intros E C.
    destruct old as [|? [|]]; cbn in E; try discriminate. injection E as <-.
    specialize (C 0%nat (tun 1 7 "p")). destruct C as [C _]; [unfold evaluated; cbn; lia|reflexivity|].
    specialize (C "p"). cbn in C. assert (H : get "p" [("p", Fin 5); ("p#var", Fin 0); ("q", Fin 6); ("q#var", Fin 0)] = Fin 7).
    { apply C. left. reflexivity. } cbn in H. injection H as H. lra.
Qed.

(** ** C82 *)
(** A gradient that is not known yet makes the first append raise TypeError; the
    reload path stays in the list without a row.  The next successful append
    creates the first row, which then has the path of the failed append. *)
Theorem unready_estimator_misaligns t ts v gates a p b q h :
  sn_tuners a = t :: ts -> ts_volts t = Some v -> all_cells (sn_tuners a) = Raise TypeError ->
  same_gates gates b -> hist_append (fst (hist_append empty_hist a p)) b q = (h, Ok tt) ->
  snd (hist_append empty_hist a p) = Raise TypeError /\
  length (h_rows h) = 1%nat /\ h_paths h = [p; q].
Proof.
  intros Et Ev Ec Hg H. unfold hist_append at 2 in H. unfold hist_append at 1. rewrite Et, Ev in *. unfold first_row in *. cbn [h_rows empty_hist] in *.
  rewrite Et, Ec in *. cbn in H |- *. split; [reflexivity|].
  apply append_inv in H. destruct H as (w & h1 & rows & r & Hw & Er & [[C _]|[Hn Hf]] & H2); [exfalso; apply C; reflexivity|].
  destruct (first_row_inv _ _ _ _ _ Hn Hf) as (c & Hc & E1 & E2 & E3). rewrite E1 in Er. destruct rows as [|? [|]]; cbn in Er; try discriminate. injection Er as <-.
  destruct H2 as [[_ Hst]|[C _]].
  - apply stay_inv in Hst. destruct Hst as (st & _ & Ep & _ & Hrows). rewrite Ep, E2. cbn. split; [|reflexivity].
    destruct Hrows as [[_ ->]|(_ & c' & _ & ->)]; rewrite ?set_last_length, E1; reflexivity.
  - exfalso. apply C. unfold row_point. cbn. rewrite E3. unfold sort_series at 1. apply map_ext. intros l. rewrite get_sort_series. reflexivity.
Qed.
(** When the cells of a tuner cannot be read. *)
Theorem unready_estimator_raises t g c p : tuner_params t <> Raise KeyError -> In (p, (g, c)) (ts_grads t) -> g = None \/ c = None ->
  tuner_cells t = Raise TypeError.
Proof.
  intros Hp Hin Hgc. assert (Eg : grad_cells (ts_grads t) = Raise TypeError).
  { induction (ts_grads t) as [|[q [g' c']] gs IH]; [destruct Hin|]. destruct Hin as [E|Hin].
    - injection E as -> -> ->. cbn. destruct Hgc as [-> | ->]; [reflexivity|destruct g; reflexivity].
    - cbn. rewrite (IH Hin). destruct g', c'; reflexivity. }
  unfold tuner_cells. destruct (tuner_params t) as [[x y]|e] eqn:Ep.
  - rewrite Eg. reflexivity.
  - exfalso. apply Hp. unfold tuner_params in Ep. destruct (ts_desired t) as [d|]; [|discriminate].
    assert (K : forall ls s e, select ls s = Raise e -> e = KeyError).
    { intros [|l ls] s e' Hs; [discriminate|]. unfold select in Hs. destruct (existsb _ _); [discriminate|]. congruence. }
    destruct (select _ (ts_params t)) as [u|e1] eqn:E1; [destruct (select _ (ts_vars t)) as [w|e2] eqn:E2|];
      [discriminate|apply K in E2|apply K in E1]; congruence.
Qed.
Definition unready : tsnap := mk_ts (Some [("g", Fin 1)]) [("p", Fin 5)] [("p", Fin 0)] None [("p", (None, None))] [].
Definition ready : tsnap := mk_ts (Some [("g", Fin 1)]) [("p", Fin 5)] [("p", Fin 0)] None [("p", (Some [("g", Fin 3)], Some [("g", [("g", Fin 4)])]))] [].
Example unready_example :
  let h := fst (hist_append empty_hist (mk_snap 0 false true [unready]) "a") in
  snd (hist_append empty_hist (mk_snap 0 false true [unready]) "a") = Raise TypeError /\
  exists h', hist_append h (mk_snap 0 false true [ready]) "b" = (h', Ok tt) /\ h_paths h' = ["a"; "b"] /\
    map r_cells (h_rows h') = [[("p", Fin 5); ("p#var", Fin 0); ("p#g#grad", Fin 3); ("p#g#g#cov", Fin 4)]].
Proof. cbv zeta. split; [reflexivity|]. eexists. split; [run_hist; reflexivity|]. run_hist. auto. Qed.

(** ** C83 *)
(** A new row for a state in which no tuner has been evaluated yet has no tuner
    index: every further state at the same point raises ValueError; the reload
    path is replaced all the same. *)
Theorem unevaluated_row_blocks gates l h a p h' old r v b q :
  Forall (fun e => same_gates gates (fst e)) l -> hist_run empty_hist l = (h, Ok tt) -> h_rows h = old ++ [r] -> same_gates gates a -> point_of a v -> ~ same_point (r_volts r) v ->
  evaluated a = 0%nat -> hist_append h a p = (h', Ok tt) ->
  same_gates gates b -> (exists w, point_of b w /\ same_point v w) ->
  snd (hist_append h' b q) = Raise ValueError /\ h_rows (fst (hist_append h' b q)) = h_rows h' /\
  h_paths (fst (hist_append h' b q)) = h_paths h ++ [q].
Proof.
  intros Hl Hrun. assert (Hok := reachable_ok gates l h Hl Hrun). intros Er Hg Hv Hd He H Hgb (w & Hw & Hsw).
  destruct (append_points gates _ _ _ _ Hok Hg H) as (Hok' & v' & Hv' & Hc). assert (v' = v) as -> by (eapply point_unique; eauto).
  apply append_inv in H. destruct H as (u & h1 & rows & r1 & Hu & Er1 & [[_ ->]|[C _]] & H2); [|rewrite Er in C; destruct old; discriminate].
  assert (u = v) as -> by (eapply point_unique; eauto). rewrite Er in Er1. apply app_inj_tail in Er1. destruct Er1 as [<- <-].
  rewrite (row_point_eq gates h old r Hok Er) in H2. destruct (Hg v Hv) as [Nv _]. destruct (Hgb w Hw) as [Nw _].
  assert (Hn : new_row h v a p = (h', Ok tt)).
  { destruct H2 as [[Es _]|[_ Hn]]; [|exact Hn]. exfalso. apply Hd. rewrite <- Es. apply same_point_sort. }
  apply new_row_inv in Hn. rewrite eval_end_evaluated in Hn. destruct Hn as (Ep & Eg & [[_ Hr]|[C _]]); [|contradiction].
  destruct Hw as (t & ts & Et & Etv).
  unfold hist_append. rewrite Et, Etv.
  assert (Hm : match h_rows h' with [] => first_row h' w b q | _ :: _ => (h', Ok tt) end = (h', Ok tt)).
  { rewrite Hr. destruct (h_rows h); reflexivity. }
  rewrite Hm, Hr, rev_app_distr. cbn [rev app]. fold (row_point h' (mk_row (sort_series v) None [])).
  rewrite (row_point_eq gates h' (h_rows h) _ Hok' Hr). cbn [r_volts].
  replace (sort_series w) with (sort_series v) by (apply same_point_sorted; auto).
  rewrite (proj2 (series_eqb_eq _ _) eq_refl). unfold stay_in_row. cbn. rewrite Ep, set_last_snoc. auto.
Qed.
Example unevaluated_example :
  let h := fst (hist_run empty_hist [(st 0 false true 1 5 6, "a"); (st 0 false false 3 5 6, "b")]) in
  map r_index (h_rows h) = [Some 0%nat; None] /\ snd (hist_append h (st 1 false false 3 7 6) "c") = Raise ValueError.
Proof. cbv zeta. run_hist. split; reflexivity. Qed.

(** ** C84 *)
(** Such a row has no evaluator data either: the evaluator data is shorter than
    the table from then on. *)
Theorem evaluator_rows_misaligned gates l h a p h' old r v :
  Forall (fun e => same_gates gates (fst e)) l -> hist_run empty_hist l = (h, Ok tt) -> h_rows h = old ++ [r] -> same_gates gates a -> point_of a v -> ~ same_point (r_volts r) v ->
  evaluated a = 0%nat -> hist_append h a p = (h', Ok tt) ->
  length (h_rows h') = S (length (h_rows h)) /\ h_evals h' = h_evals h.
Proof.
  intros Hl Hrun. assert (Hok := reachable_ok gates l h Hl Hrun). intros Er Hg Hv Hd He H.
  apply append_inv in H. destruct H as (u & h1 & rows & r1 & Hu & Er1 & [[_ ->]|[C _]] & H2); [|rewrite Er in C; destruct old; discriminate].
  assert (u = v) as -> by (eapply point_unique; eauto). rewrite Er in Er1. apply app_inj_tail in Er1. destruct Er1 as [<- <-].
  rewrite (row_point_eq gates h old r Hok Er) in H2.
  destruct H2 as [[Es _]|[_ Hn]]; [exfalso; apply Hd; rewrite <- Es; apply same_point_sort|].
  unfold new_row in Hn. rewrite eval_end_evaluated, He in Hn. cbn in Hn. injection Hn as <-. cbn. rewrite app_length. cbn. split; [lia|reflexivity].
Qed.
Example misaligned_example :
  let h := fst (hist_run empty_hist [(st 0 false true 1 5 6, "a"); (st 0 false false 3 5 6, "b")]) in
  length (h_rows h) = 2%nat /\ length (h_evals h) = 1%nat.
Proof. cbv zeta. run_hist. split; reflexivity. Qed.

(** The entry of an evaluator in the newest row is the one given last, else that
    of before; no other row is changed. *)
Lemma eupsert_spec k v s l d : data_of l (eupsert k v s) d <-> (l = k /\ d = v) \/ (l <> k /\ data_of l s d).
Proof.
  assert (N : forall l d, data_of l [] d -> False) by (intros l0 d0 (pre & post & E & _); destruct pre; discriminate).
  assert (C : forall a x s' l d, data_of l ((a, x) :: s') d <-> (l = a /\ d = x) \/ (l <> a /\ data_of l s' d)).
  { intros a x s' l0 d0. split.
    - intros ([|[b y] pre] & post & E & H); cbn in E; injection E as E1 E2; [left; split; congruence|]. right. split; [intros ->; apply H; left; cbn; congruence|].
      exists pre, post. split; [congruence|]. intros K. apply H. right. exact K.
    - intros [[-> ->]|[Hn (pre & post & -> & H)]]; [exists [], s'; split; [reflexivity|intros []]|]. exists ((a, x) :: pre), post. split; [reflexivity|]. cbn. intros [K|K]; [congruence|exact (H K)]. }
  induction s as [|[a x] s IH]; cbn [eupsert].
  - rewrite C. split; [intros [K|[_ K]]; [auto|destruct (N _ _ K)]|intros [K|[_ K]]; [auto|destruct (N _ _ K)]].
  - destruct (label_eqb k a) eqn:E.
    + apply String.eqb_eq in E. subst a. rewrite !C. tauto.
    + rewrite !C, IH. assert (a <> k) by (intros ->; unfold label_eqb in E; rewrite String.eqb_refl in E; discriminate).
      split; [intros [[-> ->]|[H1 [[-> ->]|[H2 H3]]]]|intros [[-> ->]|[H1 [[-> ->]|[H2 H3]]]]]; auto.
Qed.
Lemma eupserts_spec evs : forall s l d, data_of l (eupserts evs s) d <-> last_given l evs d \/ (~ In l (map fst evs) /\ data_of l s d).
Proof.
  induction evs as [|[k v] evs IH]; intros s l d.
  - cbn. split; [auto|]. intros [(pre & post & E & _)|[_ H]]; [destruct pre; discriminate|exact H].
  - change (eupserts ((k, v) :: evs) s) with (eupserts evs (eupsert k v s)). rewrite IH, eupsert_spec. split.
    + intros [(pre & post & -> & H)|[H [[-> ->]|[H1 H2]]]].
      * left. exists ((k, v) :: pre), post. auto.
      * left. exists [], evs. auto.
      * right. cbn. split; [intros [K|K]; [congruence|exact (H K)]|exact H2].
    + intros [([|[b y] pre] & post & E & H)|[H H2]].
      * injection E as -> -> ->. right. auto.
      * injection E as -> -> ->. left. exists pre, post. auto.
      * cbn in H. right. split; [intros K; apply H; auto|]. right. split; [intros ->; apply H; auto|exact H2].
Qed.
Lemma slice_data a i : flat_map ts_evals (slice i (eval_end a) (sn_tuners a)) = evaluator_data a i.
Proof. unfold slice, evaluator_data. rewrite eval_end_evaluated, skipn_firstn_comm. reflexivity. Qed.
Theorem evaluator_data_recorded gates l h a p h' old r v start evs0 prev :
  Forall (fun e => same_gates gates (fst e)) l -> hist_run empty_hist l = (h, Ok tt) -> h_rows h = old ++ [r] -> r_index r = Some start -> same_gates gates a -> point_of a v ->
  h_evals h = evs0 ++ [prev] -> hist_append h a p = (h', Ok tt) ->
  (same_point (r_volts r) v -> evaluator_data a start <> [] ->
     exists new, h_evals h' = evs0 ++ [new] /\
       forall e d, data_of e new d <-> last_given e (evaluator_data a start) d \/ (~ In e (map fst (evaluator_data a start)) /\ data_of e prev d)) /\
  (~ same_point (r_volts r) v -> evaluator_data a 0 <> [] ->
     exists new, h_evals h' = evs0 ++ [prev; new] /\ forall e d, data_of e new d <-> last_given e (evaluator_data a 0) d).
Proof.
  intros Hl Hrun. assert (Hok := reachable_ok gates l h Hl Hrun). intros Er Ei Hg Hv Ee H.
  apply append_inv in H. destruct H as (u & h1 & rows & r1 & Hu & Er1 & [[_ ->]|[C _]] & H2); [|rewrite Er in C; destruct old; discriminate].
  assert (u = v) as -> by (eapply point_unique; eauto). rewrite Er in Er1. apply app_inj_tail in Er1. destruct Er1 as [<- <-].
  rewrite (row_point_eq gates h old r Hok Er) in H2. destruct (Hg v Hv) as [Nv _].
  assert (Hr : row_ok gates (r_volts r)).
  { apply hist_ok_alt in Hok. destruct Hok as (_ & _ & F). rewrite Er, map_app in F. apply Forall_app in F. destruct F as [_ F]. inversion F; assumption. }
  destruct Hr as (Nr & _ & Sr). split; intros Hs Hne.
  - assert (Es : sort_series v = r_volts r) by (rewrite <- Sr; apply same_point_sorted; auto; apply same_point_sym; exact Hs).
    destruct H2 as [[_ Hst]|[C _]]; [|contradiction]. unfold stay_in_row in Hst. rewrite Ei in Hst.
    destruct (eval_end a =? 0)%nat eqn:E0.
    { exfalso. apply Hne. apply Nat.eqb_eq in E0. unfold evaluator_data. rewrite <- eval_end_evaluated, E0. cbn. destruct start; reflexivity. }
    destruct (all_cells _) as [c|e]; [|discriminate]. rewrite slice_data in Hst. destruct (evaluator_data a start) as [|e0 evs] eqn:Ed; [contradiction|].
    rewrite Ee in Hst. injection Hst as Hst _. subst h'. cbn [h_evals]. rewrite set_last_snoc, last_last. eexists. split; [reflexivity|]. intros e d. exact (eupserts_spec (e0 :: evs) prev e d).
  - assert (Hn : new_row h v a p = (h', Ok tt)).
    { destruct H2 as [[Es _]|[_ Hn]]; [|exact Hn]. exfalso. apply Hs. rewrite <- Es. apply same_point_sort. }
    unfold new_row in Hn. rewrite slice_data in Hn. destruct (eval_end a =? 0)%nat eqn:E0.
    { exfalso. apply Hne. apply Nat.eqb_eq in E0. unfold evaluator_data. rewrite <- eval_end_evaluated, E0. reflexivity. }
    destruct (all_cells _) as [c|e]; [|discriminate]. destruct (evaluator_data a 0) as [|e0 evs] eqn:Ed; [contradiction|].
    injection Hn as Hn. subst h'. cbn [h_evals]. rewrite Ee, <- app_assoc. eexists. split; [reflexivity|]. intros e d. pose proof (eupserts_spec (e0 :: evs) [] e d) as Q. split; [intros K; apply Q in K; revert K; intros [K|[_ (pre & post & E & _)]]; [exact K|destruct pre; discriminate]|intros K; apply Q; auto].
Qed.

(** The second tuner is evaluated at the point of the first row, then the first one at another point. *)
Example recorded_example :
  let q d := mk_ts (Some [("g2", Fin 2); ("g1", Fin 1)]) [("q", Fin 6)] [("q", Fin 0)] None [] [("q_eval", Some d)] in
  let h0 := fst (hist_run empty_hist [(mk_snap 1 false false [tun 1 5 "p"; q 1%nat], "a")]) in
  let h1 := fst (hist_append h0 (mk_snap 1 false true [tun 1 5 "p"; q 9%nat]) "b") in
  map r_index (h_rows h0) = [Some 1%nat] /\ h_evals h0 = [[("p_eval", Some 1%nat); ("q_eval", Some 1%nat)]] /\
  h_evals h1 = [[("p_eval", Some 1%nat); ("q_eval", Some 9%nat)]] /\
  h_evals (fst (hist_append h1 (mk_snap 1 false false [tun 3 5 "p"; q 9%nat]) "c")) = [[("p_eval", Some 1%nat); ("q_eval", Some 9%nat)]; [("p_eval", Some 1%nat)]].
Proof. cbv zeta. run_hist. repeat split. Qed.

Print Assumptions history_rows.
Print Assumptions history_keeps_rows.
Print Assumptions history_up_to_date.
Print Assumptions iterations_are_steps.
Print Assumptions same_point_ignored.
Print Assumptions history_up_to_date_refuted.
Print Assumptions unready_estimator_misaligns.
Print Assumptions unready_estimator_raises.
Print Assumptions unevaluated_row_blocks.
Print Assumptions evaluator_rows_misaligned.
Print Assumptions evaluator_data_recorded.
