(** Properties C09-C19 of the parameter tuners and the forwarding solver. *)
From Verif Require Import PyBase TargetModel TunerModel TunerSpec SeriesLemmas TunerProofs
  SolverModel SolverSpec SensingDotProofs AutotunerModel AutotunerSpec AutotunerProofs.
From Coq Require Import Lra ZArith.

(** ** C09 *)
Theorem subset_tuner_tuned_iff {S X} (O : solver_ops S) (evals : X -> X * res (series * series)) v s s' b :
  let T := so_target O (ts_s s) in
  (forall v p var st, so_target O (fst (so_update O v p var st)) = so_target O st) ->
  NoDup (t_index T) -> Forall plain_row T ->
  t_queue (ts_t s) = 0%Z ->
  subset_is_tuned O evals v s = (s', Ok b) ->
  exists raw rawvar, snd (evals (ts_x s)) = Ok (raw, rawvar) /\
    (b = true <->
     (forall l, In l (index (t_params (ts_t s))) ->
        exists r, In r T /\ t_name r = l /\ ~ missing (get l raw) (t_rescale r)) /\
     (forall r, In r T -> row_met r (get (t_name r) raw))).
Proof. exact (subset_tuned_iff O evals v s s' b). Qed.

(** ** C10 *)
Theorem failed_evaluation_quarantined {S X} (O : solver_ops S) (evals : X -> X * res (series * series)) v s s' r raw rawvar l :
  let T := so_target O (ts_s s) in
  NoDup (t_index T) ->
  t_queue (ts_t s) = 0%Z ->
  snd (evals (ts_x s)) = Ok (raw, rawvar) ->
  In l (index (t_params (ts_t s))) ->
  (forall row, In row T -> t_name row = l -> missing (get l raw) (t_rescale row)) ->
  subset_is_tuned O evals v s = (s', r) ->
  ((r = Ok false /\ t_failed (ts_t s') = true) \/ exists e, r = Raise e) /\
  t_evaluatable (ts_t s') = t_evaluatable (ts_t s) /\ t_tuned (ts_t s') = t_tuned (ts_t s) /\
  ts_s s' = ts_s s /\ exists evs, ts_tr s' = evs ++ ts_tr s /\ filter is_update evs = [].
Proof. exact (failed_evaluation_raw O evals v s s' r raw rawvar l). Qed.

(** Every voltage vector in the evaluatable list was passed to is_tuned and the
    evaluation performed there had no NaN in a relevant parameter; tuned voltages
    are evaluatable. *)
Theorem evaluatable_voltages_were_evaluated {S X} (O : solver_ops S) (evals : X -> X * res (series * series)) L rel st x ops v :
  let s := subset_run O evals L (mk_tsys (fresh_tuner rel) st x []) ops in
  In v (t_evaluatable (ts_t s)) ->
  exists newer older raw,
    ts_tr s = newer ++ TEval true (Ok raw) :: TEnter v :: older /\
    forall l, In l rel -> get l (fst raw) <> NaN.
Proof. intros s. exact (proj1 (proj2 (run_J O evals L rel ops _ (fresh_J rel st x))) v). Qed.

Theorem tuned_voltages_are_evaluatable {S X} (O : solver_ops S) (evals : X -> X * res (series * series)) L rel st x ops :
  let s := subset_run O evals L (mk_tsys (fresh_tuner rel) st x []) ops in
  incl (t_tuned (ts_t s)) (t_evaluatable (ts_t s)).
Proof. exact (proj2 (proj2 (run_J O evals L rel ops _ (fresh_J rel st x)))). Qed.

(** ** C11 *)
Theorem recovery_halves_distance {S X} (O : solver_ops S) (evals : X -> X * res (series * series)) L k s s' ls good bad rest :
  t_failed (ts_t s) = true -> t_evaluatable (ts_t s) = vec ls good :: rest ->
  t_last (ts_t s) = Some (vec ls bad) ->
  recovery O evals L k s s' ->
  t_failed (ts_t s') = true /\ t_evaluatable (ts_t s') = vec ls good :: rest /\
  t_last (ts_t s') = Some (vec ls (fun l => good l + (bad l - good l) / 2 ^ k)%R).
Proof. exact (recovery_halves O evals L k s s' ls good bad rest). Qed.

Theorem recovery_without_evaluatable_point {S X} (O : solver_ops S) L tuned (s : tsys S X) :
  t_failed (ts_t s) = true -> t_evaluatable (ts_t s) = [] ->
  subset_next O L tuned s = (s, Raise IndexError).
Proof. exact (recovery_impossible O L tuned s). Qed.

(** ** C12, C13 *)
Theorem step_limit_and_direction {S X} (O : solver_ops S) L tuned (s : tsys S X) S' ls f ls' h m s' r :
  t_failed (ts_t s) = false -> t_last (ts_t s) = Some (vec ls f) ->
  NoDup ls -> NoDup ls' -> incl ls' ls ->
  so_suggest O tuned (ts_s s) = (S', Ok (vec ls' h)) ->
  l_size L = Fin m -> (0 < m)%R ->
  subset_next O L tuned s = (s', r) ->
  exists c, (0 < c <= 1)%R /\
    r = Ok (vec ls (fun l => f l + c * step_to ls' h f l)%R) /\
    (rnorm ls (fun l => (f l + c * step_to ls' h f l) - f l) <= m)%R /\
    (c = 1 <-> rnorm ls (step_to ls' h f) <= m)%R.
Proof. exact (step_limit O L tuned s S' ls f ls' h m s' r). Qed.

Theorem unlimited_step_passed_on {S X} (O : solver_ops S) L tuned (s : tsys S X) S' ls f ls' h :
  t_failed (ts_t s) = false -> t_last (ts_t s) = Some (vec ls f) ->
  NoDup ls -> NoDup ls' -> incl ls' ls ->
  so_suggest O tuned (ts_s s) = (S', Ok (vec ls' h)) ->
  l_size L = NaN ->
  exists s', subset_next O L tuned s =
    (s', Ok (vec ls (fun l => if mem l ls' then h l else f l))).
Proof.
  intros H1 H2 H3 H4 H5 H6 H7. eexists.
  rewrite (next_unlimited O L tuned s S' ls f ls' h) by assumption. f_equal. f_equal.
  apply vec_ext. intros l _. unfold step_to. destruct (mem l ls'); ring.
Qed.

Theorem only_own_gates_move {S X} (O : solver_ops S) L tuned (s : tsys S X) S' ls f ls' h s' v :
  t_failed (ts_t s) = false -> t_last (ts_t s) = Some (vec ls f) ->
  NoDup ls -> NoDup ls' -> incl ls' ls ->
  so_suggest O tuned (ts_s s) = (S', Ok (vec ls' h)) ->
  (l_size L = NaN \/ exists m, l_size L = Fin m /\ (0 < m)%R) ->
  subset_next O L tuned s = (s', Ok v) ->
  index v = ls /\ forall l, In l ls -> ~ In l ls' -> get l v = Fin (f l).
Proof.
  intros H1 H2 H3 H4 H5 H6 [H7|[m [H7 H8]]] H9.
  - destruct (unlimited_step_passed_on O L tuned s S' ls f ls' h H1 H2 H3 H4 H5 H6 H7) as [s2 Hs2].
    rewrite Hs2 in H9. inversion H9; subst. split; [apply index_vec|]. intros l Hl Hn.
    rewrite vec_tab, get_tab by assumption. apply mem_false in Hn. rewrite Hn. reflexivity.
  - destruct (step_limit_and_direction O L tuned s S' ls f ls' h m s' (Ok v) H1 H2 H3 H4 H5 H6 H7 H8 H9) as [c [_ [Hv _]]].
    inversion Hv; subst. split; [apply index_vec|]. intros l Hl Hn.
    rewrite vec_tab, get_tab by assumption. unfold step_to. apply mem_false in Hn. rewrite Hn. f_equal. ring.
Qed.

(** ** C14 *)
Theorem queue_bounded {S X} (O : solver_ops S) (evals : X -> X * res (series * series)) L rel st x ops :
  (l_size L = NaN \/ exists m, l_size L = Fin m /\ (0 < m)%R) -> (1 <= l_number L)%Z ->
  let s := subset_run O evals L (mk_tsys (fresh_tuner rel) st x []) ops in
  (0 <= t_queue (ts_t s) <= l_number L - 1)%Z.
Proof. intros H1 H2. apply run_queue; auto. unfold queue_ok; cbn. lia. Qed.

(** If the solver keeps suggesting positions farther away than the limit, the
    first [K = min(floor(d/m), maximal_step_number)] computed voltages are made
    without evaluation: no evaluator runs until the K-th voltages are set, and the
    is_tuned call that follows evaluates. *)
Theorem blind_steps_counted {S X} (O : solver_ops S) (evals : X -> X * res (series * series)) L m j d s v s' K :
  l_size L = Fin m -> (0 < m)%R -> t_queue (ts_t s) = 0%Z -> t_failed (ts_t s) = false ->
  blind O evals L m j d s v s' ->
  (1 <= l_number L)%Z ->
  (IZR K <= d / m < IZR K + 1)%R ->
  (Z.of_nat j <= Z.min K (l_number L))%Z ->
  (exists evs, ts_tr s' = evs ++ ts_tr s /\ filter is_eval evs = []) /\
  (exists evs, ts_tr (fst (subset_is_tuned O evals v s')) = evs ++ ts_tr s' /\
     (filter is_eval evs = [] <-> (Z.of_nat j < Z.min K (l_number L))%Z)).
Proof.
  intros H1 H2 H3 H4 H5 H6 H7 H8.
  destruct (blind_queue O evals L m j d s v s' K H1 H2 H3 H4 H5 H6 H7 H8) as [Hq [Hf He]].
  split; [assumption|].
  destruct (Z.eq_dec (t_queue (ts_t s')) 0) as [Hz|Hz].
  - destruct (is_tuned_evaluates O evals v s' Hz) as [evs [E1 E2]]. exists evs. split; [assumption|].
    split; [contradiction|lia].
  - destruct (is_tuned_no_eval O evals v s' Hz) as [evs [E1 [E2 _]]]. exists evs. split; [assumption|].
    split; [lia|auto].
Qed.

Theorem zero_step_number_blocks_evaluation {S X} (O : solver_ops S) (evals : X -> X * res (series * series)) L tuned (s : tsys S X) S' ls f ls' h m ops :
  t_failed (ts_t s) = false -> t_last (ts_t s) = Some (vec ls f) ->
  NoDup ls -> NoDup ls' -> incl ls' ls ->
  so_suggest O tuned (ts_s s) = (S', Ok (vec ls' h)) ->
  l_size L = Fin m -> (0 < m)%R -> l_number L = 0%Z -> t_queue (ts_t s) = 0%Z ->
  (m < rnorm ls (step_to ls' h f))%R ->
  exists evs, ts_tr (subset_run O evals L s (TopNext tuned :: ops)) = evs ++ ts_tr s /\ filter is_eval evs = [].
Proof.
  intros. pose proof (zero_number_negative O L tuned s S' ls f ls' h m) as Hneg.
  destruct (negative_queue_forever O evals L ops (fst (subset_next O L tuned s))) as [_ [e2 [E1 E2]]]; [apply Hneg; assumption|].
  destruct (next_events O L tuned s) as [e1 [E3 [E4 _]]].
  exists (e2 ++ e1). cbn [subset_run fold_left subset_step] in *. unfold subset_run in E1. rewrite E1, E3, app_assoc.
  rewrite filter_app, E2, E4. auto.
Qed.

(** ** C15 *)
Theorem exact_multiple_livelock {S X} (O : solver_ops S) (evals : X -> X * res (series * series)) L ls ls' h f m k tuneds s :
  NoDup ls -> NoDup ls' -> incl ls' ls -> l_size L = Fin m -> (0 < m)%R ->
  2 <= k -> (Z.of_nat k <= l_number L)%Z ->
  (forall tuned st, snd (so_suggest O tuned st) = Ok (vec ls' h)) ->
  (forall v st, snd (so_set_position O v st) = Ok tt) ->
  rnorm ls (step_to ls' h f) = (INR k * m)%R ->
  t_failed (ts_t s) = false -> t_queue (ts_t s) = 0%Z -> t_last (ts_t s) = Some (vec ls f) ->
  let s' := rounds O evals L tuneds s in
  (exists evs, ts_tr s' = evs ++ ts_tr s /\ filter is_eval evs = []) /\
  (k <= length tuneds ->
   t_queue (ts_t s') = 1%Z /\ t_last (ts_t s') = Some (vec ls (fun l => f l + step_to ls' h f l)%R)).
Proof. exact (livelock O evals L ls ls' h f m k tuneds s). Qed.

(** ** C16 *)
Theorem sensing_dot_decision {S X} (O : solver_ops S) (cheap expensive : X -> X * res (series * series)) v s s' b :
  let T := so_target O (ts_s s) in
  (forall x r, snd (cheap x) = Ok r -> NoDup (index (fst r))) ->
  NoDup (t_index T) -> NoDup (index (t_params (ts_t s))) ->
  sd_is_tuned O cheap expensive v s = (s', Ok b) ->
  exists raw rawvar evs,
    snd (cheap (ts_x s)) = Ok (raw, rawvar) /\ ts_tr s' = evs ++ ts_tr s /\
    (b = true <-> all_known T raw /\ ~ below Minimum T raw) /\
    (t_failed (ts_t s') = true <-> ~ all_known T raw) /\
    ((exists r, In (TEval false r) evs) <-> all_known T raw /\ below Minimum T raw /\ below Cost T raw) /\
    (b = true -> filter is_update evs = []) /\
    (~ all_known T raw -> filter is_update evs = []) /\
    (b = false -> all_known T raw -> ~ below Cost T raw ->
       filter is_update evs = [TUpdate v (prepared T raw) (variances T rawvar) (Ok tt)]) /\
    (b = false -> all_known T raw -> below Cost T raw ->
       exists raw2 rawvar2, snd (expensive (fst (cheap (ts_x s)))) = Ok (raw2, rawvar2) /\
       filter is_update evs = [TUpdate v (prepared T raw2) (variances T rawvar2) (Ok tt)]).
Proof. exact (sd_decision O cheap expensive v s s' b). Qed.

(** ** C17 *)
Theorem expensive_nan_not_detected {X} (cheap expensive : X -> X * res (series * series)) v (s s' : tsys fwd X) b raw rawvar raw2 rawvar2 l g :
  let T := so_target fwd_ops (ts_s s) in
  let st := ts_s s in
  (forall x r, snd (cheap x) = Ok r -> NoDup (index (fst r))) ->
  NoDup (t_index T) -> NoDup (index (t_params (ts_t s))) ->
  index (fw_next st) = index (fw_cur st) -> NoDup (index (fw_cur st)) -> NoDup (index v) ->
  NoDup (map fst (fw_map st)) ->
  (forall l l' g, In (l, Some g) (fw_map st) -> In (l', Some g) (fw_map st) -> l = l') ->
  (forall l g, In (l, Some g) (fw_map st) -> In g (index (fw_cur st))) ->
  snd (cheap (ts_x s)) = Ok (raw, rawvar) ->
  all_known T raw -> below Minimum T raw -> below Cost T raw ->
  snd (expensive (fst (cheap (ts_x s)))) = Ok (raw2, rawvar2) -> NoDup (index raw2) ->
  In l (index raw2) -> get l raw2 = NaN -> In (l, Some g) (fw_map st) ->
  sd_is_tuned fwd_ops cheap expensive v s = (s', Ok b) ->
  b = false /\ t_failed (ts_t s') = false /\
  forall tuned, exists s'' w, sd_next fwd_ops tuned s' = (s'', Ok w) /\ In (g, NaN) w.
Proof. exact (expensive_nan cheap expensive v s s' b raw rawvar raw2 rawvar2 l g). Qed.

Theorem nan_blocks_autotuner_forever {W} (E : env W) n s v l :
  a_to_set (s_at s) = Some v -> In (l, NaN) v ->
  s_at (run E s (repeat OpIterate n)) = s_at s /\
  exists evs, s_tr (run E s (repeat OpIterate n)) = evs ++ s_tr s /\
     filter is_action evs = [] /\ filter is_save evs = [].
Proof. exact (nan_forever E n s v l). Qed.

(** ** C18 *)
Theorem descale_undoes_rescale t p var :
  good_factors t ->
  (let (p', var') := rescale_values t p var in descale_values t p' var') = (p, var).
Proof. exact (rescale_descale t p var). Qed.

Theorem rescale_divides t p var l m f : NoDup (t_index t) ->
  (exists r, In r t /\ t_name r = l /\ t_rescale r = Fin f) -> f <> 0%R ->
  (In (l, Fin m) p -> In (l, Fin (m / f)) (fst (rescale_values t p var))) /\
  (In (l, Fin m) var -> In (l, Fin (m / (f * f))) (snd (rescale_values t p var))).
Proof. exact (rescale_entry t p var l m f). Qed.

Theorem rescale_leaves_unmentioned t p var l x y :
  In (l, x) (fst (rescale_values t p var)) -> ~ In l (t_index t) ->
  (forall x', In (l, x') p -> exists r, x' = Fin r) ->
  In (l, x) p /\
  (In (l, y) (snd (rescale_values t p var)) -> (forall y', In (l, y') var -> exists r, y' = Fin r) -> In (l, y) var).
Proof. exact (rescale_one t p var l x y). Qed.

(** ** C19 *)
Theorem forwarding_suggestion st pos values variances :
  index (fw_next st) = index (fw_cur st) -> NoDup (index (fw_cur st)) -> NoDup (index pos) -> NoDup (index values) ->
  NoDup (map fst (fw_map st)) ->
  (forall l l' g, In (l, Some g) (fw_map st) -> In (l', Some g) (fw_map st) -> l = l') ->
  (forall l g, In l (index values) -> In (l, Some g) (fw_map st) -> In g (index (fw_cur st))) ->
  exists st', so_update fwd_ops pos values variances st = (st', Ok tt) /\
    forall tuned, exists w, so_suggest fwd_ops tuned st' = (st', Ok w) /\ index w = index (fw_cur st) /\
    forall g, In g (index (fw_cur st)) ->
       forward_value (fw_target st) (fw_map st) pos values (fw_next st) g (get g w).
Proof.
  intros. destruct (fwd_update_spec st pos values variances) as [st' [E1 [E2 [E3 [E4 [E5 [E6 E7]]]]]]]; auto.
  exists st'. split; [assumption|]. intros tuned. exists (fw_next st'). repeat split; auto.
Qed.

Theorem forwarding_restart_keeps_suggestion v st tuned :
  snd (so_suggest fwd_ops tuned (fst (so_restart fwd_ops v st))) = snd (so_suggest fwd_ops tuned st).
Proof. reflexivity. Qed.

(** ** Concrete cases *)
Section Cases.
Local Open Scope string_scope.
Definition cs (T : target) (sol : series) : solver_ops unit :=
  mk_solver_ops unit (fun _ => T) (fun _ _ => (tt, Ok sol)) (fun _ _ _ _ => (tt, Ok tt))
    (fun _ _ => (tt, Ok tt)) (fun _ _ => (tt, Ok tt)) (fun _ _ => (tt, Ok tt)).
Definition row1 : trow := mk_trow "a" (Fin 1) NaN NaN (Fin (1/10)) NaN (Fin 2).
Definition row2 : trow := mk_trow "b" NaN (Fin 3) NaN NaN (Fin 5) (Fin 1).
Definition world (ra : num) : unit -> unit * res (series * series) :=
  fun _ => (tt, Ok ([("a", ra); ("b", Fin 4)], [("a", Fin 0); ("b", Fin 0)])).
Definition tsys0 : tsys unit unit := mk_tsys (with_last (vec ["g"] (fun _ => 0%R)) (fresh_tuner ["a"])) tt tt [].

(** C09: the hypotheses hold, a measured 2.1 (factor 2) is accepted, 4 is not. *)
Example case_tuned ra : exists s' b,
  subset_is_tuned (cs [row1; row2] []) (world ra) [] tsys0 = (s', Ok b).
Proof.
  unfold subset_is_tuned, evaluate, tbind, temit, tget, tput, tsolver, teval, tlift, ttarget, tret. cbn.
  repeat match goal with |- context [if ?b then _ else _] => destruct b; cbn; eauto end.
Qed.
Example case_plain : NoDup (t_index [row1; row2]) /\ Forall plain_row [row1; row2] /\ t_queue (ts_t tsys0) = 0%Z.
Proof.
  split; [repeat constructor; cbn; intuition discriminate|]. split; [|reflexivity].
  repeat constructor; cbn; try discriminate; intros H; inversion H; lra.
Qed.
Example case_met : row_met row1 (Fin (21/10)) /\ ~ row_met row1 (Fin 4) /\ row_met row2 (Fin 4) /\
  ~ missing (Fin (21/10)) (t_rescale row1) /\ missing NaN (t_rescale row1).
Proof.
  assert (H2 : Reqb 2 0 = false) by (apply Reqb_false; lra).
  cbn. repeat split.
  - intros tol H; inversion H. apply Rabs_def1; lra.
  - intros H. specialize (H _ eq_refl). apply Rabs_def2 in H. lra.
  - intros tol H; inversion H.
  - unfold missing; cbn. rewrite H2. discriminate.
Qed.

(** C10: the evaluation returned NaN for the relevant parameter. *)
Example case_failed :
  snd (world NaN tt) = Ok ([("a", NaN); ("b", Fin 4)], [("a", Fin 0); ("b", Fin 0)]) /\
  In "a" (index (t_params (ts_t tsys0))) /\
  snd (subset_is_tuned (cs [row1; row2] []) (world NaN) [] tsys0) = Ok false.
Proof. cbn. auto. Qed.
Example case_evaluatable :
  t_evaluatable (ts_t (subset_run (cs [row1; row2] []) (fun _ => (tt, Ok ([("a", Fin 0); ("b", PInf)], []))) (mk_limits NaN 0)
     (mk_tsys (fresh_tuner ["b"]) tt tt []) [TopIsTuned [("g", Fin 7)]])) = [] /\
  t_evaluatable (ts_t (subset_run (cs [row1; row2] []) (fun _ => (tt, Ok ([("a", Fin 0); ("b", PInf)], [("a", PInf); ("b", PInf)]))) (mk_limits NaN 0)
     (mk_tsys (fresh_tuner ["b"]) tt tt []) [TopIsTuned [("g", Fin 7)]])) = [[("g", Fin 7)]].
Proof.
  split; [reflexivity|]. cbn. unfold subset_is_tuned, evaluate, tbind, temit, tget, tput, tsolver, teval, tlift, ttarget, tret. cbn.
  assert (H : Rltb 1 0 = false) by (apply Rltb_false; lra). rewrite H. cbn.
  repeat match goal with |- context [if ?b then _ else _] => destruct b; cbn; try reflexivity end.
Qed.

(** C11: two rounds of recovery from 8 towards 0 arrive at 2. *)
Definition tsys_bad : tsys unit unit :=
  mk_tsys (mk_tuner (Some (vec ["g"] (fun _ => 8%R))) [("a", NaN)] [("a", NaN)] true [vec ["g"] (fun _ => 0%R)] [] 0%Z) tt tt [].
Ltac ev :=
  unfold subset_next, subset_is_tuned, evaluate, tbind, temit, tget, tput, tsolver, teval, tlift, ttarget, tret;
  cbn -[sadd smap]; reflexivity.
Example case_recovery : exists s', recovery (cs [row1; row2] []) (world NaN) (mk_limits NaN 0) 2 tsys_bad s' /\
  t_last (ts_t s') = Some (vec ["g"] (fun _ => 2%R)).
Proof.
  assert (H : exists s', recovery (cs [row1; row2] []) (world NaN) (mk_limits NaN 0) 2 tsys_bad s').
  { eexists. eapply (rec_S _ _ _ 1 _ _ []); [eapply (rec_S _ _ _ 0 _ _ []); [apply rec_0|ev..]|ev..]. }
  destruct H as [s' H]. exists s'. split; [assumption|].
  destruct (recovery_halves_distance _ _ _ 2 tsys_bad s' ["g"] (fun _ => 0%R) (fun _ => 8%R) [] eq_refl eq_refl eq_refl H) as [_ [_ ->]].
  f_equal. apply vec_ext. intros. cbn. lra.
Qed.

(** C12-C14: limit 5, suggestion (9, 12) from (0, 0, 1). *)
Definition dist2 : (rnorm ["g"; "h"; "i"] (step_to ["h"; "g"] (fun l => if label_eqb l "g" then 9 else 12)
   (fun l => if label_eqb l "i" then 1 else 0)) = 15)%R.
Proof.
  unfold rnorm, step_to. cbn. replace ((9 - 0) * (9 - 0) + ((12 - 0) * (12 - 0) + (0 * 0 + 0)))%R with (15 * 15)%R by ring.
  apply sqrt_square. lra.
Qed.
Definition start3 : tsys unit unit :=
  mk_tsys (with_last (vec ["g"; "h"; "i"] (fun l => if label_eqb l "i" then 1%R else 0%R)) (fresh_tuner ["a"])) tt tt [].
Definition far : series := vec ["h"; "g"] (fun l => if label_eqb l "g" then 9%R else 12%R).
Example case_step : exists s' , subset_next (cs [row1] far) (mk_limits (Fin 5) 4) [] start3 =
   (s', Ok (vec ["g"; "h"; "i"] (fun l => if label_eqb l "i" then 1 else if label_eqb l "g" then 3 else 4)%R)) /\
   t_queue (ts_t s') = 2%Z.
Proof.
  pose proof (next_limited (cs [row1] far) (mk_limits (Fin 5) 4) [] start3 tt ["g"; "h"; "i"]
    (fun l => if label_eqb l "i" then 1%R else 0%R) ["h"; "g"] (fun l => if label_eqb l "g" then 9%R else 12%R) 5%R) as HN.
  cbv zeta in HN. rewrite dist2 in HN.
  rewrite HN; try reflexivity; try lra.
  - assert (H : Rltb 5 15 = true) by (apply Rltb_true; lra). rewrite H. eexists. split.
    + f_equal. f_equal. apply vec_ext. intros l [<-|[<-|[<-|[]]]]; unfold step_to; cbn; field.
    + destruct (trunc_pos 5 15) as [k [Hk [_ H2]]]; [lra|lra|]. unfold queue_after. cbn [ts_t t_queue with_queue l_size l_number].
      cbn [Z.eqb start3 ts_t with_last fresh_tuner t_queue]. rewrite Hk.
      assert (k = 3%Z). { destruct H2 as [H2 H3]. replace (15 / 5)%R with 3%R in H2, H3 by lra.
        apply le_IZR in H2. rewrite <- plus_IZR in H3. apply lt_IZR in H3. lia. }
      subst. reflexivity.
  - repeat constructor; cbn; intuition discriminate.
  - repeat constructor; cbn; intuition discriminate.
  - intros l; cbn; intuition.
Qed.
Example case_zero_number : t_failed (ts_t start3) = false /\ t_queue (ts_t start3) = 0%Z /\
  (5 < rnorm ["g"; "h"; "i"] (step_to ["h"; "g"] (fun l => if label_eqb l "g" then 9 else 12)
   (fun l => if label_eqb l "i" then 1 else 0)))%R.
Proof. rewrite dist2. repeat split; lra. Qed.
Example case_blind : exists v s', blind (cs [row1] far) (world (Fin 1)) (mk_limits (Fin 5) 4) 5 1 15 start3 v s'.
Proof.
  destruct case_step as [s' [H _]]. eexists. exists s'. rewrite <- dist2.
  eapply blind_1 with (S' := tt) (tuned := []); [reflexivity|..|exact H]; try reflexivity.
  - repeat constructor; cbn; intuition discriminate.
  - repeat constructor; cbn; intuition discriminate.
  - intros l; cbn; intuition.
  - rewrite dist2. lra.
Qed.

(** C15: the same suggestion is 3 * 5 away: after three rounds the tuner is at
    (9, 12, 1) and no further round evaluates. *)
Example case_livelock n :
  let s' := rounds (cs [row1] far) (world (Fin 1)) (mk_limits (Fin 5) 4) (repeat [] (3 + n)) start3 in
  (exists evs, ts_tr s' = (evs ++ ts_tr start3)%list /\ filter is_eval evs = []) /\ t_queue (ts_t s') = 1%Z.
Proof.
  cbv zeta. destruct (exact_multiple_livelock (cs [row1] far) (world (Fin 1)) (mk_limits (Fin 5) 4) ["g"; "h"; "i"] ["h"; "g"]
    (fun l => if label_eqb l "g" then 9%R else 12%R) (fun l => if label_eqb l "i" then 1%R else 0%R) 5%R 3 (repeat [] (3 + n)) start3)
    as [H1 H2]; try reflexivity; try lra; try lia.
  - repeat constructor; cbn; intuition discriminate.
  - repeat constructor; cbn; intuition discriminate.
  - intros l; cbn; intuition.
  - cbn; lia.
  - rewrite dist2. cbn. lra.
  - split; [exact H1|]. apply H2. rewrite repeat_length. lia.
Qed.

(** C16, C17: signal 2 is below the minimum 3 and the cost threshold 5; the
    expensive evaluation finds no position. *)
Definition sdT : target := [mk_trow "sig" NaN (Fin 3) NaN NaN (Fin 5) (Fin 1); mk_trow "pos" NaN NaN NaN NaN NaN (Fin 1)].
Definition sdF : fwd := mk_fwd sdT [("pos", Some "g"); ("sig", None)] [("g", Fin 0); ("h", Fin 1)] [("g", Fin 0); ("h", Fin 1)].
Definition sd_cheap (_ : unit) : unit * res (series * series) := (tt, Ok ([("sig", Fin 2)], [("sig", Fin 0)])).
Definition sd_exp (_ : unit) : unit * res (series * series) := (tt, Ok ([("sig", Fin 9); ("pos", NaN)], [("sig", Fin 0); ("pos", Fin 0)])).
Definition sd0 : tsys fwd unit := mk_tsys (fresh_tuner ["pos"; "sig"]) sdF tt [].
Example case_sd : all_known sdT [("sig", Fin 2)] /\ below Minimum sdT [("sig", Fin 2)] /\ below Cost sdT [("sig", Fin 2)] /\
  exists s', sd_is_tuned fwd_ops sd_cheap sd_exp [("g", Fin 0); ("h", Fin 4)] sd0 = (s', Ok false) /\
  sd_next fwd_ops [] s' = (mk_tsys (ts_t s') (ts_s s') (ts_x s') (TSuggest [] (Ok [("g", NaN); ("h", Fin 4)]) :: ts_tr s'), Ok [("g", NaN); ("h", Fin 4)]).
Proof.
  assert (H1 : Reqb 1 0 = false) by (apply Reqb_false; lra).
  assert (H3 : Rleb (2 / 1) 3 = true) by (apply Rleb_true; lra).
  assert (H5 : Rleb (2 / 1) 5 = true) by (apply Rleb_true; lra).
  repeat split.
  - intros l [<-|[]]. unfold scaled. cbn. rewrite H1. discriminate.
  - eexists. split; [left; reflexivity|]. split; [left; reflexivity|]. unfold scaled. cbn. rewrite H1. cbn. assumption.
  - eexists. split; [left; reflexivity|]. split; [left; reflexivity|]. unfold scaled. cbn. rewrite H1. cbn. assumption.
  - unfold sd_is_tuned, sd_evaluate, tbind, temit, tget, tput, tsolver, teval, tlift, ttarget, tret. cbn.
    rewrite H1. cbn. unfold any_le; cbn. rewrite H3, H5. cbn. rewrite ?H1. eexists. split; reflexivity.
Qed.

(** C18, C19. *)
Example case_rescale : good_factors [row1; row2] /\
  fst (rescale_values [row1; row2] [("a", Fin 4); ("z", Fin 7)] []) = [("a", Fin 2); ("z", Fin 7)].
Proof.
  split.
  - intros r [<-|[<-|[]]]; eexists; split; try reflexivity; lra.
  - cbn. assert (H2 : Reqb 2 0 = false) by (apply Reqb_false; lra). assert (H1 : Reqb 1 0 = false) by (apply Reqb_false; lra).
    rewrite H2, H1. repeat f_equal; lra.
Qed.
Example case_forward :
  snd (so_suggest fwd_ops [] (fst (so_update fwd_ops [("g", Fin 0); ("h", Fin 4); ("z", Fin 8)] [("pos", Fin 6); ("sig", Fin 9)] [] sdF)))
  = Ok [("g", Fin (6 * 1)); ("h", Fin 4)].
Proof. reflexivity. Qed.
End Cases.

Print Assumptions subset_tuner_tuned_iff.
Print Assumptions failed_evaluation_quarantined.
Print Assumptions evaluatable_voltages_were_evaluated.
Print Assumptions tuned_voltages_are_evaluatable.
Print Assumptions recovery_halves_distance.
Print Assumptions recovery_without_evaluatable_point.
Print Assumptions step_limit_and_direction.
Print Assumptions unlimited_step_passed_on.
Print Assumptions only_own_gates_move.
Print Assumptions queue_bounded.
Print Assumptions blind_steps_counted.
Print Assumptions zero_step_number_blocks_evaluation.
Print Assumptions exact_multiple_livelock.
Print Assumptions sensing_dot_decision.
Print Assumptions expensive_nan_not_detected.
Print Assumptions nan_blocks_autotuner_forever.
Print Assumptions descale_undoes_rescale.
Print Assumptions rescale_divides.
Print Assumptions rescale_leaves_unmentioned.
Print Assumptions forwarding_suggestion.
Print Assumptions forwarding_restart_keeps_suggestion.
