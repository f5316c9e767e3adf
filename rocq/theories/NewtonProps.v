(** Properties of the NewtonSolver and the gradient estimators (C20, C21,
    C34-C36, C52-C54). *)
From Verif Require Import PyBase TargetModel TunerModel TunerSpec SeriesLemmas TunerProofs SolverModel SolverSpec SensingDotProofs NewtonModel EstimatorModel NewtonSpec NewtonProofs EstimatorProofs.
From Coq Require Import Lra ZArith.
Local Open Scope string_scope.

(** ** Examples are built from these pieces *)
Definition row (l : label) (d : num) : trow := mk_trow l d NaN NaN (Fin 1) NaN (Fin 1).
(** Division in one dimension as least squares. *)
Definition lstsq1 (rows : list series) (d : list num) : res (list num) :=
  match rows, d with
  | [[(_, a)]], [b] => Ok [ndiv b a]
  | _, _ => Raise LinAlgError
  end.
(** The filter that records its calls. *)
Definition rec_filter : Type := list (list num * num * num).
Definition rec_update (d : list num) (y v : num) (k : rec_filter) : rec_filter * res unit := ((k ++ [(d, y, v)])%list, Ok tt).
Definition never_ask {K} (gates : list label) (tj : option (list series)) (st : kal K) : res (option series) := Ok None.
Definition unit_grad {K} (k : K) : list num := [Fin 1].
Definition first_ortho (vs : list (list num)) : res (list num) :=
  match vs with (_ :: v) :: _ => Ok (Fin 1 :: map (fun _ => Fin 0) v) | _ => Raise ValueError end.
Definition no_calc (ms : list measurement) : res (list num * list (list num)) := Raise EvaluationError.
Definition unit_calc (ms : list measurement) : res (list num * list (list num)) := Ok ([Fin 1], [[Fin 0]]).
Definition fd1 : fd := mk_fd [("A", Fin 0)] [("A", Fin (/ 2))] None None [] [] false.

(** ** C20 *)
Theorem newton_requests_first :
  forall (G : Type) (E : est_ops G) lstsq tuned (st st' : newton G) (r : res series),
  length (nw_target st) = length (nw_ests st) ->
  nw_suggest E lstsq tuned st = (st', r) ->
  nw_target st' = nw_target st /\ nw_pos st' = nw_pos st /\ nw_vals st' = nw_vals st /\
  length (nw_ests st') = length (nw_ests st) /\
  (forall i row g, nth_error (nw_target st) i = Some row -> nth_error (nw_ests st) i = Some g ->
     t_desired row = NaN -> nth_error (nw_ests st') i = Some g) /\
  (forall s, r = Ok s -> exists tj,
     match tj with
     | None => forall row, In row (nw_target st) -> ~ In (t_name row) tuned
     | Some rows => rows = tuned_rows E tuned (index (nw_pos st)) (nw_target st) (nw_ests st) /\ rows <> []
     end /\
     ((s <> [] /\ exists k row g g', nth_error (nw_target st) k = Some row /\ nth_error (nw_ests st) k = Some g /\
        t_desired row <> NaN /\ eo_require E (index (nw_pos st)) tj g = (g', Ok (Some s)) /\
        nth_error (nw_ests st') k = Some g' /\
        (forall j, (k < j)%nat -> nth_error (nw_ests st') j = nth_error (nw_ests st) j) /\
        (forall j row' g', (j < k)%nat -> nth_error (nw_target st) j = Some row' ->
           nth_error (nw_ests st) j = Some g' -> t_desired row' <> NaN ->
           exists b, snd (eo_require E (index (nw_pos st)) tj g') = Ok b /\ no_request b)) \/
      (newton_step E lstsq st' = Ok s /\
       (forall j row' g', nth_error (nw_target st) j = Some row' ->
           nth_error (nw_ests st) j = Some g' -> t_desired row' <> NaN ->
           exists b, snd (eo_require E (index (nw_pos st)) tj g') = Ok b /\ no_request b)))).
Proof. intros G E lstsq tuned st st' r. apply suggest_spec. Qed.

(** Two parameters, the first without desired value: the second estimator is
    the one that is asked. *)
Definition nw2 : newton fd :=
  mk_newton [row "x" NaN; row "y" (Fin 3)] [fd1; fd1] [("A", Fin 0)] [("x", NaN); ("y", NaN)].
Example newton_requests_first_ex :
  exists st', nw_suggest (fd_ops first_ortho no_calc) lstsq1 [] nw2 = (st', Ok [("A", nadd (Fin 0) (nmul (Fin 1) (Fin (/ 2))))]) /\
  nth_error (nw_ests st') 0 = Some fd1 /\ nth_error (nw_ests st') 1 <> Some fd1 /\ length (nw_target nw2) = length (nw_ests nw2).
Proof. eexists. split; [reflexivity|]. split; [reflexivity|]. split; [discriminate|reflexivity]. Qed.

Theorem newton_updates_only_desired :
  forall (G : Type) (E : est_ops G) pos vals vars (st st' : newton G) a,
  well_formed st -> nw_update E pos vals vars st = (st', a) ->
  nw_target st' = nw_target st /\ length (nw_ests st') = length (nw_ests st) /\
  (forall i row g, nth_error (nw_target st) i = Some row -> nth_error (nw_ests st) i = Some g ->
     t_desired row = NaN -> nth_error (nw_ests st') i = Some g) /\
  (a = Ok tt ->
     nw_pos st' = reindex (index (nw_pos st)) pos /\ nw_vals st' = reindex (t_index (nw_target st)) vals /\
     (forall i row g l var, nth_error (nw_target st) i = Some row -> nth_error (nw_ests st) i = Some g ->
        t_desired row <> NaN -> nth_error vars i = Some (l, var) ->
        exists g', eo_update E pos (get (t_name row) vals) var g = (g', Ok tt) /\ nth_error (nw_ests st') i = Some g')).
Proof. intros G E pos vals vars st st' a. apply update_spec. Qed.

Example newton_updates_only_desired_ex :
  well_formed nw2 /\
  exists st', nw_update (fd_ops first_ortho no_calc) [("A", Fin 1)] [("y", Fin 5); ("x", Fin 4)] [("x", Fin 6); ("y", Fin 7)] nw2 = (st', Ok tt) /\
  nth_error (nw_ests st') 0 = Some fd1 /\
  option_map fd_stored (nth_error (nw_ests st') 1) = Some [([("A", Fin 1)], Fin 5, Fin 7)].
Proof.
  split; [repeat split; repeat constructor; cbn; intros H; repeat (destruct H as [H|H]; try discriminate); auto|].
  eexists. split; [reflexivity|]. split; reflexivity.
Qed.

(** The variances are matched by position, not by label: with the labels of the
    variances in another order the estimator of [y] gets the variance of [x]. *)
Example variances_matched_by_order_refuted :
  exists st', nw_update (fd_ops first_ortho no_calc) [("A", Fin 1)] [("x", Fin 4); ("y", Fin 5)] [("y", Fin 7); ("x", Fin 6)] nw2 = (st', Ok tt) /\
  option_map fd_stored (nth_error (nw_ests st') 1) = Some [([("A", Fin 1)], Fin 5, get "x" [("y", Fin 7); ("x", Fin 6)])].
Proof. eexists. split; [reflexivity|]. reflexivity. Qed.

(** ** C21 *)
Theorem newton_step_inputs :
  forall (G : Type) (E : est_ops G) lstsq (st : newton G) s,
  length (nw_target st) = length (nw_ests st) -> index (nw_vals st) = t_index (nw_target st) ->
  newton_step E lstsq st = Ok s ->
  exists grads diffs step,
    map (eo_estimate E) (nw_ests st) = map Some grads /\
    lstsq (map (fun g => map (fun l => (l, get l g)) (index (nw_pos st))) grads) diffs = Ok step /\
    length diffs = length (nw_target st) /\
    (forall i row, nth_error (nw_target st) i = Some row ->
       fin_or_nan (t_desired row) -> fin_or_nan (get (t_name row) (nw_vals st)) ->
       nth_error diffs i = Some (wanted (t_desired row) (get (t_name row) (nw_vals st)))) /\
    s = add_array (nw_pos st) step.
Proof. intros G E lstsq st s. apply step_inputs. Qed.

(** A parameter that should stay as it is (no desired value, measured 5) is
    driven to zero: gradient 1, position 2, suggestion 2 + (0 - 5) = -3. *)
Definition kal1 : kal rec_filter := mk_kal [] [("A", Fin 2)] (Some (Fin 5)).
Definition nw1 : newton (kal rec_filter) := mk_newton [row "x" NaN] [kal1] [("A", Fin 2)] [("x", Fin 5)].
Example nan_target_driven_to_zero_refuted :
  nw_suggest (ke_ops unit_grad rec_update never_ask) lstsq1 [] nw1 = (nw1, Ok [("A", Fin (-3))]).
Proof.
  cbn -[lstsq1 nadd ndiv]. unfold lstsq1. cbn.
  replace (Reqb 1 0) with false by (symmetry; apply Reqb_false; lra). cbn.
  repeat f_equal. field.
Qed.
Example newton_step_inputs_ex :
  newton_step (ke_ops unit_grad rec_update never_ask) lstsq1 nw1 = Ok [("A", Fin (-3))] /\
  length (nw_target nw1) = length (nw_ests nw1) /\ index (nw_vals nw1) = t_index (nw_target nw1).
Proof.
  split; [|split; reflexivity]. cbn.
  replace (Reqb 1 0) with false by (symmetry; apply Reqb_false; lra). cbn. repeat f_equal. field.
Qed.

(** ** C52 *)
Theorem newton_blocked_by_missing_gradient :
  forall (G : Type) (E : est_ops G) lstsq,
  (forall v g, eo_estimate E g = None -> eo_estimate E (fst (eo_restart E v g)) = None) ->
  forall (st : newton G) (ops : list nw_op) tuned s,
  blocked E st ->
  let st' := nw_run E lstsq ops st in
  (exists e, newton_step E lstsq st' = Raise e) /\
  (snd (nw_suggest E lstsq tuned st') = Ok s ->
   exists tj k g, nth_error (nw_ests st') k = Some g /\ snd (eo_require E (index (nw_pos st')) tj g) = Ok (Some s)).
Proof.
  intros G E lstsq Hrs st ops tuned s Hb st'.
  assert (Hb' : blocked E st') by (apply blocked_run; assumption).
  split; [|apply blocked_suggest; assumption].
  destruct Hb' as [[W1 _] [i [row [g [H1 [H2 [H3 H4]]]]]]]. apply (step_needs_gradients E lstsq st' g W1); auto.
  eapply nth_error_In; eauto.
Qed.

(** Finite difference estimators are such estimators. *)
Theorem fd_without_desired_blocks_newton :
  forall ortho calc lstsq (st : newton fd) (ops : list nw_op) tuned s i r g,
  well_formed st -> nth_error (nw_target st) i = Some r -> nth_error (nw_ests st) i = Some g ->
  t_desired r = NaN -> fd_est g = None ->
  let st' := nw_run (fd_ops ortho calc) lstsq ops st in
  snd (nw_suggest (fd_ops ortho calc) lstsq tuned st') = Ok s ->
  exists tj k g', nth_error (nw_ests st') k = Some g' /\ snd (fd_require ortho (index (nw_pos st')) tj g') = Ok (Some s).
Proof.
  intros ortho calc lstsq st ops tuned s i r g Hwf H1 H2 H3 H4 st'.
  apply (newton_blocked_by_missing_gradient fd (fd_ops ortho calc) lstsq).
  - intros v g0 Hg. cbn. rewrite fd_restart_same. assumption.
  - split; [assumption|]. exists i, r, g. auto.
Qed.

(** One parameter to tune, one to leave alone; after the gradient of [y] is
    known every suggestion fails. *)
Definition nw_blocked : newton fd :=
  nw_run (fd_ops first_ortho unit_calc) lstsq1
    [NUpdate [("A", Fin 0)] [("x", Fin 1); ("y", Fin 1)] [("x", Fin 1); ("y", Fin 1)];
     NSuggest [];
     NUpdate [("A", Fin 1)] [("x", Fin 1); ("y", Fin 2)] [("x", Fin 1); ("y", Fin 1)]]
    nw2.
Example fd_without_desired_blocks_newton_ex :
  well_formed nw2 /\ snd (nw_suggest (fd_ops first_ortho unit_calc) lstsq1 [] nw2) = Ok [("A", nadd (Fin 0) (nmul (Fin 1) (Fin (/ 2))))] /\
  snd (nw_suggest (fd_ops first_ortho unit_calc) lstsq1 [] nw_blocked) = Raise LinAlgError.
Proof.
  split; [apply newton_updates_only_desired_ex|]. split; reflexivity.
Qed.

(** ** C34 *)
Theorem kalman_bookkeeping :
  forall (K : Type) k_grad k_update k_require ls all ops (st : kal K) last,
  ls <> [] -> incl ls all ->
  (forall d y v k, snd (k_update d y v k) = Ok tt) ->
  knows ls st last ->
  ke_filter (est_run (ke_ops k_grad k_update k_require) (map (kal_call all) ops) st) =
  fold_left (feed k_update) (feeds ls last ops) (ke_filter st).
Proof. intros K k_grad k_update k_require ls all ops st last. apply kal_feeds. Qed.

(** First update: reference only; second: fed; the one after a restart:
    reference only. *)
Definition kal0 : kal rec_filter := mk_kal [] [("A", NaN)] None.
Definition at_ (r : R) : label -> R := fun _ => r.
Example kalman_bookkeeping_ex :
  knows ["A"] kal0 None /\
  ke_filter (est_run (ke_ops unit_grad rec_update never_ask)
    (map (kal_call ["B"; "A"]) [KUpdate (at_ 1) 10 (Fin 1); KUpdate (at_ 3) 14 (Fin 2); KRestart [("A", Fin 9)]; KUpdate (at_ 7) 5 (Fin 3)]) kal0)
  = [([Fin (3 - 1)], Fin (14 - 10), Fin 2)].
Proof.
  split; [split; reflexivity|]. rewrite (kalman_bookkeeping _ _ _ _ ["A"] ["B"; "A"] _ kal0 None).
  - unfold feeds, at_. cbn. destruct (Rlt_dec _ _) as [H|H]; [|reflexivity].
    exfalso. replace ((3 - 1) * (3 - 1) + 0)%R with (2 * 2)%R in H by ring. rewrite sqrt_square in H by lra. lra.
  - discriminate.
  - intros l [<-|[]]. right; left; reflexivity.
  - reflexivity.
  - split; reflexivity.
Qed.

Theorem kalman_update_exception_safe :
  forall (K : Type) k_update pos value cov (st st' : kal K) e,
  ke_update k_update pos value cov st = (st', Raise e) -> ke_pos st' = ke_pos st /\ ke_val st' = ke_val st.
Proof. intros K k_update pos value cov st st' e. apply ke_update_safe. Qed.
Example kalman_update_exception_safe_ex :
  ke_update (fun d y v (k : rec_filter) => (([], y, v) :: k, Raise ValueError)) [("A", Fin 9)] (Fin 6) (Fin 1) kal1
  = (mk_kal [([], Fin (6 + - (5)), Fin 1)] [("A", Fin 2)] (Some (Fin 5)), Raise ValueError).
Proof.
  unfold ke_update, kal1. cbn.
  replace (Rltb _ (/ 10000000)) with false; [reflexivity|]. symmetry. apply Rltb_false.
  replace ((9 + - (2)) * (9 + - (2)) + 0)%R with (7 * 7)%R by ring. rewrite sqrt_square by lra. lra.
Qed.

(** ** C35 *)
Theorem restart_does_not_reposition :
  (forall v st, fd_restart v st = (st, Ok tt)) /\
  (forall (K : Type) v (st : kal K), ke_restart v st = (mk_kal (ke_filter st) (ke_pos st) None, Ok tt)) /\
  (forall v t p old, t_last t = Some (p :: old) -> set_last_voltages v t = t) /\
  (forall ortho calc v (st : newton fd), NoDup (index (nw_pos st)) -> NoDup (index v) ->
     exists st', nw_restart (fd_ops ortho calc) v st = (st', Ok tt) /\ nw_ests st' = nw_ests st /\
     nw_target st' = nw_target st /\ nw_vals st' = nw_vals st /\
     forall l, In l (index (nw_pos st)) ->
       get l (nw_pos st') = if mem l (index v) then get l v else get l (nw_pos st)).
Proof.
  split; [exact fd_restart_same|]. split; [intros; apply ke_restart_same|]. split.
  - intros v t p old H. unfold set_last_voltages. rewrite H. reflexivity.
  - intros ortho calc v st H1 H2. unfold nw_restart. rewrite restart_ests_fd. eexists. split; [reflexivity|].
    cbn. repeat split; auto. intros l Hl. apply move_position_get; assumption.
Qed.
(** After restart at 7 the solver is at 7 and the estimator still asks for a
    point next to 0. *)
Example restart_does_not_reposition_ex :
  let st := fst (nw_restart (fd_ops first_ortho no_calc) [("A", Fin 7)] nw2) in
  nw_pos st = [("A", Fin 7)] /\
  snd (nw_suggest (fd_ops first_ortho no_calc) lstsq1 [] st) = Ok [("A", nadd (Fin 0) (nmul (Fin 1) (Fin (/ 2))))].
Proof. split; reflexivity. Qed.

(** ** C36 *)
Theorem self_initialising_kalman_never_initialises :
  forall (K : Type) k_grad k_update k_require ortho calc ops (st : @selfinit K) p x v gates tj,
  si_kal st = None ->
  let SI := si_ops k_grad k_update k_require ortho calc in
  let st' := est_run SI ops st in
  let f := est_run (fd_ops ortho calc) ops (si_fd st) in
  si_kal st' = None /\ si_fd st' = f /\
  snd (eo_require SI gates tj st') = snd (fd_require ortho gates tj f) /\
  snd (eo_update SI p x v st') =
    match snd (fd_update calc p x v f) with
    | Raise e => Raise e
    | Ok _ => if fd_est (fst (fd_update calc p x v f)) then Raise TypeError else Ok tt
    end.
Proof.
  intros K k_grad k_update k_require ortho calc ops st p x v gates tj Hk SI st' f.
  destruct (selfinit_run k_grad k_update k_require ortho calc ops st Hk) as [H1 H2].
  split; [exact H1|]. split; [exact H2|]. split.
  - unfold SI; cbn. fold SI in H1, H2. fold st' in H1, H2. rewrite H1, H2. fold f.
    destruct (fd_require ortho gates tj f); reflexivity.
  - unfold SI. rewrite selfinit_update by exact H1. fold SI in H2. fold st' in H2. rewrite H2. reflexivity.
Qed.
Example self_initialising_ex :
  let st := mk_selfinit (K := rec_filter) fd1 None in
  let SI := si_ops unit_grad rec_update never_ask first_ortho unit_calc in
  snd (eo_update SI [("A", Fin 0)] (Fin 1) (Fin 1) st) = Ok tt /\
  snd (eo_update SI [("A", Fin 1)] (Fin 2) (Fin 1) (est_run SI [EUpdate [("A", Fin 0)] (Fin 1) (Fin 1)] st)) = Raise TypeError /\
  snd (eo_update SI [("A", Fin 2)] (Fin 3) (Fin 1)
        (est_run SI [EUpdate [("A", Fin 0)] (Fin 1) (Fin 1); EUpdate [("A", Fin 1)] (Fin 2) (Fin 1)] st)) = Raise TypeError.
Proof. repeat split. Qed.

(** ** C53 *)
Theorem fd_gradient_never_refreshed :
  forall ortho calc ops st, unknown (fd_pos st) = false -> fd_est st <> None ->
  est_run (fd_ops ortho calc) ops st = st /\
  forall gates tj, snd (fd_require ortho gates tj st) = Ok None.
Proof.
  intros ortho calc ops st Hu He. split; [apply fd_frozen; assumption|].
  intros gates tj. unfold fd_require. rewrite Hu. destruct (fd_est st); [reflexivity|contradiction].
Qed.
Definition fd1_done : fd := est_run (fd_ops first_ortho unit_calc) [EUpdate [("A", Fin 0)] (Fin 1) (Fin 1); EUpdate [("A", Fin 1)] (Fin 2) (Fin 1)] fd1.
Example fd_gradient_never_refreshed_ex :
  unknown (fd_pos fd1_done) = false /\ fd_est fd1_done = Some [("A", Fin 1)] /\
  fd_est (est_run (fd_ops first_ortho unit_calc) [ERestart [("A", Fin 9)]; EUpdate [("A", Fin 9)] (Fin 50) (Fin 1)] fd1_done) = Some [("A", Fin 1)].
Proof. repeat split. Qed.

(** ** C54 *)
Theorem fd_failure_is_final :
  forall ortho calc p x v st st' e ops gates tj,
  unknown (fd_pos st) = false -> fd_est st = None ->
  fd_update calc p x v st = (st', Raise e) -> (length (fd_stored st) < length (fd_stored st'))%nat ->
  let st2 := est_run (fd_ops ortho calc) ops st' in
  fd_est st2 = None /\
  (fd_sym st = false -> exists e', snd (fd_require ortho gates tj st2) = Raise e').
Proof.
  intros ortho calc p x v st st' e ops gates tj Hu He Hup Hlt st2.
  destruct (fd_failed_update calc p x v st st' e Hu He Hup Hlt) as [F1 [F2 [F3 F4]]].
  assert (Hu' : unknown (fd_pos st') = false) by congruence.
  destruct (fd_stuck ortho calc ops st' Hu' F1 F4) as [S1 [S2 [S3 S4]]]. fold st2 in S1, S2, S3, S4.
  split; [assumption|]. intros Hs. apply fd_stuck_request; try congruence.
  unfold full in *. rewrite S1, S2. assumption.
Qed.
Example fd_failure_is_final_ex :
  exists st st', unknown (fd_pos st) = false /\ fd_est st = None /\
  fd_update no_calc [("A", Fin 0)] (Fin 2) (Fin 1) st = (st', Raise EvaluationError) /\
  (length (fd_stored st) < length (fd_stored st'))%nat /\
  snd (fd_require first_ortho ["A"] None st') = Raise RuntimeError.
Proof.
  exists (est_run (fd_ops first_ortho no_calc) [EUpdate [("A", Fin 0)] (Fin 1) (Fin 1)] fd1). eexists.
  split; [reflexivity|]. split; [reflexivity|]. split; [reflexivity|]. split; [cbn; lia|reflexivity].
Qed.

Print Assumptions newton_requests_first.
Print Assumptions newton_updates_only_desired.
Print Assumptions newton_step_inputs.
Print Assumptions newton_blocked_by_missing_gradient.
Print Assumptions fd_without_desired_blocks_newton.
Print Assumptions kalman_bookkeeping.
Print Assumptions kalman_update_exception_safe.
Print Assumptions restart_does_not_reposition.
Print Assumptions self_initialising_kalman_never_initialises.
Print Assumptions fd_gradient_never_refreshed.
Print Assumptions fd_failure_is_final.
