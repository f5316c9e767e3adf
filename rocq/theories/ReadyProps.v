(** Properties of [all_estimators_ready] (C130). *)
From Verif Require Import PyBase TargetModel TunerModel TunerSpec SeriesLemmas TunerProofs SolverModel SolverSpec NewtonModel EstimatorModel NewtonSpec NewtonProofs NewtonProps ReadyModel ReadySpec ReadyProofs.
From Coq Require Import Lra.
Local Open Scope string_scope.
Local Open Scope list_scope.

(** The answer is decided by the first estimator in the order of the hierarchy
    that does not answer "no measurement". *)
Theorem ready_outcome :
  forall (G : Type) (E : est_ops G) (h : list (@tuner_solver G)),
  steady E -> has_gates h ->
  (snd (all_estimators_ready E h) = Ok true <-> Forall (content E) (estimators h)) /\
  (snd (all_estimators_ready E h) = Ok false <-> first_with (content E) (asking E) (estimators h)) /\
  (forall e, snd (all_estimators_ready E h) = Raise e <-> first_with (content E) (failing E e) (estimators h)).
Proof.
  intros G E h St Hg. rewrite ready_pass by assumption. split; [apply pass_true|]. split; [apply pass_false|].
  intros e. apply pass_raise.
Qed.

(** The estimators of the package are steady. *)
Theorem estimators_steady :
  forall ortho calc, some_direction ortho ->
  steady (fd_ops ortho calc) /\
  (forall (K : Type) (k_grad : K -> list num) k_update k_require,
     steady (ke_ops k_grad k_update k_require) /\ steady (si_ops k_grad k_update k_require ortho calc)).
Proof.
  intros ortho calc Ho. split; [apply steady_fd; assumption|]. intros K kg ku kr. split; [apply steady_ke|apply steady_si; assumption].
Qed.

(** "Ready" is true: nothing has changed and every solver answers with its
    Newton step as long as none of its parameters counts as tuned. *)
Theorem ready_solvers_step :
  forall (G : Type) (E : est_ops G) lstsq (h h' : list (@tuner_solver G)),
  steady E -> has_gates h ->
  all_estimators_ready E h = (h', Ok true) ->
  h' = h /\
  forall st tuned, In (Newton st) h -> length (nw_target st) = length (nw_ests st) ->
    (forall row, In row (nw_target st) -> ~ In (t_name row) tuned) ->
    nw_suggest E lstsq tuned st = (st, newton_step E lstsq st).
Proof.
  intros G E lstsq h h' St Hg H. split.
  - pose proof (ready_true E St h Hg) as Ht. rewrite H in Ht. apply Ht. reflexivity.
  - intros st tuned Hin Hl Ht. apply suggest_when_ready; auto.
    pose proof (ready_pass E St h Hg) as Hp. rewrite H in Hp. cbn in Hp. symmetry in Hp. apply pass_true in Hp.
    rewrite Forall_forall in Hp. intros g Hgin. apply Hp. apply in_flat_map. exists (Newton st). split; [exact Hin|].
    apply in_map_iff. exists g. auto.
Qed.

(** "Ready" is false and all parameters have a desired value: some solver
    suggests a point that one of its estimators asks for. *)
Theorem not_ready_solver_requests :
  forall (G : Type) (E : est_ops G) lstsq tuned (h : list (@tuner_solver G)),
  steady E -> has_gates h ->
  (forall st, In (Newton st) h -> length (nw_target st) = length (nw_ests st) /\
     forall row, In row (nw_target st) -> t_desired row <> NaN /\ ~ In (t_name row) tuned) ->
  snd (all_estimators_ready E h) = Ok false ->
  exists st g s, In (Newton st) h /\ In g (nw_ests st) /\ s <> [] /\
    snd (eo_require E (index (nw_pos st)) None g) = Ok (Some s) /\ snd (nw_suggest E lstsq tuned st) = Ok s.
Proof.
  intros G E lstsq tuned h St Hg Hh H. rewrite ready_pass, pass_false in H by assumption. apply asking_suggests; assumption.
Qed.

(** Without a desired value the answer stays false: the solver neither asks
    nor updates the estimator of that parameter. *)
Theorem undesired_never_ready :
  forall (G : Type) (E : est_ops G) lstsq (st : newton G) i row g ops,
  steady E -> index (nw_pos st) <> [] -> well_formed st -> Forall no_restart ops ->
  nth_error (nw_target st) i = Some row -> t_desired row = NaN -> nth_error (nw_ests st) i = Some g ->
  asking E (index (nw_pos st), g) ->
  snd (all_estimators_ready E [Newton (nw_run E lstsq ops st)]) <> Ok true.
Proof. intros G E lstsq st i row g ops. apply never_ready. Qed.

(** With finite differences: true exactly if all positions are known and all
    gradients are there; an estimator of unknown position makes the reading of
    the property fail. *)
Theorem fd_ready :
  forall ortho calc (h : list (@tuner_solver fd)),
  some_direction ortho -> has_gates h ->
  (snd (all_estimators_ready (fd_ops ortho calc) h) = Ok true <-> Forall (fun q => determined (snd q)) (estimators h)) /\
  (forall l1 gates g l2, estimators h = l1 ++ (gates, g) :: l2 -> Forall (fun q => determined (snd q)) l1 ->
     (forall l x, In (l, x) (fd_pos g) -> x = NaN) ->
     snd (all_estimators_ready (fd_ops ortho calc) h) = Raise RuntimeError).
Proof.
  intros ortho calc h Ho Hg.
  assert (Hgates : forall q, In q (estimators h) -> fst q <> []).
  { intros q Hq. apply in_flat_map in Hq. destruct Hq as [[st|] [H1 H2]]; [|destruct H2].
    apply in_map_iff in H2. destruct H2 as [g [<- _]]. cbn. apply Hg. exact H1. }
  assert (Hc : forall q, In q (estimators h) -> content (fd_ops ortho calc) q <-> determined (snd q)).
  { intros [gates g] Hq. apply content_determined; [exact Ho|]. exact (Hgates _ Hq). }
  rewrite ready_pass by (auto using steady_fd). split.
  - rewrite pass_true, !Forall_forall. split; intros H q Hq; apply Hc; auto.
  - intros l1 gates g l2 Heq Hd Hu. apply pass_raise. exists l1, (gates, g), l2. split; [exact Heq|]. split.
    + rewrite Forall_forall in *. intros q Hq. apply Hc; [rewrite Heq; apply in_or_app; left; exact Hq|]. auto.
    + unfold failing. cbn [fst snd fd_ops eo_require]. unfold fd_require.
      destruct (unknown (fd_pos g)) eqn:Hun; [reflexivity|]. apply unknown_false in Hun.
      destruct Hun as [l [x [H1 H2]]]. destruct (H2 (Hu _ _ H1)).
Qed.

(** Reading the property writes: with the answer false, two equal points more
    are in the list of one estimator's requests.  The rest, and every
    later suggestion, stays the same. *)
Theorem fd_ready_writes :
  forall ortho calc lstsq (h h' : list (@tuner_solver fd)) a,
  some_direction ortho -> has_gates h -> all_estimators_ready (fd_ops ortho calc) h = (h', a) ->
  (a <> Ok false -> h' = h) /\
  (a = Ok false -> exists l1 rs l2 p, requests h = l1 ++ rs :: l2 /\ requests h' = l1 ++ (rs ++ [p; p]) :: l2) /\
  Forall2 same_solver h h' /\
  (forall k st st' tuned ops, nth_error h k = Some (Newton st) -> nth_error h' k = Some (Newton st') ->
     suggestion ortho calc lstsq tuned ops st' = suggestion ortho calc lstsq tuned ops st).
Proof.
  intros ortho calc lstsq h h' a Ho Hg H.
  pose proof (ready_requests ortho calc Ho h h' a Hg H) as Hr.
  pose proof (ready_same ortho calc h) as Hs. rewrite H in Hs. cbn in Hs.
  split; [intros Ha; destruct a as [[|]|]; [exact Hr|congruence|exact Hr]|].
  split; [intros ->; exact Hr|]. split; [exact Hs|].
  intros k st st' tuned ops H1 H2. symmetry. apply reading_harmless.
  clear -Hs H1 H2. revert k H1 H2. induction Hs as [|x y l l' Hxy Hl IH]; intros [|k]; cbn; try discriminate.
  - intros E1 E2. injection E1 as ->. injection E2 as ->. exact Hxy.
  - apply IH.
Qed.

(** ** Examples *)
Lemma first_direction : some_direction first_ortho.
Proof. intros [|[|x v] vs] w; cbn; try discriminate. intros H. injection H as <-. discriminate. Qed.

(** A determined estimator, one that needs a point, one of unknown position. *)
Definition fd_done : fd := mk_fd [("A", Fin 0)] [("A", Fin (/ 2))] (Some [("A", Fin 2)]) None [] [] false.
Definition fd_lost : fd := mk_fd [("A", NaN)] [("A", Fin (/ 2))] None None [] [] false.
Definition one (d : num) (g : fd) : @tuner_solver fd := Newton (mk_newton [row "x" d] [g] [("A", Fin 0)] [("x", Fin 1)]).
Lemma one_gates d g h : has_gates h -> has_gates (one d g :: h).
Proof. intros H st [E|Hin]; [injection E as <-; discriminate|]. apply H. exact Hin. Qed.
Lemma other_gates h : has_gates h -> has_gates (G := fd) (OtherSolver :: h).
Proof. intros H st [E|Hin]; [discriminate|]. apply H. exact Hin. Qed.
Lemma no_gates : has_gates (G := fd) [].
Proof. intros st []. Qed.

Definition point : series := [("A", nadd (Fin 0) (nmul (Fin 1) (Fin (/ 2))))].
Example ex_ready :
  let E := fd_ops first_ortho unit_calc in
  has_gates [OtherSolver; one (Fin 3) fd_done] /\
  all_estimators_ready E [OtherSolver; one (Fin 3) fd_done] = ([OtherSolver; one (Fin 3) fd_done], Ok true) /\
  snd (nw_suggest E lstsq1 [] (mk_newton [row "x" (Fin 3)] [fd_done] [("A", Fin 0)] [("x", Fin 1)])) =
    Ok [("A", nadd (Fin 0) (ndiv (fillna (Fin 0) (nadd (Fin 3) (nopp (Fin 1)))) (Fin 2)))].
Proof. split; [apply other_gates, one_gates, no_gates|]. split; reflexivity. Qed.
Example ex_not_ready :
  let E := fd_ops first_ortho unit_calc in
  let h := [one (Fin 3) fd_done; one (Fin 2) fd1; one (Fin 2) fd_lost] in
  has_gates h /\
  snd (all_estimators_ready E h) = Ok false /\
  requests h = [[]; []; []] /\ requests (fst (all_estimators_ready E h)) = [[]; [point; point]; []] /\
  requests (fst (all_estimators_ready E (fst (all_estimators_ready E h)))) = [[]; [point; point; point; point]; []].
Proof. split; [apply one_gates, one_gates, one_gates, no_gates|]. repeat split. Qed.
Example ex_lost :
  let E := fd_ops first_ortho unit_calc in
  snd (all_estimators_ready E [one (Fin 3) fd_done; one (Fin 2) fd_lost; one (Fin 2) fd1]) = Raise RuntimeError.
Proof. reflexivity. Qed.

(** The naive reading "true exactly if no solver asks for a measurement" is
    wrong: a parameter without desired value, with a Kalman estimator that would
    like a measurement.  The solver does its Newton steps, the answer is false. *)
Definition eager {K} (gates : list label) (tj : option (list series)) (st : kal K) : res (option series) := Ok (Some [("A", Fin 1)]).
Definition lstsq_first (rows : list series) (d : list num) : res (list num) :=
  match rows, d with
  | ((_, a) :: _) :: _, b :: _ => Ok [ndiv b a]
  | _, _ => Raise LinAlgError
  end.
Theorem ready_means_no_request_refuted :
  exists (K : Type) (k_grad : K -> list num) k_update k_require (st : newton (kal K)) s,
  let E := ke_ops k_grad k_update k_require in
  well_formed st /\ has_gates [Newton st] /\ steady E /\
  nw_suggest E lstsq_first [] st = (st, Ok s) /\ newton_step E lstsq_first st = Ok s /\
  (forall ops, Forall no_restart ops -> snd (all_estimators_ready E [Newton (nw_run E lstsq_first ops st)]) <> Ok true).
Proof.
  exists unit, unit_grad, (fun _ _ _ k => (k, Ok tt)), eager,
    (mk_newton [row "x" NaN] [mk_kal tt [("A", Fin 0)] (Some (Fin 0))] [("A", Fin 0)] [("x", Fin 1)]). eexists. cbn zeta.
  assert (Hwf : well_formed (mk_newton [row "x" NaN] [mk_kal tt [("A", Fin 0)] (Some (Fin 0))] [("A", Fin 0)] [("x", Fin 1)])).
  { split; [reflexivity|]. split; [reflexivity|]. repeat constructor. intros []. }
  split; [exact Hwf|]. split.
  { intros st [H|[]]. injection H as <-. discriminate. }
  split; [apply steady_ke|]. split; [reflexivity|]. split; [reflexivity|].
  intros ops Hops. eapply (undesired_never_ready _ _ lstsq_first _ 0 (row "x" NaN)); try eassumption; try reflexivity.
  - apply steady_ke.
  - discriminate.
  - exists ("A", Fin 1), []. reflexivity.
Qed.

Print Assumptions ready_outcome.
Print Assumptions estimators_steady.
Print Assumptions ready_solvers_step.
Print Assumptions not_ready_solver_requests.
Print Assumptions undesired_never_ready.
Print Assumptions fd_ready.
Print Assumptions fd_ready_writes.
Print Assumptions ready_means_no_request_refuted.
