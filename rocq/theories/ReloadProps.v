(** Properties C41 and C42: saving and reloading the components. *)
From Verif Require Import PyBase TargetModel TunerModel TunerSpec SeriesLemmas TunerProofs SolverModel NewtonModel EstimatorModel
  AutotunerModel AutotunerSpec AutotunerProofs NewtonSpec EstimatorProofs ReloadModel ReloadSpec ReloadProofs.
From Coq Require Import ZArith Lia Lra.
Local Open Scope string_scope.
Local Open Scope list_scope.

(** ** C41 *)
(** A SubsetTuner built without stored values and used in any way can be rebuilt
    from what it saves iff every column of its first target was either empty or
    filled for all parameters; otherwise the constructor fails. *)
Theorem subset_reload_iff {S X} (O : solver_ops S) (evals : X -> X * res (series * series)) L tg names pos gates t0 g0 st x ops :
  subset_init tg names pos gates no_args = Ok (t0, g0) ->
  NoDup (t_index tg) -> incl (t_index tg) names ->
  let s := subset_run O evals L (mk_tsys t0 st x []) ops in
  t_index (so_target O (ts_s s)) = t_index tg ->
  let r := subset_reload (so_target O (ts_s s)) names pos (ts_t s, g0) in
  (all_filled tg -> r = Ok (ts_t s, g0)) /\ (~ all_filled tg -> r = Raise AssertionError).
Proof. intros H0 N Hi s Ht r. exact (subset_reload_cases O evals L tg names pos gates t0 g0 st x ops H0 N Hi Ht). Qed.

Definition row_full (n : label) : trow := mk_trow n (Fin 1) NaN NaN (Fin 2) NaN (Fin 1).
Definition row_open (n : label) : trow := mk_trow n NaN NaN NaN NaN NaN (Fin 1).
(** A target that holds one parameter fixed: construction succeeds, reload fails. *)
Example case_open_target :
  subset_init [row_full "a"; row_open "b"] ["a"; "b"] ["P"; "Q"] ["Q"; "P"] no_args
    = Ok (fresh_tuner ["a"], ["P"; "Q"]) /\
  subset_reload [row_full "a"; row_open "b"] ["a"; "b"] ["P"; "Q"] (fresh_tuner ["a"], ["P"; "Q"])
    = Raise AssertionError /\ ~ all_filled [row_full "a"; row_open "b"].
Proof.
  split; [reflexivity|]. split; [reflexivity|]. intros H. apply (H Desired (row_open "b") (row_full "a")); cbn; auto; discriminate.
Qed.
Example case_full_target :
  subset_init [row_full "a"; row_full "b"] ["b"; "a"] ["P"; "Q"] ["Q"; "P"] no_args
    = Ok (fresh_tuner ["a"; "b"], ["P"; "Q"]) /\
  subset_reload [row_full "a"; row_full "b"] ["b"; "a"] ["P"; "Q"] (fresh_tuner ["a"; "b"], ["P"; "Q"])
    = Ok (fresh_tuner ["a"; "b"], ["P"; "Q"]) /\ all_filled [row_full "a"; row_full "b"].
Proof.
  split; [reflexivity|]. split; [reflexivity|].
  intros c r r' [<-|[<-|[]]] [<-|[<-|[]]]; destruct c; cbn; auto.
Qed.

(** ** C42 *)
(** The parts of a tuner that can be rebuilt are rebuilt exactly, whatever was
    done with them. *)
Theorem newton_reload {G} (E : est_ops G) lstsq t gs pos v st0 ops :
  keeps_gates E -> NoDup (t_index t) -> nw_init E t gs pos v = Ok st0 ->
  let st := so_run (nw_ops E lstsq) st0 ops in nw_reload E st = Ok st.
Proof. intros K N H. exact (nw_reload_reachable E lstsq K t gs pos v st0 ops N H). Qed.
Theorem estimators_keep_gates {K} (kg : K -> list num) ku kr ortho calc :
  keeps_gates (fd_ops ortho calc) /\ keeps_gates (ke_ops kg ku kr) /\ keeps_gates (si_ops kg ku kr ortho calc).
Proof. split; [apply fd_keeps|split; [apply ke_keeps|apply si_keeps]]. Qed.
Theorem forwarding_reload t m cur next st0 ops :
  NoDup (index cur) -> fwd_init t m cur next = Ok st0 ->
  let st := so_run fwd_ops st0 ops in fwd_reload st = Ok st.
Proof.
  intros N H st. apply (fwd_good_reload (index cur)); [exact N|]. apply fwd_run_good. exact (fwd_init_good t m cur next st0 H).
Qed.
Theorem kalman_estimator_reload {K} (kg : K -> list num) ku kr k_shape f pos m e v st0 c ops :
  (forall d x w k, k_shape (fst (ku d x w k)) = k_shape k) ->
  NoDup (index pos) -> ke_init k_shape f pos m e v = Ok (st0, c) ->
  let st := est_run (ke_ops kg ku kr) ops st0 in ke_reload k_shape (st, c) = Ok (st, c).
Proof.
  intros Hs N H st. apply ke_init_good in H. destruct H as [H _].
  apply (ke_good_reload kr k_shape (index pos)); [exact N|]. apply ke_run_good; assumption.
Qed.

(** A SubsetTuner with a NewtonSolver: after any sequence of calls, including
    changes of the target, both are rebuilt as they were. *)
Theorem subset_newton_reload {G X} (E : est_ops G) lstsq (evals : X -> X * res (series * series)) L
    t gs pos v st0 names gates t0 g0 x ops :
  keeps_gates E -> NoDup (t_index t) -> all_filled t -> incl (t_index t) names ->
  nw_init E t gs pos v = Ok st0 ->
  subset_init t names (index pos) gates no_args = Ok (t0, g0) ->
  let s := subset_run (nw_ops E lstsq) evals L (mk_tsys t0 st0 x []) ops in
  nw_reload E (ts_s s) = Ok (ts_s s) /\
  subset_reload (nw_target (ts_s s)) names (index (nw_pos (ts_s s))) (ts_t s, g0) = Ok (ts_t s, g0).
Proof.
  intros K N Hf Hi Hn Ht s. destruct (run_solver (nw_ops E lstsq) evals L ops (mk_tsys t0 st0 x [])) as [l Hl].
  cbn in Hl. fold s in Hl. destruct (nw_index_stable E lstsq K t gs pos v st0 l Hn) as [I1 I2].
  split; [rewrite Hl; exact (newton_reload E lstsq t gs pos v st0 l K N Hn)|].
  rewrite <- Hl in I1, I2. rewrite I2.
  apply (subset_reload_iff (nw_ops E lstsq) evals L t names (index pos) gates t0 g0 st0 x ops Ht N Hi I1). exact Hf.
Qed.

Definition case_fd : fd := mk_fd [("P", Fin 0); ("Q", Fin 0)] [("P", Fin 1); ("Q", Fin 1)] None None [] [] false.
Definition no_ortho (_ : list (list num)) : res (list num) := Raise RuntimeError.
Definition no_calc (_ : list measurement) : res (list num * list (list num)) := Raise RuntimeError.
Example case_newton_stack :
  let E := fd_ops no_ortho no_calc in
  exists st0, nw_init E [row_full "a"; row_full "b"] [case_fd; case_fd] (fd_pos case_fd) None = Ok st0 /\
    subset_init [row_full "a"; row_full "b"] ["a"; "b"] (index (fd_pos case_fd)) ["Q"; "P"] no_args
      = Ok (fresh_tuner ["a"; "b"], ["P"; "Q"]) /\
    NoDup (t_index [row_full "a"; row_full "b"]) /\ nw_reload E st0 = Ok st0.
Proof.
  cbn zeta. eexists. split; [reflexivity|]. split; [reflexivity|]. split; [|reflexivity].
  cbn. repeat constructor; cbn; intuition discriminate.
Qed.
Example case_forwarding :
  exists st0, fwd_init [row_full "a"] [("a", Some "P")] (fd_pos case_fd) None = Ok st0 /\
    let st := so_run fwd_ops st0 [SRestart (fd_eps case_fd); SUpdate (fd_eps case_fd) [("a"%string, Fin 7)] [("a"%string, Fin 0)]] in
    fwd_reload st = Ok st /\ fw_cur st = fd_eps case_fd.
Proof.
  eexists. split; [reflexivity|]. cbn zeta. split; [|reflexivity].
  apply (forwarding_reload [row_full "a"] [("a", Some "P")] (fd_pos case_fd) None); [|reflexivity].
  cbn. repeat constructor; cbn; intuition discriminate.
Qed.
Example case_kalman_estimator :
  exists st0 c, ke_init (fun k : nat => (1, k)) 2 (fd_pos case_fd) (TScalar PInf) (TSeries (fd_eps case_fd)) None = Ok (st0, c) /\
    kc_max c = [("P", PInf); ("Q", PInf)] /\ ke_reload (fun k : nat => (1, k)) (st0, c) = Ok (st0, c).
Proof. eexists. eexists. repeat split; reflexivity. Qed.

(** *** Finite differences *)
(** The estimator can be rebuilt only as long as no measurement is stored; once
    it has a gradient it can never be rebuilt. *)
Theorem fd_reload_iff ortho calc pos eps sym stored req st0 ops :
  NoDup (index (fd_pos st0)) -> fd_init pos eps sym None None stored req = Ok st0 ->
  let st := est_run (fd_ops ortho calc) ops st0 in
  (fd_stored st = [] -> fd_reload st = Ok st) /\ (fd_stored st <> [] -> fd_reload st = Raise AssertionError) /\
  (fd_pos st0 <> [] -> fd_est st <> None -> fd_reload st = Raise AssertionError).
Proof.
  intros N H st. apply fd_init_eps in H. destruct H as (H1 & H2 & H3 & H4).
  assert (Hg : fd_good (index (fd_pos st0)) st).
  { apply fd_run_good. split; [reflexivity|]. split; [exact H1|]. rewrite H4. congruence. }
  destruct (fd_reload_cases _ _ N Hg) as [C1 C2]. split; [exact C1|]. split; [exact C2|].
  intros Hn He. apply C2. destruct Hg as (_ & _ & G3). apply G3; [|exact He]. destruct (fd_pos st0); [congruence|discriminate].
Qed.
(** The same holds for the self-initialising estimator, whose Kalman estimator is
    never made (C36). *)
Theorem selfinit_reload_fails {K} (k_shape : K -> nat * nat) k_grad k_update k_require ortho calc pos eps sym stored req f0 ops :
  NoDup (index (fd_pos f0)) -> fd_init pos eps sym None None stored req = Ok f0 ->
  let st := est_run (si_ops k_grad k_update k_require ortho calc) ops (mk_selfinit (K := K) f0 None) in
  si_kal st = None /\
  (fd_stored (si_fd st) = [] -> si_reload k_shape (si_fd st, None) = Ok (si_fd st, None)) /\
  (fd_stored (si_fd st) <> [] -> si_reload k_shape (si_fd st, None) = Raise AssertionError) /\
  (fd_pos f0 <> [] -> fd_est (si_fd st) <> None -> si_reload k_shape (si_fd st, None) = Raise AssertionError).
Proof.
  intros N H st. destruct (selfinit_run k_grad k_update k_require ortho calc ops (mk_selfinit (K := K) f0 None) eq_refl) as [H1 H2].
  fold st in H1, H2. split; [exact H1|]. rewrite H2. cbn [si_fd].
  destruct (fd_reload_iff ortho calc pos eps sym stored req f0 ops N H) as (C1 & C2 & C3).
  unfold si_reload. cbn [fst snd].
  split; [intros E; rewrite (C1 E); reflexivity|]. split; [intros E; rewrite (C2 E); reflexivity|].
  intros E1 E2. rewrite (C3 E1 E2). reflexivity.
Qed.
Example case_fd_reload :
  fd_init (Some (fd_pos case_fd)) (TScalar (Fin 1)) false None None None None = Ok case_fd /\
  (let st := est_run (fd_ops no_ortho no_calc) [EAsk ["P"; "Q"] None] case_fd in
   length (fd_requested st) = 1 /\ fd_reload st = Ok st) /\
  (let st := est_run (fd_ops no_ortho no_calc) [EUpdate (fd_pos case_fd) (Fin 3) (Fin 0)] case_fd in
   fd_stored st = [(fd_pos case_fd, Fin 3, Fin 0)] /\ fd_reload st = Raise AssertionError) /\
  si_reload (fun k : nat => (1, k)) (fd_store (fd_pos case_fd, Fin 3, Fin 0) case_fd, None) = Raise AssertionError.
Proof. repeat split; reflexivity. Qed.

Example case_selfinit_reload k_grad k_update k_require :
  let SI := si_ops (K := nat) k_grad k_update k_require no_ortho no_calc in
  let st0 := mk_selfinit case_fd None in
  let st := est_run SI [EUpdate (fd_pos case_fd) (Fin 3) (Fin 0)] st0 in
  si_reload (fun k : nat => (1, k)) (si_fd st0, None) = Ok (case_fd, None) /\
  fd_stored (si_fd st) <> [] /\ si_reload (fun k : nat => (1, k)) (si_fd st, None) = Raise AssertionError.
Proof. cbn zeta. split; [reflexivity|]. split; [discriminate|reflexivity]. Qed.

(** *** SensingDotTuner *)
(** The reloaded tuner has the same voltages and parameters but no list of tuned
    voltages, and it takes the last evaluation for successful. *)
Theorem sensing_dot_reload {S X} (O : solver_ops S) (cheap costly : X -> X * res (series * series)) tg cn en gates b s0 st x ops :
  sd_init tg cn en gates b no_args = Ok s0 ->
  let s := sd_run O cheap costly (mk_tsys (sd_t s0) st x []) ops in
  let T := so_target O (ts_s s) in
  incl (t_index T) (cn ++ en) ->
  (forall r, In r T -> (forall c, In c columns -> cell c r <> NaN) -> In (t_name r) cn) ->
  forall b', sd_reload T cn en (mk_sdot (ts_t s) (sd_gates s0) b') = Ok (mk_sdot (forgetful (ts_t s)) (sd_gates s0) b').
Proof.
  intros H s T Hi Hf0 b'. unfold sd_init in H.
  assert (Hf : incl (full_rows T) cn).
  { intros l Hl. apply in_map_iff in Hl as [r [<- Hr]]. apply filter_In in Hr as [Hr Hc]. apply Hf0; [exact Hr|]. intros c Ic K.
    rewrite forallb_forall in Hc. specialize (Hc c Ic). rewrite K in Hc. discriminate. }
  match type of H with context [pt_init tg cn ?a] => destruct (pt_init tg cn a) as [t|] eqn:Hp; [|discriminate] end.
  inversion H; subst s0; clear H. cbn [sd_t sd_gates] in *.
  assert (HT : t = mk_tuner None (blank (sort_labels (distinct (cn ++ en)))) (blank (sort_labels (distinct (cn ++ en)))) false [] [] 0 /\ NoDup cn).
  { unfold pt_init in Hp. cbn in Hp. destruct (subset _ _); [|discriminate]. destruct (subset _ _); [|discriminate].
    destruct (has_duplicates cn) eqn:Hd; [discriminate|]. destruct (subset _ _); [|discriminate].
    inversion Hp; subst. split; [reflexivity|apply has_duplicates_iff; exact Hd]. }
  destruct HT as [-> Hn].
  assert (HL : labels (sort_labels (distinct (cn ++ en))) s).
  { apply sd_run_labels. split; apply index_blank. }
  destruct HL as [HP HV].
  assert (Hc : incl (t_index T) (sort_labels (distinct (cn ++ en)))).
  { intros l Hl. apply HistoryProofs.sort_in, distinct_in, Hi, Hl. }
  unfold sd_reload, sd_init. cbn [sd_t sd_gates sd_cheap ta_params ta_vars sd_to_hdf5].
  rewrite (pt_init_given _ _ _ (t_params (ts_t s)) (t_vars (ts_t s))); try reflexivity; try assumption; try (rewrite ?HP, ?HV; exact Hc).
  cbn [ta_last ta_failed ta_evaluatable ta_tuned ta_queue]. rewrite sort_idem. reflexivity.
Qed.
(** After a failed evaluation the tuner returns half way to the last tuned
    voltages and does not consult the solver; the reloaded tuner forwards the
    solver's suggestion instead. *)
Theorem sensing_dot_forgets_failure {S X} (O : solver_ops S) (s : tsys S X) good rest last tuned :
  t_failed (ts_t s) = true -> t_tuned (ts_t s) = good :: rest -> t_last (ts_t s) = Some last ->
  sd_next O tuned s = (s, Ok (midpoint good last)) /\
  let s' := mk_tsys (forgetful (ts_t s)) (ts_s s) (ts_x s) (ts_tr s) in
  snd (sd_next O tuned s') = snd (so_suggest O tuned (ts_s s)) /\
  ts_tr (fst (sd_next O tuned s')) = TSuggest tuned (snd (so_suggest O tuned (ts_s s))) :: ts_tr s.
Proof.
  intros H1 H2 H3. unfold sd_next, tbind, tget, tret. rewrite H1, H2, H3. split; [reflexivity|]. cbn. unfold tsolver. cbn.
  destruct (so_suggest O tuned (ts_s s)) as [S' r]. split; reflexivity.
Qed.
(** A failure after the reload cannot be recovered at all: until an evaluation
    finds the target met there is no point to return to, and each failed
    evaluation is followed by an IndexError. *)
Theorem sensing_dot_reload_no_recovery {S X} (O : solver_ops S) cheap costly (s : tsys S X) v s' r tuned :
  t_tuned (ts_t s) = [] -> sd_is_tuned O cheap costly v s = (s', r) -> r <> Ok true ->
  t_tuned (ts_t s') = [] /\ t_tuned (ts_t (fst (sd_next O tuned s'))) = [] /\
  (t_failed (ts_t s') = true -> sd_next O tuned s' = (s', Raise IndexError)).
Proof.
  intros H0 Hrun Hr. assert (H1 : t_tuned (ts_t s') = []).
  { revert Hrun Hr. unfold sd_is_tuned, sd_evaluate, tbind, tret, traise, tget, tput, tlift, temit, tsolver, teval, ttarget; cbn -[assign select any_na any_le]. destruct (cheap (ts_x s)) as [x' [[raw rawvar]|e]]; cbn -[assign select any_na any_le]; [|intros E; inversion E; subst; auto].
    destruct (assign (t_params (ts_t s)) _) as [lp|]; cbn -[assign select any_na any_le]; [|intros E; inversion E; subst; auto].
    destruct (assign (t_vars (ts_t s)) _) as [lv|]; cbn -[assign select any_na any_le]; [|intros E; inversion E; subst; auto].
    destruct (select _ lp) as [sel|]; cbn -[assign select any_na any_le]; [|intros E; inversion E; subst; auto].
    destruct (any_na sel); cbn -[assign select any_na any_le]; [intros E; inversion E; subst; auto|].
    destruct (any_le Minimum _ _); cbn -[assign select any_na any_le]; [|intros E; inversion E; subst; congruence].
    destruct (any_le Cost _ _); cbn -[assign select any_na any_le].
    - destruct (costly x') as [x2 [[raw2 rawvar2]|e]]; cbn -[assign select any_na any_le]; [|intros E; inversion E; subst; auto].
      destruct (assign lp _) as [lp2|]; cbn -[assign select any_na any_le]; [|intros E; inversion E; subst; auto].
      destruct (assign lv _) as [lv2|]; cbn -[assign select any_na any_le]; [|intros E; inversion E; subst; auto].
      destruct (so_update O v _ _ (ts_s s)) as [S' [u|e]]; cbn -[assign select any_na any_le]; intros E; inversion E; subst; auto.
    - destruct (so_update O v _ _ (ts_s s)) as [S' [u|e]]; cbn -[assign select any_na any_le]; intros E; inversion E; subst; auto. }
  split; [exact H1|]. unfold sd_next, tbind, tget, traise, tsolver. cbn. rewrite H1. split.
  - destruct (t_failed (ts_t s')); [exact H1|]. destruct (so_suggest O tuned (ts_s s')); exact H1.
  - intros H2. rewrite H2. reflexivity.
Qed.
Definition case_sd : tuner :=
  mk_tuner (Some [("P", Fin 2)]) [("a", NaN); ("p", Fin 5)] [("a", NaN); ("p", Fin 1)] true [] [[("P", Fin 0)]] 0.
Example case_sensing_dot :
  sd_reload [row_full "a"] ["a"] ["p"] (mk_sdot case_sd ["P"] false) = Ok (mk_sdot (forgetful case_sd) ["P"] false) /\
  t_tuned (forgetful case_sd) = [] /\ t_failed (forgetful case_sd) = false /\
  (exists s0, sd_init [row_full "a"] ["a"] ["p"] ["P"] true no_args = Ok s0) /\
  full_rows [row_full "a"] = [].
Proof. repeat split; try reflexivity. eexists. reflexivity. Qed.
Example case_no_recovery :
  let O := fwd_ops in
  let s := mk_tsys (forgetful case_sd) (mk_fwd [row_full "a"] [("a", Some "P")] [("P", Fin 2)] [("P", Fin 2)]) tt [] in
  let run := sd_is_tuned O (fun x => (x, Ok ([("a", NaN)], [("a", Fin 0)]))) (fun x => (x, Raise RuntimeError)) [("P", Fin 2)] s in
  t_tuned (ts_t s) = [] /\ snd run = Ok false /\ t_failed (ts_t (fst run)) = true /\
  snd (sd_next O [] (fst run)) = Raise IndexError.
Proof. cbn zeta. repeat split; reflexivity. Qed.

(** *** Autotuner *)
(** Every reload appends a time stamp to the storage path. *)
Theorem reload_path_grows js a p n :
  a_path a = Some p -> p <> ""%string -> (forall q, js q <> ""%string) ->
  a_path (Nat.iter n (fun b => at_from_hdf5 js (at_to_hdf5 b)) a) = Some (Nat.iter n js p).
Proof.
  intros Hp Hn Hj. induction n as [|n IH]; [exact Hp|].
  change (storage_path js true (a_path (Nat.iter n (fun b => at_from_hdf5 js (at_to_hdf5 b)) a)) = Some (js (Nat.iter n js p))).
  rewrite IH. unfold storage_path.
  destruct (String.eqb_spec (Nat.iter n js p) ""); [|reflexivity]. exfalso. destruct n as [|n]; [apply Hn; exact e|apply (Hj _ e)].
Qed.
Example case_path :
  a_path (Nat.iter 2 (fun b => at_from_hdf5 (fun q => q ++ "/stamp")%string (at_to_hdf5 b)) (mk_at 0 false None (Some "data")))
    = Some "data/stamp/stamp"%string.
Proof. reflexivity. Qed.

Print Assumptions subset_reload_iff.
Print Assumptions newton_reload.
Print Assumptions estimators_keep_gates.
Print Assumptions forwarding_reload.
Print Assumptions kalman_estimator_reload.
Print Assumptions subset_newton_reload.
Print Assumptions fd_reload_iff.
Print Assumptions selfinit_reload_fails.
Print Assumptions sensing_dot_reload.
Print Assumptions sensing_dot_forgets_failure.
Print Assumptions sensing_dot_reload_no_recovery.
Print Assumptions reload_path_grows.
