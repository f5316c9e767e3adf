(** Constructors called with the arguments that to_hdf5 stores
    (qtune/storage.py L202-218), component by component. *)
From Verif Require Import PyBase TargetModel TunerModel SolverModel NewtonModel EstimatorModel.

(** [target.dropna(how='all').index], qtune/parameter_tuner.py L74: rows with
    at least one value. *)
Definition not_empty_rows (t : target) : list label :=
  map t_name (filter (fun r => existsb (fun c => negb (isna (cell c r))) columns) t).
(** [target.dropna().index], L95: rows without NaN in any column. *)
Definition full_rows (t : target) : list label :=
  map t_name (filter (fun r => forallb (fun c => negb (isna (cell c r))) columns) t).

(** [set(a) == set(b)] *)
Definition same_set (a b : list label) : bool := subset a b && subset b a.
(** [len(l) != len(set(l))], L93. *)
Fixpoint has_duplicates (l : list label) : bool :=
  match l with [] => false | a :: l' => mem a l' || has_duplicates l' end.

(** Keyword arguments of the tuners, L32-41, L199-200; lists of voltages are
    kept newest first, missing lists are empty (L54, L60). *)
Record tuner_args := mk_targs {
  ta_last : option series;
  ta_params : option series;
  ta_vars : option series;
  ta_failed : bool;
  ta_evaluatable : list series;
  ta_tuned : list series;
  ta_queue : Z }.
Definition no_args : tuner_args := mk_targs None None None false [] [] 0.

(** [pd.Series(index=names)] *)
Definition blank (names : list label) : series := map (fun l => (l, NaN)) names.

(** qtune/parameter_tuner.py L32-95 [ParameterTuner.__init__].  [tg] is the target of the solver,
    [names] are the parameters of the evaluators, one after the other.  The
    assignment at L57 stores the same object again (see set_last_voltages). *)
Definition pt_init (tg : target) (names : list label) (a : tuner_args) : res tuner :=
  let check (needed : list label) (o : option series) : res series :=
    match o with
    | None => Ok (blank (relevant tg))
    | Some s => if subset needed (index s) then Ok s else Raise AssertionError
    end in
  match check (not_empty_rows tg) (ta_params a) with
  | Raise e => Raise e
  | Ok p =>
      match check (t_index tg) (ta_vars a) with
      | Raise e => Raise e
      | Ok v =>
          if has_duplicates names then Raise ValueError
          else if subset (full_rows tg) names
          then Ok (mk_tuner (ta_last a) p v (ta_failed a) (ta_evaluatable a) (ta_tuned a) (ta_queue a))
          else Raise AssertionError
      end
  end.

(** qtune/parameter_tuner.py L199-216 [SubsetTuner.__init__]: the result is the tuner and its sorted
    gates; [pos] are the gates of the solver's position. *)
Definition subset_init (tg : target) (names pos gates : list label) (a : tuner_args) : res (tuner * list label) :=
  match pt_init tg names a with
  | Raise e => Raise e
  | Ok t => if same_set gates pos then Ok (t, sort_labels gates) else Raise AssertionError
  end.

(** qtune/parameter_tuner.py L185-193, L279-285 [SubsetTuner.to_hdf5]. *)
Definition subset_to_hdf5 (t : tuner) : tuner_args :=
  mk_targs (t_last t) (Some (t_params t)) (Some (t_vars t)) (t_failed t) (t_evaluatable t) (t_tuned t) (t_queue t).
Definition subset_reload (tg : target) (names pos : list label) (s : tuner * list label) : res (tuner * list label) :=
  subset_init tg names pos (snd s) (subset_to_hdf5 (fst s)).

(** A SensingDotTuner: the common attributes, the gates and
    [cheap_evaluation_only]. *)
Record sdot := mk_sdot { sd_t : tuner; sd_gates : list label; sd_cheap : bool }.

(** [sorted(list(set(names)))], L316-317. *)
Fixpoint distinct (l : list label) : list label :=
  match l with [] => [] | a :: l' => if mem a l' then distinct l' else a :: distinct l' end.

(** qtune/parameter_tuner.py L293-331 [SensingDotTuner.__init__]: [cheap] and [costly] are the parameters
    of the two lists of evaluators; only the cheap ones are given to
    ParameterTuner.__init__ (L327). *)
Definition sd_init (tg : target) (cheap costly gates : list label) (only_cheap : bool) (a : tuner_args) : res sdot :=
  let default o := match o with Some s => s | None => blank (sort_labels (distinct (cheap ++ costly))) end in
  match pt_init tg cheap (mk_targs (ta_last a) (Some (default (ta_params a))) (Some (default (ta_vars a)))
                                   (ta_failed a) (ta_evaluatable a) (ta_tuned a) (ta_queue a)) with
  | Raise e => Raise e
  | Ok t => Ok (mk_sdot t (sort_labels gates) only_cheap)
  end.

(** qtune/parameter_tuner.py L399-407 [SensingDotTuner.to_hdf5]: neither the tuned voltages nor
    last_evaluation_failed nor the evaluatable voltages are stored. *)
Definition sd_to_hdf5 (t : tuner) : tuner_args :=
  mk_targs (t_last t) (Some (t_params t)) (Some (t_vars t)) false [] [] 0.
Definition sd_reload (tg : target) (cheap costly : list label) (s : sdot) : res sdot :=
  sd_init tg cheap costly (sd_gates s) (sd_cheap s) (sd_to_hdf5 (sd_t s)).

(** qtune/solver.py L254-258 [NewtonSolver.to_hdf5]. *)
Definition nw_reload {G} (E : est_ops G) (st : newton G) : res (newton G) :=
  nw_init E (nw_target st) (nw_ests st) (nw_pos st) (Some (nw_vals st)).

(** qtune/solver.py L553-557 [ForwardingSolver.to_hdf5]. *)
Definition fwd_reload (st : fwd) : res fwd :=
  fwd_init (fw_target st) (fw_map st) (fw_cur st) (Some (fw_next st)).

(** qtune/gradient.py L217-224 [FiniteDifferencesGradientEstimator.to_hdf5]. *)
Definition fd_reload (st : fd) : res fd :=
  fd_init (Some (fd_pos st)) (TSeries (fd_eps st)) (fd_sym st) (fd_est st) (fd_cov st)
          (Some (fd_stored st)) (Some (fd_requested st)).

(** The constants of a KalmanGradientEstimator, qtune/gradient.py L248-258. *)
Record kconst := mk_kconst { kc_max : series; kc_eps : series }.

Section Kalman.
Context {K : Type}.
(** [kalman_gradient.grad.shape] *)
Variable k_shape : K -> nat * nat.

(** qtune/gradient.py L228-259 [KalmanGradientEstimator.__init__]. *)
Definition ke_init (f : K) (pos : series) (maxcov eps : targ) (v : option num) : res (kal K * kconst) :=
  let pick (a : targ) : res series :=
    match a with
    | TScalar x => Ok (map (fun l => (l, x)) (index pos))
    | TSeries s => if same_set (index s) (index pos) then select (index pos) s else Raise AssertionError
    end in
  match pick maxcov with
  | Raise e => Raise e
  | Ok m =>
      match pick eps with
      | Raise e => Raise e
      | Ok e => let (i, j) := k_shape f in
                if Nat.eqb i 1 && Nat.eqb j (length pos)
                then Ok (mk_kal f pos v, mk_kconst m e) else Raise AssertionError
      end
  end.
(** qtune/gradient.py L362-367 [to_hdf5]. *)
Definition ke_reload (s : kal K * kconst) : res (kal K * kconst) :=
  ke_init (ke_filter (fst s)) (ke_pos (fst s)) (TSeries (kc_max (snd s))) (TSeries (kc_eps (snd s))) (ke_val (fst s)).

(** A SelfInitializingKalmanEstimator, qtune/gradient.py L376-384, L456-460: its
    parts are reloaded before it is rebuilt (qtune/storage.py L202-218). *)
Definition si_reload (s : fd * option (kal K * kconst)) : res (fd * option (kal K * kconst)) :=
  match fd_reload (fst s) with
  | Raise e => Raise e
  | Ok f => match snd s with
            | None => Ok (f, None)
            | Some k => match ke_reload k with
                        | Ok k' => Ok (f, Some k')
                        | Raise e => Raise e
                        end
            end
  end.
End Kalman.
