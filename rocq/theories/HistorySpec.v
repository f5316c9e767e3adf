(** What the history should contain, stated without the functions of the model. *)
From Verif Require Import PyBase AutotunerModel HistoryModel.

(** Two voltage series describe the same point: same gates, same values. *)
Definition same_point (a b : series) : Prop :=
  (forall g, In g (index a) <-> In g (index b)) /\ forall g, get g a = get g b.

(** The point of an autotuner state: the voltages of its first tuner. *)
Definition point_of (a : snap) (v : series) : Prop :=
  exists t ts, sn_tuners a = t :: ts /\ ts_volts t = Some v.

(** [group p g]: all states of the non-empty list [g] are at the point [p]. *)
Definition at_point (p : series) (e : snap * string) : Prop := exists v, point_of (fst e) v /\ same_point p v.
Definition group (p : series) (g : list (snap * string)) : Prop := g <> [] /\ Forall (at_point p) g.

(** Consecutive groups are at different points. *)
Fixpoint adjacent_differ (ps : list series) : Prop :=
  match ps with
  | p :: ((q :: _) as ps') => ~ same_point p q /\ adjacent_differ ps'
  | _ => True
  end.

(** All states of a run name the same gates, each once. *)
Definition same_gates (gates : list label) (a : snap) : Prop :=
  forall v, point_of a v -> NoDup (index v) /\ forall g, In g (index v) <-> In g gates.

(** One iteration of the autotuner as seen by the history
    (qtune/autotuner.py L259-291): evaluation of the tuner at the current index
    changes this tuner only; calculating voltages and setting them change no
    tuner. *)
Inductive tuning_step : snap -> snap -> Prop :=
| step_tuned i ts1 t t' ts2 : length ts1 = i ->
    tuning_step (mk_snap i false false (ts1 ++ t :: ts2)) (mk_snap (S i) false false (ts1 ++ t' :: ts2))
| step_not_tuned i ts1 t t' ts2 : length ts1 = i ->
    tuning_step (mk_snap i false false (ts1 ++ t :: ts2)) (mk_snap i false true (ts1 ++ t' :: ts2))
| step_next i ts : tuning_step (mk_snap i false true ts) (mk_snap i true false ts)
| step_set i st ts : tuning_step (mk_snap i true st ts) (mk_snap 0 false st ts).

(** Successive states. *)
Fixpoint tuning_run (a : snap) (l : list snap) : Prop :=
  match l with
  | [] => True
  | b :: l' => tuning_step a b /\ tuning_run b l'
  end.

(** The columns of the tuners have different names. *)
Definition columns (t : tsnap) : list label := match tuner_cells t with Ok c => index c | Raise _ => [] end.
Definition well_named (a : snap) : Prop := NoDup (flat_map columns (sn_tuners a)).

(** Number of tuners evaluated in the present round. *)
Definition evaluated (a : snap) : nat := (sn_index a + if sn_pending a || sn_status a then 1 else 0)%nat.

(** The first tuner is evaluated in this step. *)
Definition starts_round (a : snap) : Prop := sn_index a = 0%nat /\ sn_pending a = false /\ sn_status a = false.
Definition moved (a b : snap) : Prop := forall v w, point_of a v -> point_of b w -> ~ same_point v w.
(** Every round starts at a new point, except rounds that follow a round that
    did not get beyond the first tuner.  [reached]: position at the last state
    with an evaluated tuner. *)
Fixpoint always_moved (reached : nat) (a : snap) (l : list snap) : Prop :=
  match l with
  | [] => True
  | b :: l' => (starts_round a -> reached = 0%nat \/ moved a b) /\
               always_moved (match evaluated b with 0%nat => reached | S _ => sn_index b end) b l'
  end.

(** The parameters of a tuner that belong in a row: all of them, for a
    SubsetTuner those with a desired value. *)
Definition relevant (t : tsnap) (values : series) (p : label) : Prop :=
  match ts_desired t with
  | None => In p (index values)
  | Some d => exists x, In (p, x) d /\ isna x = false
  end.
(** The row holds the present values, variances, gradients and covariances of a
    tuner. *)
Definition row_holds (r : hrow) (t : tsnap) : Prop :=
  (forall p, relevant t (ts_params t) p -> get p (r_cells r) = get p (ts_params t)) /\
  (forall p, relevant t (ts_vars t) p -> get (var_col p) (r_cells r) = get p (ts_vars t)) /\
  (forall p g c, In (p, (Some g, Some c)) (ts_grads t) ->
     (forall k x, In (k, x) g -> get (grad_col p k) (r_cells r) = x) /\
     (forall k col k' x, In (k, col) c -> In (k', x) col -> get (cov_col p k k') (r_cells r) = x)).
(** ... of all tuners evaluated in the present round. *)
Definition row_up_to_date (r : hrow) (a : snap) : Prop :=
  forall i t, (i < evaluated a)%nat -> nth_error (sn_tuners a) i = Some t -> row_holds r t.

(** An autotuner as the history sees it. *)
Definition snapshot {W} (obs : W -> list tsnap) (s : sys W) : snap :=
  mk_snap (a_index (s_at s)) (match a_to_set (s_at s) with Some _ => true | None => false end) (a_status (s_at s)) (obs (s_w s)).
(** Evaluating a tuner changes this tuner only; reading and setting voltages,
    calculating voltages and writing files change no recorded value. *)
Record local_env {W} (E : env W) (obs : W -> list tsnap) : Prop := mk_local {
  lo_len : forall w, length (obs w) = e_n E;
  lo_read : forall w, obs (fst (e_read E w)) = obs w;
  lo_set : forall v w, obs (fst (e_set E v w)) = obs w;
  lo_next : forall i t w, obs (fst (e_next E i t w)) = obs w;
  lo_write : forall w, obs (fst (e_write E w)) = obs w;
  lo_eval : forall i v w j, j <> i -> nth_error (obs (fst (e_is_tuned E i v w))) j = nth_error (obs w) j
}.

(** Evaluator data of a row: the entry of an evaluator, and the last one given
    for it in a list. *)
Definition data_of (l : label) (row : list (label * option nat)) (d : option nat) : Prop := exists pre post, row = pre ++ (l, d) :: post /\ ~ In l (map fst pre).
Definition last_given (l : label) (evs : list (label * option nat)) (d : option nat) : Prop := exists pre post, evs = pre ++ (l, d) :: post /\ ~ In l (map fst post).
(** Evaluator data of the tuners from the i-th to the one evaluated last. *)
Definition evaluator_data (a : snap) (i : nat) : list (label * option nat) := flat_map ts_evals (skipn i (firstn (evaluated a) (sn_tuners a))).
