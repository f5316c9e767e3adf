(** The whole loop: an Autotuner (AutotunerModel.v) whose hierarchy consists of
    SubsetTuners (TunerModel.v), each with its own solver, on an experiment
    that sets and returns the voltages exactly. *)
From Verif Require Import PyBase TargetModel AutotunerModel TunerModel NewtonModel EstimatorModel.

(** One SubsetTuner of the hierarchy (qtune/parameter_tuner.py L186-216): state,
    solver, limits, tunable gates. *)
Record part (S : Type) := mk_part { p_tuner : tuner; p_solver : S; p_limits : limits; p_gates : list label }.
Arguments mk_part {S}. Arguments p_tuner {S}. Arguments p_solver {S}. Arguments p_limits {S}. Arguments p_gates {S}.

(** The voltages on the gates and the tuners.  The tuners share nothing (no
    common solver, estimator or evaluator). *)
Record world (S : Type) := mk_world { w_gates : series; w_parts : list (part S) }.
Arguments mk_world {S}. Arguments w_gates {S}. Arguments w_parts {S}.

Fixpoint set_nth {A} (i : nat) (a : A) (l : list A) : list A :=
  match l, i with
  | [], _ => []
  | _ :: l', O => a :: l'
  | b :: l', S j => b :: set_nth j a l'
  end.

Section Compose.
Context {S : Type} (O : solver_ops S).
(** [solver.current_position.index] and, for a NewtonSolver, the indices of its
    estimators' positions (read by ready_to_tune, qtune/autotuner.py L175-205). *)
Variable s_gates : S -> list label.
Variable s_newton : S -> option (list (option (list label))).
(** The concatenated results of the evaluators of tuner [i] (the first
    component holds the values) at the voltages on the gates.  Simplification:
    evaluators do not move the gates and are deterministic. *)
Variable results : nat -> series -> res (series * series).

(** A call of a method of tuner [i] ([tuning_hierarchy[i]]). *)
Definition on_part {A} (i : nat) (f : part S -> TM A) (w : world S) : world S * res A :=
  match nth_error (w_parts w) i with
  | None => (w, Raise IndexError)
  | Some p =>
      let (s, r) := f p (mk_tsys (p_tuner p) (p_solver p) (w_gates w) []) in
      (mk_world (ts_x s) (set_nth i (mk_part (ts_t s) (ts_s s) (p_limits p) (p_gates p)) (w_parts w)), r)
  end.

(** What qtune/autotuner.py L170-205 reads of a tuner. *)
Definition view (p : part S) : tuner_view :=
  mk_view (match t_last (p_tuner p) with Some v => Some (index v) | None => None end)
          (s_gates (p_solver p)) (s_newton (p_solver p)) (Some (p_gates p)).

(** qtune/autotuner.py L260-266: the last voltages of the first tuner at the
    gates to be set; [None[...]] is a TypeError. *)
Definition log_step (v : series) (w : world S) : res unit :=
  match w_parts w with
  | [] => Raise IndexError
  | p :: _ =>
      match t_last (p_tuner p) with
      | None => Raise TypeError
      | Some last => match select (index v) last with Ok _ => Ok tt | Raise e => Raise e end
      end
  end.

(** qtune/autotuner.py L281-285: only if all parameters have a desired value. *)
Definition log_dist (i : nat) (w : world S) : res unit :=
  match nth_error (w_parts w) i with
  | None => Raise IndexError
  | Some p =>
      let tg := so_target O (p_solver p) in
      if forallb (fun r => negb (isna (t_desired r))) tg
      then match select (t_index tg) (t_params (p_tuner p)) with Ok _ => Ok tt | Raise e => Raise e end
      else Ok tt
  end.

(** The environment of the Autotuner.  The experiment
    (qtune/experiment.py L71-81) assigns the given voltages; storing a state
    never fails. *)
Definition hierarchy (n : nat) : env (world S) :=
  mk_env (world S) n
    (fun w => (w, Ok (w_gates w)))
    (fun v w => match assign (w_gates w) v with
                | Ok g => (mk_world g (w_parts w), Ok tt)
                | Raise e => (w, Raise e)
                end)
    (fun w => map view (w_parts w))
    (fun i v => on_part i (fun _ => subset_is_tuned O (fun x => (x, results i x)) v))
    (fun i tuned => on_part i (fun p => subset_next O (p_limits p) tuned))
    (fun i w => match nth_error (w_parts w) i with Some p => so_target O (p_solver p) | None => [] end)
    (fun i ch => on_part i (fun _ => tuner_set_target O ch))
    (fun i v => on_part i (fun _ => tuner_restart O v))
    log_step log_dist
    (fun w => (w, Ok tt)).
End Compose.

(** The hierarchy of SubsetTuners with NewtonSolvers and finite difference
    estimators. *)
Section NewtonHierarchy.
Variable ortho : list (list num) -> res (list num).
Variable calc : list measurement -> res (list num * list (list num)).
Variable lstsq : list series -> list num -> res (list num).
Definition newton_hierarchy (results : nat -> series -> res (series * series)) (n : nat) : env (world (newton fd)) :=
  hierarchy (nw_ops (fd_ops ortho calc) lstsq) (fun s => index (nw_pos s))
    (fun s => Some (map (fun g => Some (index (fd_pos g))) (nw_ests s))) results n.
End NewtonHierarchy.

(** [m] calls of [Autotuner.iterate] in a row, up to the first exception. *)
Fixpoint iterates {W} (E : env W) (m : nat) (s : sys W) : sys W * res unit :=
  match m with
  | O => (s, Ok tt)
  | S m' => match iterate E s with
            | (s', Ok _) => iterates E m' s'
            | (s', Raise e) => (s', Raise e)
            end
  end.
