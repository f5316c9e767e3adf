(** qtune/autotuner.py L126-139: the property [all_estimators_ready]. *)
From Verif Require Import PyBase TargetModel TunerModel SolverModel NewtonModel EstimatorModel.

Section Ready.
Context {G : Type} (E : est_ops G).

(** The solver of a tuner of the hierarchy, qtune/autotuner.py L133-134: only
    the class NewtonSolver counts. *)
Inductive tuner_solver := Newton (st : newton G) | OtherSolver.

(** qtune/autotuner.py L135-138: every estimator is asked for the gates of the
    solver, without Jacobian of tuned parameters; if the answer is a Series it
    is asked again, and the second answer must not be empty.  [None.empty] is
    an AttributeError. *)
Fixpoint ready_ests (gates : list label) (gs : list G) : list G * res bool :=
  match gs with
  | [] => ([], Ok true)
  | g :: gs' =>
      match eo_require E gates None g with
      | (g1, Raise e) => (g1 :: gs', Raise e)
      | (g1, Ok None) => let (r, a) := ready_ests gates gs' in (g1 :: r, a)
      | (g1, Ok (Some _)) =>
          match eo_require E gates None g1 with
          | (g2, Raise e) => (g2 :: gs', Raise e)
          | (g2, Ok None) => (g2 :: gs', Raise AttributeError)
          | (g2, Ok (Some [])) => let (r, a) := ready_ests gates gs' in (g2 :: r, a)
          | (g2, Ok (Some (_ :: _))) => (g2 :: gs', Ok false)
          end
      end
  end.

(** The solver with other states of its estimators. *)
Definition with_ests (st : newton G) (gs : list G) : newton G := mk_newton (nw_target st) gs (nw_pos st) (nw_vals st).

(** qtune/autotuner.py L126-139 [all_estimators_ready] for the solvers of the
    hierarchy, with the states the reading leaves behind. *)
Fixpoint all_estimators_ready (h : list tuner_solver) : list tuner_solver * res bool :=
  match h with
  | [] => ([], Ok true)
  | OtherSolver :: h' => let (r, a) := all_estimators_ready h' in (OtherSolver :: r, a)
  | Newton st :: h' =>
      match ready_ests (index (nw_pos st)) (nw_ests st) with
      | (gs, Ok true) => let (r, a) := all_estimators_ready h' in (Newton (with_ests st gs) :: r, a)
      | (gs, a) => (Newton (with_ests st gs) :: h', a)
      end
  end.
End Ready.
Arguments Newton {G}. Arguments OtherSolver {G}.
