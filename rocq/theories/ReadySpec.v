(** Vocabulary for [all_estimators_ready]. *)
From Verif Require Import PyBase TargetModel TunerModel SolverModel NewtonModel NewtonSpec EstimatorModel ReadyModel.

Section Spec.
Context {G : Type} (E : est_ops G).

(** The estimators of the Newton solvers in the order of the hierarchy, each
    with the gates of its solver. *)
Definition estimators (h : list (@tuner_solver G)) : list (list label * G) :=
  flat_map (fun s => match s with
                     | Newton st => map (fun g => (index (nw_pos st), g)) (nw_ests st)
                     | OtherSolver => []
                     end) h.

(** The estimator asks for no measurement, asks for one, raises. *)
Definition content (q : list label * G) : Prop :=
  exists a, snd (eo_require E (fst q) None (snd q)) = Ok a /\ no_request a.
Definition asking (q : list label * G) : Prop :=
  exists p s, snd (eo_require E (fst q) None (snd q)) = Ok (Some (p :: s)).
Definition failing (e : exn) (q : list label * G) : Prop := snd (eo_require E (fst q) None (snd q)) = Raise e.

(** Every solver has gates. *)
Definition has_gates (h : list (@tuner_solver G)) : Prop := forall st, In (Newton st) h -> index (nw_pos st) <> [].

(** [P] holds for one member and [Q] for all members before it. *)
Definition first_with {A} (Q P : A -> Prop) (l : list A) : Prop :=
  exists l1 a l2, l = l1 ++ a :: l2 /\ Forall Q l1 /\ P a.

(** An estimator whose question costs nothing: asking does not change what it
    answers, and an estimator that asks for nothing stays as it is. *)
Definition steady : Prop :=
  forall gates tj g, gates <> [] ->
    snd (eo_require E gates tj (fst (eo_require E gates tj g))) = snd (eo_require E gates tj g) /\
    (forall a, snd (eo_require E gates tj g) = Ok a -> no_request a -> fst (eo_require E gates tj g) = g).
End Spec.

(** The direction for the next point has a component. *)
Definition some_direction (ortho : list (list num) -> res (list num)) : Prop := forall vs v, ortho vs = Ok v -> v <> [].

(** Two finite difference estimators that differ at most in the list of
    requested points. *)
Definition same_but_requests (a b : fd) : Prop :=
  fd_pos a = fd_pos b /\ fd_eps a = fd_eps b /\ fd_est a = fd_est b /\ fd_cov a = fd_cov b /\
  fd_stored a = fd_stored b /\ fd_sym a = fd_sym b.
Definition same_newton (a b : newton fd) : Prop :=
  nw_target a = nw_target b /\ Forall2 same_but_requests (nw_ests a) (nw_ests b) /\
  nw_pos a = nw_pos b /\ nw_vals a = nw_vals b.
Definition same_solver (a b : @tuner_solver fd) : Prop :=
  match a, b with
  | Newton x, Newton y => same_newton x y
  | OtherSolver, OtherSolver => True
  | _, _ => False
  end.

(** A finite difference estimator whose position is known and which has a gradient. *)
Definition determined (g : fd) : Prop :=
  fd_est g <> None /\ exists l x, In (l, x) (fd_pos g) /\ x <> NaN.

(** All points requested of the estimators of a hierarchy, and the gradients. *)
Definition requests (h : list (@tuner_solver fd)) : list (list series) := map (fun q => fd_requested (snd q)) (estimators h).

(** What a tuner sees of a solver after some calls: the next suggestion. *)
Definition suggestion ortho calc lstsq (tuned : list label) (ops : list nw_op) (st : newton fd) : res series :=
  snd (nw_suggest (fd_ops ortho calc) lstsq tuned (nw_run (fd_ops ortho calc) lstsq ops st)).

(** Calls without restart. *)
Definition no_restart (op : nw_op) : Prop := match op with NRestart _ => False | _ => True end.
