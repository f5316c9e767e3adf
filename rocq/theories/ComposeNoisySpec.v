(** Vocabulary for evaluators whose answers change from call to call. *)
From Verif Require Import PyBase TargetModel AutotunerModel NewtonModel EstimatorModel KernelR ComposeModel ComposeSpec ComposeCoupledSpec ComposeCurvedSpec.
Local Open Scope R_scope.

(** [m] calls of [Autotuner.iterate] in a row, up to the first exception; the
    call number [k] finds the environment [Es k].  A call evaluates at most one
    tuner (qtune/autotuner.py L256-289), once, so that every sequence of
    measured values can be described in this way. *)
Fixpoint calls {W} (Es : nat -> env W) (k m : nat) (s : sys W) : sys W * res unit :=
  match m with
  | O => (s, Ok tt)
  | S m' => match iterate (Es k) s with
            | (s', Ok _) => calls Es (S k) m' s'
            | (s', Raise e) => (s', Raise e)
            end
  end.
(** The values measured at call [k] are those of the device [g] up to [eta] in
    the units of the target. *)
Definition noisy (b : block) (g : (label -> R) -> label -> R) (fs : nat -> (label -> R) -> label -> R) (eta : R) : Prop :=
  forall k v q, In q (b_params b) -> Rabs ((fs k v q - g v q) / b_factor b q) <= eta.
