(** Vocabulary for hierarchies with steps of limited size on devices that are
    not affine. *)
From Verif Require Import PyBase TunerSpec TargetModel NewtonModel EstimatorModel KernelR ComposeSpec ComposeCoupledSpec ComposeCurvedSpec ComposeTowerSpec.
Local Open Scope R_scope.

(** The steps of the tuner are not longer than [G] times the largest change of
    the parameters they are meant for. *)
Definition reaches (b : block) (G : R) : Prop :=
  0 < G /\ forall w h r, (forall q, In q (b_params b) -> Rabs (w q) <= r) -> moves b w h -> rnorm (b_gates b) h <= G * r.
(** [M] steps are enough to bring a tuner that misses its targets by at most [r]
    to them: without limit, the error falls by the factor [rho] at every step.
    With steps of at most the size [m], [a] steps of this size pay for the whole
    error, and after [c] steps that are not cut the targets are met. *)
Definition enough (b : block) (rho r : R) (M : nat) : Prop :=
  (unlimited b /\ 0 <= rho <= 1 /\ forall q, In q (b_params b) -> rho ^ M * r < b_tol b q) \/
  (limited b /\ 0 <= rho < 1 /\ exists m G a c, b_size b = Fin m /\ reaches b G /\ (a + c <= M)%nat /\
     G * r <= INR a * ((1 - rho) * m) /\ forall q, In q (b_params b) -> rho ^ c * r < b_tol b q).
Definition in_steps (all : list label) (p0 : label -> R) (M : nat -> nat) (tower : list storey) : Prop :=
  forall lower b f higher, tower = lower ++ (b, f) :: higher ->
  exists rho r, follows b f rho r /\ enough b rho r (M (length lower)) /\
    forall v, (forall b' f', In (b', f') lower -> hit b' f' v) -> (forall l, In l all -> (forall b' f', In (b', f') lower -> ~ In l (b_gates b')) -> v l = p0 l) ->
    forall q, In q (b_params b) -> Rabs (short_of b f v q) <= r.
