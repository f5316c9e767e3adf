(** Vocabulary for hierarchies in which tuners measure their gradients. *)
From Verif Require Import PyBase TargetModel NewtonModel EstimatorModel GradientProps KernelR ComposeSpec ComposeCoupledSpec ComposeCurvedSpec ComposeTowerSpec ComposePaceSpec.
Local Open Scope R_scope.

(** qtune/util.py L208: the orthogonal vectors are normalised, so that no entry
    is larger than one. *)
Definition ortho_unit (ortho : list (list num) -> res (list num)) : Prop :=
  forall ls us u, ortho (map (array ls) us) = Ok (array ls u) -> forall l, In l ls -> Rabs (u l) <= 1.
(** Voltages that differ from [v] in the tuner's own gates only, and there by at
    most the steps of the finite differences. *)
Definition beside (all : list label) (b : block) (v x : label -> R) : Prop :=
  (forall l, In l all -> ~ In l (b_gates b) -> x l = v l) /\
  (forall l, In l (b_gates b) -> Rabs (x l - v l) <= b_eps b (hd ""%string (b_params b)) l).
(** The tuner measures its gradients: it misses its targets where it measures,
    and the device follows any gradients that reproduce what is measured. *)
Definition teaches (all : list label) (b : block) (f : (label -> R) -> label -> R) (v : label -> R) : Prop :=
  (forall x, beside all b v x -> ~ hit b f x) /\
  forall a, secants all b f v a -> independent (b_gates b) (map a (b_params b)) /\ exists rho, 0 <= rho < 1 /\ forall r, follows (with_slopes a b) f rho r.
(** The same with a fraction [rho] that is followed as far as errors up to [r],
    errors of at most [r] where it measures, and [M] rounds that are enough. *)
Definition teaches_in (all : list label) (b : block) (f : (label -> R) -> label -> R) (v : label -> R) (M : nat) : Prop :=
  (forall x, beside all b v x -> ~ hit b f x) /\
  forall a, secants all b f v a -> independent (b_gates b) (map a (b_params b)) /\ exists rho r, 0 <= rho <= 1 /\ follows (with_slopes a b) f rho r /\
    (forall q, In q (b_params b) -> rho ^ M * r < b_tol b q) /\
    forall x, beside all b v x -> forall q, In q (b_params b) -> Rabs (short_of b f x q) <= r.
(** Voltages at which the lower tuners are tuned and all gates but theirs are as
    in the beginning. *)
Definition reached (all : list label) (p0 : label -> R) (lower : list storey) (v : label -> R) : Prop :=
  (forall b f, In (b, f) lower -> hit b f v) /\ forall l, In l all -> (forall b f, In (b, f) lower -> ~ In l (b_gates b)) -> v l = p0 l.
(** Every tuner either has gradients that its device follows or measures them
    once the lower tuners are tuned. *)
Definition teachable (all : list label) (p0 : label -> R) (tower : list storey) : Prop :=
  forall lower b f higher, tower = lower ++ (b, f) :: higher ->
  (b_given b = true /\ (unlimited b \/ limited b) /\ tame (b, f)) \/
  (b_given b = false /\ unlimited b /\ forall v, reached all p0 lower v -> teaches all b f v).
(** The same with at most [M j] rounds of tuner number [j].  To measure the
    gradients takes as many rounds as the tuner has gates. *)
Definition teachable_in (all : list label) (p0 : label -> R) (M : nat -> nat) (tower : list storey) : Prop :=
  forall lower b f higher, tower = lower ++ (b, f) :: higher ->
  (b_given b = true /\ exists rho r, follows b f rho r /\ enough b rho r (M (length lower)) /\
     forall v, reached all p0 lower v -> forall q, In q (b_params b) -> Rabs (short_of b f v q) <= r) \/
  (b_given b = false /\ unlimited b /\ exists k, (length (b_gates b) + k <= M (length lower))%nat /\ forall v, reached all p0 lower v -> teaches_in all b f v k).
