(** Vocabulary for hierarchies of tuners on devices that are not affine. *)
From Verif Require Import PyBase TargetModel NewtonModel EstimatorModel KernelR ComposeSpec ComposeCoupledSpec ComposeCurvedSpec.
Local Open Scope R_scope.

(** A tuner and the device it measures. *)
Definition storey : Type := block * ((label -> R) -> label -> R).
(** Higher tuners have gates and parameters of their own, and their gates do not
    change what lower tuners measure. *)
Definition stacked (all : list label) : list storey -> Prop :=
  ForallOrdPairs (fun s s' => (forall l, In l (b_gates (fst s')) -> ~ In l (b_gates (fst s))) /\ (forall q, In q (b_params (fst s')) -> ~ In q (b_params (fst s))) /\
    forall v v', (forall l, In l all -> ~ In l (b_gates (fst s')) -> v' l = v l) -> forall q, In q (b_params (fst s)) -> snd s v' q = snd s v q).
(** The device follows the gradients of its tuner up to a fraction below one. *)
Definition tame (s : storey) : Prop := exists rho, 0 <= rho < 1 /\ forall r, follows (fst s) (snd s) rho r.
(** Tuner number [j] follows its gradients up to a fraction, at least as long as
    its targets are missed by at most what they are missed by when the lower
    tuners are tuned, and needs at most [M j] rounds. *)
Definition in_rounds (all : list label) (p0 : label -> R) (M : nat -> nat) (tower : list storey) : Prop :=
  forall lower b f higher, tower = lower ++ (b, f) :: higher ->
  exists rho r, 0 <= rho <= 1 /\ follows b f rho r /\ (forall q, In q (b_params b) -> rho ^ M (length lower) * r < b_tol b q) /\
    forall v, (forall b' f', In (b', f') lower -> hit b' f' v) -> (forall l, In l all -> (forall b' f', In (b', f') lower -> ~ In l (b_gates b')) -> v l = p0 l) ->
    forall q, In q (b_params b) -> Rabs (short_of b f v q) <= r.
