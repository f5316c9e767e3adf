(** Vocabulary for a tuner on a device that is not affine. *)
From Verif Require Import PyBase TargetModel NewtonModel EstimatorModel KernelR ComposeSpec ComposeCoupledSpec.
Local Open Scope R_scope.

(** What is missing to the desired value when the device [f] is measured at
    the voltages [v]. *)
Definition short_of (b : block) (f : (label -> R) -> label -> R) (v : label -> R) (q : label) : R := b_desired b q - f v q / b_factor b q.
Definition hit (b : block) (f : (label -> R) -> label -> R) (v : label -> R) : Prop :=
  forall q, In q (b_params b) -> Rabs (short_of b f v q) < b_tol b q.
(** The voltages after a change of the tuner's own gates. *)
Definition moved (b : block) (h v : label -> R) (l : label) : R := v l + if mem l (b_gates b) then h l else 0.
(** Change of a parameter in the units of its target. *)
Definition change (b : block) (f : (label -> R) -> label -> R) (h v : label -> R) (q : label) : R :=
  (f (moved b h v) q - f v q) / b_factor b q.
(** The device follows the gradients of the tuner: whenever every target is
    missed by at most [r0] and the gradients promise a change [w] of at most
    [r], the device's change differs from [w] by at most [rho r]. *)
Definition follows (b : block) (f : (label -> R) -> label -> R) (rho r0 : R) : Prop :=
  forall v h w r, r <= r0 -> (forall q, In q (b_params b) -> Rabs (short_of b f v q) <= r0) ->
  (forall q, In q (b_params b) -> Rabs (w q) <= r) -> moves b w h ->
  forall q, In q (b_params b) -> Rabs (change b f h v q - w q) <= rho * r.

(** The tuner with other gradients. *)
Definition with_slopes (a : label -> label -> R) (b : block) : block :=
  mk_block (b_gates b) (b_tunable b) (b_params b) (b_measured b) (b_desired b) (b_tol b) (b_factor b) (b_const b) a (b_var b)
    (b_eps b) (b_known b) (b_given b) (b_size b) (b_max b).
(** Slopes that reproduce the device at as many points as there are gates.  The
    steps from the first point are linearly independent and orthogonal in the
    units of the steps of the first parameter's estimator. *)
Definition secants (all : list label) (b : block) (f : (label -> R) -> label -> R) (p0 : label -> R) (a : label -> label -> R) : Prop :=
  exists xs, length xs = length (b_gates b) /\ independent (b_gates b) (map (fun x l => x l - p0 l) xs) /\
    ForallOrdPairs (fun x y => dot (b_gates b) (fun l => (x l - p0 l) / b_eps b (hd ""%string (b_params b)) l) (fun l => y l - p0 l) = 0) xs /\
    (forall x, In x xs -> forall l, In l all -> ~ In l (b_gates b) -> x l = p0 l) /\
    forall x q, In x xs -> In q (b_params b) -> dot (b_gates b) (a q) (fun l => x l - p0 l) = f x q - f p0 q.
(** Difference quotient along one gate. *)
Definition quotient (f : (label -> R) -> label -> R) (q l : label) (v : label -> R) (x : R) : R :=
  (f (fun k => if String.eqb k l then v k + x else v k) q - f v q) / x.
