(** Vocabulary for two tuners of a hierarchy that disturb each other. *)
From Verif Require Import PyBase TargetModel NewtonModel EstimatorModel KernelR ComposeSpec.
Local Open Scope R_scope.

(** Gradient of a parameter in the units of its target. *)
Definition gradient (b : block) (q l : label) : R := b_slope b q l / b_factor b q.
(** What is missing to the desired value at the voltages [v]. *)
Definition missing (all : list label) (b : block) (v : label -> R) (q : label) : R :=
  b_desired b q - measured all b v q / b_factor b q.
(** [h] is a shortest change of the tuner's own gates that changes its
    parameters by [w]. *)
Definition changes (b : block) (w h : label -> R) : Prop :=
  forall q, In q (b_params b) -> dot (b_gates b) (gradient b q) h = w q.
Definition moves (b : block) (w h : label -> R) : Prop :=
  changes b w h /\ forall h', changes b w h' -> dot (b_gates b) h h <= dot (b_gates b) h' h'.
(** The tuners have gates and parameters of their own. *)
Definition separate (b b' : block) : Prop :=
  (forall l, In l (b_gates b) -> ~ In l (b_gates b')) /\ (forall q, In q (b_params b) -> ~ In q (b_params b')).
(** The second tuner corrects its parameters by [w], the first one then removes
    what this did to its own parameters, which in turn changes the second one's
    by at most [rho] times the largest entry of [w]. *)
Definition feedback (b0 b1 : block) (rho : R) : Prop :=
  forall w h1 h0 r, moves b1 w h1 -> moves b0 (fun q => - dot (b_gates b1) (gradient b0 q) h1) h0 ->
  (forall q, In q (b_params b1) -> Rabs (w q) <= r) ->
  forall q, In q (b_params b1) -> Rabs (dot (b_gates b0) (gradient b1 q) h0) <= rho * r.
