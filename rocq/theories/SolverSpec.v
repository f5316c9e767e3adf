(** Vocabulary for the properties of rescaling and of the ForwardingSolver. *)
From Verif Require Import PyBase TargetModel TunerModel SolverModel.

(** The value measured for [l], divided by the factor the target gives for it. *)
Definition scaled (t : target) (raw : series) (l : label) : num := ndiv (get l raw) (factor t l).

(** Some measured parameter is at or below its entry in column [c]. *)
Definition below (c : column) (t : target) (raw : series) : Prop :=
  exists r, In r t /\ In (t_name r) (index raw) /\ nleb (scaled t raw (t_name r)) (cell c r) = true.

(** No measured parameter is missing. *)
Definition all_known (t : target) (raw : series) : Prop :=
  forall l, In l (index raw) -> scaled t raw l <> NaN.

(** Factors that are finite and not zero. *)
Definition good_factors (t : target) : Prop :=
  forall r, In r t -> exists f, t_rescale r = Fin f /\ f <> 0%R.

(** What the forwarding solver should suggest for a gate. *)
Definition forward_value (t : target) (m : list (label * option label)) (pos values old : series) (g : label) (x : num) : Prop :=
  (exists l, In l (index values) /\ In (l, Some g) m /\ x = nmul (get l values) (factor t l)) \/
  ((forall l, In l (index values) -> ~ In (l, Some g) m) /\ In g (index pos) /\ x = get g pos) \/
  ((forall l, In l (index values) -> ~ In (l, Some g) m) /\ ~ In g (index pos) /\ x = get g old).
