(** Vocabulary for the properties of the NelderMeadSolver. *)
From Verif Require Import PyBase TargetModel TunerModel TunerSpec SolverModel NelderMeadModel.

(** Public calls and their effect; a call that raises may still have changed
    the solver. *)
Inductive nm_op := OSuggest | OUpdate (position values : series).
Section Run.
Variable cost : series -> num.
Variable ortho : list (list num) -> res (list num).
Definition nm_call (st : nm) (o : nm_op) : nm :=
  match o with
  | OSuggest => fst (nm_suggest ortho st)
  | OUpdate p v => fst (nm_update cost p v st)
  end.
Definition nm_run (st : nm) (ops : list nm_op) : nm := fold_left nm_call ops st.

(** Number of updates that did not raise. *)
Fixpoint accepted (st : nm) (ops : list nm_op) : nat :=
  match ops with
  | [] => 0
  | OSuggest :: ops' => accepted (nm_call st OSuggest) ops'
  | OUpdate p v :: ops' =>
      (match snd (nm_update cost p v st) with Ok _ => 1 | Raise _ => 0 end)
      + accepted (nm_call st (OUpdate p v)) ops'
  end.

(** One round: measure the values [v] at the suggested position. *)
Definition nm_round (st : nm) (v : series) : nm :=
  match nm_suggest ortho st with
  | (st', Ok p) => fst (nm_update cost p v st')
  | (st', Raise _) => st'
  end.
Definition nm_rounds (st : nm) (vs : list series) : nm := fold_left nm_round vs st.
End Run.

(** A cost function that never returns NaN. *)
Definition ordered (cost : series -> num) : Prop := forall v, cost v <> NaN.
(** Deviation of the values from the target. *)
Definition deviation (t : target) (values : series) : series :=
  map (fun l => (l, nsub (get l values) (get l (t_column Desired t)))) (union_index (index values) (index (t_column Desired t))).
Definition costs (cost : series -> num) (st : nm) : list num :=
  map (fun e => cost (deviation (nm_target st) (snd e))) (nm_simplex st).
Definition ascending (l : list num) : Prop :=
  forall i j a b, i < j -> nth_error l i = Some a -> nth_error l j = Some b -> nleb a b = true.
(** Number of costs that are at most [c]. *)
Definition at_most (c : num) (l : list num) : nat := length (filter (fun x => nleb x c) l).
(** One point more than gates. *)
Definition full (st : nm) : Prop := length (nm_simplex st) = S (length (nm_pos st)).
(** Phases in which the solver looks for a reflection. *)
Definition reflecting (p : nm_phase) : Prop := p = StartIteration \/ p = BuildUp \/ p = Reflect.

(** Positions of the simplex as vectors over the gates [ls]. *)
Definition placed (ls : list label) (fs : list (label -> R)) (st : nm) : Prop :=
  map fst (nm_simplex st) = map (vec ls) fs.
Definition rsum (xs : list R) : R := fold_right Rplus 0%R xs.
Definition centroid (fs : list (label -> R)) (l : label) : R := (rsum (map (fun f => f l) fs) / INR (length fs))%R.
(** A position inside the box given by its lower and upper corner. *)
Definition in_box (ls : list label) (lo hi : label -> R) (p : series) : Prop :=
  exists f, p = vec ls f /\ forall l, In l ls -> (lo l <= f l <= hi l)%R.
