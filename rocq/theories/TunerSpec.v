(** Vocabulary for the properties of the parameter tuners. *)
From Verif Require Import PyBase TargetModel TunerModel.

(** A voltage vector: a finite value for each gate of a list. *)
Definition vec (ls : list label) (f : label -> R) : series := map (fun l => (l, Fin (f l))) ls.

(** Euclidean length. *)
Definition rnorm (ls : list label) (g : label -> R) : R :=
  sqrt (fold_right (fun l acc => (g l * g l + acc)%R) 0%R ls).

(** The step from [f] to the position that has [h] on the gates [ls'] and is
    unchanged elsewhere. *)
Definition step_to (ls' : list label) (h f : label -> R) (l : label) : R :=
  if mem l ls' then (h l - f l)%R else 0%R.

(** Requirement of one row of the target on the raw measured value [x]:
    without desired value, measured value or rescaling factor the distance
    counts as 0, without tolerance every finite distance is accepted; an
    infinite measurement is never accepted. *)
Definition row_met (r : trow) (x : num) : Prop :=
  match t_desired r, x, t_rescale r with
  | Fin d, Fin m, Fin f => forall tol, t_tolerance r = Fin tol -> (Rabs (d - m / f) < tol)%R
  | Fin _, PInf, Fin _ | Fin _, MInf, Fin _ => False
  | _, _, _ => forall tol, t_tolerance r = Fin tol -> (0 < tol)%R
  end.

(** Entries that the statement about tolerances covers: finite or missing,
    factors not zero. *)
Definition fin_or_nan (x : num) : Prop := match x with NaN | Fin _ => True | _ => False end.
Definition plain_row (r : trow) : Prop :=
  fin_or_nan (t_desired r) /\ fin_or_nan (t_tolerance r) /\
  fin_or_nan (t_rescale r) /\ t_rescale r <> Fin 0.

(** Evaluations in a list of events. *)
Definition is_eval (ev : tevent) : bool := match ev with TEval _ _ => true | _ => false end.
(** Calls that feed the solver. *)
Definition is_update (ev : tevent) : bool := match ev with TUpdate _ _ _ _ => true | _ => false end.

(** A measured value that counts as missing after rescaling with factor [f]. *)
Definition missing (x f : num) : Prop := ndiv x f = NaN.
