(** Vocabulary for saving and reloading. *)
From Verif Require Import PyBase TargetModel TunerModel SolverModel NewtonModel EstimatorModel.

(** Every column of the target is either empty or filled for all parameters. *)
Definition all_filled (t : target) : Prop :=
  forall c r r', In r t -> In r' t -> cell c r' <> NaN -> cell c r <> NaN.

(** Calls on a solver. *)
Inductive sop :=
| SSuggest (tuned : list label)
| SUpdate (v p var : series)
| SSetPos (v : series)
| SSetTarget (ch : list (column * series))
| SRestart (v : series).
Section Run.
Context {S : Type} (O : solver_ops S).
Definition so_do (s : S) (op : sop) : S :=
  match op with
  | SSuggest tuned => fst (so_suggest O tuned s)
  | SUpdate v p var => fst (so_update O v p var s)
  | SSetPos v => fst (so_set_position O v s)
  | SSetTarget ch => fst (so_set_target O ch s)
  | SRestart v => fst (so_restart O v s)
  end.
Definition so_run (s : S) (ops : list sop) : S := fold_left so_do ops s.
End Run.

(** No call changes for which gates an estimator has a position. *)
Definition keeps_gates {G} (E : est_ops G) : Prop :=
  (forall gates tj g, index (eo_position E (fst (eo_require E gates tj g))) = index (eo_position E g)) /\
  (forall p x v g, index (eo_position E (fst (eo_update E p x v g))) = index (eo_position E g)) /\
  (forall v g, index (eo_position E (fst (eo_restart E v g))) = index (eo_position E g)).

(** The public calls on a SensingDotTuner. *)
Section SD.
Context {S X : Type} (O : solver_ops S) (cheap costly : X -> X * res (series * series)).
Definition sd_step (s : tsys S X) (o : top) : tsys S X :=
  match o with
  | TopIsTuned v => fst (sd_is_tuned O cheap costly v s)
  | TopNext l => fst (sd_next O l s)
  | TopRestart v => fst (tuner_restart O v s)
  | TopTarget ch => fst (tuner_set_target O ch s)
  end.
Definition sd_run (s : tsys S X) (ops : list top) : tsys S X := fold_left sd_step ops s.
End SD.

(** What a reloaded SensingDotTuner remembers. *)
Definition forgetful (t : tuner) : tuner := mk_tuner (t_last t) (t_params t) (t_vars t) false [] [] 0.
