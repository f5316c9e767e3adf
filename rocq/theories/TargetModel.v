(** The target table of a solver: qtune/solver.py make_target, Solver.target. *)
From Verif Require Import PyBase.

(** One row of the target DataFrame; columns as built in
    qtune/solver.py L66-72. *)
Record trow := mk_trow {
  t_name : label;
  t_desired : num;
  t_minimum : num;
  t_maximum : num;
  t_tolerance : num;
  t_cost : num;
  t_rescale : num }.

Definition target := list trow.

(** The six columns, qtune/solver.py L66-71. *)
Inductive column := Desired | Minimum | Maximum | Tolerance | Cost | Rescale.
Definition columns : list column := [Desired; Minimum; Maximum; Tolerance; Cost; Rescale].
Definition cell (c : column) (r : trow) : num :=
  match c with
  | Desired => t_desired r | Minimum => t_minimum r | Maximum => t_maximum r
  | Tolerance => t_tolerance r | Cost => t_cost r | Rescale => t_rescale r
  end.

(** [target.index] *)
Definition t_index (t : target) : list label := map t_name t.

(** One column of the table as a series, [target['desired']] etc. *)
Definition t_column (c : column) (t : target) : series := map (fun r => (t_name r, cell c r)) t.

(** Columns that are not entirely NaN: the ones kept by
    [target.drop([ind for ind in target.columns if target.isna().all()[ind]], axis='columns')],
    qtune/autotuner.py L145-147, qtune/parameter_tuner.py L63-64. *)
Definition used_columns (t : target) : list column :=
  filter (fun c => negb (forallb (fun r => isna (cell c r)) t)) columns.

(** [….dropna().index]: rows without NaN in a used column
    (qtune/autotuner.py L147, qtune/parameter_tuner.py L64). *)
Definition relevant (t : target) : list label :=
  map t_name (filter (fun r => forallb (fun c => negb (isna (cell c r))) (used_columns t)) t).

(** An argument of make_target: a series or a scalar (default NaN). *)
Inductive targ := TScalar (x : num) | TSeries (s : series).

(** qtune/solver.py L49-54: the names come from the first Series among
    desired, maximum, minimum, tolerance; RuntimeError without one.
    (cost_threshold and rescaling_factor are not consulted.) *)
Fixpoint first_names (args : list targ) : option (list label) :=
  match args with
  | [] => None
  | TSeries s :: _ => Some (index s)
  | TScalar _ :: args' => first_names args'
  end.

(** qtune/solver.py L56-60 [to_series]: constant series or [arg[names]]
    (absent names give NaN; KeyError if names are given and none is present). *)
Definition to_series (names : list label) (a : targ) : res series :=
  match a with
  | TScalar x => Ok (map (fun l => (l, x)) names)
  | TSeries s =>
      match names with
      | [] => Ok []
      | _ => if existsb (fun l => mem l (index s)) names then Ok (reindex names s)
             else Raise KeyError
      end
  end.

(** qtune/solver.py L62-64: a NaN scalar rescaling factor becomes 1. *)
Definition default_rescale (a : targ) : targ :=
  match a with
  | TScalar NaN => TScalar (Fin 1)
  | _ => a
  end.

(** qtune/solver.py L30-72 [make_target].  Simplification: every series names
    each parameter once. *)
Definition make_target (desired maximum minimum tolerance cost rescaling : targ) : res target :=
  match first_names [desired; maximum; minimum; tolerance] with
  | None => Raise RuntimeError
  | Some names =>
      match to_series names desired, to_series names minimum, to_series names maximum,
            to_series names tolerance, to_series names cost,
            to_series names (default_rescale rescaling) with
      | Ok d, Ok mi, Ok ma, Ok to, Ok co, Ok re =>
          Ok (map (fun l => mk_trow l (get l d) (get l mi) (get l ma) (get l to) (get l co) (get l re)) names)
      | _, _, _, _, _, _ => Raise KeyError
      end
  end.

(** Writing one cell. *)
Definition set_cell (c : column) (v : num) (r : trow) : trow :=
  match c with
  | Desired => mk_trow (t_name r) v (t_minimum r) (t_maximum r) (t_tolerance r) (t_cost r) (t_rescale r)
  | Minimum => mk_trow (t_name r) (t_desired r) v (t_maximum r) (t_tolerance r) (t_cost r) (t_rescale r)
  | Maximum => mk_trow (t_name r) (t_desired r) (t_minimum r) v (t_tolerance r) (t_cost r) (t_rescale r)
  | Tolerance => mk_trow (t_name r) (t_desired r) (t_minimum r) (t_maximum r) v (t_cost r) (t_rescale r)
  | Cost => mk_trow (t_name r) (t_desired r) (t_minimum r) (t_maximum r) (t_tolerance r) v (t_rescale r)
  | Rescale => mk_trow (t_name r) (t_desired r) (t_minimum r) (t_maximum r) (t_tolerance r) (t_cost r) v
  end.

(** [self.target.loc[labels, category] = changes[category]],
    qtune/solver.py L123, for labels that all exist. *)
Definition set_column (c : column) (ch : series) (t : target) : target :=
  map (fun r => match lookup (t_name r) ch with
                | Some v => set_cell c v r
                | None => r
                end) t.

(** qtune/solver.py L113-123 [Solver.target.setter].  Unknown labels are only
    logged at L116; [.loc] at L119 raises KeyError when none of the labels is
    known, and at L123 when some are unknown.  The categories processed before
    the failing one stay changed. *)
Fixpoint set_target (changes : list (column * series)) (t : target) : target * res unit :=
  match changes with
  | [] => (t, Ok tt)
  | (c, ch) :: rest =>
      if subset (index ch) (t_index t)
      then set_target rest (set_column c ch t)
      else (t, Raise KeyError)
  end.
