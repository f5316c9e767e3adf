(** qtune/solver.py: the base class and the ForwardingSolver. *)
From Verif Require Import PyBase TargetModel TunerModel.

(** [a.intersection(b)] of two label lists. *)
Definition intersection (a b : list label) : list label := filter (fun l => mem l b) a.

(** qtune/solver.py L88-91 [Solver.current_position] setter on the stored
    position. *)
Definition move_position (cur new : series) : series :=
  let ls := intersection (index cur) (index new) in
  fold_left (fun acc p => set_label (fst p) (snd p) acc) (reindex ls new) cur.

(** Attributes of a ForwardingSolver, qtune/solver.py L511-528.  The mapping
    from values to gates may contain NaN ([None]). *)
Record fwd := mk_fwd {
  fw_target : target;
  fw_map : list (label * option label);
  fw_cur : series;
  fw_next : series }.

(** [values_to_position[values.index.intersection(…)].dropna()], qtune/solver.py L546-547:
    pairs
    of a value and the gate it is forwarded to. *)
Definition forwarded (m : list (label * option label)) (values : series) : list (label * label) :=
  flat_map (fun l => match find (fun q => label_eqb (fst q) l) m with
                     | Some (_, Some g) => [(l, g)]
                     | _ => []
                     end) (index values).

(** qtune/solver.py L533-548 [ForwardingSolver.update_after_step].  In L543-544
    the labels selected from the position are those of the current position;
    the constructor makes both positions have the same labels (L525-528). *)
Definition fwd_update (pos values variances : series) (st : fwd) : fwd * res unit :=
  let ls := intersection (index pos) (index (fw_cur st)) in
  match assign (fw_cur st) (reindex ls pos) with
  | Raise e => (st, Raise e)
  | Ok cur' =>
      match assign (fw_next st) (reindex ls pos) with
      | Raise e => (mk_fwd (fw_target st) (fw_map st) cur' (fw_next st), Raise e)
      | Ok next1 =>
          let st1 := mk_fwd (fw_target st) (fw_map st) cur' next1 in
          let vals := fst (descale_values (fw_target st) values variances) in
          let new := map (fun q => (snd q, get (fst q) vals)) (forwarded (fw_map st) values) in
          match assign next1 new with
          | Raise e => (st1, Raise e)
          | Ok next2 => (mk_fwd (fw_target st) (fw_map st) cur' next2, Ok tt)
          end
      end
  end.

(** qtune/solver.py L530-531 [suggest_next_position]; L88-91 [current_position];
    L113-123 [target]; L106-107 [restart]. *)
Definition fwd_ops : solver_ops fwd :=
  mk_solver_ops fwd fw_target
    (fun _ st => (st, Ok (fw_next st)))
    fwd_update
    (fun v st => (mk_fwd (fw_target st) (fw_map st) (move_position (fw_cur st) v) (fw_next st), Ok tt))
    (fun ch st => let (t, r) := set_target ch (fw_target st) in
                  (mk_fwd t (fw_map st) (fw_cur st) (fw_next st), r))
    (fun v st => (mk_fwd (fw_target st) (fw_map st) (move_position (fw_cur st) v) (fw_next st), Ok tt)).

(** qtune/solver.py L511-528 [ForwardingSolver.__init__]. *)
Definition fwd_init (t : target) (m : list (label * option label)) (cur : series)
                    (next : option series) : res fwd :=
  match next with
  | None => Ok (mk_fwd t m cur cur)
  | Some n => match select (index cur) n with
              | Ok n' => Ok (mk_fwd t m cur n')
              | Raise e => Raise e
              end
  end.
