(** qtune/solver.py L269-504: NelderMeadSolver. *)
From Verif Require Import PyBase TargetModel TunerModel SolverModel.

(** qtune/solver.py L270-277. *)
Inductive nm_phase := StartIteration | BuildUp | Reflect | Expand | ContractOutside | ContractInside | Shrink.

(** The values of the enumeration, qtune/solver.py L271-277, accepted by [State(state)] (L309). *)
Definition phase_value (p : nm_phase) : string :=
  match p with
  | StartIteration => "start_iteration" | BuildUp => "built_up" | Reflect => "reflect" | Expand => "expand"
  | ContractOutside => "contract_outside" | ContractInside => "contract_inside" | Shrink => "shrink"
  end.
Definition phases : list nm_phase := [StartIteration; BuildUp; Reflect; Expand; ContractOutside; ContractInside; Shrink].
Definition phase_of (s : string) : res nm_phase :=
  match find (fun p => String.eqb (phase_value p) s) phases with
  | Some p => Ok p
  | None => Raise ValueError
  end.
(** [str(self._state)], qtune/solver.py L504: class and member name. *)
Definition phase_str (p : nm_phase) : string :=
  match p with
  | StartIteration => "State.start_iteration" | BuildUp => "State.build_up" | Reflect => "State.reflect"
  | Expand => "State.expand" | ContractOutside => "State.contract_outside"
  | ContractInside => "State.contract_inside" | Shrink => "State.shrink"
  end.

(** A point of the simplex: position and values. *)
Definition entry := (series * series)%type.

(** Attributes, qtune/solver.py L299-312.  The cost function is a parameter below. *)
Record nm := mk_nm {
  nm_target : target;
  nm_simplex : list entry;
  nm_span : series;
  nm_pos : series;
  nm_vals : series;
  nm_refl : option entry;
  nm_shrunk : list entry;
  nm_phase_ : nm_phase }.

(** qtune/solver.py L287: the default cost function; [np.sum] of a series skips NaN. *)
Definition default_cost (v : series) : num :=
  fold_right nadd (Fin 0) (map (fun p => if isna (snd p) then Fin 0 else nmul (snd p) (snd p)) v).

(** [pd.DataFrame(positions).mean(axis=0)], qtune/solver.py L376: NaN entries are skipped. *)
Definition columns_of (ps : list series) : list label :=
  match ps with
  | [] => []
  | p :: ps' => fold_left union_index (map index ps') (index p)
  end.
Definition mean_of (xs : list num) : num :=
  let ys := filter (fun x => negb (isna x)) xs in
  match ys with
  | [] => NaN
  | _ => ndiv (fold_right nadd (Fin 0) ys) (Fin (INR (length ys)))
  end.
Definition mean (ps : list series) : series :=
  map (fun l => (l, mean_of (map (get l) ps))) (columns_of ps).

(** Multiplication and division of a series by a number. *)
Definition stimes (c : R) (s : series) : series := smap (fun x => nmul (Fin c) x) s.
Definition shalf (s : series) : series := smap (fun x => ndiv x (Fin 2)) s.

(** qtune/solver.py L377-380: reflected, expanded and contracted points. *)
Definition reflected (m worst : series) : series := ssub (stimes 2 m) worst.
Definition expanded (m worst : series) : series := sadd m (stimes 2 (ssub m worst)).
Definition contracted_out (m worst : series) : series := sadd m (shalf (ssub (reflected m worst) m)).
Definition contracted_in (m worst : series) : series := sadd m (shalf (ssub worst m)).

Section NelderMead.
(** [self._cost_function] applied to the deviations; a falsy cost function
    (L346-347, returns None) is not modelled. *)
Variable cost_function : series -> num.
(** qtune/util.py L202-208 [get_orthogonal_vector]. *)
Variable ortho : list (list num) -> res (list num).

(** qtune/solver.py L342-345. *)
Definition nm_cost (t : target) (values : series) : num := cost_function (ssub values (t_column Desired t)).
Definition entry_cost (t : target) (e : entry) : num := nm_cost t (snd e).

(** qtune/solver.py L360-365 [sorted] with a key: stable.  (For costs without NaN the stable
    order is unique; the order Python produces with NaN is not modelled.) *)
Fixpoint insert_entry (t : target) (e : entry) (l : list entry) : list entry :=
  match l with
  | [] => [e]
  | x :: l' => if nltb (entry_cost t x) (entry_cost t e) then x :: insert_entry t e l' else e :: x :: l'
  end.
Definition sorted_simplex (t : target) (l : list entry) : list entry := fold_right (insert_entry t) [] l.

(** qtune/solver.py L367-370 [_insert_into_simplex]: append, sort, drop the last. *)
Definition insert_into (t : target) (l : list entry) (e : entry) : list entry :=
  removelast (sorted_simplex t (l ++ [e])).

Definition with_phase (p : nm_phase) (st : nm) : nm :=
  mk_nm (nm_target st) (nm_simplex st) (nm_span st) (nm_pos st) (nm_vals st) (nm_refl st) (nm_shrunk st) p.
Definition with_simplex (l : list entry) (st : nm) : nm :=
  mk_nm (nm_target st) l (nm_span st) (nm_pos st) (nm_vals st) (nm_refl st) (nm_shrunk st) (nm_phase_ st).

(** [array * series] for an array of the length of the series. *)
Definition array_times (a : list num) (s : series) : res series :=
  if Nat.eqb (length a) (length s)
  then Ok (map (fun q => (fst (snd q), nmul (fst q) (snd (snd q)))) (combine a s))
  else Raise ValueError.

(** qtune/solver.py L372-410 [suggest_next_position]. *)
Definition nm_suggest (st : nm) : nm * res series :=
  let positions := map fst (nm_simplex st) in
  match positions with
  | [] => (st, Raise IndexError)
  | p0 :: _ =>
      let worst := last positions p0 in
      let m := mean positions in
      if Nat.ltb (length (nm_simplex st)) (length (nm_pos st) + 1) then
        match ortho (map (fun p => map snd (ssub p p0)) positions) with
        | Raise e => (with_phase BuildUp st, Raise e)
        | Ok ov => (with_phase BuildUp st,
                    match array_times ov (nm_span st) with
                    | Ok d => Ok (sadd p0 d)
                    | Raise e => Raise e
                    end)
        end
      else
        match nm_phase_ st with
        | StartIteration | Reflect => (with_phase Reflect st, Ok (reflected m worst))
        | Expand => (st, Ok (expanded m worst))
        | ContractOutside => (st, Ok (contracted_out m worst))
        | ContractInside => (st, Ok (contracted_in m worst))
        | Shrink =>
            let i := length (nm_shrunk st) + 1 in
            if Nat.eqb i (length (nm_simplex st)) then (st, Raise RuntimeError)
            else match nth_error positions i with
                 | Some p => (st, Ok (sadd p0 (shalf (ssub p p0))))
                 | None => (st, Raise IndexError)
                 end
        | BuildUp => (st, Raise RuntimeError)
        end
  end.

(** qtune/solver.py L416-490: what happens to simplex, reflected point, shrunk points and
    phase. *)
Definition nm_step (position values : series) (st : nm) : nm * res unit :=
  let t := nm_target st in
  let sx := nm_simplex st in
  let new := (position, values) in
  let c := nm_cost t values in
  let costs := map (entry_cost t) sx in
  let insert e := with_simplex (insert_into t sx e) st in
  let n := length (nm_pos st) in
  if Nat.ltb (length sx) (n + 1) then
    let sx' := sx ++ [new] in
    if Nat.eqb (length sx') (n + 1)
    then (with_phase StartIteration (with_simplex (sorted_simplex t sx') st), Ok tt)
    else (with_simplex sx' st, Ok tt)
  else
    match nm_phase_ st with
    | Reflect =>
        let st1 := mk_nm t sx (nm_span st) (nm_pos st) (nm_vals st) (Some new) (nm_shrunk st) (nm_phase_ st) in
        if nltb c (nth 0 costs NaN) then (with_phase Expand st1, Ok tt)
        else if Nat.ltb (length costs) 2 then (st1, Raise IndexError)
        else if nleb (nth (length costs - 2) costs NaN) c then
          if nltb c (last costs NaN)
          then (with_phase ContractOutside st1, Ok tt)
          else (with_phase ContractInside st1, Ok tt)
        else (with_simplex (insert_into t sx new) st1, Ok tt)
    | Expand =>
        match nm_refl st with
        | None => (st, Raise TypeError)
        | Some r => (insert (if nltb c (entry_cost t r) then new else r), Ok tt)
        end
    | ContractOutside =>
        match nm_refl st with
        | None => (st, Raise TypeError)
        | Some r => (if nltb c (entry_cost t r) then insert new else with_phase Shrink st, Ok tt)
        end
    | ContractInside =>
        (if nltb c (last costs NaN) then insert new else with_phase Shrink st, Ok tt)
    | Shrink =>
        let sh := nm_shrunk st ++ [new] in
        if Nat.eqb (length sh) n
        then (mk_nm t (fold_left (insert_into t) sh sx) (nm_span st) (nm_pos st) (nm_vals st)
                    (nm_refl st) [] (nm_phase_ st), Ok tt)
        else (mk_nm t sx (nm_span st) (nm_pos st) (nm_vals st) (nm_refl st) sh (nm_phase_ st), Ok tt)
    | StartIteration | BuildUp =>
        (with_phase StartIteration (if nltb c (last costs NaN) then insert new else st), Ok tt)
    end.

(** qtune/solver.py L412-493 [update_after_step]. *)
Definition nm_update (position values : series) (st : nm) : nm * res unit :=
  match select (index (nm_pos st)) position with
  | Raise e => (st, Raise e)
  | Ok p =>
      match select (index (nm_vals st)) values with
      | Raise e => (st, Raise e)
      | Ok v =>
          match nm_step p v st with
          | (st', Raise e) => (st', Raise e)
          | (st', Ok _) => (mk_nm (nm_target st') (nm_simplex st') (nm_span st') p v
                                  (nm_refl st') (nm_shrunk st') (nm_phase_ st'), Ok tt)
          end
      end
  end.

(** The solver as a tuner meets it: [suggest_next_position] takes no tuned
    parameters (L372, called with them at qtune/parameter_tuner.py L264, L377),
    [current_position] and [target] have no setter (qtune/solver.py
    L330-332, L352-354). *)
Definition nm_ops : solver_ops nm :=
  mk_solver_ops nm nm_target
    (fun _ st => (st, Raise TypeError))
    (fun pos vals _ st => nm_update pos vals st)
    (fun _ st => (st, Raise AttributeError))
    (fun _ st => (st, Raise AttributeError))
    (fun _ st => (st, Raise AttributeError)).
End NelderMead.

(** qtune/solver.py L279-312 [__init__]; the target always has the column [desired]. *)
Definition nm_init (t : target) (simplex : list entry) (span pos vals : series)
                   (refl : option entry) (shrunk : list entry) (state : string) : res nm :=
  match select (t_index t) vals, select (index pos) span, phase_of state with
  | Ok v, Ok s, Ok p => Ok (mk_nm t simplex s pos v refl shrunk p)
  | Raise e, _, _ => Raise e
  | _, Raise e, _ => Raise e
  | _, _, Raise e => Raise e
  end.
(** qtune/solver.py L314-328 [from_scratch]. *)
Definition nm_from_scratch (t : target) (span pos vals : series) : res nm :=
  match select (t_index t) vals, select (index pos) span with
  | Ok v, Ok s => nm_init t [(pos, v)] s pos v None [] "built_up"
  | Raise e, _ => Raise e
  | _, Raise e => Raise e
  end.
(** qtune/solver.py L495-504 [to_hdf5], as constructor arguments for a reload. *)
Definition nm_reload (st : nm) : res nm :=
  nm_init (nm_target st) (nm_simplex st) (nm_span st) (nm_pos st) (nm_vals st) (nm_refl st) (nm_shrunk st)
          (phase_str (nm_phase_ st)).
