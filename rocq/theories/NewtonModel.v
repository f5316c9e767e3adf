(** qtune/solver.py L154-266: NewtonSolver over arbitrary gradient estimators. *)
From Verif Require Import PyBase TargetModel TunerModel SolverModel.

(** A gradient estimator as seen by the solver (qtune/gradient.py L32-72);
    [G] is its state.  Each call may change the state and may raise. *)
Record est_ops (G : Type) := mk_est_ops {
  eo_position : G -> series;                                   (* current_position *)
  eo_estimate : G -> option series;                            (* estimate() *)
  eo_require : list label -> option (list series) -> G -> G * res (option series); (* require_measurement(gates, tuned_jacobian) *)
  eo_update : series -> num -> num -> G -> G * res unit;       (* update(position, value, variance, is_new_position=True) *)
  eo_restart : series -> G -> G * res unit                     (* restart(new_position) *)
}.
Arguments eo_position {G}. Arguments eo_estimate {G}. Arguments eo_require {G}.
Arguments eo_update {G}. Arguments eo_restart {G}.

(** Attributes of a NewtonSolver, qtune/solver.py L170-180. *)
Record newton (G : Type) := mk_newton {
  nw_target : target;
  nw_ests : list G;
  nw_pos : series;
  nw_vals : series }.
Arguments mk_newton {G}. Arguments nw_target {G}. Arguments nw_ests {G}.
Arguments nw_pos {G}. Arguments nw_vals {G}.

Section Newton.
Context {G : Type} (E : est_ops G).

(** [numpy.linalg.lstsq(jacobian, required_diff)] for matching dimensions:
    rows over the gates of the solver, right hand side, solution. *)
Variable lstsq : list series -> list num -> res (list num).

(** [pd.concat(gradients, axis=1).T[gates]] (L189-190, L216-217, L234): None
    entries are dropped, ValueError if nothing remains, KeyError if a gate is
    in no gradient. *)
Definition stack (gates : list label) (gs : list (option series)) : res (list series) :=
  let rows := flat_map (fun g => match g with Some s => [s] | None => [] end) gs in
  match rows with
  | [] => Raise ValueError
  | _ => if forallb (fun l => existsb (fun s => mem l (index s)) rows) gates
         then Ok (map (reindex gates) rows)
         else Raise KeyError
  end.

(** qtune/solver.py L208-217: estimators of the tuned parameters and their gradients. *)
Definition tuned_gradients (tuned : list label) (st : newton G) : list (option series) :=
  flat_map (fun q => if mem (t_name (fst q)) tuned then [eo_estimate E (snd q)] else [])
           (combine (nw_target st) (nw_ests st)).
Definition tuned_jacobian (tuned : list label) (st : newton G) : res (option (list series)) :=
  match tuned_gradients tuned st with
  | [] => Ok None
  | gs => match stack (index (nw_pos st)) gs with
          | Ok rows => Ok (Some rows)
          | Raise e => Raise e
          end
  end.

(** qtune/solver.py L219-224: the estimators are asked in target order, those with desired =
    NaN are skipped; the first non-empty answer ends the loop. *)
Fixpoint ask (gates : list label) (tj : option (list series)) (qs : list (trow * G)) : list G * res (option series) :=
  match qs with
  | [] => ([], Ok None)
  | (r, g) :: rest =>
      if isna (t_desired r)
      then let (gs, a) := ask gates tj rest in (g :: gs, a)
      else match eo_require E gates tj g with
           | (g', Raise e) => (g' :: map snd rest, Raise e)
           | (g', Ok (Some (p :: s))) => (g' :: map snd rest, Ok (Some (p :: s)))
           | (g', Ok _) => let (gs, a) := ask gates tj rest in (g' :: gs, a)
           end
  end.

(** qtune/solver.py L232: [target.desired.add(-1 * values, fill_value=0).fillna(0)] for one
    parameter: a single NaN counts as 0, two NaN give NaN. *)
Definition fill_sub (d v : num) : num :=
  fillna (Fin 0) (if isna d && isna v then NaN else nadd (fillna (Fin 0) d) (nopp (fillna (Fin 0) v))).
Definition required_diff (st : newton G) : list num :=
  map (fun r => fill_sub (t_desired r) (get (t_name r) (nw_vals st))) (nw_target st).

(** [series + array]. *)
Definition add_array (s : series) (a : list num) : series :=
  map (fun q => (fst (fst q), nadd (snd (fst q)) (snd q))) (combine s a).

(** qtune/solver.py L232-243: the Gauss-Newton step.  numpy refuses (LinAlgError) a right hand
    side that has not one entry per row. *)
Definition newton_step (st : newton G) : res series :=
  match stack (index (nw_pos st)) (map (eo_estimate E) (nw_ests st)) with
  | Raise e => Raise e
  | Ok rows =>
      if Nat.eqb (length rows) (length (nw_target st))
      then match lstsq rows (required_diff st) with
           | Ok step => Ok (add_array (nw_pos st) step)
           | Raise e => Raise e
           end
      else Raise LinAlgError
  end.

(** qtune/solver.py L201-243 [suggest_next_position]. *)
Definition nw_suggest (tuned : list label) (st : newton G) : newton G * res series :=
  match tuned_jacobian tuned st with
  | Raise e => (st, Raise e)
  | Ok tj =>
      let (gs, a) := ask (index (nw_pos st)) tj (combine (nw_target st) (nw_ests st)) in
      let st' := mk_newton (nw_target st) gs (nw_pos st) (nw_vals st) in
      match a with
      | Raise e => (st', Raise e)
      | Ok (Some s) => (st', Ok s)
      | Ok None => (st', newton_step st')
      end
  end.

(** qtune/solver.py L246-250: one pass over [zip(estimators, values, labels, variances)]; the
    loop ends with the shortest argument, so estimators may be left out. *)
Fixpoint update_ests (t : target) (pos : series) (gs : list G) (vals : series) (vars : list num) : list G * res unit :=
  match gs, vals, vars with
  | g :: gs', (l, x) :: vals', var :: vars' =>
      if isna (get l (t_column Desired t))
      then let (r, a) := update_ests t pos gs' vals' vars' in (g :: r, a)
      else match eo_update E pos x var g with
           | (g', Raise e) => (g' :: gs', Raise e)
           | (g', Ok _) => let (r, a) := update_ests t pos gs' vals' vars' in (g' :: r, a)
           end
  | _, _, _ => (gs, Ok tt)
  end.

(** qtune/solver.py L245-252 [update_after_step]; the variances are taken in their own order,
    not by label. *)
Definition nw_update (pos values variances : series) (st : newton G) : newton G * res unit :=
  match select (index (nw_vals st)) values with
  | Raise e => (st, Raise e)
  | Ok vals =>
      let (gs, a) := update_ests (nw_target st) pos (nw_ests st) vals (map snd variances) in
      match a with
      | Raise e => (mk_newton (nw_target st) gs (nw_pos st) (nw_vals st), Raise e)
      | Ok _ =>
          match select (index (nw_pos st)) pos with
          | Raise e => (mk_newton (nw_target st) gs (nw_pos st) (nw_vals st), Raise e)
          | Ok p => (mk_newton (nw_target st) gs p vals, Ok tt)
          end
      end
  end.

(** qtune/solver.py L260-263: every estimator is restarted, then the position is moved. *)
Fixpoint restart_ests (v : series) (gs : list G) : list G * res unit :=
  match gs with
  | [] => ([], Ok tt)
  | g :: gs' => match eo_restart E v g with
                | (g', Raise e) => (g' :: gs', Raise e)
                | (g', Ok _) => let (r, a) := restart_ests v gs' in (g' :: r, a)
                end
  end.
Definition nw_move (v : series) (st : newton G) : newton G :=
  mk_newton (nw_target st) (nw_ests st) (move_position (nw_pos st) v) (nw_vals st).
Definition nw_restart (v : series) (st : newton G) : newton G * res unit :=
  let (gs, a) := restart_ests v (nw_ests st) in
  let st' := mk_newton (nw_target st) gs (nw_pos st) (nw_vals st) in
  match a with
  | Raise e => (st', Raise e)
  | Ok _ => (nw_move v st', Ok tt)
  end.

(** The NewtonSolver as a solver of a tuner. *)
Definition nw_ops : solver_ops (newton G) :=
  mk_solver_ops (newton G) nw_target nw_suggest nw_update
    (fun v st => (nw_move v st, Ok tt))
    (fun ch st => let (t, r) := set_target ch (nw_target st) in
                  (mk_newton t (nw_ests st) (nw_pos st) (nw_vals st), r))
    nw_restart.

(** qtune/solver.py L159-181 [__init__]. *)
Definition nw_init (t : target) (gs : list G) (pos : series) (vals : option series) : res (newton G) :=
  if negb (Nat.eqb (length t) (length gs)) then Raise AssertionError
  else if negb (forallb (fun g => subset (index pos) (index (eo_position E g))) gs) then Raise AssertionError
  else
    let fin v := if Nat.leb (length v) (length pos) then Ok (mk_newton t gs pos v) else Raise AssertionError in
    match vals with
    | Some v => if subset (t_index t) (index v) then fin (reindex (t_index t) v) else Raise AssertionError
    | None => fin (map (fun l => (l, NaN)) (t_index t))
    end.
End Newton.
