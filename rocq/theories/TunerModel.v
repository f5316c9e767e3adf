(** qtune/parameter_tuner.py: SubsetTuner and SensingDotTuner over an arbitrary
    solver and arbitrary evaluators. *)
From Verif Require Import PyBase TargetModel.

(** The solver as seen by a tuner; [S] is the state of the solver (including
    its gradient estimators).  Each call may change the state and may raise. *)
Record solver_ops (S : Type) := mk_solver_ops {
  so_target : S -> target;                                       (* solver.target *)
  so_suggest : list label -> S -> S * res series;                (* suggest_next_position *)
  so_update : series -> series -> series -> S -> S * res unit;   (* update_after_step *)
  so_set_position : series -> S -> S * res unit;                 (* current_position = … *)
  so_set_target : list (column * series) -> S -> S * res unit;   (* target = … *)
  so_restart : series -> S -> S * res unit                       (* restart *)
}.
Arguments so_target {S}. Arguments so_suggest {S}. Arguments so_update {S}.
Arguments so_set_position {S}. Arguments so_set_target {S}. Arguments so_restart {S}.

(** Observable calls of a tuner, newest first. *)
Inductive tevent :=
| TEnter (v : series)                              (* is_tuned(v) was called *)
| TEval (cheap : bool) (r : res (series * series)) (* the evaluators were run *)
| TUpdate (v p var : series) (r : res unit)        (* solver.update_after_step *)
| TSuggest (tuned : list label) (r : res series)   (* solver.suggest_next_position *)
| TSetPos (v : series) (r : res unit).             (* solver.current_position = v *)

(** qtune/solver.py L136-138: the factor of one value, 1 for values that are
    not in the target. *)
Definition factor (t : target) (l : label) : num :=
  match find (fun r => label_eqb (t_name r) l) t with
  | Some r => t_rescale r
  | None => Fin 1
  end.

(** qtune/solver.py L129-139 [rescale_values] (the in-place change of both
    arguments is modelled by returning them; the variances have the labels of
    the values). *)
Definition rescale_values (t : target) (p var : series) : series * series :=
  (map (fun q => (fst q, ndiv (snd q) (factor t (fst q)))) p,
   map (fun q => (fst q, ndiv (snd q) (nmul (factor t (fst q)) (factor t (fst q))))) var).

(** qtune/solver.py L141-151 [descale_values]. *)
Definition descale_values (t : target) (p var : series) : series * series :=
  (map (fun q => (fst q, nmul (snd q) (factor t (fst q)))) p,
   map (fun q => (fst q, nmul (snd q) (nmul (factor t (fst q)) (factor t (fst q))))) var).

(** Attributes of a tuner that change, qtune/parameter_tuner.py L54-86,
    L214-216; lists of voltages are kept newest first. *)
Record tuner := mk_tuner {
  t_last : option series;      (* _last_voltage *)
  t_params : series;           (* _last_parameter_values *)
  t_vars : series;             (* _last_parameters_variances *)
  t_failed : bool;             (* _last_evaluation_failed *)
  t_evaluatable : list series; (* _evaluatable_voltages *)
  t_tuned : list series;       (* _tuned_voltages *)
  t_queue : Z                  (* _number_queued_steps (SubsetTuner) *)
}.

(** Constants of a SubsetTuner, qtune/parameter_tuner.py L214-215. *)
Record limits := mk_limits { l_size : num; l_number : Z }.

Section Tuner.
Context {S X : Type}.

(** The tuner with its solver, the evaluators' world and the trace. *)
Record tsys := mk_tsys { ts_t : tuner; ts_s : S; ts_x : X; ts_tr : list tevent }.

(** Method calls. *)
Definition TM (A : Type) := tsys -> tsys * res A.
Definition tret {A} (a : A) : TM A := fun s => (s, Ok a).
Definition traise {A} (e : exn) : TM A := fun s => (s, Raise e).
Definition tbind {A B} (m : TM A) (k : A -> TM B) : TM B :=
  fun s => match m s with
           | (s', Ok a) => k a s'
           | (s', Raise e) => (s', Raise e)
           end.
Local Notation "x <- m ;; k" := (tbind m (fun x => k)) (at level 61, m at next level, right associativity).
Definition tget : TM tuner := fun s => (s, Ok (ts_t s)).
Definition tput (t : tuner) : TM unit := fun s => (mk_tsys t (ts_s s) (ts_x s) (ts_tr s), Ok tt).
Definition tlift {A} (r : res A) : TM A := fun s => (s, r).
Definition temit (ev : tevent) : TM unit :=
  fun s => (mk_tsys (ts_t s) (ts_s s) (ts_x s) (ev :: ts_tr s), Ok tt).
(** A call of the solver. *)
Definition tsolver {A} (f : S -> S * res A) (ev : res A -> tevent) : TM A :=
  fun s => let (s', r) := f (ts_s s) in (mk_tsys (ts_t s) s' (ts_x s) (ev r :: ts_tr s), r).
(** A run of the evaluators. *)
Definition teval (f : X -> X * res (series * series)) (cheap : bool) : TM (series * series) :=
  fun s => let (x', r) := f (ts_x s) in (mk_tsys (ts_t s) (ts_s s) x' (TEval cheap r :: ts_tr s), r).

Variable O : solver_ops S.

(** Current target of the solver. *)
Definition ttarget : TM target := fun s => (s, Ok (so_target O (ts_s s))).

(** The concatenated results of all evaluators (qtune/parameter_tuner.py
    L158-163, L384-396): the first component holds the values. *)
Variable evaluators : X -> X * res (series * series).

(** qtune/parameter_tuner.py L152-164 [evaluate]. *)
Definition evaluate : TM (series * series) :=
  raw <- teval evaluators true ;;
  t <- ttarget ;;
  p <- tlift (select (t_index t) (fst raw)) ;;
  var <- tlift (select (t_index t) (snd raw)) ;;
  tret (p, var).

(** qtune/parameter_tuner.py L248-249: every parameter within its tolerance. *)
Definition within_tolerance (t : target) (p : series) : bool :=
  forallb (fun r => nltb (fillna (Fin 0) (nabs (nsub (t_desired r) (get (t_name r) p))))
                         (fillna PInf (t_tolerance r))) t.

(** Attribute updates. *)
Definition with_last (v : series) (t : tuner) : tuner :=
  mk_tuner (Some v) (t_params t) (t_vars t) (t_failed t) (t_evaluatable t) (t_tuned t) (t_queue t).
Definition with_params (p var : series) (t : tuner) : tuner :=
  mk_tuner (t_last t) p var (t_failed t) (t_evaluatable t) (t_tuned t) (t_queue t).
Definition with_failed (b : bool) (t : tuner) : tuner :=
  mk_tuner (t_last t) (t_params t) (t_vars t) b (t_evaluatable t) (t_tuned t) (t_queue t).
Definition add_evaluatable (v : series) (t : tuner) : tuner :=
  mk_tuner (t_last t) (t_params t) (t_vars t) (t_failed t) (v :: t_evaluatable t) (t_tuned t) (t_queue t).
Definition add_tuned (v : series) (t : tuner) : tuner :=
  mk_tuner (t_last t) (t_params t) (t_vars t) (t_failed t) (t_evaluatable t) (v :: t_tuned t) (t_queue t).
Definition with_queue (q : Z) (t : tuner) : tuner :=
  mk_tuner (t_last t) (t_params t) (t_vars t) (t_failed t) (t_evaluatable t) (t_tuned t) q.

(** qtune/parameter_tuner.py L222-253 [SubsetTuner.is_tuned]. *)
Definition subset_is_tuned (v : series) : TM bool :=
  _ <- temit (TEnter v) ;;
  t0 <- tget ;;
  _ <- tput (with_last v t0) ;;
  if negb (t_queue t0 =? 0)%Z then
    _ <- tsolver (so_set_position O v) (TSetPos v) ;;
    tret false
  else
    raw <- evaluate ;;
    tg <- ttarget ;;
    let (p, var) := rescale_values tg (fst raw) (snd raw) in
    t1 <- tget ;;
    lp <- tlift (select (index (t_params t1)) p) ;;
    _ <- tput (with_params lp (t_vars t1) t1) ;;
    lv <- tlift (select (index lp) var) ;;
    _ <- tput (with_params lp lv t1) ;;
    t2 <- tget ;;
    if any_na lp then
      _ <- tput (with_failed true t2) ;;
      tret false
    else
      _ <- tput (add_evaluatable v (with_failed false t2)) ;;
      _ <- tsolver (so_update O v p var) (TUpdate v p var) ;;
      tg' <- ttarget ;;
      if within_tolerance tg' p then
        t3 <- tget ;;
        _ <- tput (add_tuned v t3) ;;
        tret true
      else tret false.

Variable L : limits.

(** [0.5 * (a + b)], qtune/parameter_tuner.py L262, L376. *)
Definition midpoint (a b : series) : series := smap (nmul (Fin (1 / 2))) (sadd a b).

(** qtune/parameter_tuner.py L268-274: the step is longer than the limit. *)
Definition queue_after (q : Z) (norm : num) : res Z :=
  if (q =? 0)%Z then
    match trunc (ndiv norm (l_size L)) with
    | Ok k => Ok (Z.min k (l_number L) - 1)%Z
    | Raise e => Raise e
    end
  else Ok (q - 1)%Z.

(** qtune/parameter_tuner.py L255-277 [SubsetTuner.get_next_voltages].  A
    missing [_last_voltage] counts as an empty series. *)
Definition subset_next (tuned : list label) : TM series :=
  t <- tget ;;
  let last := match t_last t with Some v => v | None => [] end in
  if t_failed t then
    match t_evaluatable t with
    | [] => traise IndexError
    | good :: _ => tret (midpoint good last)
    end
  else
    sol <- tsolver (so_suggest O tuned) (TSuggest tuned) ;;
    new <- tlift (assign last sol) ;;
    let step := ssub new last in
    let norm := nnorm step in
    if nltb (l_size L) norm then
      q <- tlift (queue_after (t_queue t) norm) ;;
      _ <- tput (with_queue q t) ;;
      tret (sadd last (smap (fun x => nmul x (ndiv (l_size L) norm)) step))
    else tret (sadd last step).

(** qtune/parameter_tuner.py L104-111 [last_voltages] setter: after the first
    assignment [index.intersection(new_voltages)] intersects labels with
    voltages, which is empty, and nothing changes. *)
Definition set_last_voltages (v : series) (t : tuner) : tuner :=
  match t_last t with
  | None | Some [] => with_last v t
  | Some _ => t
  end.

(** qtune/parameter_tuner.py L181-183 [restart]. *)
Definition tuner_restart (v : series) : TM unit :=
  t <- tget ;;
  _ <- tput (set_last_voltages v t) ;;
  fun s => let (s', r) := so_restart O v (ts_s s) in
           (mk_tsys (ts_t s) s' (ts_x s) (ts_tr s), r).

(** qtune/parameter_tuner.py L125-127 [target] setter. *)
Definition tuner_set_target (ch : list (column * series)) : TM unit :=
  fun s => let (s', r) := so_set_target O ch (ts_s s) in
           (mk_tsys (ts_t s) s' (ts_x s) (ts_tr s), r).

(** The public calls on a SubsetTuner. *)
Inductive top := TopIsTuned (v : series) | TopNext (tuned : list label)
               | TopRestart (v : series) | TopTarget (ch : list (column * series)).
Definition subset_step (s : tsys) (o : top) : tsys :=
  match o with
  | TopIsTuned v => fst (subset_is_tuned v s)
  | TopNext l => fst (subset_next l s)
  | TopRestart v => fst (tuner_restart v s)
  | TopTarget ch => fst (tuner_set_target ch s)
  end.
Definition subset_run (s : tsys) (ops : list top) : tsys := fold_left subset_step ops s.

(** A freshly constructed tuner (qtune/parameter_tuner.py
    L32-95, L199-216) for parameters [rel]. *)
Definition fresh_tuner (rel : list label) : tuner :=
  mk_tuner None (map (fun l => (l, NaN)) rel) (map (fun l => (l, NaN)) rel) false [] [] 0%Z.

(** *** SensingDotTuner *)
Variable expensive : X -> X * res (series * series).

(** [pd.concat(…).sort_index()], qtune/parameter_tuner.py L397: sorted by label. *)
Definition sort_series (s : series) : series := reindex (sort_labels (index s)) s.

(** qtune/parameter_tuner.py L380-397 [SensingDotTuner.evaluate]. *)
Definition sd_evaluate (cheap : bool) : TM (series * series) :=
  raw <- teval (if cheap then evaluators else expensive) cheap ;;
  tret (sort_series (fst raw), sort_series (snd raw)).

(** [current_parameter.le(column).any()], qtune/parameter_tuner.py L357, L359:
    aligned comparison. *)
Definition any_le (c : column) (t : target) (p : series) : bool :=
  existsb (fun q => nleb (snd q) (get (fst q) (t_column c t))) p.

(** qtune/parameter_tuner.py L345-372 [SensingDotTuner.is_tuned]. *)
Definition sd_is_tuned (v : series) : TM bool :=
  _ <- temit (TEnter v) ;;
  raw <- sd_evaluate true ;;
  tg <- ttarget ;;
  let (p, var) := rescale_values tg (fst raw) (snd raw) in
  t0 <- tget ;;
  _ <- tput (with_last v t0) ;;
  lp <- tlift (assign (t_params t0) p) ;;
  _ <- tput (with_params lp (t_vars t0) (with_last v t0)) ;;
  lv <- tlift (assign (t_vars t0) var) ;;
  _ <- tput (with_params lp lv (with_last v t0)) ;;
  sel <- tlift (select (index p) lp) ;;
  t1 <- tget ;;
  if any_na sel then
    _ <- tput (with_failed true t1) ;;
    tret false
  else
    _ <- tput (with_failed false t1) ;;
    if any_le Minimum tg p then
      if any_le Cost tg p then
        raw2 <- sd_evaluate false ;;
        let (p2, var2) := rescale_values tg (fst raw2) (snd raw2) in
        t2 <- tget ;;
        lp2 <- tlift (assign (t_params t2) p2) ;;
        _ <- tput (with_params lp2 (t_vars t2) t2) ;;
        lv2 <- tlift (assign (t_vars t2) var2) ;;
        _ <- tput (with_params lp2 lv2 t2) ;;
        _ <- tsolver (so_update O v p2 var2) (TUpdate v p2 var2) ;;
        tret false
      else
        _ <- tsolver (so_update O v p var) (TUpdate v p var) ;;
        tret false
    else
      t2 <- tget ;;
      _ <- tput (add_tuned v t2) ;;
      tret true.

(** qtune/parameter_tuner.py L374-378 [SensingDotTuner.get_next_voltages]. *)
Definition sd_next (tuned : list label) : TM series :=
  t <- tget ;;
  if t_failed t then
    match t_tuned t with
    | [] => traise IndexError
    | good :: _ => tret (midpoint good (match t_last t with Some v => v | None => [] end))
    end
  else tsolver (so_suggest O tuned) (TSuggest tuned).

End Tuner.
Arguments tsys S X : clear implicits.
