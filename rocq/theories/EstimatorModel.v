(** qtune/gradient.py: the gradient estimators. *)
From Verif Require Import PyBase TargetModel TunerModel SolverModel NewtonModel.

(** qtune/gradient.py L47: [new_positions.index.intersection(self.current_position)]
    intersects the labels with the {e values} of the current position. *)
Definition label_is_value (l : label) (x : num) : bool := false. (* a str never equals a float *)
Definition intersect_values (ls : list label) (s : series) : list label :=
  filter (fun l => existsb (fun p => label_is_value l (snd p)) s) ls.

(** qtune/gradient.py L45-48 [GradientEstimator.current_position] setter. *)
Definition set_est_position (cur new : series) : res series :=
  assign cur (reindex (intersect_values (index new) cur) new).

(** A stored measurement: position, value, variance. *)
Definition measurement := (series * num * num)%type.
Definition m_pos (m : measurement) : series := fst (fst m).

(** Attributes of a FiniteDifferencesGradientEstimator, qtune/gradient.py
    L98-124; lists are
    kept in the order of the Python lists (oldest first). *)
Record fd := mk_fd {
  fd_pos : series;
  fd_eps : series;
  fd_est : option series;
  fd_cov : option (list (list num));
  fd_stored : list measurement;
  fd_requested : list series;
  fd_sym : bool }.

(** Elements 0, 2, 4, … and 1, 3, 5, … of a list: [l[::2]], [l[1::2]]. *)
Fixpoint evens {A} (l : list A) : list A :=
  match l with
  | [] => []
  | a :: l' => a :: match l' with [] => [] | _ :: l'' => evens l'' end
  end.
Definition odds {A} (l : list A) : list A := evens (tl l).

(** Collect results, stopping at the first exception. *)
Fixpoint all_ok {A} (l : list (res A)) : res (list A) :=
  match l with
  | [] => Ok []
  | Ok a :: l' => match all_ok l' with Ok r => Ok (a :: r) | Raise e => Raise e end
  | Raise e :: _ => Raise e
  end.

(** [position + direction * epsilon], all over the same gates. *)
Definition displaced (pos : series) (dir : list num) (eps : series) : series :=
  map (fun q => (fst (fst q), nadd (snd (fst q)) (nmul (snd q) (get (fst (fst q)) eps)))) (combine pos dir).
(** [2 * position - point]. *)
Definition mirrored (pos point : series) : series :=
  map (fun q => (fst q, nsub (nmul (Fin 2) (snd q)) (get (fst q) point))) pos.
(** [first_step]: zeros with a one in front, qtune/gradient.py
    L153-154. *)
Definition first_step (pos : series) : res (list num) :=
  match pos with
  | [] => Raise IndexError
  | _ :: p => Ok (Fin 1 :: map (fun _ => Fin 0) p)
  end.
(** [a - b] for two points over the same gates. *)
Definition difference (a b : series) : list num := map (fun q => nsub (snd q) (get (fst q) b)) a.

Section FD.
(** qtune/util.py L202-208 [get_orthogonal_vector] and L160-199
    [calculate_gradient_non_orthogonal] (matrix level: LinAlg*.v). *)
Variable ortho : list (list num) -> res (list num).
Variable calc : list measurement -> res (list num * list (list num)).

(** [self._current_position.isnull().all()] *)
Definition unknown (s : series) : bool := forallb (fun p => isna (snd p)) s.

(** qtune/gradient.py L148-178: the point that is requested next. *)
Definition fd_point (gates : list label) (st : fd) : res series :=
  match all_ok (map (fun m => select gates (m_pos m)) (fd_stored st)) with
  | Raise e => Raise e
  | Ok points =>
      match select gates (fd_pos st), select gates (fd_eps st) with
      | Ok pos, Ok eps =>
          let towards r := match r with
                           | Ok ov => Ok (displaced pos ov eps)
                           | Raise e => Raise e
                           end in
          match points with
          | [] => towards (first_step pos)
          | p0 :: ps =>
              if fd_sym st then
                if Nat.odd (length points)
                then Ok (mirrored pos (last points p0))
                else towards (ortho (map (fun q => difference (fst q) (snd q)) (combine (odds points) (evens points))))
              else if Nat.eqb (length points) 1
                then towards (ortho [map (fun _ => Fin 0) p0])
                else if Nat.leb (length points) (length (fd_pos st))
                then towards (ortho (map (fun p => difference p p0) ps))
                else Raise RuntimeError
          end
      | Raise e, _ => Raise e
      | _, Raise e => Raise e
      end
  end.

(** qtune/gradient.py L139-180 [require_measurement]. *)
Definition fd_require (gates : list label) (tj : option (list series)) (st : fd) : fd * res (option series) :=
  if unknown (fd_pos st) then (st, Raise RuntimeError)
  else match fd_est st with
  | Some _ => (st, Ok None)
  | None =>
      match fd_point gates st with
      | Raise e => (st, Raise e)
      | Ok p => (mk_fd (fd_pos st) (fd_eps st) (fd_est st) (fd_cov st) (fd_stored st)
                       (fd_requested st ++ [p]) (fd_sym st), Ok (Some p))
      end
  end.

Definition fd_store (m : measurement) (st : fd) : fd :=
  mk_fd (fd_pos st) (fd_eps st) (fd_est st) (fd_cov st) (fd_stored st ++ [m]) (fd_requested st) (fd_sym st).

(** qtune/gradient.py L194-215: enough measurements? *)
Definition fd_finish (st : fd) : fd * res unit :=
  let n := length (fd_pos st) in
  let k := length (fd_stored st) in
  let arg := if fd_sym st
             then if Nat.eqb k (2 * n) then Some (fd_stored st) else None
             else if Nat.eqb k (n + 1) then Some (rev (fd_stored st)) else None in
  match arg with
  | None => (st, Ok tt)
  | Some ms =>
      match calc ms with
      | Raise e => (st, Raise e)
      | Ok (g, c) =>
          (mk_fd (fd_pos st) (fd_eps st) (Some (combine (index (fd_pos st)) g)) (Some c)
                 (fd_stored st) (fd_requested st) (fd_sym st), Ok tt)
      end
  end.

(** qtune/gradient.py L182-215 [update]. *)
Definition fd_update (pos : series) (value variance : num) (st : fd) : fd * res unit :=
  let position := reindex (intersection (index (fd_pos st)) (index pos)) pos in
  if unknown (fd_pos st) then
    match assign (fd_pos st) position with
    | Raise e => (st, Raise e)
    | Ok cur =>
        let st1 := mk_fd cur (fd_eps st) (fd_est st) (fd_cov st) (fd_stored st) (fd_requested st) (fd_sym st) in
        if fd_sym st then (st1, Ok tt)
        else match select (index cur) position with
             | Raise e => (st1, Raise e)
             | Ok p => (fd_store (p, value, variance) st1, Ok tt)
             end
    end
  else match fd_est st with
  | Some _ => (st, Ok tt)
  | None =>
      match select (index (fd_pos st)) position with
      | Raise e => (st, Raise e)
      | Ok p => fd_finish (fd_store (p, value, variance) st)
      end
  end.

(** qtune/gradient.py L68-69 [restart]. *)
Definition fd_restart (v : series) (st : fd) : fd * res unit :=
  match set_est_position (fd_pos st) v with
  | Ok cur => (mk_fd cur (fd_eps st) (fd_est st) (fd_cov st) (fd_stored st) (fd_requested st) (fd_sym st), Ok tt)
  | Raise e => (st, Raise e)
  end.

Definition fd_ops : est_ops fd := mk_est_ops fd fd_pos fd_est fd_require fd_update fd_restart.

(** An argument that may be a scalar or a series. *)
Definition as_series (names : list label) (a : targ) : series :=
  match a with TScalar x => map (fun l => (l, x)) names | TSeries s => s end.

(** qtune/gradient.py L76-124 [__init__]: a stored measurement is a tuple and [tuple.index] is a
    method, so [assert_index_equal] at L118 raises AssertionError. *)
Definition fd_init (pos : option series) (eps : targ) (sym : bool) (est : option series)
                   (cov : option (list (list num))) (stored : option (list measurement))
                   (requested : option (list series)) : res fd :=
  let opt {A} (o : option (list A)) := match o with Some l => l | None => [] end in
  let go pos :=
    let e := as_series (index pos) eps in
    if negb (subset (index e) (index pos)) then Raise AssertionError
    else match select (index pos) e with
         | Raise x => Raise x
         | Ok e' => match stored with
                    | Some (_ :: _) => Raise AssertionError
                    | _ => Ok (mk_fd pos e' est cov [] (opt requested) sym)
                    end
         end in
  match pos, eps with
  | Some p, _ => go p
  | None, TSeries e => go (map (fun l => (l, NaN)) (index e))
  | None, TScalar _ => Raise TypeError
  end.
End FD.

(** The constants of a KalmanGradientEstimator do not matter for the
    bookkeeping; [K] is the state of its KalmanGradient filter. *)
Record kal (K : Type) := mk_kal { ke_filter : K; ke_pos : series; ke_val : option num }.
Arguments mk_kal {K}. Arguments ke_filter {K}. Arguments ke_pos {K}. Arguments ke_val {K}.

Section Kalman.
Context {K : Type}.
(** qtune/kalman_gradient.py: current gradient and [update(diff_position,
    diff_values, measurement_covariance)] (matrix level: KalmanModel.v). *)
Variable k_grad : K -> list num.
Variable k_update : list num -> num -> num -> K -> K * res unit.
(** qtune/gradient.py L275-328 [require_measurement] (depends on eigenvectors, see KalmanModel.v). *)
Variable k_require : list label -> option (list series) -> kal K -> res (option series).

(** [(position - self._current_position).dropna(0)], qtune/gradient.py L344. *)
Definition steps (a b : series) : series := filter (fun p => negb (isna (snd p))) (ssub a b).

(** qtune/gradient.py L330-360 [update] with [is_new_position=True]. *)
Definition ke_update (pos : series) (value cov : num) (st : kal K) : kal K * res unit :=
  match select (index (ke_pos st)) pos with
  | Raise e => (st, Raise e)
  | Ok position =>
      match ke_val st with
      | None => (mk_kal (ke_filter st) position (Some value), Ok tt)
      | Some last =>
          let d := steps position (ke_pos st) in
          let (f, r) :=
            if negb (nltb (nnorm d) (Fin (/ 10000000)))
            then k_update (map snd d) (nsub value last) cov (ke_filter st)
            else (ke_filter st, Ok tt) in
          match r with
          | Raise e => (mk_kal f (ke_pos st) (ke_val st), Raise e)
          | Ok _ => (mk_kal f position (Some value), Ok tt)
          end
      end
  end.

(** qtune/gradient.py L369-371 [restart]. *)
Definition ke_restart (v : series) (st : kal K) : kal K * res unit :=
  match set_est_position (ke_pos st) v with
  | Ok cur => (mk_kal (ke_filter st) cur None, Ok tt)
  | Raise e => (mk_kal (ke_filter st) (ke_pos st) None, Raise e)
  end.

Definition ke_ops : est_ops (kal K) :=
  mk_est_ops (kal K) ke_pos
    (fun st => Some (combine (index (ke_pos st)) (k_grad (ke_filter st))))
    (fun gates tj st => (st, k_require gates tj st))
    ke_update ke_restart.

(** A SelfInitializingKalmanEstimator, qtune/gradient.py L374-385. *)
Record selfinit := mk_selfinit { si_fd : fd; si_kal : option (kal K) }.

Variable ortho : list (list num) -> res (list num).
Variable calc : list measurement -> res (list num * list (list num)).

(** qtune/gradient.py L443-454: the missing comma turns the last arguments into
    [covariance() ** kalman_gradient_args]; a DataFrame to the power of a dict
    is a TypeError.  To the power of None, which [from_scratch] (L386-399) leaves
    there, it is one as soon as an entry is neither NaN nor 1; pandas may skip
    such entries.  Simplification: the covariance is taken to have another entry. *)
Definition build_kalman : res (kal K) := Raise TypeError.

(** qtune/gradient.py L437-454 [update]. *)
Definition si_update (pos : series) (value cov : num) (st : selfinit) : selfinit * res unit :=
  match fd_update calc pos value cov (si_fd st) with
  | (f, Raise e) => (mk_selfinit f (si_kal st), Raise e)
  | (f, Ok _) =>
      match si_kal st with
      | Some k => let (k', r) := ke_update pos value cov k in (mk_selfinit f (Some k'), r)
      | None =>
          match fd_est f with
          | None => (mk_selfinit f None, Ok tt)
          | Some _ => match build_kalman with
                      | Ok k => (mk_selfinit f (Some k), Ok tt)
                      | Raise e => (mk_selfinit f None, Raise e)
                      end
          end
      end
  end.

(** qtune/gradient.py L409-435: delegation to the active estimator; the [current_position]
    setter (restart) moves both. *)
Definition si_ops : est_ops selfinit :=
  mk_est_ops selfinit
    (fun st => match si_kal st with Some k => ke_pos k | None => fd_pos (si_fd st) end)
    (fun st => match si_kal st with
               | Some k => eo_estimate ke_ops k
               | None => fd_est (si_fd st) end)
    (fun gates tj st =>
       match si_kal st with
       | Some k => (st, k_require gates tj k)
       | None => let (f, r) := fd_require ortho gates tj (si_fd st) in (mk_selfinit f None, r)
       end)
    si_update
    (fun v st =>
       match fd_restart v (si_fd st) with
       | (f, Raise e) => (mk_selfinit f (si_kal st), Raise e)
       | (f, Ok _) =>
           match si_kal st with
           | None => (mk_selfinit f None, Ok tt)
           | Some k => match set_est_position (ke_pos k) v with
                       | Ok cur => (mk_selfinit f (Some (mk_kal (ke_filter k) cur (ke_val k))), Ok tt)
                       | Raise e => (mk_selfinit f (Some k), Raise e)
                       end
           end
       end).
End Kalman.
