(** Model of the tuning history, qtune/history.py L122-349, L536-599.

    A history is a table with one row per voltage point.  Not modelled: plots,
    logging, dtypes; the regular expressions that read columns back are in
    ColumnsModel.v.
    Simplifications: the voltages, the tuner index and the other columns are
    kept apart (no column carries the name of another kind); column names of
    different tuners are distinct; a cell that was never written is NaN. *)
From Verif Require Import PyBase.
Local Open Scope string_scope.
Local Open Scope list_scope.

(** What the history reads of one parameter tuner.  [ts_desired]: the desired
    values of the target for a SubsetTuner, None for other tuners; [ts_grads]:
    for a NewtonSolver per parameter the estimate and the covariance of the
    estimator (None: not known yet), empty for other solvers; [ts_evals]:
    names and raw data of the evaluators (None: no data yet). *)
Record tsnap := mk_ts {
  ts_volts : option series;
  ts_params : series;
  ts_vars : series;
  ts_desired : option series;
  ts_grads : list (label * (option series * option (list (label * series))));
  ts_evals : list (label * option nat)
}.
(** What it reads of the autotuner: index, whether voltages are waiting to be
    set, status of the current tuner, the tuners. *)
Record snap := mk_snap { sn_index : nat; sn_pending : bool; sn_status : bool; sn_tuners : list tsnap }.

Record hrow := mk_row { r_volts : series; r_index : option nat; r_cells : series }.
Record hist := mk_hist { h_rows : list hrow; h_paths : list string; h_gates : list label; h_evals : list (list (label * option nat)) }.
(** qtune/history.py L130-148 with directory_or_file = None. *)
Definition empty_hist : hist := mk_hist [] [] [] [].

(** Column names, L126-128. *)
Definition var_col (p : label) : label := (p ++ "#var")%string.
Definition grad_col (p g : label) : label := (p ++ "#" ++ g ++ "#grad")%string.
Definition cov_col (p g1 g2 : label) : label := (p ++ "#" ++ g1 ++ "#" ++ g2 ++ "#cov")%string.

(** qtune/history.py L540-553 extract_parameters_from_hierarchy, one tuner: for a SubsetTuner
    only the parameters with a desired value. *)
Definition tuner_params (t : tsnap) : res (series * series) :=
  match ts_desired t with
  | None => Ok (ts_params t, ts_vars t)
  | Some d =>
      let rel := index (filter (fun p => negb (isna (snd p))) d) in
      match select rel (ts_params t) with
      | Raise e => Raise e
      | Ok p => match select rel (ts_vars t) with Raise e => Raise e | Ok v => Ok (p, v) end
      end
  end.
(** qtune/history.py L556-570 extract_gradients_from_hierarchy with the columns of L275-281: a
    gradient or covariance that is not known yet is replaced by the class
    pandas.Series, on which .index and .items() raise TypeError. *)
Fixpoint grad_cells (gs : list (label * (option series * option (list (label * series))))) : res series :=
  match gs with
  | [] => Ok []
  | (p, (Some g, Some c)) :: gs' =>
      match grad_cells gs' with
      | Raise e => Raise e
      | Ok cells => Ok (map (fun q => (grad_col p (fst q), snd q)) g ++
                        flat_map (fun col => map (fun q => (cov_col p (fst col) (fst q), snd q)) (snd col)) c ++ cells)
      end
  | _ => Raise TypeError
  end.
Definition tuner_cells (t : tsnap) : res series :=
  match tuner_params t with
  | Raise e => Raise e
  | Ok (p, v) => match grad_cells (ts_grads t) with
                 | Raise e => Raise e
                 | Ok g => Ok (p ++ map (fun q => (var_col (fst q), snd q)) v ++ g)
                 end
  end.
(** Columns of several tuners.  Simplification: if several tuners raise, the
    first one's exception is reported. *)
Fixpoint all_cells (ts : list tsnap) : res series :=
  match ts with
  | [] => Ok []
  | t :: ts' => match tuner_cells t with
                | Raise e => Raise e
                | Ok c => match all_cells ts' with Raise e => Raise e | Ok cs => Ok (c ++ cs) end
                end
  end.
(** [hierarchy[start:end]] *)
Definition slice {A} (start stop : nat) (l : list A) : list A := firstn (stop - start) (skipn start l).

(** [df.loc[row, columns] = values] *)
Fixpoint upsert (k : label) (v : num) (s : series) : series :=
  match s with
  | [] => [(k, v)]
  | (k', w) :: s' => if label_eqb k k' then (k, v) :: s' else (k', w) :: upsert k v s'
  end.
Definition upserts (new s : series) : series := fold_left (fun acc p => upsert (fst p) (snd p) acc) new s.
Fixpoint eupsert (k : label) (v : option nat) (s : list (label * option nat)) : list (label * option nat) :=
  match s with
  | [] => [(k, v)]
  | (k', w) :: s' => if label_eqb k k' then (k, v) :: s' else (k', w) :: eupsert k v s'
  end.
Definition eupserts (new s : list (label * option nat)) := fold_left (fun acc p => eupsert (fst p) (snd p) acc) new s.

(** [s.sort_index()], [a.equals(b)] (NaN equals NaN). *)
Definition sort_series (s : series) : series := map (fun l => (l, get l s)) (sort_labels (index s)).
Definition num_eqb (a b : num) : bool :=
  match a, b with
  | NaN, NaN | MInf, MInf | PInf, PInf => true
  | Fin x, Fin y => Reqb x y
  | _, _ => false
  end.
Fixpoint series_eqb (a b : series) : bool :=
  match a, b with
  | [], [] => true
  | (k, x) :: a', (l, y) :: b' => label_eqb k l && num_eqb x y && series_eqb a' b'
  | _, _ => false
  end.
(** [list[-1] = x], for a non-empty list. *)
Fixpoint set_last {A} (x : A) (l : list A) : list A :=
  match l with [] => [] | [_] => [x] | y :: l' => y :: set_last x l' end.

(** qtune/history.py L297-299 *)
Definition eval_end (a : snap) : nat := if sn_pending a || sn_status a then S (sn_index a) else sn_index a.

(** qtune/history.py L287-325 append_autotuner.  The path is registered before the autotuner is
    read. *)
(** Row of an empty history L301-309 (the whole hierarchy). *)
Definition first_row (h : hist) (v : series) (a : snap) (path : string) : hist * res unit :=
  let h1 := mk_hist (h_rows h) (h_paths h ++ [path]) (h_gates h) (h_evals h) in
  match all_cells (sn_tuners a) with
  | Raise e => (h1, Raise e)
  | Ok c => (mk_hist [mk_row (sort_series v) (Some (sn_index a)) (upserts c [])] (h_paths h1) (index v)
                     (match flat_map ts_evals (sn_tuners a) with [] => [] | evs => [eupserts evs []] end), Ok tt)
  end.
(** qtune/history.py L310-319: same voltages, the row is completed.  [int(start)] of a missing
    tuner index raises ValueError; with end = 0 only the voltages are written
    L252-254 before that happens in read_evaluator_data_from_autotuner L583.
    Evaluator data while no evaluator data is stored yet: index[-1] of an empty
    frame, IndexError. *)
Definition stay_in_row (h : hist) (r : hrow) (a : snap) (path : string) : hist * res unit :=
  let h1 := mk_hist (h_rows h) (set_last path (h_paths h)) (h_gates h) (h_evals h) in
  match r_index r with
  | None => (h1, Raise ValueError)
  | Some start =>
      let ts := slice start (eval_end a) (sn_tuners a) in
      if (eval_end a =? 0)%nat then (h1, Ok tt)
      else match all_cells ts with
           | Raise e => (h1, Raise e)
           | Ok c =>
               let evs := flat_map ts_evals ts in
               (mk_hist (set_last (mk_row (r_volts r) (Some (sn_index a)) (upserts c (r_cells r))) (h_rows h)) (h_paths h1) (h_gates h)
                        (match evs with [] => h_evals h | _ => set_last (eupserts evs (last (h_evals h) [])) (h_evals h) end),
                match evs, h_evals h with _ :: _, [] => Raise IndexError | _, _ => Ok tt end)
           end
  end.
(** qtune/history.py L320-325: other voltages, a new row.  An empty frame of evaluator data adds
    no row (pandas DataFrame.append). *)
Definition new_row (h : hist) (v : series) (a : snap) (path : string) : hist * res unit :=
  let h1 := mk_hist (h_rows h) (h_paths h ++ [path]) (h_gates h) (h_evals h) in
  let ts := slice 0 (eval_end a) (sn_tuners a) in
  let evs := flat_map ts_evals ts in
  let evals := match evs with [] => h_evals h | _ => h_evals h ++ [eupserts evs []] end in
  if (eval_end a =? 0)%nat then (mk_hist (h_rows h ++ [mk_row (sort_series v) None []]) (h_paths h1) (h_gates h) evals, Ok tt)
  else match all_cells ts with
       | Raise e => (h1, Raise e)
       | Ok c => (mk_hist (h_rows h ++ [mk_row (sort_series v) (Some (sn_index a)) (upserts c [])]) (h_paths h1) (h_gates h) evals, Ok tt)
       end.
Definition hist_append (h : hist) (a : snap) (path : string) : hist * res unit :=
  match sn_tuners a with
  | [] => (h, Raise IndexError)
  | t0 :: _ =>
      match ts_volts t0 with
      | None => (h, Raise AttributeError)
      | Some v =>
          let (h1, r1) := match h_rows h with [] => first_row h v a path | _ => (h, Ok tt) end in
          match r1 with
          | Raise e => (h1, Raise e)
          | Ok _ =>
              match rev (h_rows h1) with
              | [] => (h1, Raise IndexError)
              | r :: _ =>
                  if series_eqb (sort_series v) (map (fun g => (g, get g (r_volts r))) (sort_labels (h_gates h1)))
                  then stay_in_row h1 r a path
                  else new_row h1 v a path
              end
          end
      end
  end.
(** A sequence of appended states, as in load_directory L327-338 or the GUI;
    ends at the first exception. *)
Fixpoint hist_run (h : hist) (l : list (snap * string)) : hist * res unit :=
  match l with
  | [] => (h, Ok tt)
  | (a, p) :: l' => let (h', r) := hist_append h a p in
                    match r with Raise e => (h', Raise e) | Ok _ => hist_run h' l' end
  end.
