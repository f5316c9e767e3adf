(** Model of the evaluators, qtune/evaluator.py, and of the range checks in
    qtune/sm_tune_qqd.py.

    Not modelled: the fits themselves (scipy curve_fit, numpy polyfit are
    parameters that return or raise), plotting, logging, storage of raw data. *)
From Coq Require Import ZArith.
From Verif Require Import PyBase UtilModel.
Local Open Scope R_scope.

(** ** The experiment as an evaluator sees it *)
(** Operations on the experiment, in order. *)
Inductive lab_event := LRead | LSet (v : series) | LMeasure (m : nat) (at_ : series).
Record lab := mk_lab { l_gates : series; l_log : list lab_event }.
(** [fault k]: exception raised by the k-th operation (before it has any
    effect); [measured m gates]: data of measurement number [m] of the
    evaluator's list taken at these gate voltages. *)
Record setup := mk_setup { fault : nat -> option exn; measured : nat -> series -> list R }.

Definition LM (A : Type) := lab -> lab * res A.
Definition lret {A} (a : A) : LM A := fun l => (l, Ok a).
Definition lbind {A B} (m : LM A) (k : A -> LM B) : LM B :=
  fun l => let (l', r) := m l in match r with Ok a => k a l' | Raise e => (l', Raise e) end.
Definition attempt (x : setup) {A} (ev : lab -> lab_event) (act : lab -> lab * res A) : LM A := fun l =>
  let l' := mk_lab (l_gates l) (l_log l ++ [ev l]) in
  match fault x (length (l_log l)) with Some e => (l', Raise e) | None => act l' end.

(** experiment.read_gate_voltages(). *)
Definition lab_read (x : setup) : LM series := attempt x (fun _ => LRead) (fun l => (l, Ok (l_gates l))).
(** experiment.set_gate_voltages(v): an experiment without rounding; unknown
    gates raise. *)
Definition lab_set (x : setup) (v : series) : LM unit := attempt x (fun _ => LSet v) (fun l =>
  match assign (l_gates l) v with
  | Ok g => (mk_lab g (l_log l), Ok tt)
  | Raise e => (l, Raise e)
  end).
(** experiment.measure(m). *)
Definition lab_measure (x : setup) (m : nat) : LM (list R) :=
  attempt x (fun l => LMeasure m (l_gates l)) (fun l => (l, Ok (measured x m (l_gates l)))).

(** ** LeadTransition *)
(** [a.add(b, fill_value=0.)]: a value missing (or NaN) on one side counts as
    0, on both sides the result is NaN. *)
Definition add_fill (a b : num) : num :=
  if isna a && isna b then NaN else nadd (fillna (Fin 0) a) (fillna (Fin 0) b).
Definition sadd_fill : series -> series -> series := zip_with add_fill.

(** qtune/evaluator.py L540-544: the loop over zip(measurements, shifting_gates).
    [i]: number of the measurement. *)
Fixpoint lead_loop (x : setup) (current : series) (width : R) (n_meas i : nat) (shifting : list label) : LM (list (list R)) :=
  match shifting with
  | [] => lret []
  | g :: shifting' =>
      if n_meas <=? i then lret []
      else lbind (lab_set x (sadd_fill current [(g, Fin (-1 * width))])) (fun _ =>
           lbind (lab_measure x i) (fun d =>
           lbind (lab_set x current) (fun _ =>
           lbind (lead_loop x current width n_meas (S i) shifting') (fun ds => lret (d :: ds)))))
  end.

(** qtune/evaluator.py L552-570 process_raw_data.  [center], [range], [n_points]:
    options of the first measurement, used for all; the width attribute is not
    used (L561).  [range] is positive. *)
Definition lead_lag (range : R) (n_points : nat) : nat := Z.to_nat (Int_part (0.0002 / range * INR n_points)).
Fixpoint lead_process (center range : R) (n_points : nat) (raw : list (list R)) (shifting : list label)
  : res (series * series) :=
  match raw, shifting with
  | data :: raw', g :: shifting' =>
      match transition_index data (lead_lag range n_points) with
      | Raise e => Raise e
      | Ok k => match nth_error (linspace (center - range) (center + range) n_points) k with
                | None => Raise IndexError
                | Some v => match lead_process center range n_points raw' shifting' with
                            | Raise e => Raise e
                            | Ok (vs, es) => Ok ((("position_" ++ g)%string, Fin v) :: vs,
                                                 (("position_" ++ g)%string, Fin (0.00001 * 0.00001)) :: es)
                            end
                end
      end
  | _, _ => Ok ([], [])
  end.

(** qtune/evaluator.py L537-550 evaluate. *)
Definition lead_evaluate (x : setup) (width center range : R) (n_points n_meas : nat) (shifting : list label) : LM (series * series) :=
  lbind (lab_read x) (fun current =>
  lbind (lead_loop x current width n_meas 0 shifting) (fun raw =>
  match lead_process center range n_points raw shifting with
  | Raise e => fun l => (l, Raise e)
  | Ok out => lbind (lab_set x current) (fun _ => lret out)
  end)).

(** Constructor defaults qtune/evaluator.py L514-529: gate swept by each measurement, gates
    shifted. *)
Definition lead_default_sweeping : list label := ["RFA"; "RFB"]%string.
Definition lead_default_shifting : list label := ["RFB"; "RFA"]%string.

(** ** AveragingEvaluator, qtune/evaluator.py L786-803 *)
Definition non_nan (xs : list num) : list num := filter (fun x => negb (isna x)) xs.
Definition nsum (xs : list num) : num := fold_right nadd (Fin 0) xs.
Definition ncount (xs : list num) : num := Fin (INR (length xs)).
(** [numpy.nanmean], [numpy.nanvar] (of an empty or all-NaN list: NaN). *)
Definition nanmean (xs : list num) : num := ndiv (nsum (non_nan xs)) (ncount (non_nan xs)).
Definition nanvar (xs : list num) : num :=
  let m := nanmean xs in
  ndiv (nsum (map (fun x => nmul (nsub x m) (nsub x m)) (non_nan xs))) (ncount (non_nan xs)).
Section Averaging.
  Variable W : Type.
  Variable inner : W -> W * res (series * series).
  Fixpoint repeat_inner (n : nat) (w : W) : W * res (list series) :=
    match n with
    | O => (w, Ok [])
    | S n' => match inner w with
              | (w', Raise e) => (w', Raise e)
              | (w', Ok (p, _)) => match repeat_inner n' w' with
                                   | (w'', Raise e) => (w'', Raise e)
                                   | (w'', Ok ps) => (w'', Ok (p :: ps))
                                   end
              end
    end.
  (** [[el[parameter] for el in parameter_list]] *)
  Fixpoint pick (l : label) (ps : list series) : res (list num) :=
    match ps with
    | [] => Ok []
    | p :: ps' => match lookup l p with
                  | None => Raise KeyError
                  | Some v => match pick l ps' with Raise e => Raise e | Ok vs => Ok (v :: vs) end
                  end
    end.
  Fixpoint average (parameters : list label) (ps : list series) : res (series * series) :=
    match parameters with
    | [] => Ok ([], [])
    | l :: ls => match pick l ps with
                 | Raise e => Raise e
                 | Ok vs => match average ls ps with
                            | Raise e => Raise e
                            | Ok (a, b) => Ok ((l, nanmean vs) :: a, (l, ndiv (nanvar vs) (ncount (non_nan vs))) :: b)
                            end
                 end
    end.
  Definition averaging_evaluate (n : nat) (parameters : list label) (w : W) : W * res (series * series) :=
    match repeat_inner n w with
    | (w', Raise e) => (w', Raise e)
    | (w', Ok ps) => (w', average parameters ps)
    end.
End Averaging.
Arguments repeat_inner {W}.
Arguments averaging_evaluate {W}.

(** ** Evaluators that turn a failed fit into NaN *)
(** [except RuntimeError]: RuntimeError and its subclasses EvaluationError and
    RecursionError (qtune/util.py L35). *)
Definition is_runtime_error (e : exn) : bool :=
  match e with RuntimeError | EvaluationError | RecursionError => true | _ => false end.
(** InterDotTCByLineScan.evaluate qtune/evaluator.py L374-399 and NewLoadTime.evaluate L467-479:
    [data]: outcome of the measurement; [dims]: number of dimensions of the
    data (more than two are refused by the first one); [fit]: outcome of
    process_raw_data (value, residual). *)
Definition tc_evaluate (data : res nat) (fit : res (num * num)) : res (series * series) :=
  let out v r := Ok ([("parameter_tunnel_coupling"%string, v)], [("parameter_tunnel_coupling"%string, r)]) in
  match data with
  | Raise e => Raise e
  | Ok dims => if (2 <? dims)%nat then out NaN NaN
               else match fit with
                    | Ok (v, r) => out v r
                    | Raise e => if is_runtime_error e then out NaN NaN else Raise e
                    end
  end.
Definition load_evaluate (data : res nat) (fit : res (num * num)) : res (series * series) :=
  let out v r := Ok ([("parameter_time_load"%string, v)], [("parameter_time_load"%string, r)]) in
  match data with
  | Raise e => Raise e
  | Ok _ => match fit with
            | Ok (v, r) => out v r
            | Raise e => if is_runtime_error e then out NaN NaN else Raise e
            end
  end.
(** LeadTunnelTimePrefitVersion.evaluate qtune/evaluator.py L153-163 and
    LeadTunnelTimeByLeadScan.evaluate L257-266: nothing is caught. *)
Definition lead_time_evaluate (data : res nat) (fit : res (num * num)) : res (series * series) :=
  match data with
  | Raise e => Raise e
  | Ok _ => match fit with
            | Raise e => Raise e
            | Ok (rise, fall) => Ok ([("parameter_time_rise"%string, rise); ("parameter_time_fall"%string, fall)],
                                     [("parameter_time_rise"%string, ndiv rise (Fin 5)); ("parameter_time_fall"%string, ndiv fall (Fin 5))])
            end
  end.

(** ** Sensing dot evaluators *)
(** SensingDot1D.evaluate qtune/evaluator.py L615-639: [center]: read_gate_voltages()[gate];
    [data]: the measurement; [coef]: polyfit (L644).  L645 uses
    numpy.polynomial.poly1d, a name that numpy.polynomial does not have. *)
Definition sensing_1d_evaluate (center : res num) (data : res (list R)) (coef : res (list R)) : res (series * series) :=
  match center with
  | Raise e => Raise e
  | Ok _ => match data with
            | Raise e => Raise e
            | Ok _ => match coef with Raise e => Raise e | Ok _ => Raise AttributeError end
            end
  end.
(** SensingDot2D.process_raw_data qtune/evaluator.py L741-762: [lines]: the approximated scan
    lines; the first [cutoff] and last [cutoff] differences are not considered.
    Simplification: the smoothing polynomial is exact on the scan points. *)
Definition np_diff (l : list R) : list R := map (fun p => snd p - fst p) (combine l (tl l)).
(** [l[c:-c]]; for c = 0 this is [l[0:0]], empty. *)
Definition cut (c : nat) (l : list R) : list R :=
  if c =? 0 then [] else firstn (length l - c - c) (skipn c l).
Definition sensing_2d_point (rising : bool) (x0 x1 : list R) (lines : list (list R)) : res (R * R) :=
  let cutoff := (length x1 / 25)%nat in
  let diffs := map (fun l => cut cutoff (np_diff l)) lines in
  let width := (length x1 - 1 - cutoff - cutoff)%nat in
  match (if rising then argmin else argmax) (concat diffs) with
  | Raise e => Raise e
  | Ok k => match nth_error x0 (k / width), nth_error x1 (k mod width + cutoff) with
            | Some a, Some b => Ok (a, b)
            | _, _ => Raise IndexError
            end
  end.
(** SensingDot1D's choice qtune/evaluator.py L648-654 on given differences. *)
Definition sensing_1d_choice (rising : bool) (x : list R) (diffs : list R) : res R :=
  let cutoff := (length x / 16)%nat in
  match (if rising then argmax else argmin) (cut cutoff diffs) with
  | Raise e => Raise e
  | Ok k => match nth_error x (k + cutoff) with Some a => Ok a | None => Raise IndexError end
  end.

(** ** Range checks, qtune/sm_tune_qqd.py *)
(** QQDLine qtune/sm_tune_qqd.py L306-308, QQDLead L338-340. *)
Definition in_window (lo hi value : num) : num := if nltb value lo || nltb hi value then NaN else value.
(** QQDLine.process_raw_data qtune/sm_tune_qqd.py L292-309: mean and variance of the mean of the
    fitted widths (a NaN makes both NaN; of no width both are NaN). *)
Definition line_value (lo hi : num) (widths : list num) : num * num :=
  let m := ndiv (nsum widths) (ncount widths) in
  let v := ndiv (nsum (map (fun x => nmul (nsub x m) (nsub x m)) widths)) (ncount widths) in
  (in_window lo hi m, ndiv v (ncount widths)).
(** QQDResp.__init__ qtune/sm_tune_qqd.py L462-473: bounds per parameter from None, one number or a
    series; L469 uses -inf as default of the maximum. *)
Inductive bound := BNone | BNum (x : num) | BSeries (s : series).
Definition resp_min (parameters : list label) (b : bound) : series :=
  match b with BNone => map (fun l => (l, MInf)) parameters | BNum x => map (fun l => (l, x)) parameters | BSeries s => s end.
Definition resp_max (parameters : list label) (b : bound) : series :=
  match b with BNone => map (fun l => (l, MInf)) parameters | BNum x => map (fun l => (l, x)) parameters | BSeries s => s end.
(** QQDResp.process_raw_data qtune/sm_tune_qqd.py L485-494: two positions, each NaN if its
    visibility is below the minimum; evaluate L475-483. *)
Definition resp_visible (min_height : num) (p : num * num) : num := if nltb (snd p) min_height then NaN else fst p.
Definition resp_evaluate (parameters : list label) (min_height : num) (minb maxb : bound) (ana : list (num * num)) : list num :=
  let lo := map snd (resp_min parameters minb) in
  let hi := map snd (resp_max parameters maxb) in
  map (fun p => in_window (fst (fst p)) (snd (fst p)) (snd p)) (combine (combine lo hi) (map (resp_visible min_height) ana)).
