(** Starting values, bounds and recalculation of the fits of
    qtune/evaluator.py.

    Simplifications: the data are finite reals; sampling rates are not 0; the
    optimiser is an argument, [scipy.optimize.curve_fit] checks the starting
    values before it runs; residuals, which [evaluate] drops for the lead scans,
    are left out; plots are left out. *)
From Coq Require Import Reals List Bool Arith ZArith Lia.
From Verif Require Import PyExn PyBase UtilModel EvaluatorModel FitModel.
Import ListNotations.
Local Open Scope R_scope.

(** Python [round(x)]: to the nearest integer, half to even. *)
Definition py_round (x : R) : Z :=
  let k := Int_part x in
  let f := x - IZR k in
  if Rlt_dec f (1/2) then k else if Rlt_dec (1/2) f then (k + 1)%Z else if Z.even k then k else (k + 1)%Z.
(** [l[i]]: negative indices count from the end; IndexError outside. *)
Definition item (l : list R) (i : Z) : res R :=
  let j := if (i <? 0)%Z then (i + Z.of_nat (length l))%Z else i in
  if (j <? 0)%Z then Raise IndexError
  else match nth_error l (Z.to_nat j) with Some v => Ok v | None => Raise IndexError end.

(** A bound is a number or infinite. *)
Definition bound := option R.
Definition inside (lo hi : bound) (p : R) : bool :=
  match lo with None => true | Some a => Rleb a p end && match hi with None => true | Some b => Rleb p b end.
Fixpoint all_inside (bs : list (bound * bound)) (p0 : list R) : bool :=
  match bs, p0 with
  | (lo, hi) :: bs', p :: p0' => inside lo hi p && all_inside bs' p0'
  | _, _ => true
  end.
(** An optimiser: bounds, standard deviations, starting values, axis, data. *)
Definition optimiser := list (bound * bound) -> option (list R) -> list R -> list R -> list R -> res (list R).
(** [scipy.optimize.curve_fit] with bounds: ValueError for starting values
    outside them. *)
Definition curve_fit (opt : optimiser) (bs : list (bound * bound)) (sigma : option (list R)) (p0 xs ys : list R) : res (list R) :=
  if all_inside bs p0 then opt bs sigma p0 xs ys else Raise ValueError.

(** The mapping [evaluation_arguments]. *)
Record times := mk_times { t_fall : R; t_rise : R; begin_rise : R; begin_fall : R }.
(** qtune/evaluator.py L145, L249: the default. *)
Definition default_times : times := mk_times (50/1000000000) (50/1000000000) (70/1000000000) (2070/1000000000).
Definition free : bound * bound := (None, None).
Definition positive : bound * bound := (Some 0, None).

(** qtune/evaluator.py L173, L276: the first starting value. *)
Definition start_height (ys : list R) : res R :=
  let n := INR (length ys) in
  match item ys (py_round (1/4 * n)) with
  | Raise e => Raise e
  | Ok a => match item ys (py_round (3/4 * n)) with Raise e => Raise e | Ok b => Ok (a - b) end
  end.
Definition mean_r (ys : list R) : R := total ys / INR (length ys).

(** ** LeadTunnelTimeByLeadScan *)
(** qtune/evaluator.py L279-288: line through the data at the point
    [begin / 10e-9] and two points later; slope, offset, length. *)
Definition line_at (xs ys : list R) (begin : R) : res (R * R * R) :=
  let b := py_round (begin / (10/1000000000)) in
  let e := (b + 2)%Z in
  match item ys e with Raise x => Raise x | Ok ye =>
  match item ys b with Raise x => Raise x | Ok yb =>
  match item xs e with Raise x => Raise x | Ok xe =>
  match item xs b with Raise x => Raise x | Ok xb =>
    let slope := (ye - yb) / (xe - xb) in
    Ok (slope, yb - xb * slope, xe - xb)
  end end end end.
(** qtune/evaluator.py L268-305 [process_raw_data]: starting values, bounds and
    the fit; [ys] is the difference of the two rows. *)
Definition scan_start (args : times) (rate : R) (ys : list R) : res (list R) :=
  let xs := time_axis rate (length ys) in
  match start_height ys with Raise e => Raise e | Ok h =>
  match line_at xs ys (begin_fall args) with Raise e => Raise e | Ok (s, o, l) =>
  match line_at xs ys (begin_rise args) with Raise e => Raise e | Ok (s1, o1, l1) =>
    Ok [h; t_fall args; t_rise args; begin_rise args; begin_fall args; mean_r ys; s; o; l; s1; o1; l1]
  end end end.
Definition scan_bounds (rate : R) (n : nat) : list (bound * bound) :=
  let short := (Some 0, Some (INR n / 161 / rate)) in
  [free; positive; positive; free; free; free; free; free; short; free; free; short].
Definition scan_fit (opt : optimiser) (args : times) (rate : R) (ys : list R) : res (list R) :=
  match scan_start args rate ys with
  | Raise e => Raise e
  | Ok p0 => curve_fit opt (scan_bounds rate (length ys)) None p0 (time_axis rate (length ys)) ys
  end.

(** ** LeadTunnelTimePrefitVersion *)
Definition prefit_bounds : list (bound * bound) := [free; positive; positive; free; free; free].
(** qtune/evaluator.py L165-197 [process_raw_data]: the fit results become the
    [evaluation_arguments] of the next call. *)
Definition prefit (opt : optimiser) (args : times) (rate : R) (ys : list R) : res times :=
  let xs := time_axis rate (length ys) in
  match start_height ys with Raise e => Raise e | Ok h =>
  match curve_fit opt prefit_bounds None [h; t_fall args; t_rise args; begin_rise args; begin_fall args; mean_r ys] xs ys with
  | Raise e => Raise e
  | Ok q =>
    match curve_fit opt prefit_bounds (Some (lead_sigma (nth 3 q 0) (nth 4 q 0) (length ys))) q xs ys with
    | Raise e => Raise e
    | Ok q' => Ok (mk_times (nth 1 q' 0) (nth 2 q' 0) (nth 3 q' 0) (nth 4 q' 0))
    end
  end end.
(** Several evaluations of one evaluator; the arguments stay when one raises. *)
Fixpoint prefits (opt : optimiser) (args : times) (rate : R) (yss : list (list R)) : list (res times) :=
  match yss with
  | [] => []
  | ys :: yss' =>
      let r := prefit opt args rate ys in
      r :: prefits opt (match r with Ok a => a | Raise _ => args end) rate yss'
  end.

(** ** NewLoadTime *)
(** qtune/evaluator.py L484-489: the first fit. *)
Definition load_fit (opt : optimiser) (initial : R) (xs ys : list R) : res (list R) :=
  match fold_best Rmin ys with
  | Raise e => Raise e
  | Ok low => curve_fit opt [free; free; (Some 2, Some 300)] None [low; nth 0 ys 0 - last ys 0; initial] xs ys
  end.
(** qtune/evaluator.py L467-479 [evaluate]: only RuntimeError is caught. *)
Definition load_evaluate (opt : optimiser) (initial : R) (xs ys : list R) : res num :=
  match load_fit opt initial xs ys with
  | Ok q => Ok (Fin (nth 2 q 0))
  | Raise e => if is_runtime_error e then Ok NaN else Raise e
  end.

(** ** InterDotTCByLineScan *)
(** [l[-k:]]: everything for k = 0. *)
Definition from_end (k : nat) (l : list R) : list R := if (k =? 0)%nat then l else skipn (length l - k) l.
(** qtune/evaluator.py L406-415 [process_raw_data]: the starting values.
    [polyfit xs ys]: [numpy.polyfit] of degree one, slope and offset. *)
Definition tc_guess (polyfit : list R -> list R -> res (R * R)) (xs ys : list R) : res p5 :=
  let n := length xs in
  let k := Z.to_nat (py_round (1/4 * INR n)) in
  match polyfit (firstn k xs) (firstn k ys) with Raise e => Raise e | Ok (s0, o0) =>
  match polyfit (from_end k xs) (from_end k ys) with Raise e => Raise e | Ok (s1, o1) =>
    let x1 := last xs 0 in
    let height := (o1 + s1 * x1) - (o0 + s0 * x1) in
    match transition_index (map (fun p => snd p - o1 - s1 * fst p) (combine xs ys)) (n / 12) with
    | Raise e => Raise e
    | Ok j => match nth_error xs j with
      | None => Raise IndexError
      | Some x => match fold_best Rmax xs, fold_best Rmin xs with
        | Ok top, Ok bottom => Ok (o0, s0, height, x, (top - bottom) / 8)
        | Raise e, _ | _, Raise e => Raise e
        end
      end
    end
  end end.

(** ** Recalculation from stored data *)
(** What may be stored as raw data, or handed to [process_raw_data]. *)
Inductive value :=
| VNone
| VList (l : list value)
| VTuple (l : list value)
| VLine (l : list R)
| VRows (rows : list (list R)).
(** [v[i, :]] *)
Definition row (v : value) (i : nat) : res (list R) :=
  match v with
  | VRows rows => match nth_error rows i with Some r => Ok r | None => Raise IndexError end
  | VLine _ => Raise IndexError
  | VNone | VList _ | VTuple _ => Raise TypeError
  end.
(** qtune/evaluator.py L67-69 [raw_data]. *)
Record stored := mk_stored { raw_x : value; raw_y : value }.
Definition raw_data (s : stored) : value := VTuple [raw_x s; raw_y s].
(** qtune/evaluator.py L167, L271: [raw[1, :] - raw[0, :]]; the rows of an array
    have the same length. *)
Definition difference (raw : value) : res (list R) :=
  match row raw 1 with Raise e => Raise e | Ok a =>
  match row raw 0 with Raise e => Raise e | Ok b => Ok (map (fun p => fst p - snd p) (combine a b)) end end.
(** qtune/evaluator.py L165-172 [LeadTunnelTimePrefitVersion.process_raw_data]:
    the data in use and what is stored.  [given]: the argument. *)
Definition prefit_raw (given : option value) (s : stored) : res (list R * stored) :=
  let raw := match given with Some v => v | None => raw_x s end in
  match difference raw with
  | Raise e => Raise e
  | Ok ys => Ok (ys, mk_stored (VLine (map INR (seq 0 (length ys)))) (VLine ys))
  end.
(** qtune/evaluator.py L153-157 [evaluate] up to the fit, which leaves the
    stored data alone; the axis in units of the sampling rate. *)
Definition prefit_measure (measured : res value) (s : stored) : stored :=
  match measured with
  | Raise _ => mk_stored (VList []) (VList [])
  | Ok v => match prefit_raw (Some v) (mk_stored (VList []) (VList [])) with Ok (_, s') => s' | Raise _ => mk_stored (VList []) (VList []) end
  end.
(** qtune/evaluator.py L268-274 [LeadTunnelTimeByLeadScan.process_raw_data]. *)
Definition scan_raw (given : option value) (s : stored) : res (list R * stored) :=
  let raw := match given with Some v => v | None => raw_data s end in
  match difference raw with
  | Raise e => Raise e
  | Ok ys => Ok (ys, mk_stored (VLine (map INR (seq 0 (length ys)))) (VLine ys))
  end.
(** qtune/evaluator.py L481-483 [NewLoadTime.process_raw_data]: axis and data. *)
Definition load_raw (given : value) : res (list R * list R) :=
  match row given 1 with Raise e => Raise e | Ok x =>
  match row given 0 with Raise e => Raise e | Ok y => Ok (x, y) end end.
(** qtune/evaluator.py L467-477 [NewLoadTime.evaluate]: what is stored. *)
Definition load_measure (measured : value) : res stored :=
  match row measured 0 with Raise e => Raise e | Ok y =>
  match row measured 1 with Raise e => Raise e | Ok x => Ok (mk_stored (VLine x) (VLine y)) end end.
(** qtune/evaluator.py L401-403 [InterDotTCByLineScan.process_raw_data] on the
    stored data, of one dimension or missing: axis and data. *)
Definition tc_raw (s : stored) : res (list R * list R) :=
  match raw_x s, raw_y s with
  | VLine xs, VLine ys => Ok (xs, ys)
  | _, _ => Raise AttributeError
  end.
(** qtune/evaluator.py L374-388 [InterDotTCByLineScan.evaluate] for a line of
    data: what is stored. *)
Definition tc_measure (center range : R) (ys : list R) : stored :=
  mk_stored (VLine (linspace (center - range) (center + range) (length ys))) (VLine ys).
