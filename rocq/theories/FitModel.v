(** Fit functions of qtune/evaluator.py, the weights of the second fits, and how
    the evaluators use [scipy.optimize.curve_fit].

    Simplifications: the data are finite reals, one dimensional and of equal
    length; [curve_fit] is an argument that returns or raises; the starting
    values that are read off the data by polynomial fits are arguments. *)
From Coq Require Import Reals List Bool Arith ZArith Lia.
From Verif Require Import PyExn PyBase UtilModel.
Import ListNotations.
Local Open Scope R_scope.

(** Python [int(x)]: towards zero. *)
Definition py_int (x : R) : Z := if Rlt_dec x 0 then (- Int_part (- x))%Z else Int_part x.
(** [l[lo:hi] = v] on a list of length n; negative bounds count from the end. *)
Definition slice_bound (n : nat) (b : Z) : nat := Z.to_nat (if (b <? 0)%Z then Z.max 0 (Z.of_nat n + b) else Z.min (Z.of_nat n) b).
Definition slice_assign (lo hi : Z) (v : R) (l : list R) : list R :=
  map (fun p => if (slice_bound (length l) lo <=? fst p)%nat && (fst p <? slice_bound (length l) hi)%nat then v else snd p)
      (combine (seq 0 (length l)) l).
(** [numpy.nanmean] of finite values; NaN for none. *)
Definition mean_of (l : list R) : num := ndiv (Fin (total l)) (Fin (INR (length l))).
(** [numpy.min], [numpy.max] of finite values; ValueError for none. *)
Definition fold_best (f : R -> R -> R) (l : list R) : res R :=
  match l with [] => Raise ValueError | a :: l' => Ok (fold_left f l' a) end.

(** ** NewLoadTime *)
(** qtune/evaluator.py L503-504 [func_load_time]; (offset, height, curvature). *)
Definition p3 : Type := (R * R * R)%type.
Definition load_fun (q : p3) (x : R) : R := let '(o, h, c) := q in o + h * exp (-1 * x / c).
(** qtune/evaluator.py L481-496 [process_raw_data].  [fit lo hi p0 x y]:
    [curve_fit] with bounds for the curvature; [stored]: the curvature in
    [initial_fit_arguments]. *)
Definition load_process (fit : R -> R -> p3 -> list R -> list R -> res p3) (initial stored : R) (xs ys : list R)
  : res (p3 * num) :=
  match fold_best Rmin ys with
  | Raise e => Raise e
  | Ok low =>
      let height := nth 0 ys 0 - last ys 0 in
      match fit 2 300 (low, height, initial) xs ys with
      | Raise e => Raise e
      | Ok q1 =>
          match (if Rltb (snd q1) 0 then fit 2 300 (low, height, stored * 20) xs ys else Ok q1) with
          | Raise e => Raise e
          | Ok q =>
              let h := snd (fst q) in
              let res := map (fun p => snd p - load_fun q (fst p)) (combine xs ys) in
              Ok (q, nmul (ndiv (mean_of (map (fun r => r * r) res)) (Fin (h * h))) (Fin 1500))
          end
      end
  end.
(** qtune/basic_dqd.py L102-111 [load_simulation] without noise: the measured
    axis and values. *)
Definition load_simulation (v1 v2 : R) : list R * list R :=
  let curvature := 15 + exp (- v1 - v2) in
  let xs := map (fun k => 5 * INR k) (seq 0 100) in
  (xs, map (fun x => exp (x * -1 / curvature)) xs).

(** ** InterDotTCByLineScan *)
(** qtune/evaluator.py L443-444 [func_inter_dot_coupling]; (offset, slope,
    height, position, width). *)
Definition p5 : Type := (R * R * R * R * R)%type.
Definition tc_fun (q : p5) (x : R) : R :=
  let '(o, s, h, p, w) := q in o + s * x + /2 * h * (1 + tanh ((x - p) / w)).
(** qtune/evaluator.py L420 [position_point]; [ptp]: the length of the scan, not 0. *)
Definition position_point (position ptp : R) (n : nat) : Z := py_int ((position + ptp) / 2 / ptp * INR n).
(** qtune/evaluator.py L421-426: the standard deviations given to the second fit. *)
Definition tc_sigma (pp : Z) (n : nat) : list R :=
  let top := (Z.of_nat n - 1)%Z in
  slice_assign (Z.max 0 (pp - 4)) (Z.min (pp + 5) top) (1/10)
    (slice_assign (Z.max 0 (pp - 15)) (Z.min (pp - 5) top) 10 (repeat 1 n)).
(** qtune/evaluator.py L401-436 [process_raw_data]; [guess]: starting values of
    the first fit (L407-416). *)
Definition tc_process (fit : option (list R) -> p5 -> list R -> list R -> res p5) (guess : p5) (xs ys : list R)
  : res (p5 * num) :=
  match fit None guess xs ys with
  | Raise e => Raise e
  | Ok (o, s, h, p, _) =>
      match fold_best Rmax xs, fold_best Rmin xs with
      | Ok top, Ok bottom =>
          let n := length xs in
          match fit (Some (tc_sigma (position_point p (top - bottom) n) n)) (o, s, h, p, 130/1000000) xs ys with
          | Raise e => Raise e
          | Ok q =>
              let '(_, _, height, _, _) := q in
              let k := Z.to_nat (py_int (3/10 * INR n)) in
              let res := map (fun p => snd p - tc_fun q (fst p)) (skipn k (combine xs ys)) in
              Ok (q, nmul (ndiv (mean_of (map (fun r => r * r) res)) (Fin (height * height))) (Fin 20000))
          end
      | Raise e, _ | _, Raise e => Raise e
      end
  end.

(** ** Lead tunnel times *)
Definition half_time : R := 2/1000000.
(** qtune/evaluator.py L205-228 [func_lead_times_v1] at one point; [xlast] is
    the last point of the axis. *)
Definition lead_v1 (height t_fall t_rise begin_rise begin_fall offset xlast x : R) : R :=
  let c_rise := cosh (/2 * half_time / t_rise) in
  let s_rise := sinh (/2 * half_time / t_rise) in
  let c_fall := cosh (/2 * half_time / t_fall) in
  let s_fall := sinh (/2 * half_time / t_fall) in
  if Rlt_dec x begin_rise then
    offset + /2 * (-1 * height) * (c_fall - exp (/2 * (3 * half_time - 2 * (x + xlast - (begin_fall - half_time))) / t_fall)) / s_fall
  else if Rlt_dec x begin_fall then
    offset + /2 * height * (c_rise - exp (/2 * (half_time - 2 * (x - begin_rise)) / t_rise)) / s_rise
  else
    offset + /2 * (-1 * height) * (c_fall - exp (/2 * (3 * half_time - 2 * (x - (begin_fall - half_time))) / t_fall)) / s_fall.
(** qtune/evaluator.py L317-346 [func_lead_times_v2] at one point. *)
Definition lead_v2 (height t_fall t_rise begin_rise begin_fall offset slope offset_linear length_lin_fall
                    slope_1 offset_linear_1 length_lin_rise xlast x : R) : R :=
  let exp_begin_rise := begin_rise + length_lin_rise in
  let exp_begin_fall := begin_fall + length_lin_fall in
  let c := cosh (/2 * half_time / t_rise) in
  let s := sinh (/2 * half_time / t_rise) in
  if Rleb exp_begin_rise x && Rleb x begin_fall then
    offset + /2 * height * (c - exp (/2 * (begin_fall - 2 * x) / t_rise)) / s
  else if Rleb x begin_rise then
    offset + /2 * (-1 * height) * (c - exp (/2 * (1 * begin_fall - 2 * (x + xlast)) / t_fall)) / s
  else if Rltb begin_fall x && Rltb x exp_begin_fall then offset_linear + x * slope
  else if Rltb begin_rise x && Rltb x exp_begin_rise then offset_linear_1 + x * slope_1
  else offset + /2 * (-1 * height) * (c - exp (/2 * (half_time + 2 * begin_fall - 2 * x) / t_fall)) / s.
(** qtune/evaluator.py L183-189: the standard deviations of the weighted fit of
    [LeadTunnelTimePrefitVersion]; the fitted times are in seconds. *)
Definition lead_sigma (begin_rise begin_fall : R) (n : nat) : list R :=
  let len := py_int (35/100 * INR n) in
  let start_rise := py_int (begin_rise / (4/1000000) + 3) in
  let start_fall := py_int (begin_fall / (4/1000000) + 3) in
  slice_assign start_fall (start_fall + len) (1/10)
    (slice_assign start_rise (start_rise + len) (1/10) (repeat 1 n)).

(** What [NewLoadTime.evaluate] hands out of the fit: qtune/evaluator.py L467-479. *)
Definition load_fitted (fit : R -> R -> p3 -> list R -> list R -> res p3) (initial stored : R) (xs ys : list R) : res (num * num) :=
  match load_process fit initial stored xs ys with Raise e => Raise e | Ok (q, r) => Ok (Fin (snd q), r) end.
(** What [InterDotTCByLineScan.evaluate] hands out of the fit: qtune/evaluator.py L389-399. *)
Definition tc_fitted (fit : option (list R) -> p5 -> list R -> list R -> res p5) (guess : p5) (xs ys : list R) : res (num * num) :=
  match tc_process fit guess xs ys with Raise e => Raise e | Ok (q, r) => Ok (Fin (snd q), r) end.
(** qtune/evaluator.py L171, L273: the axis, [arange(n) / sample_rate]. *)
Definition time_axis (rate : R) (n : nat) : list R := map (fun k => INR k / rate) (seq 0 n).
