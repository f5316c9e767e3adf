(** The simulated scans of the sensing dot, qtune/basic_dqd.py L114-126, and the
    positions that the evaluators choose in them.  Exact arithmetic. *)
From Coq Require Import Reals List Arith.
From Verif Require Import PyBase UtilModel EvaluatorModel.
Import ListNotations.
Local Open Scope R_scope.

(** qtune/basic_dqd.py L115: [np.arange(-4e-3, 4e-3, 8e-3 / 1280.)]. *)
Definition ss1d_points : list R := map (fun k => -0.004 + INR k * (0.008 / 1280)) (seq 0 1280).
(** qtune/basic_dqd.py L114-117 at the voltages of SDB1, SDB2 and N. *)
Definition ss1d_simulation (sdb1 sdb2 n : R) : list R :=
  map (fun p => (1 + 1000 * sdb1) * (1 + sdb1 - n) * exp (-0.5 * ((p + sdb2) * (p + sdb2)) / 0.000002)) ss1d_points.
(** The position of SDB2 that SensingDot1D chooses, qtune/evaluator.py L615-631 and
    L648-654 with the measurement of L608-611.  Simplifications: the smoothing of
    L644-646 is left out, the values of the polynomial of degree 10 are taken to
    be the data; the name that L645 asks numpy for exists (see
    [sensing_1d_evaluate]). *)
Definition ss1d_choice (rising : bool) (sdb1 n sdb2 : R) : res R :=
  sensing_1d_choice rising (linspace (sdb2 - 0.004) (sdb2 + 0.004) 1280) (np_diff (ss1d_simulation sdb1 sdb2 n)).

(** qtune/basic_dqd.py L120-126 at the voltages of [gate1] and [gate2]: 20 lines of
    104 points. *)
Definition ss2d_value (v1 v2 x y : R) : R :=
  (1 + y) * (1 - 0.1 * Rabs (x - 1000 * v2) - 0.1 * Rabs (y - 1000 * v1)) * sin (x + y).
Definition ss2d_simulation (v1 v2 : R) : list (list R) :=
  map (fun y => map (fun x => ss2d_value v1 v2 x y) (linspace (-5 + 1000 * v2) (5 + 1000 * v2) 104)) (linspace (-5 + 1000 * v1) (5 + 1000 * v1) 20).
(** The positions that SensingDot2D chooses, qtune/evaluator.py L706-722, L741-762,
    with the option [range] of its measurement, 10 mV by default (L675, L692).
    Simplification: the values of the polynomial of degree 40 (L746-747) are taken
    to be the data. *)
Definition ss2d_choice (rising : bool) (range v1 v2 : R) : res (R * R) :=
  sensing_2d_point rising (linspace (v1 - range) (v1 + range) 20) (linspace (v2 - range) (v2 + range) 104) (ss2d_simulation v1 v2).
