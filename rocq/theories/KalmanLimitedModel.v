(** A SubsetTuner with a limit of the step size and Kalman estimators: the
    solver of KalmanLoopModel.v and the queue of steps of
    qtune/parameter_tuner.py L222-277. *)
From mathcomp Require Import all_ssreflect all_algebra.
From Verif Require Import PyExn LinAlgModel LinAlgSpec LimitedModel KalmanModel KalmanLoopModel.
Set Implicit Arguments. Unset Strict Implicit. Unset Printing Implicit Defensive.
Import GRing.Theory Num.Theory.
Local Open Scope ring_scope.

Section Limited.
Variables (F : realFieldType) (n k : nat).
(** The requests of the estimators (KalmanLoopModel.v), [np.linalg.norm] and
    [int], [_maximal_step_size] and [_maximal_step_number] (LimitedModel.v). *)
Variable request : 'I_k -> mkal F n -> option 'rV[F]_n.
Variables (norm : 'rV[F]_n -> F) (int_of : F -> nat) (limit : option F) (number : nat).

(** Solver, voltages, number of evaluations so far, [_number_queued_steps]. *)
Record ktuner := mk_ktuner {
  kt_solver : mkn F n k;
  kt_volt : 'rV[F]_n;
  kt_evals : nat;
  kt_queue : nat }.

(** qtune/parameter_tuner.py L222-252: with queued steps the solver only learns
    the position (L230-232); otherwise the parameters are evaluated.
    Evaluations do not fail here; [f t p] and [w t p] are the values and
    variances of the evaluation number [t] at [p]. *)
Definition kt_check (f w : nat -> 'rV[F]_n -> 'rV[F]_k) (s : ktuner) : res (mkn F n k * nat) :=
  if kt_queue s == 0%N then
    match kn_update (kt_volt s) (f (kt_evals s) (kt_volt s)) (w (kt_evals s) (kt_volt s)) (kt_solver s) with
    | Ok st => Ok (st, (kt_evals s).+1)
    | Raise e => Raise e
    end
  else Ok (mk_mkn (kn_desired (kt_solver s)) (kn_ests (kt_solver s)) (kt_volt s) (kn_vals (kt_solver s)), kt_evals s).

(** Check and next voltages (L222-277, [cut_step] in LimitedModel.v); the tuner
    is the only one and its target is not met (qtune/autotuner.py L243-291). *)
Definition kt_round (f w : nat -> 'rV[F]_n -> 'rV[F]_k) (s : ktuner) : res ktuner :=
  match kt_check f w s with
  | Raise e => Raise e
  | Ok (st, t) => let (v, q) := cut_step norm int_of limit number (kt_volt s) (kn_suggest request st) (kt_queue s) in Ok (mk_ktuner st v t q)
  end.
End Limited.
