(** A SubsetTuner with a limit of the step size while the gradients are still
    being learnt: NewtonSolver with finite difference estimators (LinAlgModel.v)
    and the queue of steps of qtune/parameter_tuner.py L222-277. *)
From mathcomp Require Import all_ssreflect all_algebra.
From Verif Require Import PyExn LinAlgModel.
Set Implicit Arguments. Unset Strict Implicit. Unset Printing Implicit Defensive.
Import GRing.Theory Num.Theory.
Local Open Scope ring_scope.

Section Limited.
Variables (F : realFieldType) (n k : nat).
Variable ortho : seq 'rV[F]_n -> res 'rV[F]_n.
(** [np.linalg.norm] and [int] of a number that is not negative. *)
Variables (norm : 'rV[F]_n -> F) (int_of : F -> nat).
(** [_maximal_step_size] (None: NaN, the default, which no length exceeds) and
    [_maximal_step_number] (at least 1), L199-216. *)
Variables (limit : option F) (number : nat).

(** Solver, voltages, number of evaluations so far, [_number_queued_steps]. *)
Record ltuner := mk_ltuner {
  lt_solver : mnewton F n k;
  lt_volt : 'rV[F]_n;
  lt_evals : nat;
  lt_queue : nat }.

(** L222-252: with queued steps the solver only learns the position; otherwise
    the parameters are evaluated.  Evaluations do not fail here; [f t p] and
    [w t p] are the values and variances of the evaluation number [t] at [p]. *)
Definition lt_check (f w : nat -> 'rV[F]_n -> 'rV[F]_k) (s : ltuner) : res (mnewton F n k * nat) :=
  if lt_queue s == 0%N then
    match mn_update (lt_volt s) (f (lt_evals s) (lt_volt s)) (w (lt_evals s) (lt_volt s)) (lt_solver s) with
    | Ok st => Ok (st, (lt_evals s).+1)
    | Raise e => Raise e
    end
  else Ok (mk_mnewton (mn_desired (lt_solver s)) (mn_ests (lt_solver s)) (lt_volt s) (mn_vals (lt_solver s)), lt_evals s).

(** L263-277 for the suggestion [p], from [v] with [q] steps in the queue. *)
Definition cut_step (v p : 'rV[F]_n) (q : nat) : 'rV[F]_n * nat :=
  let step := p - v in
  if limit is Some m then
    if m < norm step then
      let q' := if q == 0%N then minn (int_of (norm step / m)) number else q in
      (v + (m / norm step) *: step, q'.-1)
    else (v + step, q)
  else (v + step, q).

(** Check and next voltages (L222-277); the tuner is the only one and its
    target is not met (qtune/autotuner.py L243-291). *)
Definition lt_round (f w : nat -> 'rV[F]_n -> 'rV[F]_k) (s : ltuner) : res ltuner :=
  match lt_check f w s with
  | Raise e => Raise e
  | Ok (st, t) =>
      match mn_suggest ortho st with
      | Raise e => Raise e
      | Ok p => let (v, q) := cut_step (lt_volt s) p (lt_queue s) in Ok (mk_ltuner st v t q)
      end
  end.
Fixpoint lt_rounds (f w : nat -> 'rV[F]_n -> 'rV[F]_k) (m : nat) (s : ltuner) : res ltuner :=
  if m is m'.+1 then
    match lt_rounds f w m' s with
    | Ok s' => lt_round f w s'
    | Raise e => Raise e
    end
  else Ok s.
End Limited.
