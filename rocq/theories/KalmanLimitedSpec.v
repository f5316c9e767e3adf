(** Vocabulary for Newton's method with Kalman estimators and limited steps. *)
From mathcomp Require Import all_ssreflect all_algebra.
From Verif Require Import PyExn LinAlgModel LinAlgSpec KalmanModel KalmanLoopModel KalmanLoopSpec KalmanGlobalSpec KalmanLimitedModel.
Set Implicit Arguments. Unset Strict Implicit. Unset Printing Implicit Defensive.
Import GRing.Theory Num.Theory.
Local Open Scope ring_scope.

Section Spec.
Variables (F : realFieldType) (n k : nat).
Implicit Types (s : nat -> mkn F n k * 'rV[F]_n) (f w : nat -> 'rV[F]_n -> 'rV[F]_k).

(** Measurement [t] is made at the voltages [(s t).2], which anybody may have
    chosen; [(s t).1] is the solver before it and [(s t.+1).1] the one after. *)
Definition taken f w s : Prop := forall t, kn_update (s t).2 (f t (s t).2) (w t (s t).2) (s t).1 = Ok (s t.+1).1.
(** The error of the change of value [i] that the estimated gradient predicts
    for the step to measurement [t]. *)
Definition misjudged f s (t : nat) (i : 'I_k) : F :=
  (f t (s t).2 - kn_vals (s t).1) 0 i - (grad (mk_kf (kn_ests (s t).1 i)) *m (step_of s t)^T) 0 0.
(** The whole Newton step after measurement [t]. *)
Definition whole_step s (t : nat) : 'rV[F]_n :=
  (lstsq (kn_jacobian (kn_ests (s t.+1).1)) (kn_desired (s t.+1).1 - kn_vals (s t.+1).1)^T)^T.
(** [x] is the step [d], or a part of it of length [m] at least; it is not
    longer than [M]. *)
Definition part_of (m M : F) (d x : 'rV[F]_n) : Prop :=
  exists c, [/\ 0 < c <= 1, x = c *: d, c = 1 \/ m ^+ 2 <= sqn x & sqn x <= M ^+ 2].
(** The step after measurement [t] is not the whole one. *)
Definition shortened s (t : nat) : bool := step_of s t.+1 != whole_step s t.
(** Each step changes the values by [a] times its length at least. *)
Definition expands (a : F) (A : 'M[F]_(k, n)) : Prop := forall x : 'rV[F]_n, a ^+ 2 * sqn x <= sqn (x *m A^T).
(** The solver and the voltages before each round. *)
Definition before (S : nat -> ktuner F n k) (t : nat) : mkn F n k * 'rV[F]_n := (kt_solver (S t), kt_volt (S t)).
End Spec.

Section Rounds.
Variables (F : realFieldType) (n k : nat).
(** Rounds of the tuner that do not raise. *)
Definition rounds_of request norm int_of limit number (f w : nat -> 'rV[F]_n -> 'rV[F]_k) (S : nat -> ktuner F n k) : Prop :=
  forall j, kt_round request norm int_of limit number f w (S j) = Ok (S j.+1).
(** No estimator asks for a measurement. *)
Definition never_asks (request : 'I_k -> mkal F n -> option 'rV[F]_n) : Prop := forall i e, request i e = None.
(** Measurement [t] is made in round [T t] of [S]; [s] are the solvers and
    voltages of the measurements. *)
Record seen_in (S : nat -> ktuner F n k) (T : nat -> nat) (s : nat -> mkn F n k * 'rV[F]_n) : Prop := SeenIn {
  seen_first : T 0%N = 0%N /\ s 0%N = (kt_solver (S 0%N), kt_volt (S 0%N));
  seen_volt : forall t, (s t).2 = kt_volt (S (T t));
  seen_solver : forall t, (s t.+1).1 = kt_solver (S (T t).+1);
  seen_evals : forall t j, (T t < j <= T t.+1)%N -> kt_evals (S j) = t.+1;
  seen_order : forall t, (T t < T t.+1)%N }.
End Rounds.
