(** Vocabulary: runs of Newton's method with Kalman estimators on any device. *)
From mathcomp Require Import all_ssreflect all_algebra.
From Verif Require Import PyExn LinAlgModel LinAlgSpec KalmanModel KalmanSpec KalmanLoopModel KalmanLoopSpec KalmanFitSpec.
Set Implicit Arguments. Unset Strict Implicit. Unset Printing Implicit Defensive.
Import GRing.Theory Num.Theory.
Local Open Scope ring_scope.

Section Spec.
Variables (F : realFieldType) (n k : nat).
Implicit Types (s : nat -> mkn F n k * 'rV[F]_n) (f w : nat -> 'rV[F]_n -> 'rV[F]_k).

(** A run that never raises: before round [t] the solver is [(s t).1] and the
    voltages are [(s t).2].  The device and the reported variances may be
    different in each round, so that any errors of measurement are included. *)
Definition run_of request f w s : Prop := forall t, kn_round request (f t) (w t) (s t) = Ok (s t.+1).
(** The step of round [t]. *)
Definition step_of s (t : nat) : 'rV[F]_n := (s t).2 - kn_pos (s t).1.
Definition long s (t : nat) : bool := shortest2 F <= sqn (step_of s t).
(** Nobody asks for a measurement, the estimated gradients are independent, and
    the step is not skipped as too short. *)
Definition newton (request : 'I_k -> mkal F n -> option 'rV[F]_n) s (t : nat) : bool :=
  [&& [forall i, ~~ isSome (request i (kn_ests (s t).1 i))], row_free (kn_jacobian (kn_ests (s t).1)) & long s t].
(** What the linear model [A] does not explain of the change of value [i]
    in round [t]. *)
Definition unexplained (A : 'M[F]_(k, n)) f s (t : nat) (i : 'I_k) : F :=
  (f t (s t).2 - kn_vals (s t).1) 0 i - (row i A *m (step_of s t)^T) 0 0.
(** The squared error of the first estimate of gradient [g] in units of its
    covariance. *)
Definition prior_error (g : 'rV[F]_n) (e : mkal F n) : F :=
  quad (invmx (kf_P (mk_kf e))) ((mxvec g)^T - kf_x (mk_kf e)).
(** The requests of the estimators with one maximum [M] for all gates
    (KalmanModel.v [kal_require]), whatever eigenvectors of the covariance are
    found. *)
Definition asks_like (M : F) (eps : 'rV[F]_n) (request : 'I_k -> mkal F n -> option 'rV[F]_n) : Prop :=
  forall i e, psd (gate_cov (mk_kf e)) -> exists vals vecs, eigenbasis (gate_cov (mk_kf e)) vecs vals /\
    request i e = kal_require vals vecs (const_mx M^-1) eps (mk_pos e).
(** Somebody asks for a measurement. *)
Definition asks (request : 'I_k -> mkal F n -> option 'rV[F]_n) s (t : nat) : bool :=
  [exists i, isSome (request i (kn_ests (s t).1 i))].
End Spec.
