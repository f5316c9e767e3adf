(** Vocabulary for Newton's method with Kalman estimators. *)
From mathcomp Require Import all_ssreflect all_algebra.
From Verif Require Import PyExn LinAlgModel LinAlgSpec KalmanModel KalmanSpec KalmanLoopModel.
Set Implicit Arguments. Unset Strict Implicit. Unset Printing Implicit Defensive.
Import GRing.Theory Num.Theory.
Local Open Scope ring_scope.

Section Spec.
Variables (F : realFieldType) (n k : nat).

(** The value an estimator remembers is the one of [f] at its position. *)
Definition remembers (f : 'rV[F]_n -> F) (e : mkal F n) : Prop := forall v, mk_val e = Some v -> v = f (mk_pos e).

(** An estimator whose filter has no dynamics and the same variance in all
    directions. *)
Definition isotropic (e : mkal F n) : Prop :=
  static (mk_kf e) /\ exists p, 0 < p /\ kf_P (mk_kf e) = p%:M.

(** [A] is invertible from the left on rows, with [a2] as smallest squared
    singular value or less. *)
Definition bounded_below (A : 'M[F]_(k, n)) (a2 : F) : Prop := forall y : 'rV[F]_k, a2 * sqn y <= sqn (y *m A).

(** [v] is a linear combination of the steps. *)
Definition spanned (ds : seq 'rV[F]_n) (v : 'rV[F]_n) : Prop := exists c : nat -> F, v = \sum_(i < size ds) c i *: nth 0 ds i.
End Spec.

Section Runs.
Variables (F : realFieldType) (n k : nat).
(** The first [N] steps of a run are not skipped as too short: after [j + 1]
    measurements, the last one at [kn_pos st], the next one is at [v]. *)
Definition long_steps request (f w : 'rV[F]_n -> 'rV[F]_k) (s : mkn F n k * 'rV[F]_n) (N : nat) : Prop :=
  forall j st v, (j < N)%N -> kn_rounds request f w j.+1 s = Ok (st, v) -> shortest2 F <= sqn (v - kn_pos st).
(** A fresh estimator without value, with an invertible covariance. *)
Definition untold (e : mkal F n) : Prop :=
  [/\ static (mk_kf e), psd (kf_P (mk_kf e)), kf_P (mk_kf e) \in unitmx & mk_val e = None].
End Runs.
