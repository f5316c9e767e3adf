(** Vocabulary: filters that forget, by fading memory or by process noise. *)
From mathcomp Require Import all_ssreflect all_algebra.
From Verif Require Import PyExn LinAlgModel LinAlgSpec KalmanModel KalmanSpec KalmanLoopModel.
Set Implicit Arguments. Unset Strict Implicit. Unset Printing Implicit Defensive.
Import GRing.Theory Num.Theory.
Local Open Scope ring_scope.

Section Spec.
Variables (F : realFieldType) (n : nat).
(** A predicted measurement of one value with variance [r] whose step tells
    next to nothing about the direction [u]: the square of its component along
    [u] is at most [del] times the variance.  [del = 0]: orthogonal to [u]. *)
Definition weak (u : 'rV[F]_n) (del : F) (c : call F 1 n) : Prop :=
  [/\ c_predict c = true, c_Q c = None &
      exists r, [/\ 0 < r, c_R c = Some r%:M & (c_diff c *m u^T) 0 0 ^+ 2 <= del * r * sqn u]].
(** The gradient is assumed to change between two measurements, in every
    direction with variance [q] at least. *)
Definition drifts (q : F) (kf : filter F (1 * n) 1) : Prop :=
  [/\ kf_F kf = 1%:M, psd (kf_Q kf) & forall u, q * sqn u <= variance (kf_Q kf) u].
(** A fresh estimator of a drifting gradient. *)
Definition untold_drift (q : F) (e : mkal F n) : Prop :=
  [/\ drifts q (mk_kf e), psd (kf_P (mk_kf e)) & mk_val e = None].
(** Two estimators with the same covariance and the same assumptions, at the
    same position; the gradients and the values may be different. *)
Definition as_sure (e e' : mkal F n) : Prop :=
  [/\ kf_P (mk_kf e) = kf_P (mk_kf e'), kf_F (mk_kf e) = kf_F (mk_kf e') /\ kf_Q (mk_kf e) = kf_Q (mk_kf e'),
      kf_alpha (mk_kf e) = kf_alpha (mk_kf e'), mk_pos e = mk_pos e' & isSome (mk_val e) = isSome (mk_val e')].
(** Requests that look at the covariance and the position only
    (qtune/gradient.py L285-309). *)
Definition by_covariance k (request : 'I_k -> mkal F n -> option 'rV[F]_n) : Prop :=
  forall i e e', gate_cov (mk_kf e) = gate_cov (mk_kf e') -> mk_pos e = mk_pos e' -> request i e = request i e'.
End Spec.
