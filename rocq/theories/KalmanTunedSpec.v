(** Vocabulary: requests of Kalman estimators with tuned parameters. *)
From mathcomp Require Import all_ssreflect all_algebra.
From Verif Require Import PyExn LinAlgModel LinAlgSpec KalmanModel KalmanSpec KalmanLoopModel.
Set Implicit Arguments. Unset Strict Implicit. Unset Printing Implicit Defensive.
Import GRing.Theory Num.Theory.
Local Open Scope ring_scope.

Section Spec.
Variables (F : realFieldType) (n k : nat).
(** The requests of the estimators with a tuned Jacobian (KalmanModel.v
    [kal_require_tuned]), whatever normalised vectors span its null space. *)
Definition asks_tuned (M : F) (eps : 'rV[F]_n) (request : 'I_k -> mkal F n -> option 'rV[F]_n) : Prop :=
  forall i e, exists basis, (forall v, v \in basis -> sqn v = 1) /\
    request i e = kal_require_tuned (gate_cov (mk_kf e)) basis M eps (mk_pos e).
(** The same with the one normalised vector [v] that spans the null space. *)
Definition asks_along (v : 'rV[F]_n) (M : F) (eps : 'rV[F]_n) (i : 'I_k) (e : mkal F n) : option 'rV[F]_n :=
  kal_require_tuned (gate_cov (mk_kf e)) [:: v] M eps (mk_pos e).
End Spec.
