(** Vocabulary: requests with one maximum covariance per gate. *)
From mathcomp Require Import all_ssreflect all_algebra.
From Verif Require Import PyExn LinAlgModel LinAlgSpec KalmanModel KalmanSpec KalmanLoopModel.
Set Implicit Arguments. Unset Strict Implicit. Unset Printing Implicit Defensive.
Import GRing.Theory Num.Theory.
Local Open Scope ring_scope.

Section Spec.
Variables (F : realFieldType) (n k : nat).
(** The requests of the estimators in all rounds of a run (KalmanModel.v
    [kal_require]), whatever eigenvectors of the covariance are found; estimator
    [i] has the inverse maxima [inv_max i], 0 for gates that are ignored. *)
Definition asks_each (inv_max : 'I_k -> 'rV[F]_n) (eps : 'rV[F]_n) (request : 'I_k -> mkal F n -> option 'rV[F]_n)
    (s : nat -> mkn F n k * 'rV[F]_n) : Prop :=
  forall t i, let e := kn_ests (s t.+1).1 i in exists vals vecs, eigenbasis (gate_cov (mk_kf e)) vecs vals /\
    request i e = kal_require vals vecs (inv_max i) eps (mk_pos e).

(** Gate [g] is uncorrelated with all others. *)
Definition alone (g : 'I_n) (C : 'M[F]_n) : Prop := forall j, j != g -> C g j = 0 /\ C j g = 0.
(** No eigenvector mixes gate [g] with the others. *)
Definition apart (g : 'I_n) (vecs : 'M[F]_n) : Prop := forall j, vecs g j = 0 \/ forall l, l != g -> vecs l j = 0.
(** The requests of such runs if the eigenvectors do not mix a gate that is
    uncorrelated with all others. *)
Definition asks_apart (g : 'I_n) (inv_max : 'I_k -> 'rV[F]_n) (eps : 'rV[F]_n) (request : 'I_k -> mkal F n -> option 'rV[F]_n)
    (s : nat -> mkn F n k * 'rV[F]_n) : Prop :=
  forall t i, let e := kn_ests (s t.+1).1 i in alone g (gate_cov (mk_kf e)) ->
    exists vals vecs, apart g vecs /\ request i e = kal_require vals vecs (inv_max i) eps (mk_pos e).
End Spec.
