(** Vocabulary for the Kalman properties. *)
From mathcomp Require Import all_ssreflect all_algebra.
From Verif Require Import PyExn LinAlgModel LinAlgSpec KalmanModel.
Set Implicit Arguments. Unset Strict Implicit. Unset Printing Implicit Defensive.
Import GRing.Theory Num.Theory.
Local Open Scope ring_scope.

Section Spec.
Variable F : realFieldType.

(** Variance of the linear form [v] under covariance [P]. *)
Definition variance d (P : 'M[F]_d) (v : 'rV[F]_d) : F := (v *m P *m v^T) 0 0.
Definition correlation d (P : 'M[F]_d) (u v : 'rV[F]_d) : F := (u *m P *m v^T) 0 0.

(** No dynamics, no process noise, no fading memory. *)
Definition static d z (k : filter F d z) : Prop := kf_F k = 1%:M /\ kf_Q k = 0 /\ kf_alpha k = 1.

(** One call of [update]: step, difference of the values, optional measurement
    covariance, optional process noise, whether to predict. *)
Record call m n := mk_call {
  c_diff : 'rV[F]_n;
  c_vals : 'cV[F]_m;
  c_R : option 'M[F]_m;
  c_Q : option 'M[F]_(m * n);
  c_predict : bool }.
Definition run_call m n (k : filter F (m * n) m) (c : call m n) : filter F (m * n) m :=
  (kg_update (c_diff c) (c_vals c) (c_R c) (c_Q c) (c_predict c) k).1.
Definition history m n (k : filter F (m * n) m) (cs : seq (call m n)) : filter F (m * n) m := foldl (@run_call m n) k cs.

(** The call's covariances are covariances. *)
Definition covariances m n (c : call m n) : Prop :=
  (forall r, c_R c = Some r -> psd r) /\ (forall q, c_Q c = Some q -> psd q).

(** A call with its own invertible measurement covariance and no process noise. *)
Definition proper m n (c : call m n) : Prop :=
  c_Q c = None /\ exists r, c_R c = Some r /\ psd r /\ r \in unitmx.

(** The linear form that extracts the change of value [i] along [diff]. *)
Definition along m n (i : 'I_m) (diff : 'rV[F]_n) : 'rV[F]_(m * n) := mxvec (\matrix_(i', j) ((i == i')%:R * diff 0 j)).

(** [vecs], [vals] is an orthonormal eigenbasis of [P]. *)
Definition eigenbasis n (P vecs : 'M[F]_n) (vals : 'rV[F]_n) : Prop :=
  vecs^T *m vecs = 1%:M /\ P *m vecs = vecs *m diag_mx vals.

(** A request of an estimator with uniform maximum covariance [M] is granted:
    the value at the requested point is measured with variance [r]. *)
Inductive granted n (M : F) (eps : 'rV[F]_n) (r : F) (k : filter F (1 * n) 1) : filter F (1 * n) 1 -> Prop :=
| Granted vals vecs pos p y :
    eigenbasis (gate_cov k) vecs vals ->
    kal_require vals vecs (const_mx M^-1) eps pos = Some p ->
    granted M eps r k (kg_update (p - pos) y (Some r%:M) None true k).1.
(** A sequence of granted requests. *)
Inductive requests n (M : F) (eps : 'rV[F]_n) (rmax : F) : nat -> filter F (1 * n) 1 -> filter F (1 * n) 1 -> Prop :=
| no_request k : requests M eps rmax 0 k k
| one_more N k k1 k2 r : 0 < r -> r <= rmax -> granted M eps r k k1 -> requests M eps rmax N k1 k2 -> requests M eps rmax N.+1 k k2.

(** A measurement of values whose true gradient is [g], without error. *)
Definition noiseless m n (g : 'M[F]_(m, n)) (c : call m n) : Prop := c_vals c = g *m (c_diff c)^T.
End Spec.
