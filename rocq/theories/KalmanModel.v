(** qtune/kalman_gradient.py with the KalmanFilter of filterpy, and the requests
    of the KalmanGradientEstimator (qtune/gradient.py L275-328), over an
    arbitrary ordered field (exact arithmetic). *)
From mathcomp Require Import all_ssreflect all_algebra.
From Verif Require Import PyExn LinAlgModel.
Set Implicit Arguments. Unset Strict Implicit. Unset Printing Implicit Defensive.
Import GRing.Theory Num.Theory.
Local Open Scope ring_scope.

Section Kalman.
Variable F : realFieldType.

Section Filter.
(** State and measurement dimension of the KalmanFilter (qtune/kalman_gradient.py L112). *)
Variables d z : nat.

(** The attributes of filterpy's KalmanFilter that the code uses
    (qtune/kalman_gradient.py L111-138). *)
Record filter := mk_filter {
  kf_x : 'cV[F]_d;
  kf_P : 'M[F]_d;
  kf_F : 'M[F]_d;
  kf_Q : 'M[F]_d;
  kf_R : 'M[F]_z;
  kf_alpha : F }.

(** filterpy KalmanFilter.predict (called at qtune/kalman_gradient.py L196), without control input:
    x = F x, P = alpha^2 F P F^T + Q. *)
Definition predict (Q : option 'M[F]_d) (k : filter) : filter :=
  let Q' := if Q is Some q then q else kf_Q k in
  mk_filter (kf_F k *m kf_x k) (kf_alpha k ^+ 2 *: (kf_F k *m kf_P k *m (kf_F k)^T) + Q')
            (kf_F k) (kf_Q k) (kf_R k) (kf_alpha k).

(** filterpy KalmanFilter.update (called at qtune/kalman_gradient.py L198): y = z - H x,
    S = H P H^T + R, K = P H^T S^-1, x = x + K y and the Joseph form of the
    covariance.  A singular S is a LinAlgError and leaves x and P. *)
Definition correct (y0 : 'cV[F]_z) (R : option 'M[F]_z) (H : 'M[F]_(z, d)) (k : filter) : filter * res unit :=
  let R' := if R is Some r then r else kf_R k in
  let y := y0 - H *m kf_x k in
  let S := H *m kf_P k *m H^T + R' in
  if S \in unitmx then
    let K := kf_P k *m H^T *m invmx S in
    let I_KH := 1%:M - K *m H in
    (mk_filter (kf_x k + K *m y) (I_KH *m kf_P k *m I_KH^T + K *m R' *m K^T)
               (kf_F k) (kf_Q k) (kf_R k) (kf_alpha k), Ok tt)
  else (k, Raise LinAlgError).
End Filter.

Section Gradient.
(** Number of values and of gates (qtune/kalman_gradient.py L104-105); the state is the gradient matrix
    row by row. *)
Variables m n : nat.

(** qtune/kalman_gradient.py L200-226 [__createMatrixH]: block_diag(diff, ..., diff); row i is [diff] at
    the place of the gradient of value i. *)
Definition create_H (diff : 'rV[F]_n) : 'M[F]_(m, m * n) :=
  \matrix_(i, c) (mxvec (\matrix_(i', j) ((i == i')%:R * diff 0 j))) 0 c.

(** qtune/kalman_gradient.py L228-240 [grad]. *)
Definition grad (k : filter (m * n) m) : 'M[F]_(m, n) := vec_mx (kf_x k)^T.

(** qtune/kalman_gradient.py L150-198 [update]; the differences have the right dimension. *)
Definition kg_update (diff : 'rV[F]_n) (dvals : 'cV[F]_m) (R : option 'M[F]_m)
                     (Q : option 'M[F]_(m * n)) (pred : bool) (k : filter (m * n) m) : filter (m * n) m * res unit :=
  let k1 := if pred then predict Q k else k in
  correct dvals R (create_H diff) k1.
End Gradient.

Section Requests.
Variable n : nat.

(** qtune/gradient.py L289-292: the covariance of the gradient of one value over
    the gates. *)
Definition gate_cov (k : filter (1 * n) 1) : 'M[F]_n :=
  \matrix_(i, j) kf_P k (mxvec_index 0 i) (mxvec_index 0 j).

(** First index of the largest value, [numpy.argmax]. *)
Definition argmax k (h : 'I_k -> F) : option 'I_k :=
  foldl (fun acc i => if acc is Some j then if h j < h i then Some i else Some j else Some i) None (enum 'I_k).

(** qtune/gradient.py L285-309 [require_measurement] without tuned Jacobian, on
    the gates of the solver.  [vals], [vecs] are the result of
    [numpy.linalg.eigh] (eigenvectors as columns); [inv_max] is the inverse of
    the maximum covariance per gate, 0 for infinity.  Lengths are compared by
    their squares. *)
Definition length2 (vals : 'rV[F]_n) (vecs : 'M[F]_n) (inv_max : 'rV[F]_n) (j : 'I_n) : F :=
  \sum_i (vals 0 j * vecs i j * inv_max 0 i) ^+ 2.
Definition kal_require (vals : 'rV[F]_n) (vecs : 'M[F]_n) (inv_max eps pos : 'rV[F]_n) : option 'rV[F]_n :=
  let l := length2 vals vecs inv_max in
  if [exists j, 1 < l j] then
    if argmax l is Some j then Some (pos + scale (col j vecs)^T eps) else None
  else None.

(** qtune/gradient.py L310-328 with a tuned Jacobian: only the normalised basis
    vectors [basis] of its null space are looked at, filled up with zeros for
    the gates it does not mention; the threshold is the largest of the maximum
    covariances. *)
Definition kal_require_tuned (cov : 'M[F]_n) (basis : seq 'rV[F]_n) (max_cov : F) (eps pos : 'rV[F]_n) : option 'rV[F]_n :=
  let dc (v : 'rV[F]_n) := (v *m cov *m v^T) 0 0 in
  if has (fun v => max_cov < dc v) basis then
    if argmax (fun j : 'I_(size basis) => dc (nth 0 basis j)) is Some j
    then Some (pos + scale (nth 0 basis j) eps) else None
  else None.
End Requests.
End Kalman.
