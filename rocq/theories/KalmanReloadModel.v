(** qtune/kalman_gradient.py: constructor and to_hdf5 of KalmanGradient. *)
From mathcomp Require Import all_ssreflect all_algebra.
From Verif Require Import PyExn LinAlgModel KalmanModel.
Set Implicit Arguments. Unset Strict Implicit. Unset Printing Implicit Defensive.
Import GRing.Theory Num.Theory.
Local Open Scope ring_scope.

Section Reload.
Variables (F : realFieldType) (m n : nat).

(** The keyword arguments, L52-56; [None] is a missing argument.  The gradient
    is given as a matrix with one row per value. *)
Record kg_args := mk_kgargs {
  ka_F : option 'M[F]_(m * n);
  ka_x : option 'M[F]_(m, n);
  ka_P : option 'M[F]_(m * n);
  ka_R : option 'M[F]_m;
  ka_Q : option 'M[F]_(m * n);
  ka_alpha : F }.

(** qtune/kalman_gradient.py L104-138 [__init__]: arrays are reshaped row by row; filterpy starts with
    x = 0 and unit matrices for P and R. *)
Definition kg_init (a : kg_args) : filter F (m * n) m :=
  mk_filter (if ka_x a is Some x then (mxvec x)^T else 0)
            (if ka_P a is Some P then P else 1%:M)
            (if ka_F a is Some f then f else 1%:M)
            (if ka_Q a is Some Q then Q else 0)
            (if ka_R a is Some R then R else 1%:M)
            (ka_alpha a).

(** qtune/kalman_gradient.py L140-148 [to_hdf5].  filterpy stores the square of alpha, reading the
    attribute gives its non-negative root. *)
Definition kg_to_hdf5 (k : filter F (m * n) m) : kg_args :=
  mk_kgargs (Some (kf_F k)) (Some (grad k)) (Some (kf_P k)) (Some (kf_R k)) (Some (kf_Q k)) `|kf_alpha k|.
End Reload.
