(** Vocabulary: the squared misfit of a gradient to a prior guess and to all
    measurements. *)
From mathcomp Require Import all_ssreflect all_algebra.
From Verif Require Import PyExn LinAlgModel LinAlgSpec KalmanModel KalmanSpec.
Set Implicit Arguments. Unset Strict Implicit. Unset Printing Implicit Defensive.
Import GRing.Theory Num.Theory.
Local Open Scope ring_scope.

Section Spec.
Variable F : realFieldType.
Definition quad d (A : 'M[F]_d) (e : 'cV[F]_d) : F := (e^T *m A *m e) 0 0.
Variables m n : nat.
(** The covariance a measurement is weighted with: its own one or the default. *)
Definition weight (R0 : 'M[F]_m) (c : call F m n) : 'M[F]_m := if c_R c is Some r then r else R0.
(** What the gradient [G] leaves of a measured difference, in units of its error. *)
Definition misfit (R0 : 'M[F]_m) (c : call F m n) (G : 'M[F]_(m, n)) : F :=
  quad (invmx (weight R0 c)) (c_vals c - G *m (c_diff c)^T).
(** The cost of [G], given the prior guess [x0] with covariance [P0] and the
    measurements, latest first; with fading memory everything that is older than
    a prediction counts [alpha^2] times less. *)
Fixpoint fit_cost (alpha : F) (R0 : 'M[F]_m) (x0 : 'cV[F]_(m * n)) (P0 : 'M[F]_(m * n)) (latest : seq (call F m n)) (G : 'M[F]_(m, n)) : F :=
  if latest is c :: older then
    (if c_predict c then (alpha ^+ 2)^-1 else 1) * fit_cost alpha R0 x0 P0 older G + misfit R0 c G
  else quad (invmx P0) ((mxvec G)^T - x0).
(** Measurements with invertible covariances and no process noise of their own. *)
Definition weighted (R0 : 'M[F]_m) (c : call F m n) : Prop := c_Q c = None /\ psd (weight R0 c) /\ weight R0 c \in unitmx.
End Spec.
