(** Vocabulary for Newton's method with finite differences on arbitrary devices. *)
From mathcomp Require Import all_ssreflect all_algebra.
From Verif Require Import PyExn LinAlgModel LinAlgSpec.
Set Implicit Arguments. Unset Strict Implicit. Unset Printing Implicit Defensive.
Import GRing.Theory Num.Theory.
Local Open Scope ring_scope.

Section Spec.
Variables (F : realFieldType) (n k : nat).

(** [p] is not farther than [R] from [p0]. *)
Definition near (p0 : 'rV[F]_n) (R : F) (p : 'rV[F]_n) : Prop := sqn (p - p0) <= R ^+ 2.
(** In this neighbourhood the slope of [h] differs from [A] by at most [kappa]. *)
Definition nearly_affine (h : 'rV[F]_n -> 'rV[F]_k) (A : 'M[F]_(k, n)) (kappa : F) (p0 : 'rV[F]_n) (R : F) : Prop :=
  forall x y, near p0 R x -> near p0 R y -> sqn (h x - h y - (x - y) *m A^T) <= kappa ^+ 2 * sqn (x - y).
(** [a] or more is the smallest singular value of [A]. *)
Definition steep (A : 'M[F]_(k, n)) (a : F) : Prop := forall y : 'rV[F]_k, a ^+ 2 * sqn y <= sqn (y *m A).
(** The directions have a length between [l0] and [l1]. *)
Definition lengths (ortho : seq 'rV[F]_n -> res 'rV[F]_n) (l0 l1 : F) : Prop :=
  forall vs ov, ortho vs = Ok ov -> l0 ^+ 2 <= sqn ov <= l1 ^+ 2.
(** The chords of the measured values at the points [ps] have the slope [J];
    [f i] is the measurement in round [i]. *)
Definition chords (f : nat -> 'rV[F]_n -> 'rV[F]_k) (ps : seq 'rV[F]_n) (J : 'M[F]_(k, n)) : Prop :=
  forall i j, (i < size ps)%N -> (j < size ps)%N -> (nth 0 ps i - nth 0 ps j) *m J^T = f i (nth 0 ps i) - f j (nth 0 ps j).
(** Steps with the fixed Jacobian [J] from [p], measured in round [t] first:
    the least squares solution of shortest length for the discrepancy that was
    measured. *)
Fixpoint chord_steps (f : nat -> 'rV[F]_n -> 'rV[F]_k) (des : 'rV[F]_k) (J : 'M[F]_(k, n)) (t m : nat) (p : 'rV[F]_n) : 'rV[F]_n :=
  if m is m'.+1 then chord_steps f des J t.+1 m' (p + (lstsq J (des - f t p)^T)^T) else p.
(** The points are in general position. *)
Definition general (ps : seq 'rV[F]_n) : Prop :=
  forall x : 'rV[F]_n, (forall p q, p \in ps -> q \in ps -> dot x (p - q) = 0) -> x = 0.
End Spec.
