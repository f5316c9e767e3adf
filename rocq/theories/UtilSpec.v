(** Vocabulary for the filters; written without the model. *)
From Coq Require Import Reals List Arith.
Import ListNotations.
Local Open Scope R_scope.

(** [sum_{a <= k < a + n} f k]. *)
Fixpoint sum_range (f : nat -> R) (a n : nat) : R :=
  match n with O => 0 | S n' => f a + sum_range f (S a) n' end.
(** The mean of the samples [a .. b-1]. *)
Definition mean_range (data : list R) (a b : nat) : R := sum_range (fun k => nth k data 0) a (b - a) / INR (b - a).
(** [j] is the first of the indices below [m] with the largest [f]. *)
Definition first_max (f : nat -> R) (m j : nat) : Prop :=
  (j < m)%nat /\ (forall i, (i < m)%nat -> f i <= f j) /\ (forall i, (i < j)%nat -> f i < f j).
(** Rounding of a half to the even neighbour. *)
Definition even_rounding (w r : nat) : Prop :=
  (2 * r = w \/ 2 * r = w + 1 /\ Nat.Even r \/ 2 * r + 1 = w /\ Nat.Even r)%nat.
