(** Vocabulary for the simulated experiment; without the model. *)
From Coq Require Import Reals List Arith.
From Verif Require Import PyBase.
Import ListNotations.
Local Open Scope R_scope.

(** Samples of a smooth step of height [2 a] at [c]: the i-th of [n] points is at
    [lo + i s]. *)
Definition samples_step (data : list R) (lo s a b k c : R) : Prop :=
  forall i, (i < length data)%nat -> nth i data 0 = b + a * tanh (k * (lo + INR i * s - c)).
(** The last voltage requested for the gate, if any. *)
Fixpoint last_requested (g : label) (l : list series) : option num :=
  match l with
  | [] => None
  | v :: l' => match last_requested g l' with Some x => Some x | None => lookup g v end
  end.
