(** Positions of a column as Python counts them. *)
From Coq Require Import List ZArith.
Definition in_range (n : nat) (i : Z) : Prop := (- Z.of_nat n <= i < Z.of_nat n)%Z.
