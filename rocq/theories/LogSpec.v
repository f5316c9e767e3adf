(** Vocabulary for messages. *)
From Coq Require Import String List Bool Arith.
From Verif Require Import LogModel.
Import ListNotations.

(** [m] is [n] or above it, and messages of [n] get there. *)
Inductive reaches (st : loggers) : name -> name -> Prop :=
| reach_self n : reaches st n n
| reach_parent a n m : propagate (st (a :: n)) = true -> reaches st n m -> reaches st (a :: n) m.
(** A handler above [n] receives the messages of [n]. *)
Definition inherits (st : loggers) (n : name) : Prop :=
  exists m h, m <> n /\ reaches st n m /\ In h (handlers (st m)).
(** Nothing else than the logger [n] differs. *)
Definition others_same (st st' : loggers) (n : name) : Prop := forall m, m <> n -> st' m = st m.
