(** Vocabulary for snapshots: objects that cannot change. *)
From Coq Require Import String List.
From Verif Require Import StorageModel.
Import ListNotations.

Inductive immutable {payload : Type} : pyval payload -> Prop :=
| imm_num i p : immutable (PNum i false p)
| imm_str i s : immutable (PStr i s)
| imm_none i : immutable (PNone i)
| imm_tuple i xs : (forall x, In x xs -> immutable x) -> immutable (PSeq i false xs).
