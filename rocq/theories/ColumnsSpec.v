(** Vocabulary for the columns of the history. *)
From Coq Require Import String Ascii List Bool.
From Verif Require Import ColumnsModel.
Local Open Scope string_scope.

Definition hash : ascii := "#"%char.
Fixpoint chars_of (s : string) : list ascii :=
  match s with EmptyString => nil | String a s' => cons a (chars_of s') end.
(** A name without the separator. *)
Definition plain (s : string) : Prop := ~ In hash (chars_of s).
(** A name of word characters, not empty. *)
Definition wordlike (s : string) : Prop := s <> EmptyString /\ Forall (fun c => word_char c = true) (chars_of s).
Definition ends_with (p q : string) : Prop := exists a, q = (a ++ p)%string.
Definition starts_with (p q : string) : Prop := exists a, q = (p ++ a)%string.
(** All names in a column. *)
Definition plain_column (c : column) : Prop :=
  match c with
  | CGate g => plain g
  | CPar p => plain p
  | CVar p => plain p
  | CGrad p g => plain p /\ plain g
  | CCov p g1 g2 => plain p /\ plain g1 /\ plain g2
  | CIndex => True
  end.
(** A column that holds a gate, a parameter or the index under its own name. *)
Definition bare (c : column) : Prop :=
  match c with CGate _ | CPar _ | CIndex => True | _ => False end.
