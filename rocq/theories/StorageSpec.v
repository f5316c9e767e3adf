(** Vocabulary for the properties of the storage code: parts of an object,
    objects that can be saved, and when a loaded object is a faithful copy. *)
From Coq Require Import String Ascii List Bool Arith Permutation.
From Verif Require Import PyExn StorageModel.
Import ListNotations.
Local Open Scope string_scope.

(** A name without path syntax. *)
Definition plain (s : string) : Prop := s <> "" /\ s <> "." /\ ~ In "/"%char (list_ascii_of_string s).

Section Spec.
Context {payload : Type}.
Notation pyval := (pyval payload).

(** Direct members of an object. *)
Definition members (t : pyval) : list pyval :=
  match t with
  | PDict _ kvs | PInst _ _ kvs => map snd kvs
  | PSeq _ _ xs => xs
  | _ => []
  end.
(** The names of the members of dicts and instances. *)
Definition keys (t : pyval) : list string :=
  match t with PDict _ kvs | PInst _ _ kvs => map fst kvs | _ => [] end.
(** [within a t]: [a] is [t] or reachable from it; [reached rsv a t]: in such a
    way that no reserved object has to be opened. *)
Inductive within (a : pyval) : pyval -> Prop :=
| within_self : within a a
| within_member c t : In c (members t) -> within a c -> within a t.
Inductive reached (rsv : nat -> Prop) (a : pyval) : pyval -> Prop :=
| reached_self : reached rsv a a
| reached_member c t : ~ rsv (pid t) -> In c (members t) -> reached rsv a c -> reached rsv a t.
(** The ids identify the objects. *)
Definition ids_unique (rsv : nat -> Prop) (t : pyval) : Prop :=
  forall a b, reached rsv a t -> reached rsv b t -> pid a = pid b -> a = b.

(** Nesting depth. *)
Definition depth_max (f : pyval -> nat) := fix go (xs : list pyval) : nat :=
  match xs with [] => 0 | x :: xs' => Nat.max (f x) (go xs') end.
Definition depth_max_snd (f : pyval -> nat) := fix go (kvs : list (string * pyval)) : nat :=
  match kvs with [] => 0 | (_, x) :: kvs' => Nat.max (f x) (go kvs') end.
Fixpoint depth (t : pyval) : nat :=
  match t with
  | PDict _ kvs | PInst _ _ kvs => S (depth_max_snd depth kvs)
  | PSeq _ _ xs => S (depth_max depth xs)
  | _ => 0
  end.

(** The objects that can be saved on their own: containers with plain distinct
    names, instances of known classes, arrays and tables of types known to
    HDF5, numbers, strings, None. *)
Definition can_save (storable scalar : payload -> bool) (serializables : string -> bool) (t : pyval) : Prop :=
  NoDup (keys t) /\ Forall plain (keys t) /\
  match t with
  | PInst _ cls _ => serializables cls = true
  | PTable _ _ p | PArray _ p => storable p = true
  | PNum _ _ p => storable p = true /\ scalar p = true
  | POther _ _ => False
  | _ => True
  end.

(** [v] is a copy of [t]: the same structure, where objects with the id [i]
    have become objects with an id [j] with [loc i j], and the objects in
    [R] (by their id) have been replaced.  Members of dicts and instances may be
    in another order.  Arrays, numbers and None have no [loc]. *)
Definition match_fields (f : pyval -> pyval -> Prop) := fix go (kvs kvs' : list (string * pyval)) : Prop :=
  match kvs, kvs' with
  | [], [] => True
  | (k, t) :: kvs1, (k', t') :: kvs1' => k = k' /\ f t t' /\ go kvs1 kvs1'
  | _, _ => False
  end.
Definition match_items (f : pyval -> pyval -> Prop) := fix go (xs xs' : list pyval) : Prop :=
  match xs, xs' with
  | [], [] => True
  | t :: xs1, t' :: xs1' => f t t' /\ go xs1 xs1'
  | _, _ => False
  end.
Fixpoint copy (scalar : payload -> bool) (loc : nat -> nat -> Prop) (R : list (nat * pyval)) (t v : pyval) {struct t} : Prop :=
  match at_id (pid t) R with
  | Some v0 => v = v0
  | None =>
  match t, v with
  | PDict i kvs, PDict j kvs' => loc i j /\ exists l, Permutation l kvs' /\ match_fields (copy scalar loc R) kvs l
  | PInst i cls kvs, PInst j cls' kvs' => loc i j /\ cls = cls' /\ exists l, Permutation l kvs' /\ match_fields (copy scalar loc R) kvs l
  | PSeq i b xs, PSeq j b' xs' => loc i j /\ b = b' /\ match_items (copy scalar loc R) xs xs'
  | PTable i b p, PTable j b' p' => loc i j /\ b = b' /\ p = p'
  | PStr i s, PStr j s' => loc i j /\ s = s'
  | PArray _ p, PArray _ p' => p = p' /\ scalar p = false
  | PArray _ p, PNum _ b' p' => p = p' /\ scalar p = true /\ b' = true
  | PNum _ _ p, PNum _ b' p' => p = p' /\ b' = true
  | PNone _, PNone _ => True
  | _, _ => False
  end
  end.

(** [loc] is a one to one correspondence. *)
Definition one_to_one (loc : nat -> nat -> Prop) : Prop :=
  forall i j i' j', loc i j -> loc i' j' -> (i = i' <-> j = j').

(** The replacements for the reserved objects: ids of the saved ones with the
    ones given on loading. *)
Definition replacements (reserved : list (string * nat)) (supplied : list (string * pyval)) : list (nat * pyval) :=
  flat_map (fun r => match named (fst r) supplied with Some v => [(snd r, v)] | None => [] end) reserved.
End Spec.
