(** What a transfer to MATLAB should preserve, stated without the conversion. *)
From Coq Require Import List Arith String.
From Verif Require Import PyExn EngineModel.
Import ListNotations.

Section Spec.
Variable V : Type.

(** Entry (i, j) of a numpy array with [c] columns (row major) and of a MATLAB
    array with [r] rows (column major). *)
Definition np_entry (c : nat) (data : list V) (i j : nat) : option V := nth_error data (i * c + j).
Definition ml_entry (r : nat) (data : list V) (i j : nat) : option V := nth_error data (j * r + i).

(** The objects inside a Python object, and inside what MATLAB receives, with
    the way to them.  Nothing is inside a tuple: MATLAB gets a generator. *)
Inductive step := At (n : nat) | Key (k : string).
Inductive inside : list step -> pyval V -> pyval V -> Prop :=
| in_here v : inside [] v v
| in_list n l u p w : nth_error l n = Some u -> inside p u w -> inside (At n :: p) (PList l) w
| in_set n l u p w : nth_error l n = Some u -> inside p u w -> inside (At n :: p) (PSet l) w
| in_dict k d u p w : In (k, u) d -> inside p u w -> inside (Key k :: p) (PDict d) w
| in_series k s x : In (k, x) s -> inside [Key k] (PSeries s) (PGeneric x).
Inductive minside : list step -> mval V -> mval V -> Prop :=
| min_here v : minside [] v v
| min_list n l u p w : nth_error l n = Some u -> minside p u w -> minside (At n :: p) (MList l) w
| min_set n l u p w : nth_error l n = Some u -> minside p u w -> minside (At n :: p) (MSet l) w
| min_dict k d u p w : In (k, u) d -> minside p u w -> minside (Key k :: p) (MDict d) w.

(** Arrays MATLAB can represent: known type, at least one dimension, and at
    most two dimensions that are not leading ones. *)
Definition flat_shape (shape : list nat) : Prop :=
  (exists n, shape = [n]) \/ exists k r c, shape = repeat 1 k ++ [r; c].
Definition known_dtype (d : dtype) : Prop := forall name, d <> OtherDtype name.
(** Objects that cannot be transferred. *)
Definition unfit (v : pyval V) : Prop :=
  match v with
  | POther => True
  | PArray d shape _ => ~ (known_dtype d /\ flat_shape shape)
  | PSeries s => ~ NoDup (map fst s)
  | _ => False
  end.
(** Every array has as many entries as its shape says. *)
Fixpoint sound (v : pyval V) : Prop :=
  match v with
  | PArray _ shape data => List.length data = fold_right Nat.mul 1 shape
  | PList l | PSet l | PTuple l => (fix all l := match l with [] => True | x :: l' => sound x /\ all l' end) l
  | PDict d => (fix all d := match d with [] => True | (_, x) :: d' => sound x /\ all d' end) d
  | _ => True
  end.
End Spec.
Arguments np_entry {V}. Arguments ml_entry {V}. Arguments inside {V}. Arguments minside {V}. Arguments unfit {V}. Arguments sound {V}.
