(** Model of qtune/mat2py.py L74-126: translation of Python indices to MATLAB
    index expressions. *)
From Coq Require Import ZArith String List Bool DecimalString.
From Verif Require Import PyExn.
Import ListNotations.
Local Open Scope string_scope.
Local Open Scope Z_scope.

(** A Python index: an integer, a slice (start, stop, step), a tuple of
    integers and slices.  (Other objects are returned unchanged, L126.) *)
Inductive pyidx1 := PyInt (i : Z) | PySlice (start stop step : option Z).
Inductive pyidx := Py1 (i : pyidx1) | PyTuple (is : list pyidx1).

(** ['%d' % n] and [str(n)]. *)
Definition str_z (n : Z) : string := NilZero.string_of_int (Z.to_int n).

(** qtune/mat2py.py L74-78 [_transform_int]. *)
Definition transform_int (i : Z) : string :=
  if i <? 0 then ("end - " ++ str_z (Z.abs i))%string else str_z (i + 1).

(** qtune/mat2py.py L89-109 [_transform_slice]; L97 reads the global name [idx], which does
    not exist. *)
Definition transform_slice (start stop step : option Z) : res string :=
  let st := match step with None => 1 | Some s => s end in
  match start with
  | Some _ => Raise NameError
  | None =>
      let a := if 0 <? st then "1" else "end" in
      let b := match stop with
               | None => if 0 <? st then "end" else "1"
               | Some e => if e <? 0 then ("(end - " ++ str_z (Z.abs e) ++ ")")%string
                           else str_z (if 0 <? st then e else e + 1)
               end in
      Ok (a ++ ":" ++ str_z st ++ ":" ++ b)%string
  end.

Definition transform_1 (i : pyidx1) : res string :=
  match i with
  | PyInt i => Ok (transform_int i)
  | PySlice start stop step => transform_slice start stop step
  end.

(** qtune/mat2py.py L112-115 [_transform_tuple]. *)
Fixpoint transform_all (is : list pyidx1) : res (list string) :=
  match is with
  | [] => Ok []
  | i :: is' => match transform_1 i with
                | Raise e => Raise e
                | Ok s => match transform_all is' with
                          | Raise e => Raise e
                          | Ok ss => Ok (s :: ss)
                          end
                end
  end.
(** qtune/mat2py.py L117-126 [transform_index]. *)
Definition transform_index (i : pyidx) : res string :=
  match i with
  | Py1 i => transform_1 i
  | PyTuple is => match transform_all is with
                  | Ok ss => Ok (String.concat "," ss)
                  | Raise e => Raise e
                  end
  end.
