(** Model of qtune/storage.py L74-294: saving Python objects to HDF5 files and
    loading them again. *)
From Coq Require Import String Ascii List Bool Arith.
From Coq Require Import DecimalString.
From Verif Require Import PyExn.
Import ListNotations.
Local Open Scope string_scope.

(** [str(idx)] of a natural number, L99. *)
Definition str_of (n : nat) : string := NilEmpty.string_of_uint (Nat.to_uint n).

(** Dictionaries with [id]s or object ids as keys (the latest entry counts). *)
Fixpoint at_id {A} (i : nat) (d : list (nat * A)) : option A :=
  match d with
  | [] => None
  | (j, a) :: d' => if Nat.eqb i j then Some a else at_id i d'
  end.
(** Lookup by name. *)
Fixpoint named {A} (k : string) (d : list (string * A)) : option A :=
  match d with
  | [] => None
  | (j, a) :: d' => if String.eqb k j then Some a else named k d'
  end.

(** Links of a group in the order of h5py's iteration: by name. *)
Fixpoint insert_link {A} (e : string * A) (l : list (string * A)) : list (string * A) :=
  match l with
  | [] => [e]
  | f :: l' => if String.leb (fst e) (fst f) then e :: l else f :: insert_link e l'
  end.
Definition by_name {A} (l : list (string * A)) : list (string * A) := fold_right insert_link [] l.

(** Components of a link name: h5py takes names as paths.  Empty and "."
    components are ignored.  Simplification: a leading slash does not make the
    path absolute. *)
Fixpoint components (cur s : string) : list string :=
  match s with
  | EmptyString => [cur]
  | String c s' => if Ascii.eqb c "/"%char then cur :: components EmptyString s'
                   else components (cur ++ String c EmptyString) s'
  end.
Definition path (s : string) : list string :=
  filter (fun c => negb (String.eqb c "" || String.eqb c ".")) (components "" s).

Section Storage.
(** Contents of arrays, numbers and tables (values, index, columns, dtype);
    [storable]: h5py has a type for it (L42-45, L115, L124, L132, L137);
    [scalar]: the shape is (). *)
Variable payload : Type.
Variable storable scalar : payload -> bool.
(** The names in [serializables], L38, and the exception that the constructor
    raises for keyword arguments, if any (L208). *)
Variable serializables : string -> bool.

(** A Python object as the saving code sees it: the finite unfolding of the
    object graph, each object with its [id].  An object that is reachable on
    several ways occurs several times with the same id.  For an instance of a
    serializable class the fields are what its method to_hdf5() returns
    (L109).  Simplification: the keys of dicts are strings. *)
Inductive pyval :=
| PDict (i : nat) (kvs : list (string * pyval))
| PSeq (i : nat) (is_list : bool) (xs : list pyval)
| PInst (i : nat) (cls : string) (kvs : list (string * pyval))
| PTable (i : nat) (frame : bool) (p : payload)
| PArray (i : nat) (p : payload)
| PNum (i : nat) (numpy : bool) (p : payload)
| PStr (i : nat) (s : string)
| PNone (i : nat)
| POther (i : nat) (what : nat).

(** [id(obj)]. *)
Definition pid (t : pyval) : nat :=
  match t with
  | PDict i _ | PSeq i _ _ | PInst i _ _ | PTable i _ _ | PArray i _ | PNum i _ _ | PStr i _ | PNone i | POther i _ => i
  end.

Variable construct : string -> list (string * pyval) -> option exn.

(** An HDF5 object with its object id, its attribute '#type' and its contents
    (data, string, no data, object reference). *)
Inductive content := CData (p : payload) | CStr (s : string) | CEmpty | CRef (k : nat).
Inductive h5 :=
| HGroup (k : nat) (ty : option string) (links : list (string * h5))
| HData (k : nat) (ty : option string) (c : content).
Definition hid (h : h5) : nat := match h with HGroup k _ _ | HData k _ _ => k end.

(** [create_group(name)], [create_dataset(name, ...)]: intermediate groups of
    the path are created; an existing name or a dataset on the way is an error
    (ValueError).  [n] is the next free object id. *)
Fixpoint link_at (p : list string) (h : h5) (links : list (string * h5)) (n : nat) : res (list (string * h5) * nat) :=
  match p with
  | [] => Raise ValueError
  | [c] => match named c links with
           | Some _ => Raise ValueError
           | None => Ok ((links ++ [(c, h)])%list, n)
           end
  | c :: p' =>
      (fix into ls :=
         match ls with
         | [] => match link_at p' h [] (S n) with
                 | Ok (sub, n') => Ok ([(c, HGroup n None sub)], n')
                 | Raise e => Raise e
                 end
         | (c', g) :: ls' =>
             if String.eqb c c' then
               match g with
               | HGroup k ty sub => match link_at p' h sub n with
                                    | Ok (sub', n') => Ok ((c', HGroup k ty sub') :: ls', n')
                                    | Raise e => Raise e
                                    end
               | HData _ _ _ => Raise ValueError
               end
             else match into ls' with
                  | Ok (ls'', n') => Ok ((c', g) :: ls'', n')
                  | Raise e => Raise e
                  end
         end) links
  end.
Definition link (name : string) (h : h5) (links : list (string * h5)) (n : nat) : res (list (string * h5) * nat) :=
  link_at (path name) h links n.

(** State of a save: the dict [serialized] (id to HDF5 object) and the next
    free HDF5 object id. *)
Record saving := mk_saving { sv_ser : list (nat * nat); sv_next : nat }.
Definition fresh (s : saving) : nat * saving := (sv_next s, mk_saving (sv_ser s) (S (sv_next s))).
Definition register (i k : nat) (s : saving) : saving := mk_saving ((i, k) :: sv_ser s) (sv_next s).

(** The loops L90-91, L98-99, L110-111 over the members of an object that are
    saved into the group with links [ls].  Simplification: the member is made
    before it is linked (which of two exceptions is raised first is not
    modelled; the file after an exception is not modelled). *)
Definition put (name : string) (r : res (h5 * saving)) (ls : list (string * h5)) : res (list (string * h5) * saving) :=
  match r with
  | Raise e => Raise e
  | Ok (h, s) => match link name h ls (sv_next s) with
                 | Ok (ls', n') => Ok (ls', mk_saving (sv_ser s) n')
                 | Raise e => Raise e
                 end
  end.
Definition save_fields (save : pyval -> saving -> res (h5 * saving)) :=
  fix go (kvs : list (string * pyval)) (ls : list (string * h5)) (s : saving) : res (list (string * h5) * saving) :=
  match kvs with
  | [] => Ok (ls, s)
  | (key, value) :: kvs' =>
      match put key (save value s) ls with
      | Ok (ls', s') => go kvs' ls' s'
      | Raise e => Raise e
      end
  end.
Definition save_items (save : pyval -> saving -> res (h5 * saving)) :=
  fix go (idx : nat) (xs : list pyval) (ls : list (string * h5)) (s : saving) : res (list (string * h5) * saving) :=
  match xs with
  | [] => Ok (ls, s)
  | value :: xs' =>
      match put (str_of idx) (save value s) ls with
      | Ok (ls', s') => go (S idx) xs' ls' s'
      | Raise e => Raise e
      end
  end.

(** qtune/storage.py L74-153 [_to_hdf5]; the result is the new HDF5 object. *)
Fixpoint save (obj : pyval) (s : saving) {struct obj} : res (h5 * saving) :=
  let (k, s1) := fresh s in
  match at_id (pid obj) (sv_ser s) with
  | Some target => Ok (HData k None (CRef target), s1)
  | None =>
  match obj with
  | PDict i kvs =>
      match save_fields save kvs [] s1 with
      | Ok (ls, s2) => Ok (HGroup k (Some "dict") ls, register i k s2)
      | Raise e => Raise e
      end
  | PSeq i is_list xs =>
      match save_items save 0 xs [] s1 with
      | Ok (ls, s2) => Ok (HGroup k (Some (if is_list then "list" else "tuple")) ls, register i k s2)
      | Raise e => Raise e
      end
  | PInst i cls kvs =>
      if serializables cls then
        match save_fields save kvs [] (register i k s1) with
        | Ok (ls, s2) => Ok (HGroup k (Some cls) ls, s2)
        | Raise e => Raise e
        end
      else Raise RuntimeError
  | PTable i frame p =>
      if storable p then Ok (HData k (Some (if frame then "DataFrame" else "Series")) (CData p), register i k s1)
      else Raise TypeError
  | PArray i p => if storable p then Ok (HData k None (CData p), register i k s1) else Raise TypeError
  | PNum i _ p => if storable p then Ok (HData k None (CData p), s1) else Raise TypeError
  | PStr i str => Ok (HData k (Some "str") (CStr str), register i k s1)
  | PNone i => Ok (HData k (Some "NoneType") CEmpty, register i k s1)
  | POther i _ => Raise RuntimeError
  end
  end.

(** qtune/storage.py L171-174: one dataset per reserved object. *)
Fixpoint save_reserved (reserved : list (string * nat)) (ls : list (string * h5)) (s : saving) :
  res (list (string * h5) * saving) :=
  match reserved with
  | [] => Ok (ls, s)
  | (key, i) :: reserved' =>
      let (k, s1) := fresh s in
      match put key (Ok (HData k (Some "#reserved") CEmpty, s1)) ls with
      | Ok (ls', s2) => save_reserved reserved' ls' (register i k s2)
      | Raise e => Raise e
      end
  end.

(** qtune/storage.py L156-176 [to_hdf5] into a file with the root links [ls]; object id 0 is the
    root, [n] the next free object id of the file. *)
Definition to_hdf5 (ls : list (string * h5)) (n : nat) (name : string) (obj : pyval) (reserved : list (string * nat)) :
  res h5 :=
  match save_reserved reserved ls (mk_saving [] n) with
  | Raise e => Raise e
  | Ok (ls', s) => match put name (save obj s) ls' with
                   | Ok (ls'', _) => Ok (HGroup 0 None ls'')
                   | Raise e => Raise e
                   end
  end.

(** [root[reference]], L188. *)
Definition find_in (find : h5 -> option h5) :=
  fix go (ls : list (string * h5)) : option h5 :=
  match ls with
  | [] => None
  | (_, h) :: ls' => match find h with Some r => Some r | None => go ls' end
  end.
Fixpoint find_h5 (k : nat) (h : h5) : option h5 :=
  if Nat.eqb (hid h) k then Some h
  else match h with HGroup _ _ ls => find_in (find_h5 k) ls | HData _ _ _ => None end.

(** State of a load: the dict [deserialized] and the next id of a new Python
    object. *)
Record loading := mk_loading { ld_des : list (nat * pyval); ld_next : nat }.
(** A new object that is stored in [deserialized] (or not). *)
Definition made (k : nat) (v : nat -> pyval) (s : loading) : pyval * loading :=
  (v (ld_next s), mk_loading ((k, v (ld_next s)) :: ld_des s) (S (ld_next s))).
Definition unshared (v : nat -> pyval) (s : loading) : pyval * loading :=
  (v (ld_next s), mk_loading (ld_des s) (S (ld_next s))).

(** qtune/storage.py L198-199, L204-205: all members of a group. *)
Definition load_fields (load : h5 -> loading -> res (pyval * loading)) :=
  fix go (ls : list (string * h5)) (s : loading) : res (list (string * pyval) * loading) :=
  match ls with
  | [] => Ok ([], s)
  | (key, h) :: ls' =>
      match load h s with
      | Raise e => Raise e
      | Ok (v, s1) => match go ls' s1 with
                      | Ok (kvs, s2) => Ok ((key, v) :: kvs, s2)
                      | Raise e => Raise e
                      end
      end
  end.
(** qtune/storage.py L224-225, L230-231: the members '0', '1', ... *)
Definition load_items (load : h5 -> loading -> res (pyval * loading)) (ls : list (string * h5)) :=
  fix go (idxs : list nat) (s : loading) : res (list pyval * loading) :=
  match idxs with
  | [] => Ok ([], s)
  | idx :: idxs' =>
      match named (str_of idx) ls with
      | None => Raise KeyError
      | Some h => match load h s with
                  | Raise e => Raise e
                  | Ok (v, s1) => match go idxs' s1 with
                                  | Ok (vs, s2) => Ok (v :: vs, s2)
                                  | Raise e => Raise e
                                  end
                  end
      end
  end.

(** qtune/storage.py L179-271 [_from_hdf5]; [fuel] is what is left of the recursion limit.
    Simplification: dicts and lists are registered in [deserialized] when they
    are complete and not, empty, before their members are loaded (L195, L221);
    this makes no difference unless the file has a cycle of references. *)
Fixpoint load (fuel : nat) (root h : h5) (s : loading) : res (pyval * loading) :=
  match fuel with
  | 0 => Raise RecursionError
  | S fuel' =>
  match at_id (hid h) (ld_des s) with
  | Some v => Ok (v, s)
  | None =>
  match h with
  | HGroup k ty ls =>
      let as_dict :=
        match load_fields (load fuel' root) (by_name ls) s with
        | Ok (kvs, s1) => Ok (made k (fun i => PDict i kvs) s1)
        | Raise e => Raise e
        end in
      match ty with
      | None => as_dict
      | Some t =>
          if String.eqb t "dict" then as_dict
          else if serializables t then
            match load_fields (load fuel' root) (by_name ls) s with
            | Ok (kwargs, s1) => match construct t kwargs with
                                 | None => Ok (made k (fun i => PInst i t kwargs) s1)
                                 | Some e => Raise e
                                 end
            | Raise e => Raise e
            end
          else if String.eqb t "list" || String.eqb t "tuple" then
            match load_items (load fuel' root) ls (seq 0 (length ls)) s with
            | Ok (xs, s1) => Ok (made k (fun i => PSeq i (String.eqb t "list") xs) s1)
            | Raise e => Raise e
            end
          else Ok (PNone 0, s)
      end
  | HData k ty c =>
      match ty, c with
      | Some "NoneType", _ => Ok (PNone 0, s)
      | Some "DataFrame", CData p => Ok (made k (fun i => PTable i true p) s)
      | Some "Series", CData p => Ok (made k (fun i => PTable i false p) s)
      | Some "str", CStr str => Ok (made k (fun i => PStr i str) s)
      | _, CData p => Ok (unshared (fun i => if scalar p then PNum i true p else PArray i p) s)
      | _, CRef k' => match find_h5 k' root with
                      | Some h' => load fuel' root h' s
                      | None => Raise ValueError
                      end
      | _, _ => Raise TypeError
      end
  end
  end
  end.

(** qtune/storage.py L288-292: the reserved objects, by the names of their datasets. *)
Fixpoint load_reserved (reserved : list (string * pyval)) (ls : list (string * h5)) (d : list (nat * pyval)) :
  res (list (nat * pyval)) :=
  match ls with
  | [] => Ok d
  | (key, HData k (Some t) _) :: ls' =>
      if String.eqb t "#reserved" then
        match named key reserved with
        | Some v => load_reserved reserved ls' ((k, v) :: d)
        | None => Raise KeyError
        end
      else load_reserved reserved ls' d
  | (key, HGroup k (Some t) _) :: ls' =>
      if String.eqb t "#reserved" then
        match named key reserved with
        | Some v => load_reserved reserved ls' ((k, v) :: d)
        | None => Raise KeyError
        end
      else load_reserved reserved ls' d
  | _ :: ls' => load_reserved reserved ls' d
  end.

(** qtune/storage.py L274-294 [from_hdf5]; ids of new objects start at [n].  A
    dataset is no group and no file name (TypeError of [h5py.File], L285). *)
Definition from_hdf5 (fuel : nat) (root : h5) (reserved : list (string * pyval)) (n : nat) : res pyval :=
  match root with
  | HData _ _ _ => Raise TypeError
  | HGroup _ _ ls =>
      match load_reserved reserved (by_name ls) [] with
      | Raise e => Raise e
      | Ok d => match load fuel root root (mk_loading d n) with
                | Ok (v, _) => Ok v
                | Raise e => Raise e
                end
      end
  end.
End Storage.
Arguments PDict {payload}. Arguments PSeq {payload}. Arguments PInst {payload}. Arguments PTable {payload}.
Arguments PArray {payload}. Arguments PNum {payload}. Arguments PStr {payload}. Arguments PNone {payload}.
Arguments POther {payload}. Arguments pid {payload}.
Arguments HGroup {payload}. Arguments HData {payload}. Arguments hid {payload}.
Arguments CData {payload}. Arguments CStr {payload}. Arguments CEmpty {payload}. Arguments CRef {payload}.
