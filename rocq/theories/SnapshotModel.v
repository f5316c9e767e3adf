(** Snapshots of the asynchronous writer: qtune/storage.py L360-369 with
    qtune/experiment.py L90-91 and qtune/autotuner.py L221-225.  The object that
    is to be saved is deep-copied together with the reserved objects; an
    experiment is not copied, its [__deepcopy__] returns [id(self)]. *)
From Coq Require Import String List Bool Arith.
From Verif Require Import PyExn StorageModel.
Import ListNotations.
Local Open Scope list_scope.

Section Snapshot.
Context {payload : Type}.
Notation pyval := (pyval payload).
(** The number that [id] returns for the object, and which of the other
    objects are experiments. *)
Variable address : nat -> payload.
Variable experiment : nat -> bool.

(** The memo of [copy.deepcopy] and the next free id. *)
Definition copying : Type := list (nat * pyval) * nat.
(** A new object, noted in the memo. *)
Definition kept (i : nat) (mk : nat -> pyval) (s : copying) : pyval * copying :=
  (mk (snd s), ((i, mk (snd s)) :: fst s, S (snd s))).
Definition copy_items (dc : pyval -> copying -> res (pyval * copying)) :=
  fix go (xs : list pyval) (s : copying) : res (list pyval * copying) :=
  match xs with
  | [] => Ok ([], s)
  | x :: xs' => match dc x s with
                | Raise e => Raise e
                | Ok (v, s1) => match go xs' s1 with Ok (vs, s2) => Ok (v :: vs, s2) | Raise e => Raise e end
                end
  end.
Definition copy_fields (dc : pyval -> copying -> res (pyval * copying)) :=
  fix go (kvs : list (string * pyval)) (s : copying) : res (list (string * pyval) * copying) :=
  match kvs with
  | [] => Ok ([], s)
  | (k, x) :: kvs' => match dc x s with
                      | Raise e => Raise e
                      | Ok (v, s1) => match go kvs' s1 with Ok (vs, s2) => Ok ((k, v) :: vs, s2) | Raise e => Raise e end
                      end
  end.
Fixpoint same_objects (xs ys : list pyval) : bool :=
  match xs, ys with
  | [], [] => true
  | x :: xs', y :: ys' => Nat.eqb (pid x) (pid y) && same_objects xs' ys'
  | _, _ => false
  end.

(** [copy.deepcopy] as qtune/storage.py L367 uses it.  Python numbers, strings
    and None are returned as they are, and so is a tuple none of whose members
    has changed; everything else is new, and is found in the memo when it is met
    again.  For an experiment the memo has the number (qtune/experiment.py
    L90-91).  Simplifications: the members of an instance are those its to_hdf5
    returns; objects enter the memo when they are complete (no cycles); other
    objects, such as locks, cannot be copied. *)
Fixpoint deepcopy (t : pyval) (s : copying) {struct t} : res (pyval * copying) :=
  match at_id (pid t) (fst s) with
  | Some v => Ok (v, s)
  | None =>
  match t with
  | PDict i kvs => match copy_fields deepcopy kvs s with
                   | Ok (kvs', s') => Ok (kept i (fun j => PDict j kvs') s')
                   | Raise e => Raise e
                   end
  | PInst i cls kvs => match copy_fields deepcopy kvs s with
                       | Ok (kvs', s') => Ok (kept i (fun j => PInst j cls kvs') s')
                       | Raise e => Raise e
                       end
  | PSeq i is_list xs => match copy_items deepcopy xs s with
                         | Ok (xs', s') => if negb is_list && same_objects xs xs' then Ok (t, s')
                                           else Ok (kept i (fun j => PSeq j is_list xs') s')
                         | Raise e => Raise e
                         end
  | PTable i frame p => Ok (kept i (fun j => PTable j frame p) s)
  | PArray i p => Ok (kept i (fun j => PArray j p) s)
  | PNum i numpy p => if numpy then Ok (kept i (fun j => PNum j true p) s) else Ok (t, s)
  | PStr _ _ | PNone _ => Ok (t, s)
  | POther i what => if experiment what then Ok (kept i (fun j => PNum j false (address i)) s) else Raise TypeError
  end
  end.

(** qtune/storage.py L360-369 [write] with a living worker: the copies of the
    object and of the reserved objects; [n]: the next free id. *)
Definition snapshot (obj : pyval) (reserved : list (string * pyval)) (n : nat) : res (pyval * list (string * pyval)) :=
  match deepcopy obj ([], n) with
  | Raise e => Raise e
  | Ok (obj', s) => match copy_fields deepcopy reserved s with
                    | Raise e => Raise e
                    | Ok (reserved', _) => Ok (obj', reserved')
                    end
  end.

(** The worker, qtune/storage.py L304-307: the file that is written from the snapshot. *)
Definition written (storable : payload -> bool) (serializables : string -> bool) (name : string)
  (task : pyval * list (string * pyval)) : res (h5 payload) :=
  to_hdf5 payload storable serializables [] 1 name (fst task) (map (fun r => (fst r, pid (snd r))) (snd task)).

(** With multiprocess=True (the default of qtune/storage.py L319-329) the task is pickled into
    the queue.  Pickle has no memo for numbers: every occurrence of a number is
    an object of its own in the worker. *)
Fixpoint unpickled_num (t : pyval) (n : nat) {struct t} : pyval * nat :=
  let fields := fix go (kvs : list (string * pyval)) (n : nat) : list (string * pyval) * nat :=
    match kvs with
    | [] => ([], n)
    | (k, x) :: kvs' => let (v, n1) := unpickled_num x n in let (vs, n2) := go kvs' n1 in ((k, v) :: vs, n2)
    end in
  let items := fix go (xs : list pyval) (n : nat) : list pyval * nat :=
    match xs with
    | [] => ([], n)
    | x :: xs' => let (v, n1) := unpickled_num x n in let (vs, n2) := go xs' n1 in (v :: vs, n2)
    end in
  match t with
  | PDict i kvs => let (kvs', n') := fields kvs n in (PDict i kvs', n')
  | PInst i cls kvs => let (kvs', n') := fields kvs n in (PInst i cls kvs', n')
  | PSeq i b xs => let (xs', n') := items xs n in (PSeq i b xs', n')
  | PNum _ b p => (PNum n b p, S n)
  | _ => (t, n)
  end.
Definition pickled (task : pyval * list (string * pyval)) (n : nat) : pyval * list (string * pyval) :=
  let (obj, n1) := unpickled_num (fst task) n in
  (obj, snd (fold_left (fun acc r => let (v, k) := unpickled_num (snd r) (fst acc) in (k, snd acc ++ [(fst r, v)])) (snd task) (n1, []))).
End Snapshot.
