(** Conversion of Python objects for the MATLAB engine and the registry of
    connected engines: qtune/sm.py L45-87, L124-161.

    Simplifications: numbers are opaque values (a float, an int and the float
    made from a numpy scalar are the same number); [bytes] followed by
    [typecast] gives back the entries of the array in C order; the entries of
    an array are given with its shape, whose product is their number; sets are
    lists without order.  Trusted behaviour of MATLAB: [reshape] takes at
    least two sizes whose product is the number of entries, drops trailing
    sizes 1 after the second and keeps the order of the entries (column
    major); [transpose] refuses arrays with more than two dimensions. *)
From Coq Require Import List Arith Bool String.
From Verif Require Import PyExn.
Import ListNotations.

Section Convert.
Variable V : Type.

Inductive dtype := Float64 | Float32 | Bool8 | Int32 | UInt64 | OtherDtype (name : string).
(** [PNum]: type float or int; [PGeneric]: a numpy scalar; [PSeries]: a Series
    of numbers; [POther]: every other object (str, bool, None, ...). *)
Inductive pyval :=
| PNum (x : V) | PGeneric (x : V) | POther
| PArray (d : dtype) (shape : list nat) (data : list V)
| PSeries (s : list (string * V))
| PList (l : list pyval) | PTuple (l : list pyval) | PSet (l : list pyval)
| PDict (d : list (string * pyval)).
(** [MArray]: sizes and entries in column major order; [MGenerator]: a Python
    generator over objects that are not converted yet. *)
Inductive mval :=
| MNum (x : V)
| MArray (dims : list nat) (data : list V)
| MList (l : list mval) | MGenerator (l : list pyval) | MSet (l : list mval)
| MDict (d : list (string * mval)).

(** NotImplementedError and matlab.engine.MatlabExecutionError. *)
Definition not_implemented : exn := OtherError 3.
Definition engine_error : exn := OtherError 7.

(** qtune/sm.py L133-137: the keys of [conversions]. *)
Definition supported (d : dtype) : bool := match d with OtherDtype _ => false | _ => true end.

Fixpoint strip_ones (l : list nat) : list nat :=
  match l with 1 :: l' => strip_ones l' | _ => l end.
Definition sizes (dims : list nat) : list nat :=
  match dims with
  | a :: b :: rest => a :: b :: rev (strip_ones (rev rest))
  | _ => dims
  end.
Definition product (l : list nat) : nat := fold_right Nat.mul 1 l.
(** MATLAB [reshape(data, dims...)]. *)
Definition m_reshape (data : list V) (dims : list nat) : res (list nat * list V) :=
  match dims with
  | _ :: _ :: _ => if product dims =? List.length data then Ok (sizes dims, data) else Raise engine_error
  | _ => Raise engine_error
  end.
(** MATLAB [transpose] of an m x n array. *)
Definition m_transpose (a : list nat * list V) : res (list nat * list V) :=
  match a with
  | ([m; n], data) =>
      Ok ([n; m], flat_map (fun k => flat_map (fun l => match nth_error data (l * m + k) with Some x => [x] | None => [] end)
                                              (seq 0 n)) (seq 0 m))
  | _ => Raise engine_error
  end.
(** qtune/sm.py L130-149. *)
Definition convert_array (d : dtype) (shape : list nat) (data : list V) : res mval :=
  if supported d then
    let shape' := rev shape in
    let shape'' := if List.length shape' =? 1 then shape' ++ [1] else shape' in
    match m_reshape data shape'' with
    | Raise e => Raise e
    | Ok a => match m_transpose a with
              | Raise e => Raise e
              | Ok (dims, entries) => Ok (MArray dims entries)
              end
    end
  else Raise not_implemented.

(** [dict(obj)] of a Series (L129): a label that occurs twice is looked up as a
    Series of both entries, whose conversion looks the label up again. *)
Fixpoint labels_repeat (ls : list string) : bool :=
  match ls with [] => false | l :: ls' => existsb (String.eqb l) ls' || labels_repeat ls' end.
Definition convert_series (s : list (string * V)) : res mval :=
  if labels_repeat (map fst s) then Raise RecursionError
  else Ok (MDict (map (fun p => (fst p, MNum (snd p))) s)).

(** qtune/sm.py L124-161 [to_matlab]. *)
Fixpoint to_matlab (v : pyval) : res mval :=
  let all := fix all (l : list pyval) : res (list mval) :=
    match l with
    | [] => Ok []
    | x :: l' => match to_matlab x with
                 | Raise e => Raise e
                 | Ok m => match all l' with Raise e => Raise e | Ok ms => Ok (m :: ms) end
                 end
    end in
  match v with
  | PNum x => Ok (MNum x)
  | PSeries s => convert_series s
  | PArray d shape data => convert_array d shape data
  | PGeneric x => Ok (MNum x)
  | PList l => match all l with Raise e => Raise e | Ok ms => Ok (MList ms) end
  | PTuple l => Ok (MGenerator l)
  | PDict d =>
      match (fix entries (d : list (string * pyval)) : res (list (string * mval)) :=
               match d with
               | [] => Ok []
               | (k, x) :: d' => match to_matlab x with
                                 | Raise e => Raise e
                                 | Ok m => match entries d' with Raise e => Raise e | Ok ms => Ok ((k, m) :: ms) end
                                 end
               end) d with
      | Raise e => Raise e
      | Ok ms => Ok (MDict ms)
      end
  | PSet l => match all l with Raise e => Raise e | Ok ms => Ok (MSet ms) end
  | POther => Raise not_implemented
  end.
End Convert.

Arguments PNum {V}. Arguments PGeneric {V}. Arguments POther {V}. Arguments PArray {V}. Arguments PSeries {V}.
Arguments PList {V}. Arguments PTuple {V}. Arguments PSet {V}. Arguments PDict {V}.
Arguments MNum {V}. Arguments MArray {V}. Arguments MList {V}. Arguments MGenerator {V}. Arguments MSet {V}. Arguments MDict {V}.
Arguments m_reshape {V}. Arguments m_transpose {V}. Arguments convert_array {V}. Arguments convert_series {V}. Arguments to_matlab {V}.

(** The registry of connected engines, qtune/sm.py L45-87.  A MATLAB session is
    its process id; its name is the name under which it is shared.  The keys
    are process ids (L68) and names (L86). *)
Inductive key := KPid (p : nat) | KName (s : string).
Definition key_eqb (a b : key) : bool :=
  match a, b with
  | KPid p, KPid q => p =? q
  | KName s, KName t => String.eqb s t
  | _, _ => false
  end.
Record registry := mk_registry {
  r_engines : list (key * nat);  (* SpecialMeasureMatlab.connected_engines, in order *)
  r_connected : list nat;        (* sessions this process is connected to *)
  r_twice : list nat             (* sessions to which a second connection was attempted *)
}.
Fixpoint find_key (k : key) (l : list (key * nat)) : option nat :=
  match l with [] => None | (k', p) :: l' => if key_eqb k k' then Some p else find_key k l' end.
Fixpoint put_key (k : key) (p : nat) (l : list (key * nat)) : list (key * nat) :=
  match l with
  | [] => [(k, p)]
  | (k', q) :: l' => if key_eqb k k' then (k, p) :: l' else (k', q) :: put_key k p l'
  end.

Section Registry.
Variable name : nat -> string.

(** [SpecialMeasureMatlab(connect)] (L49-59): start an engine, whose process id
    is [p]; connect to any engine, [p] being the one MATLAB offers; connect by
    name, [p] being the session of that name.  [Drop p]: the last reference to
    the engine is gone; its entries leave the WeakValueDictionary. *)
Inductive request := Start (p : nat) | ConnectAny (p : nat) | ConnectName (s : string) (p : nat) | Drop (p : nat).

(** [matlab.engine.connect_matlab] and L86-87: MATLAB does not allow to connect
    to the same engine twice (L47). *)
Definition connect_to (p : nat) (r : registry) : registry * res nat :=
  if existsb (Nat.eqb p) (r_connected r)
  then (mk_registry (r_engines r) (r_connected r) (p :: r_twice r), Raise engine_error)
  else (mk_registry (put_key (KName (name p)) p (r_engines r)) (p :: r_connected r) (r_twice r), Ok p).
Definition serve (q : request) (r : registry) : registry * res nat :=
  match q with
  | Start p => (mk_registry (put_key (KPid p) p (r_engines r)) (p :: r_connected r) (r_twice r), Ok p)
  | ConnectAny p => match r_engines r with
                    | (_, e) :: _ => (r, Ok e)
                    | [] => connect_to p r
                    end
  | ConnectName s p => match find_key (KName s) (r_engines r) with
                       | Some e => (r, Ok e)
                       | None => connect_to p r
                       end
  | Drop p => (mk_registry (filter (fun x => negb (snd x =? p)) (r_engines r))
                           (filter (fun x => negb (x =? p)) (r_connected r)) (r_twice r), Ok p)
  end.
Definition serve_all (qs : list request) (r : registry) : registry :=
  fold_left (fun r q => fst (serve q r)) qs r.
End Registry.
