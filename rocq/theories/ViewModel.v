(** Views of MATLAB data: qtune/mat2py.py L25-51, L54-71, L80-86, L129-254, and
    how the quadruple dot experiment uses them (qtune/sm_tune_qqd.py L111-127,
    L161-169).

    A view is a text that is evaluated by MATLAB each time something is read.
    The model keeps the text as a tree and has a small evaluator for it.
    Simplifications: struct arrays have one dimension; numbers, texts and other
    values are opaque; items are chosen by integers (slices: Mat2pyModel.v);
    items of cell arrays and columns of tables are not read; fields of a struct
    array with several elements are only read element by element; an exception
    of MATLAB is [OtherError 0]; [util.py.my_eval] is the MATLAB function
    [eval]. *)
From Coq Require Import String Ascii List Bool Arith ZArith.
From Verif Require Import PyExn.
Import ListNotations.
Local Open Scope string_scope.
Local Open Scope list_scope.

Definition matlab_error := OtherError 0.
Inductive mval :=
| MOpaque (code : Z)
| MStruct (elements : list (list (string * mval)))
| MCell (items : list mval)
| MTable (columns : list (string * mval)).
Definition dict A := list (string * A).
Fixpoint get {A} (k : string) (l : dict A) : option A :=
  match l with [] => None | (k', a) :: l' => if String.eqb k k' then Some a else get k l' end.
(** Assignment keeps the order of the names, new ones come last. *)
Fixpoint put {A} (k : string) (a : A) (l : dict A) : dict A :=
  match l with [] => [(k, a)] | (k', b) :: l' => if String.eqb k k' then (k', a) :: l' else (k', b) :: put k a l' end.
Fixpoint drop {A} (k : string) (l : dict A) : dict A :=
  match l with [] => [] | (k', a) :: l' => if String.eqb k k' then drop k l' else (k', a) :: drop k l' end.

(** Texts: a variable, [a.b] (L230), [_get_item_array] (L58-59) of
    [_transform_int] (L74-78), [_get_field] (L66-67). *)
Inductive text := Var (x : string) | Dot (t : text) (field : string) | Item (t : text) (index : Z) | Field (t : text) (field : string).

Definition field_of (v : mval) (f : string) : res mval :=
  match v with
  | MStruct [e] => match get f e with Some x => Ok x | None => Raise matlab_error end
  | _ => Raise matlab_error
  end.
(** For a negative index the text has [end] (L75-76) among the arguments of a
    function, which MATLAB does not accept. *)
Definition item_of (v : mval) (i : Z) : res mval :=
  match v with
  | MStruct es => if (i <? 0)%Z then Raise matlab_error
                  else match nth_error es (Z.to_nat i) with Some e => Ok (MStruct [e]) | None => Raise matlab_error end
  | _ => Raise matlab_error
  end.
Definition bind {A B} (r : res A) (f : A -> res B) : res B := match r with Ok a => f a | Raise e => Raise e end.
Fixpoint meval (ws : dict mval) (t : text) : res mval :=
  match t with
  | Var x => match get x ws with Some v => Ok v | None => Raise matlab_error end
  | Dot t f | Field t f => bind (meval ws t) (fun v => field_of v f)
  | Item t i => bind (meval ws t) (fun v => item_of v i)
  end.

Section Views.
(** The state of the device: what functions of MATLAB read and change. *)
Variable W : Type.
(** Functions with a file, by the text after "@". *)
Definition functions := string -> option (list mval -> W -> res mval * W).
Variable path : functions.

Inductive view := VStruct (t : text) | VCell (t : text) | VTable (t : text) | VFunction (name : string) | VValue (v : mval).

(** [@text] is a handle of a function for names and names with points. *)
Fixpoint handle (t : text) : option string :=
  match t with
  | Var x => Some x
  | Dot t f => match handle t with Some s => Some (s ++ "." ++ f)%string | None => None end
  | _ => None
  end.
(** qtune/mat2py.py L25-51 [make_view]. *)
Definition make_view (ws : dict mval) (t : text) : res view :=
  match match handle t with Some s => match path s with Some _ => Some s | None => None end | None => None end with
  | Some s => Ok (VFunction s)
  | None =>
      match meval ws t with
      | Raise e => Raise e
      | Ok (MStruct _) => Ok (VStruct t)
      | Ok (MCell _) => Ok (VCell t)
      | Ok (MTable _) => Ok (VTable t)
      | Ok v => Ok (VValue v)
      end
  end.

(** qtune/mat2py.py L152-153 [__len__] (numel). *)
Definition struct_len (ws : dict mval) (t : text) : res nat :=
  bind (meval ws t) (fun v => match v with MStruct es => Ok (length es) | MCell l => Ok (length l) | MTable _ | MOpaque _ => Raise matlab_error end).
(** [fieldnames]; an array without elements has its names too, which are left
    out here. *)
Definition field_names (ws : dict mval) (t : text) : res (list string) :=
  bind (meval ws t) (fun v => match v with MStruct (e :: _) => Ok (map fst e) | MStruct [] => Ok [] | _ => Raise matlab_error end).
(** qtune/mat2py.py L157-167 [__getattr__] of a struct view: a view, or a
    generator of one view for each element. *)
Inductive attribute := One (v : view) | Many (l : list (res view)).
Definition private (f : string) : bool := String.prefix "_" f.
Definition getattr1 (ws : dict mval) (t : text) (f : string) : res attribute :=
  if private f then Raise AttributeError
  else
    let listed := bind (field_names ws t) (fun l => if existsb (String.eqb f) l then Ok tt else Raise AttributeError) in
    match (if String.eqb f "getdoc" || String.eqb f "next" then listed else Ok tt) with
    | Raise e => Raise e
    | Ok _ =>
        bind (struct_len ws t) (fun n =>
          if (n =? 1)%nat then bind (make_view ws (Field t f)) (fun v => Ok (One v))
          else Ok (Many (map (fun i => make_view ws (Field (Item t (Z.of_nat i)) f)) (seq 0 n))))
    end.
(** L169-172 [__getitem__], L174-176 [__iter__]. *)
Definition getitem (t : text) (i : Z) : view := VStruct (Item t i).
Definition iterate (ws : dict mval) (t : text) : res (list view) :=
  bind (struct_len ws t) (fun n => Ok (map (fun i => getitem t (Z.of_nat i)) (seq 0 n))).

(** ** Calls of functions, qtune/mat2py.py L216-248 *)
Definition base_path := "MATLABViewFromPythonData".
Inductive argument := Python (v : mval) | View (t : text).
Definition call_text (id : string) : text := Dot (Var base_path) id.
Definition empty_value := MOpaque 0.
(** L231: [struct('args', {{}}, 'result', [])]. *)
Definition empty_call (args : list mval) (result : mval) : mval := MStruct [[("args", MCell args); ("result", result)]].
(** [MATLABViewFromPythonData.id = ...]. *)
Definition set_call (id : string) (v : mval) (ws : dict mval) : res (dict mval) :=
  match get base_path ws with
  | Some (MStruct [e]) => Ok (put base_path (MStruct [put id v e]) ws)
  | _ => Raise matlab_error
  end.
(** L234-241: the arguments are put into the cell array one by one, a value of
    Python by way of the variable [temp]. *)
Fixpoint put_args (id : string) (args : list argument) (done : list mval) (ws : dict mval) : dict mval * res (list mval) :=
  match args with
  | [] => (ws, Ok done)
  | a :: args' =>
      let (ws1, t) := match a with Python v => (put "temp" v ws, Var "temp") | View t => (ws, t) end in
      match meval ws1 t with
      | Raise e => (ws1, Raise e)
      | Ok v => match set_call id (empty_call (done ++ [v]) empty_value) ws1 with
                | Raise e => (ws1, Raise e)
                | Ok ws2 => put_args id args' (done ++ [v]) ws2
                end
      end
  end.
(** L219-248 [__call__] with the number [id] of L225. *)
Definition call (name id : string) (args : list argument) (st : dict mval * W) : (dict mval * W) * res view :=
  let (ws, w) := st in
  let ws0 := match get base_path ws with None => put base_path (MStruct [[]]) ws | Some _ => ws end in
  match set_call id (empty_call [] empty_value) ws0 with
  | Raise e => ((ws0, w), Raise e)
  | Ok ws1 =>
      match put_args id args [] ws1 with
      | (ws2, Raise e) => ((ws2, w), Raise e)
      | (ws2, Ok vals) =>
          match path name with
          | None => ((ws2, w), Raise matlab_error)
          | Some f =>
              match f vals w with
              | (Raise e, w') => ((ws2, w'), Raise e)
              | (Ok r, w') =>
                  match set_call id (empty_call vals r) ws2 with
                  | Raise e => ((ws2, w'), Raise e)
                  | Ok ws3 => ((ws3, w'), make_view ws3 (Dot (call_text id) "result"))
                  end
              end
          end
      end
  end.
(** L253-254 [clear_all_temporary_data]. *)
Definition clear (ws : dict mval) : dict mval := drop base_path ws.

(** Calls one after the other; exceptions are caught by the caller. *)
Fixpoint calls (l : list (string * string * list argument)) (st : dict mval * W) : (dict mval * W) * list (res view) :=
  match l with
  | [] => (st, [])
  | (name, id, args) :: l' =>
      let (st1, r) := call name id args st in
      let (st2, rs) := calls l' st1 in (st2, r :: rs)
  end.

(** Reading [data.a.b]. *)
Definition read2 (ws : dict mval) (v : view) (a b : string) : res view :=
  match v with
  | VStruct t => bind (getattr1 ws t a) (fun x =>
      match x with
      | One (VStruct t') => bind (getattr1 ws t' b) (fun y => match y with One v => Ok v | Many _ => Raise TypeError end)
      | _ => Raise AttributeError
      end)
  | _ => Raise AttributeError
  end.
(** qtune/sm_tune_qqd.py L111-127 and L163-168: the function is called and two
    numbers of the analysis are read. *)
Definition measure_pair (id : string) (args : list mval) (a b : string) (st : dict mval * W) : (dict mval * W) * res (view * view) :=
  let (st1, r) := call "tune.tune" id (map Python args) st in
  (st1, bind r (fun v => bind (read2 (fst st1) v "ana" a) (fun x => bind (read2 (fst st1) v "ana" b) (fun y => Ok (x, y))))).
End Views.
