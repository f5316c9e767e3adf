(** Vocabulary for views of MATLAB data. *)
From Coq Require Import String List Bool Arith ZArith.
From Verif Require Import PyExn ViewModel.
Import ListNotations.
Local Open Scope string_scope.

(** What is found when a view is read now. *)
Definition denotes (ws : dict mval) (v : view) (x : mval) : Prop :=
  match v with
  | VStruct t | VCell t | VTable t => meval ws t = Ok x
  | VValue y => y = x
  | VFunction _ => False
  end.
(** Texts that begin with a variable. *)
Fixpoint begins (x : string) (t : text) : Prop :=
  match t with Var y => y = x | Dot t _ | Item t _ | Field t _ => begins x t end.
(** Texts about the data of call number [id]. *)
Fixpoint about (id : string) (t : text) : Prop :=
  match t with
  | Var _ => False
  | Dot (Var x) f => x = "MATLABViewFromPythonData" /\ f = id
  | Dot t _ | Item t _ | Field t _ => about id t
  end.
(** Neither the auxiliary variable nor the data of call [id]. *)
Definition elsewhere (id : string) (t : text) : Prop :=
  ~ begins "temp" t /\ (begins "MATLABViewFromPythonData" t -> exists id', id' <> id /\ about id' t).
(** The variable for calls is not used for something else. *)
Definition reserved (ws : dict mval) : Prop :=
  forall v, get "MATLABViewFromPythonData" ws = Some v -> exists e, v = MStruct [e].
(** The value of an argument when the call begins. *)
Definition argument_value (ws : dict mval) (id : string) (a : argument) (v : mval) : Prop :=
  match a with Python x => v = x | View t => elsewhere id t /\ meval ws t = Ok v end.
(** No function is named like the result of a call. *)
Definition no_function {W} (path : functions W) (id : string) : Prop :=
  path ("MATLABViewFromPythonData." ++ id ++ ".result")%string = None.
(** Numbers of the calls whose data are kept. *)
Definition kept (ws : dict mval) : list string :=
  match get "MATLABViewFromPythonData" ws with Some (MStruct [e]) => map fst e | _ => [] end.
