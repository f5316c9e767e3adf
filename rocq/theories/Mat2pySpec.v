(** What Python and MATLAB indices mean; written without the model. *)
From Coq Require Import ZArith String Ascii List Bool DecimalString.
Import ListNotations.
Local Open Scope Z_scope.

(** Python: the elements (counted from 0) that an index selects from a sequence
    of length [n]; [None] is an IndexError or ValueError. *)
Definition py_int (n i : Z) : option (list Z) :=
  if (0 <=? i) && (i <? n) then Some [i]
  else if (- n <=? i) && (i <? 0) then Some [n + i]
  else None.
(** [range(a, b, s)] for [s <> 0]. *)
Definition py_range (a b s : Z) : list Z :=
  let count := if 0 <? s then (b - a + s - 1) / s else (a - b - s - 1) / (- s) in
  map (fun k => a + Z.of_nat k * s) (seq 0 (Z.to_nat count)).
(** [slice.indices]. *)
Definition py_slice (n : Z) (start stop step : option Z) : option (list Z) :=
  let s := match step with None => 1 | Some s => s end in
  let clip lo hi x := let y := if x <? 0 then x + n else x in Z.max lo (Z.min hi y) in
  let lo := if 0 <? s then 0 else -1 in
  let hi := if 0 <? s then n else n - 1 in
  let a := match start with None => if 0 <? s then lo else hi | Some x => clip lo hi x end in
  let b := match stop with None => if 0 <? s then hi else lo | Some x => clip lo hi x end in
  if s =? 0 then None else Some (py_range a b s).

(** MATLAB: a grammar of index expressions, the way they are written, and the
    elements (counted from 1) they select from an array with [n] elements;
    [None] is an error. *)
Inductive mterm := MLit (k : Z) | MEnd | MEndMinus (k : Z).
Inductive mexpr := MOne (t : mterm) | MColon (a : mterm) (step : Z) (b : mterm).
Definition digits (k : Z) : string := NilZero.string_of_int (Z.to_int k).
Definition write_term (parens : bool) (t : mterm) : string :=
  (match t with
  | MLit k => digits k
  | MEnd => "end"
  | MEndMinus k => if parens then "(end - " ++ digits k ++ ")" else "end - " ++ digits k
  end)%string.
Definition write_expr (e : mexpr) : string :=
  (match e with
  | MOne t => write_term false t
  | MColon a s b => write_term true a ++ ":" ++ digits s ++ ":" ++ write_term true b
  end)%string.
Local Open Scope Z_scope.
Definition term_value (n : Z) (t : mterm) : Z :=
  match t with MLit k => k | MEnd => n | MEndMinus k => n - k end.
Definition in_bounds (n : Z) (l : list Z) : option (list Z) :=
  if forallb (fun i => (1 <=? i) && (i <=? n)) l then Some l else None.
(** [a : s : b]. *)
Definition colon (a s b : Z) : list Z :=
  if s =? 0 then [] else map (fun k => a + Z.of_nat k * s) (seq 0 (Z.to_nat ((b - a) / s + 1))).
Definition m_elements (n : Z) (e : mexpr) : option (list Z) :=
  match e with
  | MOne t => in_bounds n [term_value n t]
  | MColon a s b => in_bounds n (colon (term_value n a) s (term_value n b))
  end.

(** The string is an expression that selects these elements (counted from 0). *)
Definition selects (text : string) (n : Z) (elements : option (list Z)) : Prop :=
  exists e, write_expr e = text /\ option_map (map (fun i => i - 1)) (m_elements n e) = elements.
