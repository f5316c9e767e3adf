(** References in a history that is filled while the tuning runs:
    qtune/history.py L579-600 stores [evaluator.to_hdf5()], a dictionary of
    references to the attributes of the evaluator (qtune/evaluator.py L81-87,
    L124-128, L438-440, L572-577, L659-664, L764-768), or to the averaged
    evaluator itself (L808-813).

    Simplifications: contents of arrays, Series and dictionaries are opaque
    values; different attributes start with different objects; every append is
    a new row.  The centre of a scan is an object of its own here; it is the
    entry "center" of the dictionary [options] of the Measurement, which all
    rows refer to. *)
From Coq Require Import List Arith.
Import ListNotations.

Section Alias.
Variable V : Type.

(** Objects in the order of their creation. *)
Definition heap := list V.
Definition addr := nat.
Inductive attr := ARawX | ARawY | AFit | AInit | AInter | APositions | ACenter.
(** The attributes of an evaluator: which objects they refer to. *)
Definition evaluator := attr -> addr.
Definition attr_eq_dec (a b : attr) : {a = b} + {a <> b}. Proof. decide equality. Defined.

Fixpoint overwrite (p : addr) (v : V) (h : heap) : heap :=
  match h, p with
  | [], _ => []
  | _ :: h', O => v :: h'
  | w :: h', S q => w :: overwrite q v h'
  end.
(** [self.a = new object], and [self.a.iloc[:] = v] or [self.a[key] = v]. *)
Inductive op := Rebind (a : attr) (v : V) | Fill (a : attr) (v : V).
Definition exec (s : heap * evaluator) (o : op) : heap * evaluator :=
  let (h, e) := s in
  match o with
  | Rebind a v => (h ++ [v], fun b => if attr_eq_dec a b then length h else e b)
  | Fill a v => (overwrite (e a) v h, e)
  end.

(** What a measurement and its fits give.  [o_start]: starting values of the
    first fit; [o_second]: starting values of the second fit, if the first one
    succeeded; [o_fit]: result of the last fit, or positions; None for an
    exception. *)
Record outcome := mk_outcome { o_center : V; o_x : V; o_y : V; o_start : V; o_second : option V; o_fit : option V }.
Inductive kind := KLead | KTc | KLoad | KTransition | KSens1 | KSens2.
Variable nan : V.

(** The assignments of one call of [evaluate], in their order. *)
Definition assignments (k : kind) (o : outcome) : list op :=
  match k with
  | KLead => (* qtune/evaluator.py L257-305; an exception of the fit is not caught *)
      [Rebind ARawY (o_y o); Rebind ARawX (o_x o); Rebind AInit (o_start o)] ++
      match o_fit o with Some q => [Rebind AFit q] | None => [] end
  | KTc => (* L374-399, L416-429 *)
      [Rebind ARawY (o_y o); Rebind ARawX (o_x o); Rebind AInit (o_start o)] ++
      match o_second o with
      | None => [Rebind AFit nan]
      | Some p => [Fill AInter p; Rebind AFit (match o_fit o with Some q => q | None => nan end)]
      end
  | KLoad => (* L467-479, L493: the fits come before the assignment *)
      match o_fit o with Some q => [Fill AInit (o_start o); Rebind AFit q] | None => [Rebind AFit nan] end ++
      [Rebind ARawY (o_y o); Rebind ARawX (o_x o)]
  | KTransition => (* L537-570 *)
      [Rebind APositions (match o_fit o with Some q => q | None => nan end); Rebind ARawX (o_x o); Rebind ARawY (o_y o)]
  | KSens1 => (* L616-630 *)
      [Fill ACenter (o_center o); Rebind ARawY (o_y o); Rebind ARawX (o_x o)]
  | KSens2 => (* L699-712 *)
      [Fill ACenter (o_center o); Rebind ARawY (o_y o); Rebind ARawX (o_x o)] ++
      match o_fit o with Some q => [Rebind APositions q] | None => [] end
  end.
Definition evaluate (k : kind) (o : outcome) (s : heap * evaluator) : heap * evaluator := fold_left exec (assignments k o) s.

(** The tuning as seen by the history of one evaluator. *)
Inductive event := Evaluate (o : outcome) | Append.
Record live := mk_live { l_heap : heap; l_eval : evaluator; l_rows : list evaluator }.
Definition happens (k : kind) (l : live) (e : event) : live :=
  match e with
  | Evaluate o => let (h, ev) := evaluate k o (l_heap l, l_eval l) in mk_live h ev (l_rows l)
  | Append => mk_live (l_heap l) (l_eval l) (l_rows l ++ [l_eval l])
  end.
Definition history (k : kind) (l : live) (es : list event) : live := fold_left (happens k) es l.
(** What a row shows for an attribute, now. *)
Definition shown (l : live) (row : nat) (a : attr) : option V :=
  match nth_error (l_rows l) row with Some r => nth_error (l_heap l) (r a) | None => None end.

(** An AveragingEvaluator, qtune/evaluator.py L786-795: the raw data of the
    repetitions are collected in a new list, and the row refers to the inner
    evaluator itself. *)
Inductive averaging_event := Repeat (os : list outcome) | AppendAverage.
Record average := mk_average { a_heap : heap; a_inner : evaluator; a_raw : list addr; a_rows : list (list addr) }.
Definition repeat_step (k : kind) (s : (heap * evaluator) * list addr) (o : outcome) : (heap * evaluator) * list addr :=
  let s' := evaluate k o (fst s) in (s', snd s ++ [snd s' ARawY]).
Definition average_happens (k : kind) (l : average) (e : averaging_event) : average :=
  match e with
  | Repeat os => let (s, raw) := fold_left (repeat_step k) os ((a_heap l, a_inner l), []) in mk_average (fst s) (snd s) raw (a_rows l)
  | AppendAverage => mk_average (a_heap l) (a_inner l) (a_raw l) (a_rows l ++ [a_raw l])
  end.
Definition average_history (k : kind) (l : average) (es : list averaging_event) : average := fold_left (average_happens k) es l.
(** The raw data of a row; and what [plot_average_evaluator] shows of it,
    qtune/history.py L663-666: the dictionary of the inner evaluator as it is now. *)
Definition average_raw (l : average) (row : nat) : option (list (option V)) :=
  option_map (map (nth_error (a_heap l))) (nth_error (a_rows l) row).
Definition average_shown (l : average) (row : nat) (a : attr) : option V :=
  match nth_error (a_rows l) row with Some _ => nth_error (a_heap l) (a_inner l a) | None => None end.
End Alias.
