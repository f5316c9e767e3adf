(** Calls of MATLAB functions by the experiments: SMTuneQQD.measure
    (qtune/sm_tune_qqd.py L59-70, L101-171) and LegacyDQDRefactored.measure
    (qtune/sm.py L193-224).

    Simplifications: options are numbers of Python (int, float, bool), numpy
    scalars that are numbers, or texts; keys of a dictionary are distinct; the
    MATLAB function itself always returns. *)
From Coq Require Import List Arith Bool String.
From Verif Require Import PyExn EngineModel.
Import ListNotations.
Local Open Scope string_scope.

Section Tune.
Variable V : Type.

Inductive option_value := ONumber (x : V) | OGeneric (x : V) | OText (s : string).
Record measurement := mk_measurement { m_name : string; m_options : list (string * option_value) }.
(** What MATLAB receives: a text or a double. *)
Inductive argument := AText (s : string) | ADouble (x : V).

(** Keys of [_measurements], qtune/sm_tune_qqd.py L59-70. *)
Definition known_measurements : list string :=
  ["sensor 2d"; "sensor"; "chrg"; "resp"; "line"; "lead"; "load"; "load pos"; "chrg rnd"; "chrg s"; "stp"; "tl"].
(** L161-169: the data of the analysis as they are, or two numbers of it. *)
Inductive result_kind := Whole | Pair (a b : string).
Definition result_of (name : string) : res result_kind :=
  if existsb (String.eqb name) ["line"; "lead"; "load"; "load pos"; "chrg rnd"; "chrg s"; "sensor"; "sensor 2d"; "chrg"; "resp"]
  then Ok Whole
  else if String.eqb name "stp" then Ok (Pair "STp_x" "STp_y")
  else if String.eqb name "tl" then Ok (Pair "Tp_x" "Tp_y")
  else Raise ValueError.

(** L155-157: numpy scalars are replaced in the options of the measurement. *)
Definition plain (o : option_value) : option_value := match o with OGeneric x => ONumber x | _ => o end.
Definition plain_options (m : measurement) : measurement :=
  mk_measurement (m_name m) (map (fun q => (fst q, plain (snd q))) (m_options m)).
Fixpoint find_option (k : string) (l : list (string * option_value)) : option option_value :=
  match l with [] => None | (k', o) :: l' => if String.eqb k k' then Some o else find_option k l' end.
(** [float(...)]; a text is taken not to spell a number. *)
Definition as_float (o : option_value) : res V :=
  match o with ONumber x | OGeneric x => Ok x | OText _ => Raise ValueError end.
(** L114-116: every Number becomes a float. *)
Definition value_argument (o : option_value) : argument :=
  match o with ONumber x | OGeneric x => ADouble x | OText s => AText s end.
(** [tune], L101-127.  [measurement_name] and [self] are names of its own
    parameters. *)
Definition tune (name : string) (index : option_value) (options : list (string * option_value)) : res (list argument) :=
  if existsb (fun q => String.eqb (fst q) "measurement_name" || String.eqb (fst q) "self") options then Raise TypeError
  else match as_float index with
       | Raise e => Raise e
       | Ok i => Ok (AText name :: ADouble i :: flat_map (fun q => [AText (fst q); value_argument (snd q)]) options)
       end.
(** [pytune], L129-138. *)
Definition pytune (m : measurement) : res (list argument) :=
  match find_option "index" (m_options m) with
  | None => Raise KeyError
  | Some i => tune (m_name m) i (filter (fun q => negb (String.eqb (fst q) "index")) (m_options m))
  end.
(** [measure], L149-171: the measurement afterwards, the call of tune.tune and
    the kind of the result. *)
Definition measure (m : measurement) : measurement * res (list argument * result_kind) :=
  if existsb (String.eqb (m_name m)) known_measurements then
    let m' := plain_options m in
    match pytune m' with
    | Raise e => (m', Raise e)
    | Ok args => match result_of (m_name m) with
                 | Raise e => (m', Raise e)
                 | Ok k => (m', Ok (args, k))
                 end
    end
  else (m, Raise ValueError).

(** LegacyDQDRefactored.measure, qtune/sm.py L193-224: a copy of the options,
    some of them converted, with the name of the file.  (The order in which
    the options are converted is the order of the dictionary here.) *)
Inductive sent := Raw (v : pyval V) | Converted (v : mval V).
Definition scan_options : list string := ["N_points"; "N_average"; "center"; "range"; "ramptime"].
Fixpoint set_key (k : string) (v : pyval V) (l : list (string * pyval V)) : list (string * pyval V) :=
  match l with
  | [] => [(k, v)]
  | (k', w) :: l' => if String.eqb k k' then (k', v) :: l' else (k', w) :: set_key k v l'
  end.
Fixpoint convert_some (ks : list string) (l : list (string * pyval V)) : res (list (string * sent)) :=
  match l with
  | [] => Ok []
  | (k, v) :: l' =>
      match (if existsb (String.eqb k) ks
             then match to_matlab v with Raise e => Raise e | Ok w => Ok (Converted w) end
             else Ok (Raw v)) with
      | Raise e => Raise e
      | Ok s => match convert_some ks l' with Raise e => Raise e | Ok r => Ok ((k, s) :: r) end
      end
  end.
Fixpoint find_py (k : string) (l : list (string * pyval V)) : option (pyval V) :=
  match l with [] => None | (k', o) :: l' => if String.eqb k k' then Some o else find_py k l' end.
(** [file]: the time as a text. *)
Definition legacy_call (name : string) (options : list (string * pyval V)) (file : pyval V) : res (string * list (string * sent)) :=
  let scan f ks := match convert_some ks (set_key "file_name" file options) with
                   | Raise e => Raise e
                   | Ok l => Ok (f, l)
                   end in
  if String.eqb name "line_scan" then scan "PythonChargeLineScan" scan_options
  else if String.eqb name "detune_scan" then scan "PythonLineScan" scan_options
  else if String.eqb name "lead_scan" then scan "LeadScan" []
  else if String.eqb name "load_scan" then scan "LoadScan" []
  else if String.eqb name "2d_scan" then
    match find_py "range" options with
    | None => Raise KeyError
    | Some r =>
        match to_matlab r with
        | Raise e => Raise e
        | Ok r' => match find_py "n_points" options with
                   | None => Raise KeyError
                   | Some n => match to_matlab n with
                               | Raise e => Raise e
                               | Ok n' => Ok ("PythonQPCScan2D", [("range", Converted r'); ("file_name", Raw file); ("n_points", Converted n')])
                               end
                   end
        end
    end
  else Raise ValueError.
End Tune.
Arguments ONumber {V}. Arguments OGeneric {V}. Arguments OText {V}. Arguments mk_measurement {V}. Arguments m_name {V}. Arguments m_options {V}.
Arguments AText {V}. Arguments ADouble {V}. Arguments measure {V}. Arguments plain_options {V}. Arguments Raw {V}. Arguments Converted {V}.
Arguments legacy_call {V}. Arguments convert_some {V}. Arguments set_key {V}. Arguments find_option {V}. Arguments pytune {V}. Arguments tune {V}.
Arguments plain {V}. Arguments as_float {V}. Arguments value_argument {V}. Arguments find_py {V}.
