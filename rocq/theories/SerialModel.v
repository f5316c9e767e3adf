(** Constructors of the evaluators and measurements and what they hand to the
    file: qtune/evaluator.py (all evaluators), qtune/sm.py L227-239,
    qtune/sm_tune_qqd.py L33-45 and L178-502, qtune/experiment.py L30-52.

    An object is the dictionary of its attributes.  Loading calls the
    constructor with the stored dictionary as keyword arguments
    (qtune/storage.py L202-208; that the dictionary itself survives the file is
    property C37).  Simplifications: parameters are strings; numbers, arrays and
    experiments are opaque; the counters [_count] and the constant
    [_n_error_estimate] are left out; measurements and parameters are given as
    tuple or list. *)
From Coq Require Import String List Bool.
From Verif Require Import PyExn.
Import ListNotations.
Local Open Scope string_scope.
Local Open Scope list_scope.

(** Values: [PConst] a constant or freshly made object of the code, by name;
    [PVal] any other object with its truth value; [PInst] an evaluator. *)
Inductive pv :=
| PNone
| PBool (b : bool)
| PStr (s : string)
| PConst (s : string)
| PVal (n : nat) (truth : bool)
| PTup (l : list pv)
| PLst (l : list pv)
| PSer (s : list (string * pv))
| PInst (o : list (string * pv)).
Definition obj := list (string * pv).

Definition rbind {A B} (r : res A) (f : A -> res B) : res B := match r with Ok a => f a | Raise e => Raise e end.
Notation "x <- a ;; b" := (rbind a (fun x => b)) (at level 61, a at next level, right associativity).

Fixpoint find (n : string) (o : obj) : option pv :=
  match o with [] => None | (k, v) :: o' => if String.eqb k n then Some v else find n o' end.
Definition getattr (o : obj) (n : string) : res pv := match find n o with Some v => Ok v | None => Raise AttributeError end.
Fixpoint setattr (o : obj) (n : string) (v : pv) : obj :=
  match o with [] => [(n, v)] | (k, w) :: o' => if String.eqb k n then (k, v) :: o' else (k, w) :: setattr o' n v end.
Fixpoint setattrs (o : obj) (l : obj) : obj := match l with [] => o | (n, v) :: l' => setattrs (setattr o n v) l' end.

(** Call with keyword arguments: a name that is not in the signature and a
    missing name without default raise. *)
Definition signature := list (string * option pv).
Definition known (sg : signature) (n : string) : bool := existsb (fun a => String.eqb (fst a) n) sg.
Fixpoint bind_args (sg : signature) (kw : obj) : res obj :=
  match sg with
  | [] => Ok []
  | (n, d) :: sg' =>
      v <- match find n kw, d with Some v, _ => Ok v | None, Some v => Ok v | None, None => Raise TypeError end ;;
      e <- bind_args sg' kw ;; Ok ((n, v) :: e)
  end.
Definition bind (sg : signature) (kw : obj) : res obj :=
  if forallb (fun a => known sg (fst a)) kw then bind_args sg kw else Raise TypeError.
Definition arg (e : obj) (n : string) : pv := match find n e with Some v => v | None => PNone end.

(** [tuple(x)], [bool(x)], [x is None]. *)
Definition py_tuple (v : pv) : res pv := match v with PTup l => Ok (PTup l) | PLst l => Ok (PTup l) | _ => Raise TypeError end.
Definition truth (v : pv) : bool :=
  match v with
  | PNone => false | PBool b => b | PStr s => negb (String.eqb s "") | PConst _ => true | PVal _ b => b
  | PTup l => match l with [] => false | _ => true end | PLst l => match l with [] => false | _ => true end
  | PSer _ => true | PInst _ => true
  end.
Definition or_default (v d : pv) : pv := match v with PNone => d | _ => v end.

(** [pd.Series(data=v, index=names)]: a Series is reindexed, unless it has the
    same index; a list needs the same length; anything else is repeated. *)
Definition names_of (v : pv) : list string :=
  match v with
  | PTup l => map (fun x => match x with PStr s => s | _ => "" end) l
  | PLst l => map (fun x => match x with PStr s => s | _ => "" end) l
  | _ => [] end.
Fixpoint strings_eqb (a b : list string) : bool :=
  match a, b with [], [] => true | x :: a', y :: b' => String.eqb x y && strings_eqb a' b' | _, _ => false end.
Fixpoint has_dup (a : list string) : bool := match a with [] => false | x :: a' => existsb (String.eqb x) a' || has_dup a' end.
Definition series_of (data : pv) (idx : list string) : res pv :=
  match data with
  | PSer s =>
      if strings_eqb (map fst s) idx then Ok (PSer s)
      else if has_dup (map fst s) then Raise ValueError
      else Ok (PSer (map (fun k => (k, match find k s with Some v => v | None => PConst "nan" end)) idx))
  | PTup l | PLst l => if Nat.eqb (List.length l) (List.length idx) then Ok (PSer (combine idx l)) else Raise ValueError
  | v => Ok (PSer (map (fun k => (k, v)) idx))
  end.
(** [if x is None: Series of a constant; elif x is a Series: x; else: Series of x]. *)
Definition series_arg (v : pv) (default : string) (idx : list string) : res pv :=
  match v with PNone => series_of (PConst default) idx | PSer s => Ok (PSer s) | _ => series_of v idx end.

Inductive cls := CPrefit | CLeadScan | CTC | CLoad | CLeadTrans | CSens1 | CSens2 | CAvg | CMatlab
  | CPass | CLine | CLead | CQSens1 | CQSens2 | CCharge | CDist | CResp.

Definition req (n : string) : string * option pv := (n, None).
Definition def (n : string) (v : pv) : string * option pv := (n, Some v).
Definition strs (l : list string) : pv := PTup (map PStr l).
Definition qqd_sig : signature :=
  [req "experiment"; req "measurements"; req "parameters"; req "name"; def "raw_x_data" (PTup []); def "raw_y_data" (PTup []);
   def "last_file_names" PNone].
(** Signatures.  qtune/evaluator.py L132-141 and L236-245, L352-355, L454-457,
    L512-523, L586-597, L673-682, L772-773; qtune/sm.py L228 with
    qtune/evaluator.py L33-39 (everything is handed on);
    qtune/sm_tune_qqd.py L183-185, L279-281, L318-320, L352-353, L376-377,
    L401-403, L428-430, L455-457.  The default of rising_flank in L597 is the
    typing object Optional[bool]. *)
Definition sig (c : cls) : signature :=
  match c with
  | CPrefit | CLeadScan =>
      [req "experiment"; def "parameters" (strs ["parameter_time_rise"; "parameter_time_fall"]); def "measurements" PNone;
       def "sample_rate" (PConst "1e8"); def "raw_x_data" PNone; def "raw_y_data" PNone; def "fit_results" PNone;
       def "evaluation_arguments" PNone; def "initial_fit_arguments" PNone; def "name" (PStr "LeadTunnelTimeByLeadScan")]
  | CTC =>
      [req "experiment"; def "parameters" (strs ["parameter_tunnel_coupling"]); def "measurements" PNone; def "raw_x_data" PNone;
       def "raw_y_data" PNone; def "fit_results" PNone; def "initial_fit_arguments" PNone; def "intermediate_fit_arguments" PNone;
       def "name" (PStr "InterDotTCByLineScan")]
  | CLoad =>
      [req "experiment"; def "parameters" (strs ["parameter_time_load"]); def "measurements" PNone; def "raw_x_data" PNone;
       def "raw_y_data" PNone; def "fit_results" PNone; def "initial_fit_arguments" PNone; def "initial_curvature" (PConst "30");
       def "name" (PStr "LoadTime")]
  | CLeadTrans =>
      [req "experiment"; def "shifting_gates" (strs ["RFB"; "RFA"]); def "sweeping_gates" (strs ["RFA"; "RFB"]);
       def "charge_diagram_width" (PConst "4e-3"); def "measurements" PNone; def "parameters" (strs ["position_RFA"; "position_RFB"]);
       def "raw_x_data" PNone; def "raw_y_data" PNone; def "transition_positions" (PSer []); def "transition_width" (PConst ".2e-3");
       def "name" (PStr "LeadTransition")]
  | CSens1 =>
      [req "experiment"; def "sweeping_gate" (PStr "SDB2"); def "parameters" (strs ["position_SDB2"; "current_signal"; "optimal_signal"]);
       def "measurements" PNone; def "raw_x_data" PNone; def "raw_y_data" PNone; def "current_signal" PNone; def "optimal_signal" PNone;
       def "optimal_position" PNone; def "name" (PStr "SensingDot1D"); def "rising_flank" (PConst "Optional[bool]")]
  | CSens2 =>
      [req "experiment"; def "sweeping_gates" (strs ["SDB1"; "SDB2"]); def "scan_range" (PConst "10e-3");
       def "parameters" (strs ["position_SDB1"; "position_SDB2"]); def "measurements" PNone; def "raw_x_data" PNone;
       def "raw_y_data" PNone; def "name" (PStr "SensingDot2D"); def "new_voltages" (PSer []); def "rising_flank" PNone]
  | CAvg =>
      [req "evaluator"; req "n_measurement_repetitions"; def "raw_x_data" PNone; def "raw_y_data" PNone; def "name" PNone]
  | CMatlab => [req "experiment"; req "measurements"; req "parameters"; req "raw_x_data"; req "raw_y_data"; req "name"]
  | CPass => qqd_sig ++ [def "error" PNone; def "reference_residual_sum" PNone]
  | CLine => qqd_sig ++ [def "maximal_value" (PConst "inf"); def "minimal_value" (PConst "-inf")]
  | CLead => qqd_sig ++ [def "error" (PConst "1"); def "reference_residual_sum" (PConst "1."); def "maximal_value" (PConst "inf");
                         def "minimal_value" (PConst "-inf")]
  | CQSens1 | CQSens2 => qqd_sig
  | CCharge | CDist => qqd_sig ++ [def "error" (PConst "1")]
  | CResp => qqd_sig ++ [def "error" (PConst "1"); def "min_transition_height" (PConst "-inf"); def "min_position" PNone;
                         def "max_position" PNone]
  end.

(** qtune/evaluator.py L40-45. *)
Definition evaluator_init (o : obj) (experiment measurements parameters raw_x raw_y name : pv) : res obj :=
  m <- py_tuple measurements ;;
  p <- py_tuple parameters ;;
  Ok (setattrs o [("_experiment", experiment); ("_measurements", m); ("_parameters", p); ("_raw_x_data", raw_x);
                  ("_raw_y_data", raw_y); ("_name", name)]).
(** qtune/evaluator.py L105-108. *)
Definition fitting_init (o : obj) (e : obj) (measurements initial : pv) : res obj :=
  evaluator_init (setattrs o [("_fit_results", arg e "fit_results"); ("_initial_fit_arguments", initial)])
    (arg e "experiment") measurements (arg e "parameters") (arg e "raw_x_data") (arg e "raw_y_data") (arg e "name").
(** The call in each class of qtune/sm_tune_qqd.py, for example L187. *)
Definition qqd_init (e : obj) : res obj :=
  evaluator_init [] (arg e "experiment") (arg e "measurements") (arg e "parameters") (arg e "raw_x_data") (arg e "raw_y_data") (arg e "name").
(** qtune/evaluator.py L602-605 and L686-689. *)
Definition flank (v : pv) : pv := match v with PNone => PBool true | _ => PBool (truth v) end.
(** qtune/evaluator.py L524-529: one scan for each sweeping gate. *)
Definition line_scans (gates : pv) : res pv :=
  match gates with
  | PTup l | PLst l => Ok (PLst (map (fun g => PSer [("line_scan", g)]) l))
  | _ => Raise TypeError
  end.
Definition inner (e : obj) (n : string) : res pv :=
  match arg e "evaluator" with PInst o => getattr o n | _ => Raise AttributeError end.

(** Bodies of the constructors, cited in each case. *)
Definition init (c : cls) (e : obj) : res obj :=
  match c with
  | CPrefit | CLeadScan => (* qtune/evaluator.py L142-151, L246-255 *)
      let m := or_default (arg e "measurements") (PTup [PConst "lead_scan"]) in
      let a := or_default (arg e "evaluation_arguments") (PConst "evaluation_arguments") in
      fitting_init [("evaluation_arguments", a); ("sample_rate", arg e "sample_rate")] e m (arg e "initial_fit_arguments")
  | CTC => (* L356-372; the first value of _initial_fit_arguments is overwritten by the parent *)
      let m := or_default (arg e "measurements") (PTup [PConst "detune_scan"]) in
      fitting_init [("_initial_fit_arguments", or_default (arg e "initial_fit_arguments") (PConst "nan series"));
                    ("intermediate_fit_arguments", or_default (arg e "intermediate_fit_arguments") (PConst "nan series"))]
                   e m (arg e "initial_fit_arguments")
  | CLoad => (* L458-465 *)
      let m := or_default (arg e "measurements") (PTup [PConst "load_scan"]) in
      fitting_init [("initial_curvature", arg e "initial_curvature")] e m
        (or_default (arg e "initial_fit_arguments") (PConst "initial arguments"))
  | CLeadTrans => (* L524-535 *)
      m <- match arg e "measurements" with PNone => line_scans (arg e "sweeping_gates") | v => Ok v end ;;
      evaluator_init [("_shifting_gates", arg e "shifting_gates"); ("_charge_diagram_width", arg e "charge_diagram_width");
                      ("transition_width", arg e "transition_width"); ("transition_positions", arg e "transition_positions")]
        (arg e "experiment") m (arg e "parameters") (arg e "raw_x_data") (arg e "raw_y_data") (arg e "name")
  | CSens1 => (* L598-613 *)
      let m := or_default (arg e "measurements") (PTup [PConst "line_scan"]) in
      evaluator_init [("_sweeping_gate", arg e "sweeping_gate"); ("current_signal", arg e "current_signal");
                      ("optimal_signal", arg e "optimal_signal"); ("optimal_position", arg e "optimal_position");
                      ("_rising_flank", flank (arg e "rising_flank"))]
        (arg e "experiment") m (arg e "parameters") (arg e "raw_x_data") (arg e "raw_y_data") (arg e "name")
  | CSens2 => (* L683-697 *)
      let m := or_default (arg e "measurements") (PTup [PConst "2d_scan"]) in
      evaluator_init [("_sweeping_gates", arg e "sweeping_gates"); ("_scan_range", arg e "scan_range");
                      ("_new_voltages", arg e "new_voltages"); ("_rising_flank", flank (arg e "rising_flank"))]
        (arg e "experiment") m (arg e "parameters") (arg e "raw_x_data") (arg e "raw_y_data") (arg e "name")
  | CAvg => (* L774-784 *)
      name <- match arg e "name" with
              | PNone => n <- inner e "_name" ;; match n with PStr s => Ok (PStr ("Averaging" ++ s)%string) | _ => Raise TypeError end
              | v => Ok v
              end ;;
      x <- inner e "_experiment" ;; m <- inner e "_measurements" ;; p <- inner e "_parameters" ;;
      evaluator_init [("_evaluator", arg e "evaluator"); ("n_measurement_repetitions", arg e "n_measurement_repetitions")]
        x m p (or_default (arg e "raw_x_data") (PLst [])) (or_default (arg e "raw_y_data") (PLst [])) name
  | CMatlab => (* qtune/sm.py L229 *)
      evaluator_init [] (arg e "experiment") (arg e "measurements") (arg e "parameters") (arg e "raw_x_data") (arg e "raw_y_data") (arg e "name")
  | CPass => (* qtune/sm_tune_qqd.py L187-197 *)
      o <- qqd_init e ;;
      r <- series_arg (arg e "reference_residual_sum") "nan" (names_of (arg e "parameters")) ;;
      Ok (setattrs o [("_error", arg e "error"); ("_reference_residual_sum", r); ("_last_file_names", arg e "last_file_names")])
  | CLine => (* L282-286 *)
      o <- qqd_init e ;;
      Ok (setattrs o [("_last_file_names", arg e "last_file_names"); ("_maximal_value", arg e "maximal_value");
                      ("_minimal_value", arg e "minimal_value")])
  | CLead => (* L321-326 *)
      o <- qqd_init e ;;
      Ok (setattrs o [("_error", arg e "error"); ("_reference_residual_sum", arg e "reference_residual_sum");
                      ("_last_file_names", arg e "last_file_names"); ("_maximal_value", arg e "maximal_value");
                      ("_minimal_value", arg e "minimal_value")])
  | CQSens1 | CQSens2 => (* L354-355, L378-379 *)
      o <- qqd_init e ;; Ok (setattrs o [("_last_file_names", arg e "last_file_names")])
  | CCharge | CDist => (* L404-406, L431-433 *)
      o <- qqd_init e ;; Ok (setattrs o [("_last_file_names", arg e "last_file_names"); ("_error", arg e "error")])
  | CResp => (* L458-473; the default of max_position is also -inf *)
      o <- qqd_init e ;;
      p <- py_tuple (arg e "parameters") ;;
      er <- series_of (arg e "error") (names_of p) ;;
      lo <- series_arg (arg e "min_position") "-inf" (names_of p) ;;
      hi <- series_arg (arg e "max_position") "-inf" (names_of p) ;;
      Ok (setattrs o [("_last_file_names", arg e "last_file_names"); ("_error", er);
                      ("_min_transition_height", arg e "min_transition_height"); ("_min_position", lo); ("_max_position", hi)])
  end.
Definition construct (c : cls) (kw : obj) : res obj := e <- bind (sig c) kw ;; init c e.

(** Reading attributes into a dictionary; [inl] an attribute, [inr] a constant. *)
Fixpoint collect (o : obj) (l : list (string * (string + pv))) : res obj :=
  match l with
  | [] => Ok []
  | (k, inl a) :: l' => v <- getattr o a ;; r <- collect o l' ;; Ok ((k, v) :: r)
  | (k, inr v) :: l' => r <- collect o l' ;; Ok ((k, v) :: r)
  end.
Definition same (n : string) : string * (string + pv) := (n, inl n).
Definition priv (n : string) : string * (string + pv) := (n, inl ("_" ++ n)%string).
(** qtune/evaluator.py L81-87. *)
Definition evaluator_keys := [priv "experiment"; priv "measurements"; priv "parameters"; priv "raw_x_data"; priv "raw_y_data"; priv "name"].
(** qtune/evaluator.py L124-128. *)
Definition fitting_keys := evaluator_keys ++ [priv "fit_results"; priv "initial_fit_arguments"].
(** qtune/evaluator.py L199-202, L311-314, L438-440, L498-500, L572-577,
    L659-664, L764-768, L808-813; qtune/sm.py L238-239;
    qtune/sm_tune_qqd.py L271-275, L310-314, L342-348, L370-372, L395-397,
    L421-424, L448-451, L496-502. *)
Definition keys (c : cls) : list (string * (string + pv)) :=
  match c with
  | CPrefit => fitting_keys ++ [same "evaluation_arguments"]
  | CLeadScan => fitting_keys ++ [same "sample_rate"; same "evaluation_arguments"]
  | CTC => fitting_keys ++ [same "intermediate_fit_arguments"]
  | CLoad => fitting_keys ++ [same "initial_curvature"]
  | CLeadTrans => evaluator_keys ++ [same "transition_positions"; priv "shifting_gates"; priv "charge_diagram_width";
                                     ("transition_width", inr (PConst ".2e-3"))]
  | CSens1 => evaluator_keys ++ [priv "sweeping_gate"; same "current_signal"; same "optimal_signal"; same "optimal_position"]
  | CSens2 => evaluator_keys ++ [priv "sweeping_gates"; priv "scan_range"; priv "new_voltages"]
  | CAvg => [priv "evaluator"; same "n_measurement_repetitions"; priv "raw_x_data"; priv "raw_y_data"; priv "name"]
  | CMatlab => evaluator_keys
  | CPass => evaluator_keys ++ [priv "last_file_names"; priv "error"; priv "reference_residual_sum"]
  | CLine => evaluator_keys ++ [priv "last_file_names"; priv "maximal_value"; priv "minimal_value"]
  | CLead => evaluator_keys ++ [priv "last_file_names"; priv "error"; priv "reference_residual_sum"; priv "maximal_value"; priv "minimal_value"]
  | CQSens1 | CQSens2 => evaluator_keys ++ [priv "last_file_names"]
  | CCharge | CDist => evaluator_keys ++ [priv "last_file_names"; priv "error"]
  | CResp => evaluator_keys ++ [priv "last_file_names"; priv "error"; priv "min_transition_height"; priv "min_position"; priv "max_position"]
  end.
Definition to_hdf5 (c : cls) (o : obj) : res obj := collect o (keys c).
(** Saving and loading. *)
Definition reload (c : cls) (o : obj) : res obj := kw <- to_hdf5 c o ;; construct c kw.

(** The attributes that an evaluation may write (some of them are never written), qtune/evaluator.py L154-155,
    L169-194, L260, L272-293, L376-416, L475-477, L553-564, L625-655, L703-760,
    L787-795; qtune/sm_tune_qqd.py L203-209, L222-224, L267-268, L305, L337, L367,
    L392, L418, L445, L493. *)
Definition writes (c : cls) : list string :=
  match c with
  | CPrefit | CLeadScan => ["_raw_x_data"; "_raw_y_data"; "_fit_results"; "_initial_fit_arguments"; "evaluation_arguments"]
  | CTC => ["_raw_x_data"; "_raw_y_data"; "_fit_results"; "_initial_fit_arguments"; "intermediate_fit_arguments"]
  | CLoad => ["_raw_x_data"; "_raw_y_data"; "_fit_results"; "_initial_fit_arguments"]
  | CLeadTrans => ["_raw_x_data"; "_raw_y_data"; "transition_positions"]
  | CSens1 => ["_raw_x_data"; "_raw_y_data"; "current_signal"; "optimal_signal"; "optimal_position"]
  | CSens2 => ["_raw_x_data"; "_raw_y_data"; "_new_voltages"]
  | CAvg | CMatlab => ["_raw_x_data"; "_raw_y_data"]
  | CPass => ["_raw_x_data"; "_raw_y_data"; "_last_file_names"; "_error"]
  | CLine | CLead | CQSens1 | CQSens2 | CCharge | CDist | CResp => ["_raw_x_data"; "_raw_y_data"; "_last_file_names"]
  end.

(** qtune/experiment.py L34-37 and L49-51. *)
Definition measurement_init (kw : obj) : res obj :=
  match find "name" kw with
  | None => Raise TypeError
  | Some n => Ok [("_name", n); ("options", PSer (filter (fun a => negb (String.eqb (fst a) "name")) kw))]
  end.
Definition measurement_to_hdf5 (o : obj) : res obj :=
  opt <- getattr o "options" ;;
  match opt with
  | PSer l => n <- getattr o "_name" ;; Ok (setattr l "name" n)
  | _ => Raise TypeError
  end.
(** qtune/sm_tune_qqd.py L38-43: the parent constructor is not called. *)
Definition qqd_measurement_init (kw : obj) : res obj :=
  match find "name" kw with None => Raise TypeError | Some _ => Ok [("data", PNone)] end.
