(** Specification for C106: what becomes of an evaluator that is saved and
    loaded. *)
From Coq Require Import String List.
From Verif Require Import PyExn SerialModel.
Import ListNotations.
Local Open Scope string_scope.
Local Open Scope list_scope.

(** An evaluator as it occurs in a program: made by its constructor, then
    changed by evaluations, which write anything but None.  An evaluation of an
    averaging evaluator also changes the averaged one, which keeps experiment,
    measurements and parameters. *)
Inductive occurs (c : cls) : obj -> Prop :=
| occurs_made : forall kw o, construct c kw = Ok o -> occurs c o
| occurs_wrote : forall o a v, occurs c o -> In a (writes c) -> v <> PNone -> occurs c (setattr o a v)
| occurs_inner : forall o i i', occurs c o -> c = CAvg -> find "_evaluator" o = Some (PInst i) ->
    (forall a, In a ["_experiment"; "_measurements"; "_parameters"] -> find a i' = find a i) ->
    occurs c (setattr o "_evaluator" (PInst i')).

(** The loaded evaluator: three attributes go back to a default. *)
Definition loaded (c : cls) (o : obj) : obj :=
  match c with
  | CPrefit => setattr o "sample_rate" (PConst "1e8")
  | CLeadTrans => setattr o "transition_width" (PConst ".2e-3")
  | CSens1 | CSens2 => setattr o "_rising_flank" (PBool true)
  | _ => o
  end.

(** What the arguments of the constructors mean: [Kept a d] an argument that
    becomes the attribute [a], [d] if it is not given (None: it must be given);
    [Special required] an argument with a meaning of its own. *)
Inductive role := Kept (attribute : string) (default : option pv) | Special (required : bool).
Definition needed (r : role) : bool := match r with Kept _ None => true | Kept _ _ => false | Special b => b end.
Definition must (n : string) : string * role := (n, Kept ("_" ++ n)%string None).
Definition may (n : string) (v : pv) : string * role := (n, Kept ("_" ++ n)%string (Some v)).
Definition public (n : string) (v : pv) : string * role := (n, Kept n (Some v)).
Definition raw (v : pv) : list (string * role) := [may "raw_x_data" v; may "raw_y_data" v].
Definition standard (measurement : string) (parameters : list string) (name : string) : list (string * role) :=
  [must "experiment"; may "parameters" (PTup (map PStr parameters)); may "measurements" (PTup [PConst measurement]); may "name" (PStr name)] ++ raw PNone.
Definition qqd (rest : list (string * role)) : list (string * role) :=
  [must "experiment"; must "measurements"; must "parameters"; must "name"; may "last_file_names" PNone] ++ raw (PTup []) ++ rest.
Definition arguments (c : cls) : list (string * role) :=
  match c with
  | CPrefit | CLeadScan => standard "lead_scan" ["parameter_time_rise"; "parameter_time_fall"] "LeadTunnelTimeByLeadScan" ++
      [public "sample_rate" (PConst "1e8"); may "fit_results" PNone; may "initial_fit_arguments" PNone;
       public "evaluation_arguments" (PConst "evaluation_arguments")]
  | CTC => standard "detune_scan" ["parameter_tunnel_coupling"] "InterDotTCByLineScan" ++
      [may "fit_results" PNone; may "initial_fit_arguments" PNone; public "intermediate_fit_arguments" (PConst "nan series")]
  | CLoad => standard "load_scan" ["parameter_time_load"] "LoadTime" ++
      [may "fit_results" PNone; may "initial_fit_arguments" (PConst "initial arguments"); public "initial_curvature" (PConst "30")]
  | CLeadTrans => [must "experiment"; may "parameters" (PTup [PStr "position_RFA"; PStr "position_RFB"]); may "name" (PStr "LeadTransition")] ++ raw PNone ++
      [may "shifting_gates" (PTup [PStr "RFB"; PStr "RFA"]); may "charge_diagram_width" (PConst "4e-3"); public "transition_positions" (PSer []);
       public "transition_width" (PConst ".2e-3"); ("sweeping_gates", Special false); ("measurements", Special false)]
  | CSens1 => standard "line_scan" ["position_SDB2"; "current_signal"; "optimal_signal"] "SensingDot1D" ++
      [may "sweeping_gate" (PStr "SDB2"); public "current_signal" PNone; public "optimal_signal" PNone; public "optimal_position" PNone;
       may "rising_flank" (PBool true)]
  | CSens2 => standard "2d_scan" ["position_SDB1"; "position_SDB2"] "SensingDot2D" ++
      [may "sweeping_gates" (PTup [PStr "SDB1"; PStr "SDB2"]); may "scan_range" (PConst "10e-3"); may "new_voltages" (PSer []);
       may "rising_flank" (PBool true)]
  | CAvg => [must "evaluator"; ("n_measurement_repetitions", Kept "n_measurement_repetitions" None); ("name", Special false)] ++ raw (PLst [])
  | CMatlab => [must "experiment"; must "measurements"; must "parameters"; must "raw_x_data"; must "raw_y_data"; must "name"]
  | CPass => qqd [may "error" PNone; ("reference_residual_sum", Special false)]
  | CLine => qqd [may "maximal_value" (PConst "inf"); may "minimal_value" (PConst "-inf")]
  | CLead => qqd [may "error" (PConst "1"); may "reference_residual_sum" (PConst "1."); may "maximal_value" (PConst "inf"); may "minimal_value" (PConst "-inf")]
  | CQSens1 | CQSens2 => qqd []
  | CCharge | CDist => qqd [may "error" (PConst "1")]
  | CResp => qqd [may "min_transition_height" (PConst "-inf"); ("error", Special false); ("min_position", Special false); ("max_position", Special false)]
  end.
(** Lists of measurements and parameters become tuples, the flank a bool. *)
Definition as_attribute (n : string) (v : pv) : pv :=
  if String.eqb n "measurements" then match v with PLst l => PTup l | _ => v end
  else if String.eqb n "parameters" then match v with PLst l => PTup l | _ => v end
  else if String.eqb n "rising_flank" then PBool (truth v) else v.
(** The value of an argument, [d] if it is missing. *)
Definition given (kw : obj) (n : string) (d : pv) : pv := match find n kw with Some v => v | None => d end.
(** A Series over the names: a Series gives the values of its labels, NaN for
    other names, a sequence its members in order, anything else the same value
    for every name. *)
Definition over (names : list string) (v : pv) (s : obj) : Prop :=
  map fst s = names /\
  match v with
  | PSer t => forall k, In k names -> find k s = Some (match find k t with Some w => w | None => PConst "nan" end)
  | PTup l | PLst l => map snd s = l
  | _ => forall w, In w (map snd s) -> w = v
  end.
(** The same, but a Series is kept as it is, and None stands for [d]. *)
Definition over_or (names : list string) (v d : pv) (s : obj) : Prop :=
  match v with PSer t => s = t | PNone => over names d s | _ => over names v s end.
