(** Vocabulary for the registry of classes and for versions. *)
From Coq Require Import String List Bool Arith.
From Verif Require Import PyExn StorageModel RegistryModel.
Import ListNotations.
Local Open Scope string_scope.

Section Spec.
Variable prog : list (string * module).
Variable installed : string -> bool.

(** Module [a] has an import statement for module [b]. *)
Definition imports (a b : string) : Prop :=
  exists md, named a prog = Some md /\ (In (Inside b) (md_imports md) \/ exists x, In (Missing b x) (md_imports md)).
(** [b] is [a] or imported by it, directly or not. *)
Inductive reaches : string -> string -> Prop :=
| reaches_self a : reaches a a
| reaches_step a b c : imports a b -> reaches b c -> reaches a c.
(** The import of a module succeeds: everything it needs is there. *)
Inductive importable : string -> Prop :=
| importable_intro m md :
    named m prog = Some md ->
    (forall x, In (Inside x) (md_imports md) -> importable x) ->
    (forall p, In (Outside p) (md_imports md) -> installed p = true) ->
    (forall x n, ~ In (Missing x n) (md_imports md)) ->
    importable m.

(** No circular imports: [rank] decreases. *)
Definition ranked (rank : string -> nat) : Prop := forall a b, imports a b -> rank b < rank a.
(** Every class has its own to_hdf5; no two classes have the same name. *)
Definition all_own : Prop := forall m md c, named m prog = Some md -> In c (md_classes md) -> snd c = true.
Definition distinct_names : Prop :=
  forall m md m' md' c, named m prog = Some md -> named m' prog = Some md' ->
    In (c, true) (md_classes md) -> In (c, true) (md_classes md') -> m = m'.
(** Module [m] defines class [c]. *)
Definition defines (m c : string) : Prop := exists md, named m prog = Some md /\ In (c, true) (md_classes md).
End Spec.

(** Libraries that the core of the package needs. *)
Definition libraries : list string := ["matplotlib"; "numpy"; "sympy"; "pandas"; "h5py"; "scipy"; "filterpy"].

(** A class statement: name, module, has its own to_hdf5. *)
Definition statement := (string * string * bool)%type.
(** Class statements one after the other; exceptions are caught. *)
Definition statements (cs : list statement) (s : python) : python :=
  fold_left (fun s c => fst (define (snd (fst c)) (fst (fst c), snd c) s)) cs s.
(** The last statement for a name. *)
Definition last_statement (name : string) (cs : list statement) : option string :=
  fold_left (fun acc c => if String.eqb name (fst (fst c)) then Some (snd (fst c)) else acc) cs None.

(** One write to a file: version found, next object id, entry, object, reserved. *)
Definition writing (payload : Type) := (res string * nat * string * pyval payload * list (string * nat))%type.
Definition writes {payload} storable serializables (ws : list (writing payload)) (f : @file payload) : @file payload :=
  fold_left (fun f w => match w with (v, n, name, obj, reserved) => fst (write storable serializables v n name obj reserved f) end) ws f.
(** The version found by the last write that found one. *)
Definition last_version {payload} (ws : list (writing payload)) (before : option string) : option string :=
  fold_left (fun acc w => match w with (Ok v, _, _, _, _) => Some v | _ => acc end) ws before.

(** The serializable classes of the package: those that a load finds always,
    and those of the modules for MATLAB. *)
Definition core_classes : list string :=
  ["Measurement"; "Evaluator"; "FittingEvaluator"; "LeadTunnelTimePrefitVersion"; "LeadTunnelTimeByLeadScan"; "InterDotTCByLineScan";
   "NewLoadTime"; "LeadTransition"; "SensingDot1D"; "SensingDot2D"; "AveragingEvaluator"; "KalmanGradient"; "GradientEstimator";
   "FiniteDifferencesGradientEstimator"; "KalmanGradientEstimator"; "SelfInitializingKalmanEstimator"; "Solver"; "NewtonSolver";
   "NelderMeadSolver"; "ForwardingSolver"; "ParameterTuner"; "SubsetTuner"; "SensingDotTuner"; "Autotuner"].
Definition qqd_classes : list string :=
  ["QQDMeasurement"; "SMQQDPassThru"; "QQDLine"; "QQDLead"; "QQDSensor1D"; "QQDSensor2D"; "QQDCharge"; "QQDDistTP"; "QQDResp"].
