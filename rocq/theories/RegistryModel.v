(** Which classes can be loaded from a file, the version in a file, readers of
    files: qtune/storage.py L38-71, L156-165, qtune/util.py L291-324,
    qtune/history.py L102-119, qtune/autotuner.py L317-327. *)
From Coq Require Import String Ascii List Bool Arith.
From Verif Require Import PyExn StorageModel.
Import ListNotations.
Local Open Scope string_scope.

(** ImportError. *)
Definition ImportError : exn := OtherError 1.

(** Import statements of a module: a module of the package, a library, a name
    that the module of the package does not have. *)
Inductive import := Inside (m : string) | Outside (p : string) | Missing (m name : string).
(** A module: its import statements and its classes with the metaclass
    HDF5Serializable, each with "has its own to_hdf5".  Simplification: all
    imports are executed before all classes (as in the package); other
    statements do not raise. *)
Record module := mk_module { md_imports : list import; md_classes : list (string * bool) }.

(** The imported modules, the dict [serializables] (qtune/storage.py L38, the
    latest entry counts), the warnings "Overwriting known serializable". *)
Record python := mk_python { py_loaded : list string; py_classes : list (string * string); py_warned : list string }.
Definition fresh_python : python := mk_python [] [] [].

(** qtune/storage.py L56-71 [HDF5Serializable]: a class statement of module
    [m]; the class is registered before the check. *)
Definition define (m : string) (c : string * bool) (s : python) : python * res unit :=
  let w := match named (fst c) (py_classes s) with Some _ => fst c :: py_warned s | None => py_warned s end in
  (mk_python (py_loaded s) ((fst c, m) :: py_classes s) w, if snd c then Ok tt else Raise AttributeError).
Fixpoint define_all (m : string) (cs : list (string * bool)) (s : python) : python * res unit :=
  match cs with
  | [] => (s, Ok tt)
  | c :: cs' => match define m c s with
                | (s', Ok _) => define_all m cs' s'
                | r => r
                end
  end.

Definition loaded (m : string) (s : python) : bool := existsb (String.eqb m) (py_loaded s).

Section Import.
Variable prog : list (string * module).
(** The libraries that are installed. *)
Variable installed : string -> bool.

Definition run_imports (imp : string -> python -> python * res unit) :=
  fix go (is : list import) (s : python) : python * res unit :=
  match is with
  | [] => (s, Ok tt)
  | Outside p :: is' => if installed p then go is' s else (s, Raise ImportError)
  | Inside m :: is' => match imp m s with
                       | (s', Ok _) => go is' s'
                       | r => r
                       end
  | Missing m _ :: is' => match imp m s with
                          | (s', Ok _) => (s', Raise ImportError)
                          | r => r
                          end
  end.

(** [import m]; a module that is already loaded is not executed again, one
    whose execution raises is not kept.  Simplification: it is entered when it
    is complete, which makes a difference only for circular imports. *)
Fixpoint import_module (fuel : nat) (m : string) (s : python) : python * res unit :=
  if loaded m s then (s, Ok tt) else
  match fuel with
  | 0 => (s, Raise RecursionError)
  | S fuel' =>
      match named m prog with
      | None => (s, Raise ImportError)
      | Some md =>
          match run_imports (import_module fuel') (md_imports md) s with
          | (s1, Raise e) => (s1, Raise e)
          | (s1, Ok _) =>
              match define_all m (md_classes md) s1 with
              | (s2, Raise e) => (s2, Raise e)
              | (s2, Ok _) => (mk_python (m :: py_loaded s2) (py_classes s2) (py_warned s2), Ok tt)
              end
          end
      end
  end.

(** Imports by the user, one after the other; exceptions are caught. *)
Definition user_imports (fuel : nat) (ms : list string) (s : python) : python :=
  fold_left (fun s m => fst (import_module fuel m s)) ms s.
End Import.

(** The modules of the package with their import statements (standard library
    left out) and serializable classes.
    qtune/util.py L17-29; qtune/storage.py L28-32; qtune/experiment.py L19-30;
    qtune/evaluator.py L17-28, L93-771; qtune/kalman_gradient.py L17-25;
    qtune/gradient.py L19-32, L75-374; qtune/solver.py L22-27, L75-507;
    qtune/parameter_tuner.py L19-29, L196-288; qtune/autotuner.py L17-30;
    qtune/basic_dqd.py L17-20; qtune/history.py L22-35; qtune/mat2py.py L22;
    qtune/sm.py L27-34, L227; qtune/sm_tune_qqd.py L17-33, L178-454;
    qtune/kalman_heuristics.py L17-18; qtune/gui.py L21-33. *)
Definition own (c : string) : string * bool := (c, true).
Definition package : list (string * module) :=
  [("util", mk_module [Outside "matplotlib"; Outside "numpy"; Outside "sympy"; Outside "pandas"] []);
   ("storage", mk_module [Outside "h5py"; Outside "numpy"; Outside "pandas"; Inside "util"] []);
   ("experiment", mk_module [Outside "numpy"; Outside "pandas"; Inside "util"; Inside "storage"] [own "Measurement"]);
   ("evaluator", mk_module [Inside "experiment"; Outside "pandas"; Outside "numpy"; Outside "scipy"; Inside "util"; Inside "storage"]
      [own "Evaluator"; own "FittingEvaluator"; own "LeadTunnelTimePrefitVersion"; own "LeadTunnelTimeByLeadScan";
       own "InterDotTCByLineScan"; own "NewLoadTime"; own "LeadTransition"; own "SensingDot1D"; own "SensingDot2D";
       own "AveragingEvaluator"]);
   ("kalman_gradient", mk_module [Outside "numpy"; Outside "scipy"; Outside "filterpy"; Inside "storage"] [own "KalmanGradient"]);
   ("gradient", mk_module [Outside "numpy"; Outside "pandas"; Outside "sympy"; Inside "kalman_gradient"; Inside "storage"; Inside "util"]
      [own "GradientEstimator"; own "FiniteDifferencesGradientEstimator"; own "KalmanGradientEstimator";
       own "SelfInitializingKalmanEstimator"]);
   ("solver", mk_module [Outside "numpy"; Outside "pandas"; Inside "gradient"; Inside "storage"; Inside "util"]
      [own "Solver"; own "NewtonSolver"; own "NelderMeadSolver"; own "ForwardingSolver"]);
   ("parameter_tuner", mk_module [Outside "numpy"; Outside "pandas"; Inside "evaluator"; Inside "solver"; Inside "storage"]
      [own "ParameterTuner"; own "SubsetTuner"; own "SensingDotTuner"]);
   ("autotuner", mk_module [Outside "h5py"; Outside "pandas"; Inside "util"; Inside "experiment"; Inside "parameter_tuner";
      Inside "solver"; Inside "storage"] [own "Autotuner"]);
   ("basic_dqd", mk_module [Outside "pandas"; Outside "numpy"; Inside "experiment"] []);
   ("history", mk_module [Outside "h5py"; Outside "pandas"; Outside "numpy"; Outside "matplotlib"; Inside "storage"; Inside "autotuner";
      Inside "solver"; Inside "gradient"; Inside "parameter_tuner"; Inside "util"; Inside "evaluator"] []);
   ("mat2py", mk_module [Outside "matlab.engine"] []);
   ("sm", mk_module [Outside "matlab.engine"; Outside "pandas"; Outside "numpy"; Inside "experiment"; Inside "util"; Inside "basic_dqd";
      Inside "evaluator"] [own "MatlabEvaluator"]);
   ("sm_tune_qqd", mk_module [Outside "pandas"; Outside "numpy"; Inside "experiment"; Inside "evaluator"; Inside "sm"; Inside "mat2py";
      Inside "history"]
      [own "QQDMeasurement"; own "SMQQDPassThru"; own "QQDLine"; own "QQDLead"; own "QQDSensor1D"; own "QQDSensor2D"; own "QQDCharge";
       own "QQDDistTP"; own "QQDResp"]);
   ("kalman_heuristics", mk_module [Missing "sm" "ChargeDiagram"; Outside "numpy"] []);
   ("gui", mk_module [Outside "IPython"; Outside "pyqtgraph"; Outside "numpy"; Outside "pandas"; Inside "history"; Inside "autotuner"] [])].

(** qtune/storage.py L48-53 [_import_all]. *)
Definition import_all (installed : string -> bool) (fuel : nat) (s : python) : python * res unit :=
  run_imports installed (import_module package installed fuel)
    (map Inside ["autotuner"; "evaluator"; "experiment"; "gradient"; "solver"]) s.
(** [name in serializables], qtune/storage.py L202. *)
Definition known (s : python) (name : string) : bool :=
  match named name (py_classes s) with Some _ => true | None => false end.

(** ** Version *)
(** What the functions below find: the directory of the package has a
    directory .git above it; gitpython; the program git. *)
Inductive gitpython := NotInstalled | GitRaises (e : exn) | GitCommit (time : nat) (hash : string).
(** Result of the two calls of git: FileNotFoundError, CalledProcessError or
    TimeoutExpired; or the commit. *)
Inductive gitprogram := Fails | Reports (time : nat) (hash : string).
(** The commits checked out in the repositories, by directory. *)
Record system := mk_system { sy_root : string; sy_cwd : string; sy_has_git : bool; sy_python : string -> gitpython;
                             sy_program : string -> gitprogram }.

(** qtune/util.py L291-312 [get_git_info]: gitpython is asked for the directory
    of the package, the program runs in the current directory.  RuntimeError
    and ImportError (also their subclasses) are caught. *)
Definition get_git_info (sy : system) : res (option (nat * string)) :=
  if sy_has_git sy then
    let second := match sy_program sy (sy_cwd sy) with
                  | Reports t h => Ok (Some (t, h))
                  | Fails => Ok None
                  end in
    match sy_python sy (sy_root sy) with
    | GitCommit t h => Ok (Some (t, h))
    | NotInstalled => second
    | GitRaises RuntimeError => second
    | GitRaises RecursionError => second
    | GitRaises EvaluationError => second
    | GitRaises e => Raise e
    end
  else Ok None.

(** [str] of a natural number. *)
Definition digits (n : nat) : string := str_of n.
(** qtune/util.py L315-324 [get_version]; a commit at time 0 counts as none. *)
Definition get_version (base : string) (sy : system) : res string :=
  match get_git_info sy with
  | Raise e => Raise e
  | Ok (Some (S t, h)) => Ok (base ++ "+" ++ digits (S t) ++ "+" ++ h)
  | Ok _ => Ok base
  end.

Section Files.
Context {payload : Type}.
Variable storable scalar : payload -> bool.
Variable serializables : string -> bool.
Variable construct : string -> list (string * pyval payload) -> option exn.
(** A file: the links of its root, the attribute '#version', the next free
    object id. *)
Record file := mk_file { f_links : list (string * h5 payload); f_version : option string }.

(** qtune/storage.py L156-165 [to_hdf5]: [in] tests the links, not the
    attributes.  Simplification: after an exception of the save itself the file
    is as before, but for the attribute. *)
Definition write (version : res string) (n : nat) (name : string) (obj : pyval payload) (reserved : list (string * nat)) (f : file) :
  file * res unit :=
  let go f1 := match to_hdf5 payload storable serializables (f_links f1) n name obj reserved with
               | Ok (HGroup _ _ ls) => (mk_file ls (f_version f1), Ok tt)
               | Ok (HData _ _ _) => (f1, Raise RuntimeError)
               | Raise e => (f1, Raise e)
               end in
  match named "#version" (f_links f) with
  | Some _ => go f
  | None => match version with
            | Raise e => (f, Raise e)
            | Ok v => go (mk_file (f_links f) (Some v))
            end
  end.

(** [str.startswith('#')]. *)
Definition hidden (key : string) : bool := match key with String c _ => Ascii.eqb c "#"%char | EmptyString => false end.

(** qtune/history.py L102-119 [read_files]: the entries of all files are
    loaded; [list.sort] returns None.  Simplification: references to objects
    outside of the entry raise ValueError (h5py looks them up in the whole file,
    without the reserved objects of its root). *)
Fixpoint read_entries (fuel : nat) (supplied : list (string * pyval payload)) (ls : list (string * h5 payload)) :
  res (list (string * pyval payload)) :=
  match ls with
  | [] => Ok []
  | (key, h) :: ls' =>
      if hidden key then read_entries fuel supplied ls'
      else match from_hdf5 payload scalar serializables construct fuel h supplied 0 with
           | Raise e => Raise e
           | Ok v => match read_entries fuel supplied ls' with
                     | Ok r => Ok ((key, v) :: r)
                     | Raise e => Raise e
                     end
           end
  end.
Fixpoint read_all (fuel : nat) (supplied : list (string * pyval payload)) (fs : list file) : res (list (string * pyval payload)) :=
  match fs with
  | [] => Ok []
  | f :: fs' => match read_entries fuel supplied (by_name (f_links f)) with
                | Raise e => Raise e
                | Ok r => match read_all fuel supplied fs' with
                          | Ok r' => Ok (r ++ r')%list
                          | Raise e => Raise e
                          end
                end
  end.
Definition read_files (fuel : nat) (supplied : list (string * pyval payload)) (fs : list file) : res (option (list (string * pyval payload))) :=
  match read_all fuel supplied fs with
  | Ok _ => Ok None
  | Raise e => Raise e
  end.

(** qtune/autotuner.py L317-327 [load_auto_tuner]. *)
Definition load_auto_tuner (fuel n : nat) (f : file) (supplied : list (string * pyval payload)) : res (pyval payload) :=
  match named "experiment" supplied with
  | None => Raise AssertionError
  | Some _ =>
      match from_hdf5 payload scalar serializables construct fuel (HGroup 0 None (f_links f)) supplied n with
      | Raise e => Raise e
      | Ok (PDict _ kvs) => match named "autotuner" kvs with Some v => Ok v | None => Raise KeyError end
      | Ok _ => Raise TypeError
      end
  end.
End Files.
