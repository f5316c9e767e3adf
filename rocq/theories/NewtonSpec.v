(** Vocabulary for the properties of the NewtonSolver and of the gradient
    estimators. *)
From Verif Require Import PyBase TargetModel TunerModel TunerSpec SolverModel NewtonModel EstimatorModel.

(** The answer of an estimator that does not ask for a measurement. *)
Definition no_request (a : option series) : Prop := a = None \/ a = Some [].

(** Gradients of the tuned parameters, in target order, seen on some gates. *)
Definition tuned_rows {G} (E : est_ops G) (tuned gates : list label) (t : target) (gs : list G) : list series :=
  flat_map (fun q => if mem (t_name (fst q)) tuned
                     then match eo_estimate E (snd q) with Some s => [map (fun l => (l, get l s)) gates] | None => [] end
                     else [])
           (combine t gs).

(** The change that the Newton step asks for, for finite or missing desired
    value and measured value. *)
Definition wanted (d v : num) : num :=
  match d, v with
  | Fin x, Fin y => Fin (x - y)
  | Fin x, NaN => Fin x
  | NaN, Fin y => Fin (- y)
  | _, _ => Fin 0
  end.

(** What the constructor of the NewtonSolver establishes. *)
Definition well_formed {G} (st : newton G) : Prop :=
  length (nw_target st) = length (nw_ests st) /\ index (nw_vals st) = t_index (nw_target st) /\ NoDup (t_index (nw_target st)).

(** Some parameter has neither a desired value nor a gradient. *)
Definition blocked {G} (E : est_ops G) (st : newton G) : Prop :=
  well_formed st /\ exists i row g, nth_error (nw_target st) i = Some row /\ nth_error (nw_ests st) i = Some g /\
    t_desired row = NaN /\ eo_estimate E g = None.

(** Calls a tuner or the autotuner makes on a NewtonSolver (the target stays). *)
Inductive nw_op :=
| NSuggest (tuned : list label)
| NUpdate (pos vals vars : series)
| NSetPos (v : series)
| NRestart (v : series).

Section Run.
Context {G : Type} (E : est_ops G) (lstsq : list series -> list num -> res (list num)).
Definition nw_do (op : nw_op) (st : newton G) : newton G :=
  match op with
  | NSuggest tuned => fst (nw_suggest E lstsq tuned st)
  | NUpdate p v w => fst (nw_update E p v w st)
  | NSetPos v => nw_move v st
  | NRestart v => fst (nw_restart E v st)
  end.
Definition nw_run (ops : list nw_op) (st : newton G) : newton G := fold_left (fun s op => nw_do op s) ops st.
End Run.

(** Calls on a gradient estimator. *)
Inductive est_op :=
| EAsk (gates : list label) (tj : option (list series))
| EUpdate (pos : series) (value variance : num)
| ERestart (v : series).

Section ERun.
Context {G : Type} (E : est_ops G).
Definition est_do (op : est_op) (g : G) : G :=
  match op with
  | EAsk gates tj => fst (eo_require E gates tj g)
  | EUpdate p x v => fst (eo_update E p x v g)
  | ERestart v => fst (eo_restart E v g)
  end.
Definition est_run (ops : list est_op) (g : G) : G := fold_left (fun s op => est_do op s) ops g.
End ERun.

(** A history of a Kalman estimator: measured positions are finite. *)
Inductive kal_op :=
| KUpdate (p : label -> R) (x : R) (var : num)
| KRestart (v : series)
| KAsk (gates : list label) (tj : option (list series)).

(** As calls of the estimator; positions are given for the gates [all]. *)
Definition kal_call (all : list label) (op : kal_op) : est_op :=
  match op with
  | KUpdate p x var => EUpdate (map (fun l => (l, Fin (p l))) all) (Fin x) var
  | KRestart v => ERestart v
  | KAsk gates tj => EAsk gates tj
  end.

(** What a Kalman estimator on the gates [ls] has to feed to its filter: one
    triple (step, difference of the values, variance) for each update that
    follows another one without a restart in between and lies at least 1e-7
    away from it. *)
Fixpoint feeds (ls : list label) (last : option ((label -> R) * R)) (ops : list kal_op) : list (list num * num * num) :=
  match ops with
  | [] => []
  | KAsk _ _ :: ops' => feeds ls last ops'
  | KRestart _ :: ops' => feeds ls None ops'
  | KUpdate p x var :: ops' =>
      match last with
      | None => []
      | Some (q, y) =>
          if Rlt_dec (sqrt (fold_right (fun l acc => ((p l - q l) * (p l - q l) + acc)%R) 0%R ls)) (/ 10000000)
          then [] else [(map (fun l => Fin (p l - q l)%R) ls, Fin (x - y)%R, var)]
      end ++ feeds ls (Some (p, x)) ops'
  end.

(** One call of the filter. *)
Definition feed {K} (k_update : list num -> num -> num -> K -> K * res unit) (k : K) (f : list num * num * num) : K :=
  fst (k_update (fst (fst f)) (snd (fst f)) (snd f) k).

(** The position and value an estimator remembers. *)
Definition knows {K} (ls : list label) (st : kal K) (last : option ((label -> R) * R)) : Prop :=
  index (ke_pos st) = ls /\
  match last with
  | None => ke_val st = None
  | Some (q, y) => ke_pos st = vec ls q /\ ke_val st = Some (Fin y)
  end.

(** Number of measurements from which a finite difference gradient is computed. *)
Definition full (st : fd) : nat := if fd_sym st then 2 * length (fd_pos st) else length (fd_pos st) + 1.
