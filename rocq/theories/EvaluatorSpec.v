(** Vocabulary for the evaluators; written without the model's helpers. *)
From Coq Require Import Reals String List Arith.
From Verif Require Import PyBase UtilSpec EvaluatorModel.
Import ListNotations.
Local Open Scope R_scope.

(** [s'] are the voltages [s] with the gate [g] lowered by [w]. *)
Definition lowered (g : label) (w : R) (s s' : series) : Prop :=
  map fst s' = map fst s /\
  forall k x, lookup k s = Some (Fin x) -> lookup k s' = Some (Fin (if String.eqb k g then x - w else x)).
(** All voltages are finite numbers. *)
Definition finite_gates (s : series) : Prop := forall k v, In (k, v) s -> exists x, v = Fin x.
(** The measurements in a log of operations, in order. *)
Definition measurements_of (log : list lab_event) : list nat :=
  flat_map (fun e => match e with LMeasure m _ => [m] | _ => [] end) log.
Definition settings_of (log : list lab_event) : list series :=
  flat_map (fun e => match e with LSet v => [v] | _ => [] end) log.

(** [n] successful evaluations in a row, starting in state [w]. *)
Inductive runs {W} (inner : W -> W * res (series * series)) : nat -> W -> list series -> W -> Prop :=
| runs_none w : runs inner 0 w [] w
| runs_more n w w' w'' p e ps : inner w = (w', Ok (p, e)) -> runs inner n w' ps w'' -> runs inner (S n) w (p :: ps) w''.

(** The finite values among the repetitions, in order. *)
Definition finite_values (xs : list num) : list R := flat_map (fun x => match x with Fin r => [r] | _ => [] end) xs.
Definition no_infinity (xs : list num) : Prop := ~ In PInf xs /\ ~ In MInf xs.
Definition rsum (rs : list R) : R := fold_right Rplus 0 rs.
(** Arithmetic mean and mean squared deviation. *)
Definition rmean (rs : list R) : R := rsum rs / INR (length rs).
Definition rvar (rs : list R) : R := rsum (map (fun r => (r - rmean rs)²) rs) / INR (length rs).

(** Increase of scan line [i] from point [j] to the next. *)
Definition slope_at (lines : list (list R)) (i j : nat) : R := nth (S j) (nth i lines []) 0 - nth j (nth i lines []) 0.
