(** The simulated experiment, qtune/basic_dqd.py L45-100, and the simulated line
    scan over a transition, L148-158, without noise (its factors are 0).

    The voltages of the experiment are the series object given by the caller
    (L71), whose content is the state here.  Left out: dtypes, that a simulator
    changes its options. *)
From Coq Require Import Reals List Bool Arith.
From Verif Require Import PyBase PyExn UtilModel EvaluatorModel HistoryModel.
Import ListNotations.
Local Open Scope string_scope.
Local Open Scope R_scope.
Local Open Scope list_scope.

(** qtune/basic_dqd.py L63-78.  Measurements are known by [id]; [sims] are the keys
    of [simulator_dict]. *)
Definition sim_new (measurements : list nat) (sims : list nat) : res unit :=
  if forallb (fun m => existsb (Nat.eqb m) sims) measurements then Ok tt else Raise RuntimeError.
(** qtune/basic_dqd.py L90-91 [read_gate_voltages]: a sorted copy. *)
Definition sim_read (given : series) : series := sort_series given.
(** qtune/basic_dqd.py L93-96 [set_gate_voltages]: the content of the given series
    afterwards, a new label is appended, and the result. *)
Definition sim_set (new given : series) : series * series := (upserts new given, new).
(** qtune/basic_dqd.py L98-100 [measure], with L56-57. *)
Definition sim_measure {A} (sims : list (nat * (series -> res A))) (m : nat) (given : series) : res A :=
  match find (fun p => Nat.eqb (fst p) m) sims with
  | Some (_, f) => f (sim_read given)
  | None => Raise KeyError
  end.
(** What is done with an experiment. *)
Inductive sim_op := SimSet (v : series) | SimRead.
Definition sim_step (given : series) (o : sim_op) : series := match o with SimSet v => fst (sim_set v given) | SimRead => given end.

(** qtune/basic_dqd.py L148-158 [transition_simulation] at the voltages [v_lead] and
    [v_opposite]; options of the measurement [center], [range] and [n]. *)
Definition transition_simulation (v_lead v_opposite center range : R) (n : nat) : list R :=
  map (fun x => tanh ((x - (v_lead - v_opposite) * 0.001) / range * 5)) (linspace (center - range) (center + range) n).
(** The same as data of an experiment with the gates [lead] and [opposite]
    (L150-152).  Finite voltages only: any others count as 0. *)
Definition finite_value (g : label) (s : series) : R := match lookup g s with Some (Fin r) => r | _ => 0 end.
Definition simulated (lead opposite : label) (center range : R) (n : nat) (_ : nat) (gates : series) : list R :=
  transition_simulation (finite_value lead gates) (finite_value opposite gates) center range n.
(** qtune/basic_dqd.py L134-141: [options] are those of the measurement that can be
    converted by [float].  With numpy 1.18 or later linspace raises TypeError for
    a float as number of points; [strict] tells such a version, an earlier one
    takes [int(num)]. *)
Definition detune_points (strict : bool) (options : list (label * R)) : res R :=
  match find (fun p => String.eqb (fst p) "N_points") options with
  | None => Raise KeyError
  | Some (_, n) => match find (fun p => String.eqb (fst p) "N_average") options with
                   | None => Raise KeyError
                   | Some _ => match find (fun p => String.eqb (fst p) "center") options, find (fun p => String.eqb (fst p) "range") options with
                               | Some _, Some _ => if strict then Raise TypeError else Ok n
                               | _, _ => Raise KeyError
                               end
                   end
  end.
