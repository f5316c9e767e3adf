(** The constructor of the Autotuner, qtune/autotuner.py L37-84, on a hierarchy of
    SubsetTuners. *)
From Verif Require Import PyBase AutotunerModel TunerModel ComposeModel.

(** qtune/autotuner.py L68-70: a tuner without last voltages is given the ones on
    the gates; [last_voltages] returns the attribute that is assigned
    (qtune/parameter_tuner.py L101-103). *)
Definition provided {S} (gates : series) (p : part S) : part S :=
  match t_last (p_tuner p) with
  | None => mk_part (with_last gates (p_tuner p)) (p_solver p) (p_limits p) (p_gates p)
  | Some _ => p
  end.
(** qtune/autotuner.py L66-84: the arguments [current_tuner_index],
    [current_tuner_status], [voltage_to_set] and the storage path. *)
Definition constructed {S} (idx : nat) (status : bool) (to_set : option series) (path : option string) (gates : series) (parts : list (part S)) : sys (world S) :=
  mk_sys (mk_at idx status to_set path) (mk_world gates (map (provided gates) parts)) [].
