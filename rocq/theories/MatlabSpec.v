(** Vocabulary for the voltage guards; written without the model. *)
From Coq Require Import Reals String List.
From Verif Require Import PyBase.
Import ListNotations.
Local Open Scope R_scope.

(** The gates have finite voltages in the interval [lo, hi]. *)
Definition within (lo hi : R) (gs : list label) (h : label -> num) : Prop :=
  forall g, In g gs -> exists x, h g = Fin x /\ lo <= x <= hi.
(** No gate of the list moved by more than [d]. *)
Definition moved_at_most (d : R) (gs : list label) (h h' : label -> num) : Prop :=
  forall g, In g gs -> exists x y, h g = Fin x /\ h' g = Fin y /\ Rabs (y - x) <= d.
(** Nothing outside the list moved. *)
Definition only (gs : list label) (h h' : label -> num) : Prop := forall g, ~ In g gs -> h' g = h g.
(** A request contains finite voltages only. *)
Definition finite_request (s : list (label * num)) : Prop := forall g v, In (g, v) s -> exists x, v = Fin x.
(** What a request asks for a gate, the present value if it is not mentioned. *)
Definition asked (s : list (label * num)) (h : label -> num) (g : label) : num :=
  match lookup g s with Some v => v | None => h g end.
(** The [i]-th (from 0) of [n] equidistant points from [lo] to [hi]. *)
Definition scan_point (lo hi : R) (n i : nat) : R := lo + INR i * ((hi - lo) / (INR n - 1)).
