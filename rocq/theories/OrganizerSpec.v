(** Vocabulary for the live plot: what should be shown for a choice and a
    history. *)
From Coq Require Import String List Bool Arith Ascii.
From Verif Require Import PyExn OrganizerModel.
Import ListNotations.
Local Open Scope string_scope.
Local Open Scope list_scope.

(** Names without the sign that separates the parts of the keys. *)
Definition plain (s : string) : Prop := ~ In "#"%char (list_ascii_of_string s).
(** Gates and parameters have different names, no gate is called err_bar. *)
Definition gate_names (T : tree) : list string := map fst (t_gates T).
Definition param_names (T : tree) : list string := map fst (t_params T).
Definition grad_names (T : tree) : list (string * list string) := map (fun e => (fst (fst e), map fst (snd e))) (t_grads T).
Record well_named (T : tree) : Prop := {
  wn_gates : NoDup (gate_names T) /\ Forall plain (gate_names T);
  wn_params : NoDup (param_names T) /\ Forall plain (param_names T);
  wn_apart : forall n, In n (gate_names T) -> ~ In n (param_names T);
  wn_grads : NoDup (map fst (grad_names T)) /\ Forall plain (map fst (grad_names T));
  wn_grad_gates : forall p gs, In (p, gs) (grad_names T) -> NoDup gs /\ Forall plain gs /\ ~ In "err_bar" gs }.

(** Two choices in the same tree. *)
Definition same_names (T T' : tree) : Prop :=
  gate_names T = gate_names T' /\ param_names T = param_names T' /\ grad_names T = grad_names T'.

(** Position of the first pen of the k-th gradient: one pen is lost after every
    group. *)
Fixpoint pens_before (k : nat) (l : list (string * mode * list (string * mode))) : nat :=
  match k, l with
  | S k', (_, _, gates) :: l' => S (length gates) + pens_before k' l'
  | _, _ => 0
  end.

Section Wanted.
Variable D : Type.
Variable twice twice_root : D -> D.
(** The items that belong to a choice [T] and a history [H]. *)
Inductive wanted (T : tree) (H : source D) : string -> item D -> Prop :=
| WantGate k g d : nth_error (t_gates T) k = Some (g, true) -> gate_values H g = Ok d -> wanted T H g (Curve (k mod hues T) d)
| WantParam k p m d : nth_error (t_params T) k = Some (p, m) -> m <> Off -> parameter_values H p = Ok d ->
    wanted T H p (Curve ((length (t_gates T) + 1 + k) mod hues T) d)
| WantError k p d s : nth_error (t_params T) k = Some (p, PlotError) -> parameter_values H p = Ok d -> parameter_std H p = Ok s ->
    wanted T H (p ++ "#err_bar")%string (Bars d (twice s))
| WantGrad k p pm gates j g m df d : nth_error (t_grads T) k = Some (p, pm, gates) -> nth_error gates j = Some (g, m) -> m <> Off ->
    gradients H p = Ok df -> column g df = Some d ->
    wanted T H (p ++ "#" ++ g)%string (Curve ((length (t_gates T) + length (t_params T) + 2 + pens_before k (t_grads T) + j) mod hues T) d)
| WantGradError k p pm gates j g df d dv s : nth_error (t_grads T) k = Some (p, pm, gates) -> nth_error gates j = Some (g, PlotError) ->
    gradients H p = Ok df -> column g df = Some d -> gradient_variances H p = Ok dv -> column g dv = Some s ->
    wanted T H ((p ++ "#" ++ g) ++ "#err_bar")%string (Bars d (twice_root s)).

(** The history answers everything that is asked. *)
Definition answers (T : tree) (H : source D) : Prop :=
  (forall g, In (g, true) (t_gates T) -> exists d, gate_values H g = Ok d) /\
  (forall p m, In (p, m) (t_params T) -> m <> Off -> exists d, parameter_values H p = Ok d) /\
  (forall p, In (p, PlotError) (t_params T) -> exists d, parameter_std H p = Ok d) /\
  (forall p pm gates, In (p, pm, gates) (t_grads T) ->
     exists df dv, gradients H p = Ok df /\ gradient_variances H p = Ok dv /\
       forall g m, In (g, m) gates -> m <> Off -> exists d, column g df = Some d).
End Wanted.

(** All keys, in the order in which they are treated. *)
Definition names (T : tree) : list string :=
  gate_names T ++
  flat_map (fun p => [p; (p ++ "#err_bar")%string]) (param_names T) ++
  flat_map (fun e => flat_map (fun g => [(fst e ++ "#" ++ g)%string; ((fst e ++ "#" ++ g) ++ "#err_bar")%string]) (snd e)) (grad_names T).
