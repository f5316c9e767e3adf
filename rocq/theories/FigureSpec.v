(** Vocabulary for the figures of the history. *)
From Coq Require Import String List Bool Arith Permutation Sorted.
From Verif Require Import ColumnsModel ColumnsSpec FigureModel.
Import ListNotations.
Local Open Scope string_scope.
Local Open Scope list_scope.

Definition described (n : string) : Prop := exists i, In (n, i) information.
(** Only the last of [n] fields has a label below. *)
Definition below (i n : nat) : option string := if Nat.eqb (S i) n then Some "Measurement Number" else None.

(** One field per parameter, in the given order, with its curve and labels. *)
Definition shows_parameters (errors : bool) (names : list string) (fs : list field) : Prop :=
  length fs = length names /\
  forall i n, nth_error names i = Some n -> exists inf, In (n, inf) information /\
    nth_error fs i = Some (mk_field [mk_curve n n (if errors then Some (n ++ "#var")%string else None)]
                                    (Some (i_name inf)) (Some (i_unit inf)) (below i (length names))).

(** Names for which the columns can be found: see C105. *)
Definition tidy (p : string) (cols : list column) : Prop :=
  plain p /\ Forall plain_column cols /\
  (forall q g, In (CGrad q g) cols -> wordlike g /\ (ends_with p q -> q = p)) /\
  (forall q g1 g2, In (CCov q g1 g2) cols -> wordlike g1 /\ (ends_with p q -> q = p) /\ ~ starts_with "grad" g2).
(** A field with the curves of a gradient, one per gate; a curve has error bars
    if the variance is in the frame. *)
Definition gradient_curves (errors : bool) (cols : list column) (p : string) (cs : list curve) : Prop :=
  forall g c e, In (mk_curve g c e) cs <->
    In (CGrad p g) cols /\ c = col_name (CGrad p g) /\
    ((e = Some (col_name (CCov p g g)) /\ errors = true /\ In (CCov p g g) cols) \/
     (e = None /\ ~ (errors = true /\ In (CCov p g g) cols))).
Definition shows_gradients (errors : bool) (cols : list column) (names : list string) (fs : list field) : Prop :=
  length fs = length names /\
  forall i n, nth_error names i = Some n -> exists inf cs, In (n, inf) information /\
    gradient_curves errors cols n cs /\
    nth_error fs i = Some (mk_field cs (if Nat.eqb i 0 then Some "Response Matrix" else None)
                                    (Some (i_grad inf)) (below i (length names))).
Definition has_gradient (cols : list column) (p : string) : Prop := exists g, In (CGrad p g) cols.

(** The voltages in one field. *)
Definition shows_voltages (names : list string) (fs : list field) : Prop :=
  exists cs, fs = [mk_field cs (Some "Gate Voltages") (Some "Voltage (V)") (Some "Measurement Number")] /\
    map c_label cs = names /\ Forall (fun c => c_column c = c_label c /\ c_error c = None) cs.

(** The names of a set, sorted. *)
Definition in_order (l names : list string) : Prop :=
  Permutation l names /\ StronglySorted (fun a b => String.leb a b = true) l.
(** What is plotted: all names if the option is chosen, else those given. *)
Definition chosen (option_name : string) (options : list string) (all : list string) (given : option (list string)) (o : option (list string)) : Prop :=
  (In option_name options -> exists l, o = Some l /\ in_order l all) /\ (~ In option_name options -> o = given).

(** ** After a failure *)
(** The first name without the property. *)
Definition first_bad (P : string -> Prop) (names : list string) (j : nat) : Prop :=
  (exists n, nth_error names j = Some n /\ ~ P n) /\ forall i n, i < j -> nth_error names i = Some n -> P n.
(** All curves, but labels only in front of name number [j]. *)
Definition left_parameters (errors : bool) (names : list string) (j : nat) (fs : list field) : Prop :=
  length fs = length names /\
  forall i n, nth_error names i = Some n ->
    let c := [mk_curve n n (if errors then Some (n ++ "#var")%string else None)] in
    (i < j -> exists inf, In (n, inf) information /\ nth_error fs i = Some (mk_field c (Some (i_name inf)) (Some (i_unit inf)) None)) /\
    (j <= i -> nth_error fs i = Some (mk_field c None None None)).
(** Curves and labels in front of name number [j], curves at [j] if there is a
    gradient, nothing behind. *)
Definition left_gradients (errors : bool) (cols : list column) (names : list string) (j : nat) (fs : list field) : Prop :=
  length fs = length names /\
  forall i n, nth_error names i = Some n ->
    (i < j -> exists inf cs, In (n, inf) information /\ gradient_curves errors cols n cs /\
       nth_error fs i = Some (mk_field cs None (Some (i_grad inf)) None)) /\
    (i = j -> (has_gradient cols n -> exists cs, gradient_curves errors cols n cs /\ nth_error fs i = Some (mk_field cs None None None)) /\
              (~ has_gradient cols n -> nth_error fs i = Some (mk_field [] None None None))) /\
    (j < i -> nth_error fs i = Some (mk_field [] None None None)).
