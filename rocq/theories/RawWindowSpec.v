(** What is to be seen in the window, told from the events alone. *)
From Coq Require Import String List Bool Arith ZArith.
From Verif Require Import RawWindowModel.
Import ListNotations.

(** The names on the buttons, in order. *)
Fixpoint names_on (l : list placed) : list string :=
  match l with
  | [] => []
  | mk_placed (Button n) _ _ :: l' => n :: names_on l'
  | _ :: l' => names_on l'
  end.
Definition place (p : placed) : nat * nat := (p_row p, p_col p).
(** The number of rows after the events, starting with [n] rows. *)
Fixpoint rows_after (n : nat) (es : list event) : nat :=
  match es with [] => n | Grows h :: es' => rows_after (s_rows h) es' | _ :: es' => rows_after n es' end.
(** The history never loses rows. *)
Fixpoint growing (n : nat) (es : list event) : Prop :=
  match es with
  | [] => True
  | Grows h :: es' => n <= s_rows h /\ growing (s_rows h) es'
  | _ :: es' => growing n es'
  end.
(** The pictures asked for: name of the button and the number at that time. *)
Fixpoint asked (names : list string) (n : nat) (number : Z) (es : list event) : list (string * Z) :=
  match es with
  | [] => []
  | Grows h :: es' => asked names (s_rows h) number es'
  | Enter (Some i) :: es' => asked names n (if (i <? 0)%Z then 0%Z else Z.min i (Z.of_nat n - 1)) es'
  | Enter None :: es' => asked names n (Z.min 0 (Z.of_nat n - 1)) es'
  | Press i :: es' => match nth_error names i with
                      | Some m => (m, number) :: asked names n number es'
                      | None => asked names n number es'
                      end
  end.
