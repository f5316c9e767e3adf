(** The window with the raw data of the evaluators: qtune/gui.py L74-137
    [EvaluatorWidget] and its opening L658-671.  The history is seen as the
    names of its columns and the number of its rows.  Left out: widths, the
    picture below the buttons (PlotModel), the validator of the field. *)
From Coq Require Import String List Bool Arith ZArith.
From Verif Require Import GuiModel.
Import ListNotations.

(** What the window reads of the history: [evaluator_names] (the columns of
    [_evaluator_data], qtune/history.py L173-175) and
    [number_of_stored_iterations] (L185-187). *)
Record stored := mk_stored { s_names : list string; s_rows : nat }.

(** A widget in the upper part of the window: row and column of the layout. *)
Inductive what := Button (name : string) | Label | Field.
Record placed := mk_placed { p_what : what; p_row : nat; p_col : nat }.
(** L90-94: button [i] at (i // 2, i % 2). *)
Fixpoint buttons (i : nat) (names : list string) : list placed :=
  match names with
  | [] => []
  | n :: names' => mk_placed (Button n) (i / 2) (i mod 2) :: buttons (S i) names'
  end.
(** L87-101 [refresh]: the buttons, then the label at (0, 2) and the field at (1, 2). *)
Definition layout (names : list string) : list placed :=
  buttons 0 names ++ [mk_placed Label 0 2; mk_placed Field 1 2].

(** The window: upper part, the text of the field as a number, the private
    number, and the pictures below with their evaluator and number, latest
    first: all are put into the place (1, 0), none is taken out (L109). *)
Record window := mk_window { w_top : list placed; w_text : Z; w_number : Z; w_pictures : list (string * Z) }.
(** L75-81 and L98 [setText('0')]. *)
Definition open_window (h : stored) : window := mk_window (layout (s_names h)) 0 0 [].

(** What can happen while the window is open.  [Grows]: the history takes up
    another state, which may bring new columns (L665: the window is not told).
    [Enter]: a text in the field, as a number (None: not one).  [Press]: the
    [i]th button. *)
Inductive event := Grows (h : stored) | Enter (text : option Z) | Press (i : nat).
(** L104-109 [plot_raw_data]: the text of the button pressed and the private
    number.  L113-117 [refreh_tune_run_number]: the setter, then its result is
    written back. *)
Definition happen (s : stored * window) (e : event) : stored * window :=
  let (h, w) := s in
  match e with
  | Grows h' => (h', w)
  | Enter text => let i := set_run_number text (Z.of_nat (s_rows h)) in
                  (h, mk_window (w_top w) i i (w_pictures w))
  | Press i => match nth_error (w_top w) i with
               | Some (mk_placed (Button n) _ _) => (h, mk_window (w_top w) (w_text w) (w_number w) ((n, w_number w) :: w_pictures w))
               | _ => (h, w)
               end
  end.
Definition session (h : stored) (es : list event) : stored * window := fold_left happen es (h, open_window h).
