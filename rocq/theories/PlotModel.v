(** Plots of stored evaluator data: qtune/history.py L412-463 and L602-680, the
    plot functions qtune/util.py L211-288 and the window qtune/gui.py L303-312,
    L359-385.  Instead of pictures the model delivers the axes that are drawn
    on, or the exception.  Left out: colours, labels, titles, tight_layout. *)
From Coq Require Import String List Bool Arith ZArith.
From Verif Require Import PyExn.
Import ListNotations.
Local Open Scope string_scope.
Local Open Scope list_scope.

Definition known (cols : list string) (n : string) : bool := existsb (String.eqb n) cols.
(** [l.remove(n)] for a list that contains [n]. *)
Fixpoint remove_first (n : string) (l : list string) : list string :=
  match l with
  | [] => []
  | a :: l' => if String.eqb n a then l' else a :: remove_first n l'
  end.

(** What matplotlib hands out: a single Axes, a list (figure.axes), an array.
    Axes of a figure are numbered in the order of [ravel]. *)
Inductive axes := OneAxes | AxesList (l : list nat) | AxesArray (l : list nat).
(** matplotlib [subplots] with the default squeeze: a single Axes for one
    field; no fields at all are a ValueError. *)
Definition subplots (rows cols : nat) : res axes :=
  if (rows * cols =? 0)%nat then Raise ValueError
  else if (rows * cols =? 1)%nat then Ok OneAxes
  else Ok (AxesArray (seq 0 (rows * cols))).

(** The part of a stored dictionary that the plots read.
    [FitData]: raw_y_data is None or an array with so many dimensions after
    squeeze, fit_results and initial_fit_arguments are None or have these
    labels (qtune/evaluator.py L81-87, L124-128; raw_x_data is one-dimensional).
    [LineData]: lists of scans, number of points of x and shape of y after
    squeeze (L554-571; as many parameters as scans).  [ScanData]: one such scan
    (L624-629).  [MapData]: None or a two-dimensional scan (L705-712).
    [AverageOf]: name and dictionary of the averaged evaluator (L808-813). *)
Inductive content :=
| FitData (y : option nat) (fit init : option (list string))
| LineData (scans : option (list (nat * list nat)))
| ScanData (scan : option (nat * list nat))
| MapData (measured : bool)
| AverageOf (name : string) (inner : content).

(** qtune/util.py L211-249 [plot_raw_data_fit] up to the drawing: keyword
    arguments other than those of the function are a TypeError. *)
Definition same_names (a b : list string) : bool := forallb (known a) b && forallb (known b) a.
Definition raw_data_fit (params : list string) (y : option nat) (fit init : option (list string)) : res bool :=
  let call args := match args with None | Some [] => Ok tt | Some ks => if same_names ks params then Ok tt else Raise TypeError end in
  match y with
  | None => Ok false
  | Some dims => if (2 <? dims)%nat then Raise RuntimeError
                 else match call fit with
                      | Raise e => Raise e
                      | Ok _ => match call init with Raise e => Raise e | Ok _ => Ok true end
                      end
  end.
(** qtune/util.py L252-274 [plot_raw_data_vertical_marks]: with a first
    dimension of two the mean over everything is taken (L267), which can
    neither be drawn over several points nor searched for its minimum; [min]
    of the rows of an array is a ValueError. *)
Definition vertical_marks (points : nat) (shape : list nat) : res bool :=
  match shape with
  | [] => Raise TypeError
  | 2%nat :: _ => Raise (if (points =? 1)%nat then TypeError else ValueError)
  | [n] => if (n =? 0)%nat || negb (points =? n)%nat then Raise ValueError else Ok true
  | _ => Raise ValueError
  end.

(** The functions of qtune/history.py L602-668 by name. *)
Inductive plotter := PTc | PLoad | PTransition | P1d | P2d | PAverage | PLead.
(** qtune/history.py L671-680 [plot_function_matching]. *)
Definition plot_function_matching : list (string * plotter) :=
  [("InterDotTCByLineScan", PTc); ("LoadTime", PLoad); ("LeadTransitionRFA", PTransition); ("LeadTransitionRFB", PTransition);
   ("SensingDot1D", P1d); ("SensingDot2D", P2d); ("LeadTransition", PTransition); ("AveragingInterDotTCByLineScan", PAverage);
   ("AveragingLeadTunnelTimeByLeadScan", PAverage); ("LeadTunnelTimeByLeadScan", PLead)].
Definition match_plot (name : string) : option plotter := option_map snd (find (fun p => String.eqb name (fst p)) plot_function_matching).

(** Parameters of the fitted functions, qtune/evaluator.py L205-206, L443, L503. *)
Definition lead_v1 : list string := ["height"; "t_fall"; "t_rise"; "begin_rise"; "begin_fall"; "offset"].
Definition tc_names : list string := ["offset"; "slope"; "height"; "position"; "width"].
Definition load_names : list string := ["offset"; "height"; "curvature"].

(** [ax[0]] *)
Definition first_axes (a : axes) : res nat :=
  match a with
  | OneAxes => Raise TypeError
  | AxesList l | AxesArray l => match l with [] => Raise IndexError | x :: _ => Ok x end
  end.
(** qtune/history.py L611-616, L625-630: lists and arrays are indexed, a single Axes is used. *)
Definition any_axes (a : axes) : res nat := match a with OneAxes => Ok 0%nat | _ => first_axes a end.
(** qtune/history.py L648-649: lists and tuples only; an array has no method plot. *)
Definition list_axes (a : axes) : res nat := match a with AxesArray _ => Raise AttributeError | _ => any_axes a end.
Definition on (a : nat) (r : res bool) : res (list nat) := match r with Raise e => Raise e | Ok b => Ok (if b then [a] else []) end.

(** qtune/history.py L638-644: one scan for every field. *)
Fixpoint transitions (l : list nat) (scans : list (nat * list nat)) : res (list nat) :=
  match l, scans with
  | [], _ => Ok []
  | _ :: _, [] => Raise IndexError
  | a :: l', (points, shape) :: scans' =>
      match vertical_marks points shape with
      | Raise e => Raise e
      | Ok _ => match transitions l' scans' with Raise e => Raise e | Ok d => Ok (a :: d) end
      end
  end.

(** qtune/history.py L602-668: the fields that are drawn on.  A dictionary
    without the required keys is a KeyError; the keys are read before [ax] is
    indexed, except in L638-644 and L656-660.  With raw_y_data None nothing is
    drawn, and [ax] of L648 is not used. *)
Fixpoint draw (p : plotter) (a : axes) (c : content) : res (list nat) :=
  match p, c with
  | PLoad, FitData y fit init => match first_axes a with Raise e => Raise e | Ok x => on x (raw_data_fit load_names y fit init) end
  | PTc, FitData y fit init => match any_axes a with Raise e => Raise e | Ok x => on x (raw_data_fit tc_names y fit init) end
  | PLead, FitData y fit init => match any_axes a with Raise e => Raise e | Ok x => on x (raw_data_fit lead_v1 y fit init) end
  | PTransition, _ =>
      match a with
      | OneAxes => Raise TypeError
      | AxesList [] | AxesArray [] => Ok []
      | AxesList l | AxesArray l => match c with
                                    | LineData (Some scans) => transitions l scans
                                    | LineData None => Raise TypeError
                                    | _ => Raise KeyError
                                    end
      end
  | P1d, ScanData scan =>
      match a, scan with
      | AxesList [], _ => Raise IndexError
      | _, None => Ok []
      | _, Some (points, shape) => match list_axes a with Raise e => Raise e | Ok x => on x (vertical_marks points shape) end
      end
  | P2d, _ => match first_axes a with
              | Raise e => Raise e
              | Ok x => match c with MapData measured => Ok (if measured then [x] else []) | _ => Raise KeyError end
              end
  | PAverage, AverageOf name inner => match match_plot name with None => Raise KeyError | Some q => draw q a inner end
  | _, _ => Raise KeyError
  end.

(** A cell of [_evaluator_data]: NaN, or the dictionary of an evaluator with [n]
    measurements. *)
Inductive cell := Missing | Stored (n : nat) (c : content).
(** [len(cell['measurements'])]: AveragingEvaluator.to_hdf5 qtune/evaluator.py L808-813 has no such key. *)
Definition measurement_count (c : cell) : res nat :=
  match c with Missing => Raise TypeError | Stored _ (AverageOf _ _) => Raise KeyError | Stored n _ => Ok n end.
(** The frame: columns, and rows with the filled cells; its index is
    0, 1, ... (qtune/history.py L309, L325: ignore_index). *)
Record frame := mk_frame { f_columns : list string; f_rows : list (list (string * cell)) }.
Definition cell_at (row : list (string * cell)) (n : string) : cell :=
  match find (fun p => String.eqb n (fst p)) row with Some p => snd p | None => Missing end.

(** qtune/history.py L420-423: names that are not columns are removed from the
    list that is being iterated over; the iteration goes on with the next
    index.  [fuel]: length of the list. *)
Fixpoint discard (fuel i : nat) (cols names : list string) : list string :=
  match fuel with
  | O => names
  | S f => match nth_error names i with
           | None => names
           | Some n => discard f (S i) cols (if known cols n then names else remove_first n names)
           end
  end.

(** Argument [evaluator_names], qtune/history.py L412. *)
Inductive names_arg := NoNames | NamesList (l : list string) | NamesTuple (l : list string).
Definition checked_names (cols : list string) (arg : names_arg) : res (list string) :=
  match arg with
  | NoNames => Raise TypeError
  | NamesList l => Ok (discard (length l) 0 cols l)
  | NamesTuple l => if forallb (known cols) l then Ok l else Raise AttributeError
  end.

(** qtune/history.py L432-441: the requested evaluators with data and their
    numbers of measurements, in the given order. *)
Fixpoint relevant (cols : list string) (row : list (string * cell)) (names : list string) : res (list (string * nat * content)) :=
  match names with
  | [] => Ok []
  | n :: names' =>
      if known cols n then
        match cell_at row n with
        | Missing => relevant cols row names'
        | Stored k c => match measurement_count (Stored k c), relevant cols row names' with
                        | Ok k', Ok l => Ok ((n, k', c) :: l)
                        | Raise e, _ | _, Raise e => Raise e
                        end
        end
      else Raise KeyError
  end.
(** qtune/history.py L447-448: slices of the fields. *)
Fixpoint slices (from : nat) (rel : list (string * nat * content)) : list (string * content * list nat) :=
  match rel with
  | [] => []
  | (n, k, c) :: rel' => (n, c, seq from k) :: slices (from + k) rel'
  end.
(** qtune/history.py L449-454. *)
Fixpoint draw_all (l : list (string * content * list nat)) : res (list (string * list nat)) :=
  match l with
  | [] => Ok []
  | (n, c, ax) :: l' =>
      match match_plot n with
      | None => Raise KeyError
      | Some p => match draw p (AxesArray ax) c with
                  | Raise e => Raise e
                  | Ok _ => match draw_all l' with Raise e => Raise e | Ok d => Ok ((n, ax) :: d) end
                  end
      end
  end.
(** One figure, qtune/history.py L432-455: number of fields, and the fields of every evaluator. *)
Definition plot_row (cols : list string) (row : list (string * cell)) (names : list string) : res (nat * list (string * list nat)) :=
  match relevant cols row names with
  | Raise e => Raise e
  | Ok rel =>
      let total := list_sum (map (fun r => snd (fst r)) rel) in
      match subplots 2 (total / 2 + total mod 2) with
      | Raise e => Raise e
      | Ok _ => match draw_all (slices 0 rel) with
                | Raise e => Raise e
                | Ok d => Ok ((2 * (total / 2 + total mod 2))%nat, d)
                end
      end
  end.
Fixpoint plot_rows (f : frame) (names : list string) (is : list Z) : res (list (nat * list (string * list nat))) :=
  match is with
  | [] => Ok []
  | i :: is' =>
      if (i <? 0)%Z then Raise RuntimeError else
      match nth_error (f_rows f) (Z.to_nat i) with
      | None => Raise RuntimeError
      | Some row => match plot_row (f_columns f) row names with
                    | Raise e => Raise e
                    | Ok p => match plot_rows f names is' with Raise e => Raise e | Ok ps => Ok (p :: ps) end
                    end
      end
  end.
(** qtune/history.py L412-456 [plot_evaluator_data].  The names after the call
    are those the caller's list then has. *)
Definition plot_evaluator_data (f : frame) (start : Z) (stop : option Z) (arg : names_arg) : names_arg * res (list (nat * list (string * list nat))) :=
  match checked_names (f_columns f) arg with
  | Raise e => (arg, Raise e)
  | Ok names =>
      let stop' := match stop with None => (start + 1)%Z | Some e => e end in
      (match arg with NamesList _ => NamesList names | _ => arg end,
       plot_rows f names (map (fun k => (start + Z.of_nat k)%Z) (seq 0 (Z.to_nat (stop' - start)))))
  end.

(** ** The raw data window *)
(** qtune/gui.py L303-312 [get_clear_axes]: [k] fields are in the figure. *)
Definition get_clear_axes (k rows : nat) : nat * res axes :=
  if (k =? rows)%nat then (k, Ok (AxesList (seq 0 k)))
  else match subplots rows 1 with Ok a => (rows, Ok a) | Raise e => (0%nat, Raise e) end.
Definition has_prefix (p s : string) : bool := String.prefix p s.
(** qtune/gui.py L369-385 [MeasurementDataWidget.refresh] for a cell of the
    frame, and qtune/history.py L458-463; the colorbar of
    [plot_raw_data_2_dim_marks] (qtune/util.py L287) is a further field. *)
Definition refresh (name : string) (c : cell) (k : nat) : nat * res (list nat) :=
  match c with
  | Missing => (k, Ok [])
  | Stored n d =>
      match has_prefix "Averaging" name, d with
      | true, AverageOf _ _ | false, FitData _ _ _ | false, LineData _ | false, ScanData _ | false, MapData _ =>
          let (k', a) := get_clear_axes k n in
          match a with
          | Raise e => (k', Raise e)
          | Ok a => match match_plot name with
                    | None => (k', Raise KeyError)
                    | Some p => match draw p a d with
                                | Raise e => (k', Raise e)
                                | Ok l => (match p, l with P2d, _ :: _ => S k' | _, _ => k' end, Ok l)
                                end
                    end
          end
      | _, _ => (k, Raise KeyError)
      end
  end.
(** Several calls of [refresh] of one widget (exceptions are logged, qtune/gui.py L39-50); a
    new widget has no field (pyqtgraph MatplotlibWidget). *)
Fixpoint refreshes (name : string) (c : cell) (k n : nat) : list (res (list nat)) :=
  match n with
  | O => []
  | S n' => let (k', r) := refresh name c k in r :: refreshes name c k' n'
  end.
(** qtune/gui.py L106-110: every click on a button makes a new widget. *)
Definition click (name : string) (c : cell) : res (list nat) := snd (refresh name c 0).

(** ** Plots of parameters and gradients *)
(** qtune/history.py L38-99 *)
Definition parameter_information : list string :=
  ["origin x"; "origin y"; "tunnel_coupling"; "lead time"; "position_RFA"; "position_RFB"; "parameter_tunnel_coupling"; "current_signal";
   "optimal_signal"; "position_SDB2"; "position_SDB1"; "parameter_time_load"].
(** qtune/history.py L494-509 and L512-533 without axes, for data that pandas
    can plot: [subplots=True] returns an array for any number of columns
    (L503), while the gradients iterate over what [subplots] returned (L523). *)
Definition plot_parameters (names : list string) : res unit :=
  if (length names =? 0)%nat then Raise ValueError
  else if forallb (known parameter_information) names then Ok tt else Raise KeyError.
Definition plot_gradients (names : list string) : res unit :=
  match subplots (length names) 1 with
  | Raise e => Raise e
  | Ok OneAxes => Raise TypeError
  | Ok _ => if forallb (known parameter_information) names then Ok tt else Raise KeyError
  end.
