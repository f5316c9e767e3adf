(** Figures of the tuning history: qtune/history.py L38-99, L351-410, L484-533
    and the windows for parameters and gradients qtune/gui.py L284-356.

    Instead of pictures the model keeps what is put into the fields (matplotlib
    Axes) of a figure: curves with the column they show and the column of their
    error bars, labels.  Simplifications: the history has at least one row; the
    lists of names have no duplicates; all columns hold numbers; legends and
    colours are left out; the columns of error bars are named, not their square
    roots. *)
From Coq Require Import String List Bool Arith.
From Verif Require Import PyExn PyBase ColumnsModel PlotModel.
Import ListNotations.
Local Open Scope string_scope.
Local Open Scope list_scope.

(** qtune/history.py L38-99: unit, name and unit of the gradient. *)
Record info := mk_info { i_unit : string; i_name : string; i_grad : string }.
Definition lead_a := mk_info "Transition Position Lead A (V)" "Transition Position Lead A" "Gradient Transition Lead A (V/V)".
Definition lead_b := mk_info "Transition Position Lead B (V)" "Transition Position Lead B" "Gradient Transition Lead B (V/V)".
Definition information : list (string * info) :=
  [("origin x", lead_a); ("origin y", lead_b); ("tunnel_coupling", lead_b); ("lead time", lead_b);
   ("position_RFA", lead_a); ("position_RFB", lead_b);
   ("parameter_tunnel_coupling", mk_info "Tunnel Coupling (\mu V)" "Inter-Dot Tunnel Coupling AB" "Gradient Tunnel Coupling (\mu V / V)");
   ("current_signal", mk_info "Signal (a.u.)" "Current SDot Signal" "Gradient Current SDot Signal (a.u.)");
   ("optimal_signal", mk_info "Signal (a.u.)" "Optimal SDot Signal" "Gradient Optimal SDot Signal (a.u.)");
   ("position_SDB2", mk_info "Voltage (V)" "Voltage on SDB2" "Gradient Voltage on SDB2 (V/V)");
   ("position_SDB1", mk_info "Voltage (V)" "Voltage on SDB1" "Gradient Voltage on SDB1 (V/V)");
   ("parameter_time_load", mk_info "Time (ns)" "Singlet Reload Time" "Gradient Singlet Reload Time(ns/V)")].
Fixpoint assoc {A} (k : string) (l : list (string * A)) : option A :=
  match l with
  | [] => None
  | (k', a) :: l' => if String.eqb k k' then Some a else assoc k l'
  end.

Record curve := mk_curve { c_label : string; c_column : string; c_error : option string }.
Record field := mk_field { f_curves : list curve; f_title : option string; f_ylabel : option string; f_xlabel : option string }.
Definition empty_field := mk_field [] None None None.
Definition add_curves (cs : list curve) (f : field) := mk_field (f_curves f ++ cs) (f_title f) (f_ylabel f) (f_xlabel f).
Definition set_title (t : string) (f : field) := mk_field (f_curves f) (Some t) (f_ylabel f) (f_xlabel f).
Definition set_ylabel (t : string) (f : field) := mk_field (f_curves f) (f_title f) (Some t) (f_xlabel f).
Definition set_xlabel (t : string) (f : field) := mk_field (f_curves f) (f_title f) (f_ylabel f) (Some t).
(** [l[0]] and [l[-1]] of a list of fields, changed in place. *)
Definition on_first (h : field -> field) (l : list field) := match l with [] => [] | f :: l' => h f :: l' end.
Definition on_last (h : field -> field) (l : list field) := rev (on_first h (rev l)).

(** What a column needs to be drawn: the pandas method [plot] with a data frame
    of errors takes the column with the label of the curve, if there is one. *)
Definition with_error (std : list (string * string)) (c : string * string) : curve :=
  mk_curve (fst c) (snd c) (assoc (fst c) std).

(** qtune/history.py L505-507: the loop over fields and names; a name without
    entry is a KeyError after the fields in front are labelled. *)
Fixpoint label_parameters (names : list string) (fs : list field) : list field * res unit :=
  match names, fs with
  | n :: names', f :: fs' =>
      match assoc n information with
      | None => (fs, Raise KeyError)
      | Some i => let (r, e) := label_parameters names' fs' in (set_title (i_name i) (set_ylabel (i_unit i) f) :: r, e)
      end
  | _, _ => (fs, Ok tt)
  end.
(** qtune/history.py L494-509 [plot_parameters] on the fields [fs] of a figure;
    [names]: the columns of the frame; [std]: label and column of the errors.  pandas [plot]
    without columns is a TypeError, with another number of fields a ValueError. *)
Definition draw_parameters (names : list string) (std : list (string * string)) (fs : list field) : list field * res unit :=
  match names with
  | [] => (fs, Raise TypeError)
  | _ =>
      if (length fs =? length names)%nat then
        let drawn := map (fun p => add_curves [with_error std (fst p, fst p)] (snd p)) (combine names fs) in
        match label_parameters names drawn with
        | (r, Raise e) => (r, Raise e)
        | (r, Ok _) => (on_last (set_xlabel "Measurement Number") r, Ok tt)
        end
      else (fs, Raise ValueError)
  end.

(** qtune/history.py L523-530: the loop over fields and gradients.  [std]: None
    for the parameters without errors.  A frame without columns is a TypeError. *)
Fixpoint label_gradients (gs : list (string * list (string * string))) (std : string -> option (list (string * string))) (fs : list field)
  : list field * res unit :=
  match gs, fs with
  | (n, cols) :: gs', f :: fs' =>
      match cols with
      | [] => (fs, Raise TypeError)
      | _ =>
          let f1 := add_curves (map (with_error (match std n with Some s => s | None => [] end)) cols) f in
          match assoc n information with
          | None => (f1 :: fs', Raise KeyError)
          | Some i => let (r, e) := label_gradients gs' std fs' in (set_ylabel (i_grad i) f1 :: r, e)
          end
      end
  | _, _ => (fs, Ok tt)
  end.
(** qtune/history.py L512-533 [plot_gradients]; [a]: what the loop runs over.  A
    single Axes cannot be iterated; a list without fields has no first one. *)
Definition draw_gradients (gs : list (string * list (string * string))) (std : string -> option (list (string * string))) (a : axes)
    (fs : list field) : list field * res unit :=
  match a with
  | OneAxes => (fs, Raise TypeError)
  | _ =>
      match label_gradients gs std fs with
      | (r, Raise e) => (r, Raise e)
      | ([], Ok _) => ([], Raise IndexError)
      | (r, Ok _) => (on_last (set_xlabel "Measurement Number") (on_first (set_title "Response Matrix") r), Ok tt)
      end
  end.

(** ** History.plot_tuning *)
(** [p in s] for strings. *)
Fixpoint contains (p s : string) : bool :=
  String.prefix p s || match s with EmptyString => false | String _ s' => contains p s' end.
(** qtune/history.py L178-179. *)
Definition mode_options := ["all_voltages"; "all_parameters"; "all_gradients"; "with_grad_covariances"; "with_par_variances"].
(** What the method reads of the history: columns, names of the gates,
    parameters and parameters with gradients. *)
Record source := mk_source { s_frame : list string; s_gates : list string; s_parameters : list string; s_gradients : list string }.
(** [data_frame[names]]: a missing column is a KeyError. *)
Definition columns (frame names : list string) : res unit := if forallb (known frame) names then Ok tt else Raise KeyError.
Definition var_name (p : string) : string := col_name (CVar p).

(** qtune/history.py L484-491. *)
Definition voltage_figure (names : list string) : list field :=
  [mk_field (map (fun n => mk_curve n n None) names) (Some "Gate Voltages") (Some "Voltage (V)") (Some "Measurement Number")].
(** qtune/history.py L385-395, L204 and L499-500: figures that are opened (a
    figure stays open when matplotlib rejects the number of fields). *)
Definition parameter_figure (src : source) (names : list string) (with_std : bool) : list (list field) * res (list field) :=
  match (if with_std then columns (s_frame src) (map var_name names) else Ok tt) with
  | Raise e => ([], Raise e)
  | Ok _ =>
      match columns (s_frame src) names with
      | Raise e => ([], Raise e)
      | Ok _ =>
          match subplots (length names) 1 with
          | Raise e => ([[]], Raise e)
          | Ok _ =>
              match draw_parameters names (if with_std then map (fun n => (n, var_name n)) names else []) (repeat empty_field (length names)) with
              | (f, Raise e) => ([f], Raise e)
              | (f, Ok _) => ([f], Ok f)
              end
          end
      end
  end.
(** qtune/history.py L401-408 and L518-519. *)
Definition gradient_figure (src : source) (names : list string) (with_std : bool) : list (list field) * res (list field) :=
  match subplots (length names) 1 with
  | Raise e => ([[]], Raise e)
  | Ok a =>
      match draw_gradients (map (fun n => (n, get_gradients n (s_frame src))) names)
                           (fun n => if with_std then Some (get_gradient_variances n (s_frame src)) else None)
                           a (repeat empty_field (length names)) with
      | (f, Raise e) => ([f], Raise e)
      | (f, Ok _) => ([f], Ok f)
      end
  end.
(** qtune/history.py L351-410 [plot_tuning]: the figures that are open
    afterwards and the result. *)
Definition plot_tuning (src : source) (voltages parameters gradients : option (list string)) (mode : string)
  : list (list field) * res (option (list field) * option (list field) * option (list field)) :=
  let voltages := if contains "all_voltages" mode then Some (sort_labels (s_gates src)) else voltages in
  let parameters := if contains "all_parameters" mode then Some (sort_labels (s_parameters src)) else parameters in
  let gradients := if contains "all_gradients" mode then Some (sort_labels (s_gradients src)) else gradients in
  let with_cov := contains "with_grad_covariances" mode in
  let with_var := contains "with_par_variances" mode in
  let optional {A} (f : A -> list (list field) * res (list field)) o :=
    match o with
    | None => ([], Ok None)
    | Some a => match f a with (l, Ok r) => (l, Ok (Some r)) | (l, Raise e) => (l, Raise e) end
    end in
  match optional (fun ns => match columns (s_frame src) ns with
                            | Raise e => ([], Raise e)
                            | Ok _ => ([voltage_figure ns], Ok (voltage_figure ns))
                            end) voltages with
  | (l, Raise e) => (l, Raise e)
  | (l, Ok v) =>
      match optional (fun ns => parameter_figure src ns with_var) parameters with
      | (l1, Raise e) => (l ++ l1, Raise e)
      | (l1, Ok p) =>
          match optional (fun ns => gradient_figure src ns with_cov) gradients with
          | (l2, Raise e) => (l ++ l1 ++ l2, Raise e)
          | (l2, Ok g) => (l ++ l1 ++ l2, Ok (v, p, g))
          end
      end
  end.

(** ** The windows for parameters and gradients *)
(** Fields of the figure, and what was drawn last (None: nothing). *)
Record window := mk_window { w_fields : list field; w_canvas : option (list field) }.
(** qtune/gui.py L285-298, before [refresh] is called. *)
Definition new_window := mk_window [] None.
Inductive kind := ParameterWindow | GradientWindow.
(** qtune/gui.py L303-312 [get_clear_axes], with the fields. *)
Definition clear_fields (fs : list field) (rows : nat) : list field * res axes :=
  let (k, a) := get_clear_axes (length fs) rows in (repeat empty_field k, a).
(** qtune/gui.py L325-337 and L346-356 [refresh] up to [draw]; [names]: the set
    of names (L316) in the order of iteration. *)
Definition refill (k : kind) (names frame : list string) (fs : list field) : list field * res unit :=
  match k with
  | ParameterWindow =>
      match columns frame names with
      | Raise e => (fs, Raise e)
      | Ok _ =>
          match columns frame (map var_name names) with
          | Raise e => (fs, Raise e)
          | Ok _ =>
              match clear_fields fs (length names) with
              | (f, Raise e) => (f, Raise e)
              | (f, Ok _) => draw_parameters names (map (fun n => (n, var_name n)) names) f
              end
          end
      end
  | GradientWindow =>
      match clear_fields fs (length names) with
      | (f, Raise e) => (f, Raise e)
      | (f, Ok a) => draw_gradients (map (fun n => (n, get_gradients n frame)) names)
                                    (fun n => Some (get_gradient_variances n frame)) a f
      end
  end.
(** [log_exceptions], qtune/gui.py L39-50: exceptions end up in the log; [draw]
    L337, L356 comes last.  [Repaint]: showing or resizing a window makes
    matplotlib draw the figure as it is. *)
Inductive event := Refresh (names frame : list string) | Repaint.
Definition happen (k : kind) (w : window) (e : event) : window * res unit :=
  match e with
  | Repaint => (mk_window (w_fields w) (Some (w_fields w)), Ok tt)
  | Refresh names frame =>
      match refill k names frame (w_fields w) with
      | (f, Raise x) => (mk_window f (w_canvas w), Raise x)
      | (f, Ok _) => (mk_window f (Some f), Ok tt)
      end
  end.
Definition happenings (k : kind) (w : window) (es : list event) : window := fold_left (fun w e => fst (happen k w e)) es w.
