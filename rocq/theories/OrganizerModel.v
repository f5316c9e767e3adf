(** The live plot of the main window: which curves and error bars the class
    PlotOrganizer shows, qtune/gui.py L141-281.  Left out: the widgets themselves; pens are
    counted. *)
From Coq Require Import String List Bool Arith.
From Verif Require Import PyExn.
Import ListNotations.
Local Open Scope string_scope.
Local Open Scope list_scope.

(** The entries of the choice of a parameter or gradient, qtune/gui.py L244,
    L249, L251; no other value can be chosen. *)
Inductive mode := Off | Plot | PlotError.
Definition mode_text (m : mode) : string := match m with Off => "" | Plot => "plot" | PlotError => "plot + error" end.
(** [str.startswith], [str.endswith] *)
Definition startswith (s p : string) : bool := String.prefix p s.
Definition endswith (s p : string) : bool :=
  String.eqb p (String.substring (String.length s - String.length p) (String.length p) s) && (String.length p <=? String.length s)%nat.

(** The tree of choices, qtune/gui.py L239-256: gates, parameters, and for every
    parameter with gradients its own choice and those of its gates.  Children
    with the same name are refused by pyqtgraph. *)
Record tree := mk_tree { t_gates : list (string * bool); t_params : list (string * mode); t_grads : list (string * mode * list (string * mode)) }.

Section Organizer.
(** Columns of the history, with their index. *)
Variable D : Type.
(** [2 * data] and [2 * data.apply(np.sqrt)], qtune/gui.py L176, L211. *)
Variable twice twice_root : D -> D.

(** What the history answers.  A data frame is a list of columns. *)
Record source := mk_source {
  gate_values : string -> res D;
  parameter_values : string -> res D;
  parameter_std : string -> res D;
  gradients : string -> res (list (string * D));
  gradient_variances : string -> res (list (string * D)) }.
Definition column (c : string) (df : list (string * D)) : option D :=
  match find (fun p => String.eqb c (fst p)) df with Some p => Some (snd p) | None => None end.

(** A PlotDataItem with its colour, or an ErrorBarItem. *)
Inductive item := Curve (pen : nat) (d : D) | Bars (y height : D).
(** [self._plots] in the order of insertion (its values are the items of the
    plot), and the names in the legend. *)
Record view := mk_view { plots : list (string * item); legend : list string }.
Definition empty_view : view := mk_view [] [].
Definition has (n : string) (v : view) : bool := existsb (fun p => String.eqb n (fst p)) (plots v).
Definition change (n : string) (f : item -> item) (v : view) : view :=
  mk_view (map (fun p => if String.eqb n (fst p) then (fst p, f (snd p)) else p) (plots v)) (legend v).

(** qtune/gui.py L153-156, L164-167, L199-203.  [ErrorBarItem.setData] takes no
    positional argument. *)
Definition put_curve (n : string) (pen : nat) (d : D) (v : view) : view * res unit :=
  if has n v then
    if existsb (fun p => String.eqb n (fst p) && match snd p with Bars _ _ => true | _ => false end) (plots v) then (v, Raise TypeError)
    else (change n (fun i => match i with Curve p _ => Curve p d | b => b end) v, Ok tt)
  else (mk_view (plots v ++ [(n, Curve pen d)]) (legend v ++ [n]), Ok tt).
(** qtune/gui.py L175-183, L210-218.  A PlotDataItem takes the values and ignores the height. *)
Definition put_bars (n : string) (y height : D) (v : view) : view * res unit :=
  if has n v then (change n (fun i => match i with Curve p _ => Curve p y | Bars _ _ => Bars y height end) v, Ok tt)
  else (mk_view (plots v ++ [(n, Bars y height)]) (legend v), Ok tt).
(** [LegendItem.removeItem(name)]: the first entry with this text, if any. *)
Fixpoint remove_first (n : string) (l : list string) : list string :=
  match l with
  | [] => []
  | a :: l' => if String.eqb n a then l' else a :: remove_first n l'
  end.
(** qtune/gui.py L223-227 [_remove_plot]. *)
Definition remove_plot (n : string) (v : view) : view :=
  if has n v then mk_view (filter (fun p => negb (String.eqb n (fst p))) (plots v)) (remove_first n (legend v)) else v.

(** qtune/gui.py L150-159; [pen]: the colour of the pen from [zip]. *)
Definition gate_step (H : source) (pen : nat) (e : string * bool) (v : view) : view * res unit :=
  let (gate, plot_gate) := e in
  if plot_gate then match gate_values H gate with Raise x => (v, Raise x) | Ok data => put_curve gate pen data v end
  else (remove_plot gate v, Ok tt).
(** qtune/gui.py L162-186.  A choice that ends with error starts with plot, so
    [data] in L175 is the one of L163. *)
Definition param_step (H : source) (pen : nat) (e : string * mode) (v : view) : view * res unit :=
  let (param, m) := e in
  let error_plot_name := (param ++ "#err_bar")%string in
  if startswith (mode_text m) "plot" then
    match parameter_values H param with
    | Raise x => (v, Raise x)
    | Ok data =>
        match put_curve param pen data v with
        | (v1, Raise x) => (v1, Raise x)
        | (v1, Ok _) =>
            if endswith (mode_text m) "error" then
              match parameter_std H param with Raise x => (v1, Raise x) | Ok std => put_bars error_plot_name data (twice std) v1 end
            else (remove_plot error_plot_name v1, Ok tt)
        end
    end
  else (remove_plot error_plot_name (remove_plot param v), Ok tt).
(** qtune/gui.py L193-221; [data[gate]] of a missing column is a KeyError. *)
Definition grad_step (param : string) (data data_var : list (string * D)) (pen : nat) (e : string * mode) (v : view) : view * res unit :=
  let (gate, m) := e in
  let grad_name := (param ++ "#" ++ gate)%string in
  let grad_err_name := (grad_name ++ "#err_bar")%string in
  if startswith (mode_text m) "plot" then
    match column gate data with
    | None => (v, Raise KeyError)
    | Some gate_data =>
        match put_curve grad_name pen gate_data v with
        | (v1, Raise x) => (v1, Raise x)
        | (v1, Ok _) =>
            match column gate data_var with
            | Some gate_data_var =>
                if endswith (mode_text m) "error" then put_bars grad_err_name gate_data (twice_root gate_data_var) v1
                else (remove_plot grad_err_name v1, Ok tt)
            | None => (remove_plot grad_err_name v1, Ok tt)
            end
        end
    end
  else (remove_plot grad_err_name (remove_plot grad_name v), Ok tt).

(** [for pen, e in zip(pens, l)] where [n] pens have been taken from [pens]: a
    pen is taken before the list is found to be at its end.  qtune/gui.py L146,
    L149, L161, L192; pyqtgraph's [intColor(idx, hues)] depends on
    [idx % hues]. *)
Fixpoint zipped {A} (hues : nat) (f : nat -> A -> view -> view * res unit) (n : nat) (l : list A) (v : view) : view * res nat :=
  match l with
  | [] => (v, Ok (S n))
  | a :: l' => match f (n mod hues) a v with
               | (v1, Raise x) => (v1, Raise x)
               | (v1, Ok _) => zipped hues f (S n) l' v1
               end
  end.
(** qtune/gui.py L188-221. *)
Fixpoint grad_groups (H : source) (hues n : nat) (l : list (string * mode * list (string * mode))) (v : view) : view * res nat :=
  match l with
  | [] => (v, Ok n)
  | (param, _, gates) :: l' =>
      match gradients H param with
      | Raise x => (v, Raise x)
      | Ok data =>
          match gradient_variances H param with
          | Raise x => (v, Raise x)
          | Ok data_var =>
              match zipped hues (grad_step param data data_var) n gates v with
              | (v1, Raise x) => (v1, Raise x)
              | (v1, Ok n1) => grad_groups H hues n1 l' v1
              end
          end
      end
  end.
(** qtune/gui.py L142-221 [refresh] with L39-50 [log_exceptions]: an exception
    ends it and is logged. *)
Definition hues (T : tree) : nat := Nat.max 1 (length (t_gates T) + length (t_params T)).
Definition refresh (T : tree) (H : source) (v : view) : view * option exn :=
  match zipped (hues T) (gate_step H) 0 (t_gates T) v with
  | (v1, Raise x) => (v1, Some x)
  | (v1, Ok n1) =>
      match zipped (hues T) (param_step H) n1 (t_params T) v1 with
      | (v2, Raise x) => (v2, Some x)
      | (v2, Ok n2) =>
          match grad_groups H (hues T) n2 (t_grads T) v2 with
          | (v3, Raise x) => (v3, Some x)
          | (v3, Ok _) => (v3, None)
          end
      end
  end.

(** What the user does: a choice of a gate, of a parameter, of the k-th
    parameter with gradients, of the j-th of its gates; the button Refresh. *)
Inductive action := ChooseGate (k : nat) (b : bool) | ChooseParam (k : nat) (m : mode) | ChooseGrads (k : nat) (m : mode) | ChooseGrad (k j : nat) (m : mode) | Press.
Definition mode_eqb (a b : mode) : bool := match a, b with Off, Off | Plot, Plot | PlotError, PlotError => true | _, _ => false end.
Fixpoint change_nth {A} (k : nat) (f : A -> A) (l : list A) : list A :=
  match l, k with
  | [], _ => []
  | a :: l', O => f a :: l'
  | a :: l', S k' => a :: change_nth k' f l'
  end.
Definition set_grad (k j : nat) (m : mode) (T : tree) : tree :=
  mk_tree (t_gates T) (t_params T) (change_nth k (fun e => (fst e, change_nth j (fun g => (fst g, m)) (snd e))) (t_grads T)).
(** [Parameter.setValue] does nothing if the value is the same; otherwise
    qtune/gui.py L229-234 [plot_selection_change] is called.  It gives the value
    to all children, one after the other, every one of which that changes calls
    [plot_selection_change] again, and refreshes. *)
Definition refreshed (H : source) (s : tree * view) : tree * view := (fst s, fst (refresh (fst s) H (snd s))).
Definition choose_grad (H : source) (k : nat) (m : mode) (s : tree * view) (j : nat) : tree * view :=
  match nth_error (t_grads (fst s)) k with
  | None => s
  | Some (_, gates) =>
      match nth_error gates j with
      | None => s
      | Some (_, m0) => if mode_eqb m m0 then s else refreshed H (set_grad k j m (fst s), snd s)
      end
  end.
Definition act (H : source) (s : tree * view) (a : action) : tree * view :=
  let (T, v) := s in
  match a with
  | Press => refreshed H s
  | ChooseGate k b =>
      match nth_error (t_gates T) k with
      | None => s
      | Some (_, b0) => if Bool.eqb b b0 then s
                        else refreshed H (mk_tree (change_nth k (fun e => (fst e, b)) (t_gates T)) (t_params T) (t_grads T), v)
      end
  | ChooseParam k m =>
      match nth_error (t_params T) k with
      | None => s
      | Some (_, m0) => if mode_eqb m m0 then s
                        else refreshed H (mk_tree (t_gates T) (change_nth k (fun e => (fst e, m)) (t_params T)) (t_grads T), v)
      end
  | ChooseGrads k m =>
      match nth_error (t_grads T) k with
      | None => s
      | Some (_, m0, gates) =>
          if mode_eqb m m0 then s
          else refreshed H (fold_left (choose_grad H k m) (seq 0 (length gates))
                 (mk_tree (t_gates T) (t_params T) (change_nth k (fun e => (fst (fst e), m, snd e)) (t_grads T)), v))
      end
  | ChooseGrad k j m => choose_grad H k m s j
  end.
(** qtune/gui.py L236-281: nothing is chosen at the start. *)
Definition new_tree (gates params : list string) (grads : list (string * list string)) : tree :=
  mk_tree (map (fun g => (g, false)) gates) (map (fun p => (p, Off)) params)
          (map (fun e => (fst e, Off, map (fun g => (g, Off)) (snd e))) grads).
End Organizer.
Arguments gate_values {D}. Arguments parameter_values {D}. Arguments parameter_std {D}. Arguments gradients {D}. Arguments gradient_variances {D}.
Arguments mk_source {D}. Arguments Curve {D}. Arguments Bars {D}. Arguments plots {D}. Arguments legend {D}. Arguments mk_view {D}. Arguments column {D}. Arguments empty_view {D}.
