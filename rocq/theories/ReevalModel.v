(** Repeated evaluation of stored raw data: qtune/sm_tune_qqd.py L505-516
    [reevaluate_data_with_matlab].  Left out: the contents of the measurements;
    the answer to the prompt. *)
From Coq Require Import String List Bool Arith ZArith.
From Verif Require Import PyExn GuiModel PlotModel.
Import ListNotations.
Local Open Scope string_scope.
Local Open Scope list_scope.

(** What a cell of a frame can be for an access to attributes: a number (NaN),
    a dictionary, an evaluator with the names of its attributes, how many
    measurements it has and its file names. *)
Inductive object := Number | Dictionary (keys : list string) | Instance (attributes : list string) (measurements : nat) (files : list string).
(** The attributes of [dict] objects (Python 3.6). *)
Definition dict_methods : list string :=
  ["clear"; "copy"; "fromkeys"; "get"; "items"; "keys"; "pop"; "popitem"; "setdefault"; "update"; "values"].
(** [o.name]; of numbers none of the names used here.  Keys of a dictionary are
    not attributes. *)
Definition has_attribute (o : object) (name : string) : bool :=
  match o with
  | Number => false
  | Dictionary _ => known dict_methods name
  | Instance l _ _ => known l name
  end.
(** The effects, in order: the option [loadFile] of the first measurement of
    the evaluator in a row, the measurement, the question. *)
Inductive effect := SetFiles (row : Z) (files : list string) | Measured (row : Z) | Asked.

(** The column of a frame as objects; None: no such column, KeyError. *)
Definition column := list object.
Section Reeval.
Context (measure : Z -> res nat) (hold : bool).
(** L510-515 for one index. *)
Definition reevaluate_one (col : option column) (i : Z) : list effect * res nat :=
  match col with
  | None => ([], Raise KeyError)
  | Some c =>
      match at_position c i with
      | None => ([], Raise IndexError)
      | Some o =>
          if has_attribute o "measurements" then
            match o with
            | Instance _ (S _) files =>
                if has_attribute o "_last_file_names" then
                  match measure i with
                  | Raise e => ([SetFiles i files; Measured i], Raise e)
                  | Ok r => ([SetFiles i files; Measured i] ++ (if hold then [Asked] else []), Ok r)
                  end
                else ([], Raise AttributeError)
            | Instance _ O _ => ([], Raise IndexError)
            | _ => ([], Raise TypeError)  (* a method of dict is not subscriptable *)
            end
          else ([], Raise AttributeError)
      end
  end.
(** L508-516. *)
Fixpoint reevaluate_all (col : option column) (is : list Z) : list effect * res (list nat) :=
  match is with
  | [] => ([], Ok [])
  | i :: is' =>
      match reevaluate_one col i with
      | (w, Raise e) => (w, Raise e)
      | (w, Ok r) => match reevaluate_all col is' with
                     | (w', Ok rs) => (w ++ w', Ok (r :: rs))
                     | (w', Raise e) => (w ++ w', Raise e)
                     end
      end
  end.
(** L506-507: an [int] is put into a list; a number of numpy is none and cannot
    be iterated over. *)
Inductive indices := One (i : Z) | Several (l : list Z) | NumpyNumber (i : Z).
Definition reevaluate (col : option column) (is : indices) : list effect * res (list nat) :=
  match is with
  | One i => reevaluate_all col [i]
  | Several l => reevaluate_all col l
  | NumpyNumber _ => ([], Raise TypeError)
  end.
End Reeval.

(** The keys of the dictionaries of evaluators that the plots and the reload
    read (qtune/evaluator.py L81-87, L808-813). *)
Definition stored_keys (c : content) : list string :=
  match c with
  | AverageOf _ _ => ["evaluator"; "n_measurement_repetitions"; "raw_x_data"; "raw_y_data"; "name"]
  | _ => ["experiment"; "measurements"; "parameters"; "raw_x_data"; "raw_y_data"; "name"]
  end.
Definition as_object (c : cell) : object :=
  match c with Missing => Number | Stored _ d => Dictionary (stored_keys d) end.
(** [history._evaluator_data[name]] (qtune/history.py L579-599: the cells are
    the dictionaries of [to_hdf5]). *)
Definition column_of (f : frame) (name : string) : option column :=
  if known (f_columns f) name then Some (map (fun row => as_object (cell_at row name)) (f_rows f)) else None.
