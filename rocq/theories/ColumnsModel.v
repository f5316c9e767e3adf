(** Column names of the history and the regular expressions that read them
    back: qtune/history.py L126-128, L206-239.

    Simplifications: the name that is looked up contains no character with a
    meaning in regular expressions; word characters are the ASCII ones
    (letters, digits, underscore, blank characters). *)
From Coq Require Import String Ascii List Bool Arith.
Import ListNotations.
Local Open Scope string_scope.
Local Open Scope list_scope.

(** qtune/history.py L284-285, the columns: voltages, parameters, variances, gradients,
    covariances of gradients, index. *)
Inductive column :=
| CGate (g : string)
| CPar (p : string)
| CVar (p : string)
| CGrad (p g : string)
| CCov (p g1 g2 : string)
| CIndex.
(** qtune/history.py L126-128, L282. *)
Definition col_name (c : column) : string :=
  match c with
  | CGate g => g
  | CPar p => p
  | CVar p => (p ++ "#var")%string
  | CGrad p g => (p ++ "#" ++ g ++ "#grad")%string
  | CCov p g1 g2 => (p ++ "#" ++ g1 ++ "#" ++ g2 ++ "#cov")%string
  | CIndex => "tuner_index"
  end.

(** [\w\s\d] *)
Definition word_char (c : ascii) : bool :=
  let n := nat_of_ascii c in
  ((48 <=? n) && (n <=? 57) || (65 <=? n) && (n <=? 90) || (97 <=? n) && (n <=? 122) || (n =? 95)
   || (n =? 32) || (9 <=? n) && (n <=? 13) || (28 <=? n) && (n <=? 31))%nat.
(** What is left of [s] behind the literal [p]. *)
Fixpoint literal (p s : string) : option string :=
  match p, s with
  | EmptyString, _ => Some s
  | String a p', String b s' => if Ascii.eqb a b then literal p' s' else None
  | _, EmptyString => None
  end.
(** [[\w\s\d]+], greedy; giving characters back never helps in front of "#". *)
Fixpoint run (s : string) : string * string :=
  match s with
  | String a s' => if word_char a then let (w, r) := run s' in (String a w, r) else (EmptyString, s)
  | EmptyString => (EmptyString, EmptyString)
  end.
Definition word_run (s : string) : option (string * string) :=
  match run s with (EmptyString, _) => None | (w, r) => Some (w, r) end.
(** [re.search]: the first position with a match. *)
Fixpoint search {A} (m : string -> option A) (s : string) : option A :=
  match m s with
  | Some a => Some a
  | None => match s with EmptyString => None | String _ s' => search m s' end
  end.

(** "{p}#([\w\s\d]+)#grad", qtune/history.py L127, L212-213. *)
Definition grad_regex (p s : string) : option string :=
  match literal (p ++ "#") s with
  | None => None
  | Some r => match word_run r with
              | None => None
              | Some (g, r') => match literal "#grad" r' with None => None | Some _ => Some g end
              end
  end.
(** "{p}#(?P<gatename>[\w\s\d]+)#(?P=gatename)#cov", qtune/history.py L128, L236-238. *)
Definition var_regex (p s : string) : option string :=
  match literal (p ++ "#") s with
  | None => None
  | Some r => match word_run r with
              | None => None
              | Some (g, r') => match literal ("#" ++ g ++ "#cov") r' with None => None | Some _ => Some g end
              end
  end.
(** "{p}#([\w\s\d]+)#([\w\s\d]+)#cov", qtune/history.py L222-224. *)
Definition cov_regex (p s : string) : option (string * string) :=
  match literal (p ++ "#") s with
  | None => None
  | Some r => match word_run r with
              | None => None
              | Some (g1, r1) =>
                  match literal "#" r1 with
                  | None => None
                  | Some r2 => match word_run r2 with
                               | None => None
                               | Some (g2, r3) => match literal "#cov" r3 with None => None | Some _ => Some (g1, g2) end
                               end
                  end
              end
  end.

(** [df.filter(regex).rename(...)]: new name and column, qtune/history.py L212-214,
    L236-239; [frame]: the names of the columns of the data frame. *)
Definition matching {A} (m : string -> option A) (frame : list string) : list (A * string) :=
  flat_map (fun c => match search m c with Some a => [(a, c)] | None => [] end) frame.
Definition get_gradients (p : string) (frame : list string) : list (string * string) := matching (grad_regex p) frame.
Definition get_gradient_variances (p : string) (frame : list string) : list (string * string) := matching (var_regex p) frame.

(** Labels of a pandas index: strings and tuples. *)
Inductive plabel := LStr (s : string) | LTup (l : list (string * string)).
(** [DataFrame(df, columns=new)]: every new label takes the column with the same
    label, NaN (None) if there is none. *)
Definition reindex (new : list plabel) (frame : list string) : list (plabel * option string) :=
  map (fun l => (l, match l with LStr s => find (String.eqb s) frame | LTup _ => None end)) new.
(** qtune/history.py L216-226.  [regex.findall] gives a list with one tuple per match;
    [MultiIndex.from_tuples] of such lists labels a column with that tuple, and raises
    TypeError for no columns.  The columns are sorted by it (order not kept here). *)
Definition get_gradient_covariances (p : string) (frame : list string) : option (list (plabel * option string)) :=
  match matching (cov_regex p) frame with
  | [] => None
  | cols => Some (reindex (map (fun c => LTup [fst c]) cols) (map snd cols))
  end.
