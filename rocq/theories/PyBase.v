(** Common vocabulary of all models: Python exceptions as values, extended
    real numbers (numpy floats), labelled series (pandas.Series). *)
From Coq Require Export String List Bool Arith Lia.
From Coq Require Export Reals.
From Coq Require Import Lra.
From Verif Require Export PyExn.
Export ListNotations.

(** Gate and parameter names (qtune/experiment.py L27: GateIdentifier = str). *)
Definition label := string.
Definition label_eqb : label -> label -> bool := String.eqb.

(** Membership test, [label in container]. *)
Definition mem (l : label) (ls : list label) : bool := existsb (label_eqb l) ls.

(** Python [set(a).issubset(set(b))]. *)
Definition subset (a b : list label) : bool := forallb (fun l => mem l b) a.

(** Python [set(a) == set(b)]. *)
Definition same_set (a b : list label) : bool := subset a b && subset b a.

(** Float values: exact reals plus NaN and the infinities.  Simplification:
    no rounding, no signed zero. *)
Inductive num := NaN | MInf | PInf | Fin (r : R).

(** Boolean comparisons on the exact reals. *)
Definition Rltb (a b : R) : bool := if Rlt_dec a b then true else false.
Definition Rleb (a b : R) : bool := if Rle_dec a b then true else false.
Definition Reqb (a b : R) : bool := if Req_EM_T a b then true else false.

(** [pandas.isna] on a float. *)
Definition isna (x : num) : bool := match x with NaN => true | _ => false end.

(** IEEE [<] and [<=]: every comparison with NaN is False. *)
Definition nltb (a b : num) : bool :=
  match a, b with
  | NaN, _ | _, NaN => false
  | Fin x, Fin y => Rltb x y
  | MInf, MInf => false
  | MInf, _ => true
  | _, MInf => false
  | PInf, _ => false
  | _, PInf => true
  end.
Definition nleb (a b : num) : bool :=
  match a, b with
  | NaN, _ | _, NaN => false
  | Fin x, Fin y => Rleb x y
  | MInf, _ => true
  | _, PInf => true
  | _, _ => false
  end.

(** IEEE arithmetic (sum, negation, difference, absolute value, product,
    quotient). *)
Definition nadd (a b : num) : num :=
  match a, b with
  | NaN, _ | _, NaN => NaN
  | Fin x, Fin y => Fin (x + y)
  | PInf, MInf | MInf, PInf => NaN
  | PInf, _ | _, PInf => PInf
  | MInf, _ | _, MInf => MInf
  end.
Definition nopp (a : num) : num :=
  match a with NaN => NaN | MInf => PInf | PInf => MInf | Fin x => Fin (- x) end.
Definition nsub (a b : num) : num := nadd a (nopp b).
Definition nabs (a : num) : num :=
  match a with NaN => NaN | MInf => PInf | PInf => PInf | Fin x => Fin (Rabs x) end.
(** Infinity with the sign of a non-zero real, NaN for zero. *)
Definition inf_of_sign (pos : bool) (x : R) : num :=
  if Rltb 0 x then (if pos then PInf else MInf)
  else if Rltb x 0 then (if pos then MInf else PInf) else NaN.
Definition nmul (a b : num) : num :=
  match a, b with
  | NaN, _ | _, NaN => NaN
  | Fin x, Fin y => Fin (x * y)
  | PInf, PInf | MInf, MInf => PInf
  | PInf, MInf | MInf, PInf => MInf
  | PInf, Fin x | Fin x, PInf => inf_of_sign true x
  | MInf, Fin x | Fin x, MInf => inf_of_sign false x
  end.
(** Division; [x / 0] is an infinity with the sign of [x], [0 / 0] is NaN
    (numpy, ignoring signed zeros). *)
Definition ndiv (a b : num) : num :=
  match a, b with
  | NaN, _ | _, NaN => NaN
  | Fin x, Fin y => if Reqb y 0 then inf_of_sign true x else Fin (x / y)
  | Fin _, _ => Fin 0
  | PInf, Fin y => if Rltb y 0 then MInf else PInf
  | MInf, Fin y => if Rltb y 0 then PInf else MInf
  | _, _ => NaN
  end.
(** [Series.fillna(d)] on one entry. *)
Definition fillna (d x : num) : num := if isna x then d else x.

(** A pandas.Series with unique string labels, in index order. *)
Definition series := list (label * num).

(** [s.index] *)
Definition index (s : series) : list label := map fst s.

(** [s[l]] for a single label; [None] stands for a missing label. *)
Fixpoint lookup (l : label) (s : series) : option num :=
  match s with
  | [] => None
  | (k, v) :: s' => if label_eqb l k then Some v else lookup l s'
  end.

(** Value at a label, NaN if the label is missing (alignment/reindexing). *)
Definition get (l : label) (s : series) : num :=
  match lookup l s with Some v => v | None => NaN end.

(** [s.isna().any()] *)
Definition any_na (s : series) : bool := existsb (fun p => isna (snd p)) s.

(** [s[labels]] for a list of labels (pandas 0.2x: absent labels give NaN).
    The KeyError that pandas raises if no label at all is present is modelled
    by the callers that can meet it. *)
Definition reindex (ls : list label) (s : series) : series :=
  map (fun l => (l, get l s)) ls.

(** [s[l] = v] for an existing label, in place. *)
Fixpoint set_label (l : label) (v : num) (s : series) : series :=
  match s with
  | [] => []
  | (k, w) :: s' => if label_eqb l k then (k, v) :: s' else (k, w) :: set_label l v s'
  end.

(** [s[new.index] = new]: every label of [new] must exist, pandas raises
    ValueError otherwise (Series._set_labels). *)
Definition assign (s new : series) : res series :=
  if subset (index new) (index s)
  then Ok (fold_left (fun acc p => set_label (fst p) (snd p) acc) new s)
  else Raise ValueError.

(** Insertion sort of labels, [Index.union] result order for unequal indices. *)
Fixpoint insert_label (l : label) (ls : list label) : list label :=
  match ls with
  | [] => [l]
  | k :: ls' => if String.leb l k then l :: k :: ls' else k :: insert_label l ls'
  end.
Definition sort_labels (ls : list label) : list label := fold_right insert_label [] ls.

(** Index of the result of an arithmetic operation between two series: the
    common index if equal, the sorted union otherwise. *)
Definition list_eqb (a b : list label) : bool :=
  if list_eq_dec String.string_dec a b then true else false.
Definition union_index (a b : list label) : list label :=
  if list_eqb a b then a
  else sort_labels (a ++ filter (fun l => negb (mem l a)) b).

(** Aligned binary operation between two series. *)
Definition zip_with (f : num -> num -> num) (a b : series) : series :=
  map (fun l => (l, f (get l a) (get l b))) (union_index (index a) (index b)).

Definition sadd : series -> series -> series := zip_with nadd.
Definition ssub : series -> series -> series := zip_with nsub.
(** Operation with a scalar. *)
Definition smap (f : num -> num) (s : series) : series := map (fun p => (fst p, f (snd p))) s.

(** [s[labels]] with the KeyError of pandas 0.2x when labels are asked for and
    none of them is present. *)
Definition select (ls : list label) (s : series) : res series :=
  match ls with
  | [] => Ok []
  | _ => if existsb (fun l => mem l (index s)) ls then Ok (reindex ls s) else Raise KeyError
  end.

(** Square root of a float (of a sum of squares). *)
Definition nsqrt (a : num) : num :=
  match a with Fin x => Fin (sqrt x) | PInf => PInf | _ => NaN end.

(** [numpy.linalg.norm] of a vector. *)
Definition nnorm (s : series) : num :=
  nsqrt (fold_right (fun p acc => nadd (nmul (snd p) (snd p)) acc) (Fin 0) s).

(** Python [int(x)]: truncation towards zero. *)
Definition trunc (x : num) : res Z :=
  match x with
  | Fin r => Ok (if Rleb 0 r then Int_part r else (- Int_part (- r))%Z)
  | NaN => Raise ValueError
  | _ => Raise OverflowError
  end.
