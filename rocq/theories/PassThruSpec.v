(** What the parameters of SMQQDPassThru should receive. *)
From Coq Require Import Reals List String Bool Arith.
From Verif Require Import PyExn PyBase PassThruModel.
Import ListNotations.

(** The vector of a measurement is long enough for its kind. *)
Definition enough (name : string) (r : list num) : Prop :=
  (name = "lead"%string -> r <> []) /\ (name = "line"%string -> 2 <= List.length r) /\
  (name = "resp"%string -> 8 <= List.length r).
(** The measurements from number [k] on give the vectors [rs]. *)
Fixpoint measured (x : experiment) (k : nat) (names : list string) (rs : list (list num)) : Prop :=
  match names, rs with
  | [], [] => True
  | name :: names', r :: rs' =>
      outcome x k = Ok r /\ (exists f, file_name x k = Ok f) /\ enough name r /\ measured x (S k) names' rs'
  | _, _ => False
  end.
(** Values of one measurement that are meant for parameters. *)
Definition own_values (name : string) (r : list num) : list num :=
  if String.eqb name "lead" then removelast r
  else if String.eqb name "line" then firstn 1 r
  else if String.eqb name "resp" then firstn 4 r else r.
(** A number of at most 1e-8 is taken for zero. *)
Definition vanishes (s : num) : bool :=
  match s with Fin q => if Rle_dec (Rabs q * 100000000) 1 then true else false | _ => false end.
(** The residual that belongs to the j-th value of a measurement, NaN if none. *)
Definition own_residual (name : string) (r : list num) (j : nat) : num :=
  if String.eqb name "lead" then last r NaN
  else if String.eqb name "resp" then let s := nth (4 + j) r NaN in if vanishes s then NaN else s
  else NaN.
(** All values with their residuals, in the order of the measurements. *)
Definition own (name : string) (r : list num) : list (num * num) :=
  map (fun j => (nth j (own_values name r) NaN, own_residual name r j)) (seq 0 (List.length (own_values name r))).
Fixpoint all_own (names : list string) (rs : list (list num)) : list (num * num) :=
  match names, rs with
  | name :: names', r :: rs' => own name r ++ all_own names' rs'
  | _, _ => []
  end.
(** The error of a parameter: scaled with the residual relative to the
    reference if both are known. *)
Definition scaled (e s r : num) : num := if isna s || isna r then e else ndiv (nmul e s) r.
