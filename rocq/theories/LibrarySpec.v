(** Specification for the file names of a library (C121). *)
From Coq Require Import String List NArith.
From Verif Require Import PyExn HistoryModel LibraryModel.
Local Open Scope N_scope.

(** A date and time that exists. *)
Definition valid (t : moment) : Prop :=
  1 <= year t /\ 1 <= month t <= 12 /\ 1 <= day t <= month_days (year t) (month t) /\ hour t < 24 /\ minute t < 60 /\ second t < 60 /\ micro t < 1000000.
(** Proleptic Gregorian calendar, as in the documentation of [datetime.toordinal]:
    days before a year and a month, and the microseconds since year 1. *)
Definition days_before_year (y : N) : N := 365 * (y - 1) + (y - 1) / 4 - (y - 1) / 100 + (y - 1) / 400.
Definition days_before_month (y m : N) : N :=
  fold_right N.add 0 (map (fun k => if k <? m then month_days y k else 0) (1 :: 2 :: 3 :: 4 :: 5 :: 6 :: 7 :: 8 :: 9 :: 10 :: 11 :: 12 :: nil)).
Definition micros (t : moment) : N :=
  ((((days_before_year (year t) + days_before_month (year t) (month t) + day t) * 24 + hour t) * 60 + minute t) * 60 + second t) * 1000000 + micro t.

(** A listing of a directory: every name below it once, in any order. *)
Definition lists (fs : files) (d : path) (l : list string) : Prop :=
  NoDup l /\ forall n, In n l <-> exists rest r, In ((d ++ n :: rest)%list, r) fs.
(** The files of an autotuner that saves its states at times that are given in
    microseconds after [t]. *)
Definition library (d : path) (t : moment) (saves : list (N * snap)) : files :=
  map (fun s => ((d ++ file_name (later (fst s) t) :: nil)%list, Ok (snd s))) saves.
(** What a live history has appended. *)
Definition appended (d : path) (t : moment) (saves : list (N * snap)) : list (snap * string) :=
  map (fun s => (snd s, text (d ++ file_name (later (fst s) t) :: nil)%list)) saves.
