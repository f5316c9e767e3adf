(** File names of a library and loading it: qtune/util.py L52-63,
    qtune/autotuner.py L74-82, L227-236 and L302-311, qtune/history.py L130-155
    and L327-349, qtune/storage.py L372-387. *)
From Coq Require Import Reals String Ascii List Bool Arith NArith ZArith.
From Verif Require Import PyExn PyBase HistoryModel FitStartModel.
Import ListNotations.
Local Open Scope string_scope.
Local Open Scope nat_scope.
Local Open Scope list_scope.

(** ** datetime *)
Record moment := mk_moment { year : N; month : N; day : N; hour : N; minute : N; second : N; micro : N }.
Definition leap (y : N) : bool := ((y mod 4 =? 0) && (negb (y mod 100 =? 0) || (y mod 400 =? 0)))%N.
Definition month_days (y m : N) : N :=
  (match m with 2 => if leap y then 29 else 28 | 4 | 6 | 9 | 11 => 30 | _ => 31 end)%N.
(** [t + timedelta(microseconds=1)], with carries. *)
Definition tick (t : moment) : moment :=
  let 'mk_moment y mo d h mi s u := t in
  (if u + 1 <? 1000000 then mk_moment y mo d h mi s (u + 1)
   else if s + 1 <? 60 then mk_moment y mo d h mi (s + 1) 0
   else if mi + 1 <? 60 then mk_moment y mo d h (mi + 1) 0 0
   else if h + 1 <? 24 then mk_moment y mo d (h + 1) 0 0 0
   else if d + 1 <=? month_days y mo then mk_moment y mo (d + 1) 0 0 0 0
   else if mo + 1 <=? 12 then mk_moment y (mo + 1) 1 0 0 0 0
   else mk_moment (y + 1) 1 1 0 0 0 0)%N.
Definition later (n : N) (t : moment) : moment := N.iter n tick t.
(** qtune/util.py L52-56: the start of the process plus the time that has passed
    on the performance counter (in seconds), which never runs backwards;
    [timedelta] rounds to microseconds, half to even.  Simplification: exact
    arithmetic for the seconds; no overflow after the year 9999. *)
Definition high_res_datetime (start_perf : R) (start : moment) (now_perf : R) : moment :=
  later (Z.to_N (py_round ((now_perf - start_perf) * 1000000))) start.

(** ** strftime *)
Definition digit (d : N) : ascii := ascii_of_N (48 + d).
(** The last [k] decimal digits, zero padded. *)
Fixpoint pad (k : nat) (n : N) : string :=
  match k with 0 => EmptyString | S k' => (pad k' (n / 10)%N ++ String (digit (n mod 10)%N) EmptyString)%string end.
(** qtune/util.py L62-63 with the format '%Y_%m_%d_%H_%M_%S_%f', for years of four digits. *)
Definition time_string (t : moment) : string :=
  (pad 4 (year t) ++ "_" ++ pad 2 (month t) ++ "_" ++ pad 2 (day t) ++ "_" ++ pad 2 (hour t) ++ "_" ++ pad 2 (minute t)
   ++ "_" ++ pad 2 (second t) ++ "_" ++ pad 6 (micro t))%string.
(** qtune/autotuner.py L235. *)
Definition file_name (t : moment) : string := (time_string t ++ ".hdf5")%string.

(** ** Files *)
(** A path is the list of its components.  The file system: files with the
    outcome of [from_hdf5(...)['autotuner']]; a directory is what has files
    below it. *)
Definition path := list string.
Definition files := list (path * res snap).
Definition text (p : path) : string := String.concat "/" p.
Fixpoint path_eqb (p q : path) : bool :=
  match p, q with [], [] => true | a :: p', b :: q' => String.eqb a b && path_eqb p' q' | _, _ => false end.
Fixpoint below (d p : path) : bool :=
  match d, p with [], _ :: _ => true | a :: d', b :: p' => String.eqb a b && below d' p' | _, [] => false end.
Definition is_dir (fs : files) (d : path) : bool := existsb (fun f => below d (fst f)) fs.
Definition content (fs : files) (p : path) : option (res snap) :=
  match find (fun f => path_eqb (fst f) p) fs with Some f => Some (snd f) | None => None end.
(** [from_hdf5(name, ...)['autotuner']]: opening a directory raises OSError. *)
Definition os_error : exn := OtherError 5.
Definition read (fs : files) (p : path) : res snap := match content fs p with Some r => r | None => Raise os_error end.

(** qtune/history.py L327-338 with qtune/storage.py L386-387: the results arrive
    in the order of the sorted names; the first exception ends the loop. *)
Fixpoint load_sorted (fs : files) (d : path) (names : list string) (h : hist) : hist * res unit :=
  match names with
  | [] => (h, Ok tt)
  | n :: names' =>
      match read fs (d ++ [n]) with
      | Raise e => (h, Raise e)
      | Ok a => let (h', r) := hist_append h a (text (d ++ [n])) in
                match r with Raise e => (h', Raise e) | Ok _ => load_sorted fs d names' h' end
      end
  end.
(** [listing]: what [os.listdir] returns, in any order. *)
Definition load_directory (fs : files) (d : path) (listing : list string) (h : hist) : hist * res unit :=
  load_sorted fs d (sort_labels listing) h.
(** qtune/history.py L340-349. *)
Definition load_file (fs : files) (p : path) (h : hist) : hist * res unit :=
  match read fs p with
  | Raise e => (h, Raise e)
  | Ok a => hist_append h a (text p)
  end.
(** qtune/history.py L130-155: the object exists only if nothing is raised. *)
Definition runtime_warning : exn := OtherError 6.
Definition history_init (fs : files) (listdir : path -> list string) (source : option path) : res hist :=
  match source with
  | None => Ok empty_hist
  | Some p =>
      let made r := match r with (h, Ok _) => Ok h | (_, Raise e) => Raise e end in
      if is_dir fs p then made (load_directory fs p (listdir p) empty_hist)
      else match content fs p with
           | Some _ => made (load_file fs p empty_hist)
           | None => Raise runtime_warning
           end
  end.

(** ** Where an autotuner saves *)
(** qtune/autotuner.py L76-82; an empty path counts as none. *)
Definition storage_path (given : path) (append_time : bool) (now : moment) : option path :=
  match given with [] => None | _ => Some (if append_time then given ++ [time_string now] else given) end.
(** Loading: the stored dictionary (qtune/autotuner.py L302-311) has the path,
    but not append_time_to_path, whose default is True (L39-40). *)
Definition reloaded_path (stored : option path) (now : moment) : option path :=
  match stored with None => None | Some p => storage_path p true now end.
(** qtune/autotuner.py L227-236: the new file; the snapshot as in C119. *)
Definition save (where_ : option path) (now : moment) (a : snap) (fs : files) : files :=
  match where_ with None => fs | Some p => fs ++ [(p ++ [file_name now], Ok a)] end.
