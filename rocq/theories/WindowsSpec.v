(** What the windows refer to, told from the events alone (latest first). *)
From Coq Require Import List Bool Arith.
From Verif Require Import WindowsModel.
Import ListNotations.

(** The autotuner taken over last; at first the given one. *)
Fixpoint taken_over (l : list event) : nat :=
  match l with [] => 0 | Swapped _ t :: _ => t | _ :: l' => taken_over l' end.
(** The window [w] has not loaded and no other window has been followed since it
    was opened, or since its own state was taken over. *)
Fixpoint up_to_date (w : nat) (l : list event) : bool :=
  match l with
  | [] => false
  | Opened v :: l' => if v =? w then true else up_to_date w l'
  | Swapped v _ :: l' => v =? w
  | Loaded v _ :: l' => if v =? w then false else up_to_date w l'
  | _ :: l' => up_to_date w l'
  end.
(** No autotuner was taken over since the worker began its iteration. *)
Fixpoint undisturbed (l : list event) : bool :=
  match l with [] => true | Checked _ :: _ => true | Swapped _ _ :: _ => false | _ :: l' => undisturbed l' end.
(** The windows of some kinds that are open, in the order of their opening. *)
Definition open_of (f : kind -> bool) (l : list child) : list nat :=
  map fst (filter (fun p => c_open (snd p) && f (c_kind (snd p))) (combine (seq 0 (length l)) l)).
Definition ever_of (f : kind -> bool) (l : list child) : list nat :=
  map fst (filter (fun p => f (c_kind (snd p))) (combine (seq 0 (length l)) l)).
