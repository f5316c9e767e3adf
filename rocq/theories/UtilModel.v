(** Model of the data filters and transition finders of qtune/util.py L66-129
    and of qtune/MATLAB/+qtune/at_diff.m.

    Simplifications: the data are finite reals (no NaN samples), one
    dimensional (squeeze and the mean over rows are not modelled); widths and
    lags are natural numbers. *)
From Coq Require Import Reals List Bool Arith Lia.
From Verif Require Import PyExn PyBase.
Import ListNotations.
Local Open Scope R_scope.

(** [data[i] = v] for an index inside the array. *)
Fixpoint upd (i : nat) (v : R) (l : list R) : list R :=
  match l, i with
  | [], _ => []
  | _ :: l', O => v :: l'
  | a :: l', S i' => a :: upd i' v l'
  end.
(** Python [sum]. *)
Definition total (l : list R) : R := fold_left Rplus l 0.
(** Python slice [data[a:b]] for [0 <= a]. *)
Definition slice (a b : nat) (l : list R) : list R := firstn (b - a) (skipn a l).
(** [numpy.argmax] and [numpy.argmin]: first position of the extremum;
    ValueError for empty arrays. *)
Fixpoint arg_from (better : R -> R -> bool) (best : nat) (v : R) (i : nat) (l : list R) : nat :=
  match l with
  | [] => best
  | a :: l' => if better a v then arg_from better i a (S i) l' else arg_from better best v (S i) l'
  end.
Definition arg_by (better : R -> R -> bool) (l : list R) : res nat :=
  match l with [] => Raise ValueError | a :: l' => Ok (arg_from better 0 a 1 l') end.
Definition argmax : list R -> res nat := arg_by (fun a b => Rltb b a).
Definition argmin : list R -> res nat := arg_by (fun a b => Rltb a b).
(** Python [round(w / 2)]: half to even. *)
Definition round_half (w : nat) : nat :=
  let k := Nat.div2 w in if Nat.even w then k else if Nat.even k then k else S k.

(** qtune/util.py L68-69 and L85-86: [for i in range(0, len - w - 1): data[i] -= data[i + w]],
    in place. *)
Definition diff_in_place (w : nat) (data : list R) : list R :=
  fold_left (fun d i => upd i (nth i d 0 - nth (i + w) d 0) d) (seq 0 (length data - w - 1)) data.

(** qtune/util.py L66-70 [new_find_lead_transition_index]; works on a copy. *)
Definition transition_index (data : list R) (w : nat) : res nat :=
  let d := diff_in_place w data in
  match argmax (firstn (length d - w - 1) (map Rabs d)) with
  | Ok j => Ok (j + round_half w)%nat
  | Raise e => Raise e
  end.

(** [numpy.linspace(lo, hi, n)[i]] *)
Definition linspace (lo hi : R) (n : nat) : list R :=
  map (fun i => if n =? 1 then lo else lo + INR i * ((hi - lo) / INR (n - 1))) (seq 0 n).
(** qtune/util.py L73-94 [find_lead_transition] for one dimensional data: the caller's array
    afterwards and the result.  [n]: the lag int(width/scan_range*npoints), L84. *)
Definition find_lead_transition (data : list R) (center range : R) (npoints n : nat) : list R * res R :=
  let x := linspace (center - range) (center + range) npoints in
  let y := diff_in_place n data in
  (y, match argmax (map Rabs (firstn (length y - n - 1) y)) with
      | Raise e => Raise e
      | Ok j => match nth_error x (j + round_half n) with
                | Some v => Ok v
                | None => Raise IndexError
                end
      end).

(** qtune/util.py L97-107 [nth_diff]. *)
Definition nth_diff (data : list R) (n : nat) : res (list R) :=
  if length data <? n then Raise ValueError
  else Ok (map (fun i => nth i data 0 - nth (i + n) data 0) (seq 0 (length data - n))).

(** qtune/util.py L110-120 [moving_average_filter]; an assignment outside the array raises
    IndexError, [1. / width] ZeroDivisionError. *)
Definition store (i : nat) (v : R) (acc : res (list R)) : res (list R) :=
  match acc with
  | Raise e => Raise e
  | Ok l => if i <? length l then Ok (upd i v l) else Raise IndexError
  end.
Definition moving_average (data : list R) (width : nat) : res (list R) :=
  let n := length data in
  let start := Ok (repeat 0 n) in
  let first := fold_left (fun acc i => store i (total (slice 0 (i + 1) data) * (1 / INR (i + 1))) acc) (seq 0 width) start in
  fold_left (fun acc i =>
    match acc with
    | Raise e => Raise e
    | Ok _ => if width =? 0 then Raise ZeroDivisionError
              else store i (total (slice (i + 1 - width) (i + 1) data) * (1 / INR width)) acc
    end) (seq width (n - width)) first.

(** qtune/util.py L123-129 [find_stepes_point_sensing_dot]. *)
Definition steepest_point (data : list R) (range : R) (npoints : nat) : res R :=
  match moving_average data 200 with
  | Raise e => Raise e
  | Ok d1 => match nth_diff d1 30 with
    | Raise e => Raise e
    | Ok d2 => match moving_average d2 30 with
      | Raise e => Raise e
      | Ok d3 => match argmin d3 with
        | Raise e => Raise e
        | Ok j => Ok ((INR (j + 15) - INR npoints / 2) * range / (INR npoints / 2))
        end
      end
    end
  end.

(** qtune/MATLAB/+qtune/at_diff.m L4-7, in place, indices from 1. *)
Definition at_diff (data : list R) (n : nat) : list R :=
  firstn (length data - n)
    (fold_left (fun d i => upd i (nth (i + n) d 0 - nth i d 0) d) (seq 0 (length data - n)) data).
