(** Vocabulary for the fits: what an exact [curve_fit] delivers, and data
    without noise. *)
From Coq Require Import Reals List ZArith.
From Verif Require Import PyExn PyBase UtilModel FitModel.
Import ListNotations.
Local Open Scope R_scope.

(** Sum of the squared deviations of [f] from the data, divided by the squared
    standard deviations. *)
Fixpoint chi2 (f : R -> R) (sigma xs ys : list R) : R :=
  match sigma, xs, ys with
  | d :: sigma', x :: xs', y :: ys' => ((y - f x) / d) * ((y - f x) / d) + chi2 f sigma' xs' ys'
  | _, _, _ => 0
  end.
Definition even_sigma (xs : list R) : list R := map (fun _ => 1) xs.

(** A bounded fit that returns a minimum, whenever it returns. *)
Definition exact_load_fit (fit : R -> R -> p3 -> list R -> list R -> res p3) : Prop :=
  forall lo hi start xs ys q, fit lo hi start xs ys = Ok q ->
  lo <= snd q <= hi /\
  forall q', lo <= snd q' <= hi -> chi2 (load_fun q) (even_sigma xs) xs ys <= chi2 (load_fun q') (even_sigma xs) xs ys.
(** A fit that at least respects its bounds. *)
Definition bounded_load_fit (fit : R -> R -> p3 -> list R -> list R -> res p3) : Prop :=
  forall lo hi start xs ys q, fit lo hi start xs ys = Ok q -> lo <= snd q <= hi.
(** A fit without bounds; without standard deviations all points count the
    same. *)
Definition exact_tc_fit (fit : option (list R) -> p5 -> list R -> list R -> res p5) : Prop :=
  forall sigma start xs ys q, fit sigma start xs ys = Ok q ->
  let d := match sigma with Some d => d | None => even_sigma xs end in
  forall q', chi2 (tc_fun q) d xs ys <= chi2 (tc_fun q') d xs ys.

(** [z] is [x] without its digits after the point. *)
Definition truncated (x : R) (z : Z) : Prop := (0 <= x /\ IZR z <= x < IZR z + 1) \/ (x < 0 /\ IZR z - 1 < x <= IZR z).

(** Three different points on the axis. *)
Definition three_points (xs : list R) : Prop :=
  exists a b c, In a xs /\ In b xs /\ In c xs /\ a < b < c.

(** The same curve with the opposite width. *)
Definition mirrored (q : p5) : p5 := let '(o, s, h, p, w) := q in (o + h, s, - h, p, - w).

(** [numpy.polyfit] of degree 1 on data without noise: nothing to fit is a
    TypeError, points of a straight line give the line. *)
Definition two_points (xs : list R) : Prop := exists a b, In a xs /\ In b xs /\ a <> b.
Definition polyfit_exact (pf : list R -> list R -> res (R * R)) : Prop :=
  pf [] [] = Raise TypeError /\ forall xs s o, two_points xs -> pf xs (map (fun x => o + s * x) xs) = Ok (s, o).
