(** Vocabulary for scans over a peak; without the model. *)
From Coq Require Import Reals List Arith.
Import ListNotations.
Local Open Scope R_scope.

(** Samples of a Gaussian peak of the height [A] and the width [sigma] at [c]:
    the i-th point is at [lo + i s]. *)
Definition samples_peak (data : list R) (lo s A c sigma : R) : Prop :=
  forall i, (i < length data)%nat -> nth i data 0 = A * exp (- ((lo + INR i * s - c) * (lo + INR i * s - c)) / (2 * (sigma * sigma))).
(** The width of the simulated peak and the distance of its points. *)
Definition width : R := sqrt 0.000002.
Definition spacing : R := 0.008 / 1280.
(** The two-dimensional pattern in millivolts around the voltages [v1], [v2], and
    its rise between neighbours on a grid of 20 by 104 points, 5 mV to each side. *)
Definition pattern (v1 v2 x y : R) : R := (1 + y) * (1 - 0.1 * Rabs (x - 1000 * v2) - 0.1 * Rabs (y - 1000 * v1)) * sin (x + y).
Definition grid (v : R) (n k : nat) : R := 1000 * v - 5 + INR k * (10 / INR (n - 1)).
Definition rise (v1 v2 : R) (i j : nat) : R :=
  pattern v1 v2 (grid v2 104 (S j)) (grid v1 20 i) - pattern v1 v2 (grid v2 104 j) (grid v1 20 i).
