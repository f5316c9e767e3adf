(** The gradient of several parameters from a minimal number of points
    (qtune/util.py L133-157) and the suggested direction of a KalmanGradient
    (qtune/kalman_gradient.py L257-280), in exact arithmetic. *)
From mathcomp Require Import all_ssreflect all_algebra.
From Verif Require Import PyExn LinAlgModel KalmanModel.
Set Implicit Arguments. Unset Strict Implicit. Unset Printing Implicit Defensive.
Import GRing.Theory Num.Theory.
Local Open Scope ring_scope.

Section MinGrad.
Variable F : realFieldType.

(** qtune/util.py L144-149: differences to the first entry, or of every second
    entry to the one before it, as columns. *)
Definition differences m n (l : seq 'rV[F]_m) : 'M[F]_(m, n) :=
  \matrix_(i, j) (if diff_index n (size l) j is Some (a, b) then nth 0 l a 0 i - nth 0 l b 0 i else 0).

(** qtune/util.py L133-157 [gradient_min_evaluations] with [k] parameters and
    [n] gates: assertion of equal lengths (L141), first point (L142),
    [numpy.stack] of no arrays without gates (L145), RuntimeError (L151). *)
Definition min_gradient k n (parameters : seq 'rV[F]_k) (points : seq 'rV[F]_n) : res 'M[F]_(k, n) :=
  if size points != size parameters then Raise AssertionError
  else if points is [::] then Raise IndexError
  else if (size points == n.+1) || (size points == 2 * n)%N then
    if n == 0%N then Raise ValueError
    else if differences n points \in unitmx then Ok (differences n parameters *m invmx (differences n points))
    else Raise EvaluationError
  else Raise RuntimeError.

(** qtune/kalman_gradient.py L257-280 [sugg_diff_position] with the result of
    [numpy.linalg.eigh]: the first part, of as many as there are values, of the
    eigenvector of the largest eigenvalue that is not zero.  [None] stands for
    StopIteration (L280) or the ValueError of [argmax] of no numbers (L277). *)
Definition sugg_diff k n (vals : 'rV[F]_(k * n)) (vecs : 'M[F]_(k * n)) : option 'rV[F]_n :=
  if argmax (fun j => vals 0 j) is Some j then
    let z := [seq row i (vec_mx (col j vecs)^T) | i <- enum 'I_k] in
    ohead [seq part <- z | part != 0]
  else None.
End MinGrad.
