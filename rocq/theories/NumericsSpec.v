(** What the library routines deliver in exact arithmetic. *)
From Verif Require Import PyBase TunerSpec SeriesLemmas KernelR GradientProps EstimatorModel ComposeSpec.
Local Open Scope R_scope.

(** A row with [n] entries, a square matrix. *)
Definition arr (n : nat) (r : nat -> R) : list num := map (fun j => Fin (r j)) (seq 0 n).
Definition mat (n : nat) (A : nat -> nat -> R) : list (list num) := map (fun i => arr n (A i)) (seq 0 n).
Definition nontrivial (n : nat) (u : nat -> R) : Prop := exists i, (i < n)%nat /\ u i <> 0.
(** Some row combination of the matrix vanishes. *)
Definition singular (n : nat) (A : nat -> nat -> R) : Prop :=
  exists u, nontrivial n u /\ forall j, (j < n)%nat -> dot (seq 0 n) u (fun i => A i j) = 0.
Definition delta (i j : nat) : R := if Nat.eqb i j then 1 else 0.

(** [numpy.linalg.inv]: the inverse, LinAlgError for a singular matrix. *)
Definition inv_exact (inv : list (list num) -> res (list (list num))) : Prop :=
  forall n A, (0 < n)%nat ->
  (~ singular n A -> exists X, inv (mat n A) = Ok (mat n X) /\
     forall i j, (i < n)%nat -> (j < n)%nat -> dot (seq 0 n) (X i) (fun k => A k j) = delta i j /\ dot (seq 0 n) (A i) (fun k => X k j) = delta i j) /\
  (singular n A -> inv (mat n A) = Raise LinAlgError).

(** [sympy.Matrix.nullspace]: non-zero vectors of the null space, at least one
    if there is one. *)
Definition nullspace_exact (nullspace : list (list num) -> list (list num)) : Prop :=
  forall n rows, (0 < n)%nat -> rows <> [] ->
  let null u := nontrivial n u /\ forall r, In r rows -> dot (seq 0 n) u r = 0 in
  exists bs, nullspace (map (arr n) rows) = map (arr n) bs /\ (forall b, In b bs -> null b) /\ ((exists u, null u) -> bs <> []).

(** [numpy.linalg.lstsq]: no other vector has a smaller residual (only needed
    for linearly independent rows). *)
Definition residual (ls : list label) (rows : list (label -> R)) (b : list R) (x : label -> R) : R :=
  sum (combine rows b) (fun q => (dot ls (fst q) x - snd q) * (dot ls (fst q) x - snd q)).
Definition lstsq_minimal (lstsq : list series -> list num -> res (list num)) : Prop :=
  forall ls rows b, NoDup ls -> ls <> [] -> rows <> [] -> length b = length rows -> independent ls rows ->
  exists x, lstsq (map (vec ls) rows) (map Fin b) = Ok (array ls x) /\ forall y, residual ls rows b x <= residual ls rows b y.

(** Pairs of measurements: the difference of the positions and of the values,
    and the order in which the points of symmetric steps are measured. *)
Definition moved (q : reading * reading) (l : label) : R := r_at (fst q) l - r_at (snd q) l.
Definition gained (q : reading * reading) : R := r_val (fst q) - r_val (snd q).
Definition points_of (ps : list (reading * reading)) : list reading := flat_map (fun q => [snd q; fst q]) ps.
(** The pairs that points are evaluated in: every point with the first one, or
    every second point with the one before it. *)
Definition evaluated (ms : list reading) (ps : list (reading * reading)) : Prop :=
  ms = points_of ps \/ exists m0 ms', ms = m0 :: ms' /\ ps = map (fun m => (m, m0)) ms'.
