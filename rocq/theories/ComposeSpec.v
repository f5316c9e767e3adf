(** Vocabulary for the properties of the whole loop: what the numerical
    routines have to deliver in exact arithmetic, affine devices, and tuners as
    they are before the first evaluation. *)
From Verif Require Import PyBase TargetModel TunerModel TunerSpec SeriesLemmas NewtonModel EstimatorModel GradientProps ComposeModel KernelR.
Local Open Scope R_scope.

(** A measurement at a finite position with a finite value. *)
Definition reading : Type := ((label -> R) * R * num)%type.
Definition r_at (m : reading) : label -> R := fst (fst m).
Definition r_val (m : reading) : R := snd (fst m).
Definition taken (ls : list label) (ms : list reading) : list measurement :=
  map (fun m => (vec ls (r_at m), Fin (r_val m), snd m)) ms.

Definition nonzero (ls : list label) (u : label -> R) : Prop := exists l, In l ls /\ u l <> 0.
Definition orthogonal (ls : list label) (u : label -> R) (vs : list (label -> R)) : Prop :=
  forall v, In v vs -> dot ls u v = 0.
(** Steps from the first of some points to the others. *)
Definition steps_from (m0 : reading) (ms : list reading) : list (label -> R) :=
  map (fun m l => r_at m l - r_at m0 l) ms.

(** qtune/util.py L202-208 [get_orthogonal_vector]: a non-zero vector that is
    orthogonal to the given ones, ValueError if there is none. *)
Definition ortho_exact (ortho : list (list num) -> res (list num)) : Prop :=
  forall ls us, NoDup ls -> ls <> [] -> us <> [] ->
  ((exists u, nonzero ls u /\ orthogonal ls u us) ->
     exists u, ortho (map (array ls) us) = Ok (array ls u) /\ nonzero ls u /\ orthogonal ls u us) /\
  ((forall u, orthogonal ls u us -> ~ nonzero ls u) -> ortho (map (array ls) us) = Raise ValueError).

(** qtune/util.py L160-199 [calculate_gradient_non_orthogonal] for n+1 points:
    the gradient reproduces the differences of the values; EvaluationError if
    the points lie in a hyperplane. *)
Definition calc_exact (calc : list measurement -> res (list num * list (list num))) : Prop :=
  forall ls m0 ms, NoDup ls -> ls <> [] -> length ms = length ls ->
  ((forall u, orthogonal ls u (steps_from m0 ms) -> ~ nonzero ls u) ->
     exists g c, calc (taken ls (m0 :: ms)) = Ok (array ls g, c) /\
       forall m, In m ms -> dot ls g (fun l => r_at m l - r_at m0 l) = r_val m - r_val m0) /\
  ((exists u, nonzero ls u /\ orthogonal ls u (steps_from m0 ms)) -> calc (taken ls (m0 :: ms)) = Raise EvaluationError).

(** [numpy.linalg.lstsq], qtune/solver.py L238: linearly independent rows give
    a solution without residual. *)
Definition lstsq_exact (lstsq : list series -> list num -> res (list num)) : Prop :=
  forall ls rows b, NoDup ls -> ls <> [] -> rows <> [] -> length b = length rows -> independent ls rows ->
  exists x, lstsq (map (vec ls) rows) (map Fin b) = Ok (array ls x) /\ Forall2 (fun r y => dot ls r x = y) rows b.

(** The same; of all solutions it returns a shortest one. *)
Definition lstsq_shortest (lstsq : list series -> list num -> res (list num)) : Prop :=
  forall ls rows b, NoDup ls -> ls <> [] -> rows <> [] -> length b = length rows -> independent ls rows ->
  exists x, lstsq (map (vec ls) rows) (map Fin b) = Ok (array ls x) /\ Forall2 (fun r y => dot ls r x = y) rows b /\
    forall x', Forall2 (fun r y => dot ls r x' = y) rows b -> dot ls x x <= dot ls x' x'.

(** A target with a desired value, a tolerance and a rescaling factor for
    every parameter. *)
Definition goal (ps : list label) (d tol f : label -> R) : target :=
  map (fun q => mk_trow q (Fin (d q)) NaN NaN (Fin (tol q)) NaN (Fin (f q))) ps.

(** An asymmetric estimator before its first measurement; [known] tells whether
    it was created with the position [p] or without one. *)
Definition new_fd (gs : list label) (p eps : label -> R) (known : bool) : fd :=
  mk_fd (if known then vec gs p else tab gs (fun _ => NaN)) (vec gs eps) None None [] [] false.

(** The same with a gradient that is known from the start. *)
Definition given_fd (gs : list label) (p eps : label -> R) (known : bool) (g : label -> R) : fd :=
  mk_fd (if known then vec gs p else tab gs (fun _ => NaN)) (vec gs eps) (Some (vec gs g)) None [] [] false.

(** An affine function of the voltages. *)
Definition affine (all : list label) (c : R) (a v : label -> R) : R := c + dot all a v.

(** One tuner of a hierarchy together with the device it sees: gates, target,
    affine parameters among the measured ones; whether the estimators know
    their position and their gradient from the start; the largest step and the
    number of steps between evaluations. *)
Record block := mk_block {
  b_gates : list label; b_tunable : list label; b_params : list label; b_measured : list label;
  b_desired : label -> R; b_tol : label -> R; b_factor : label -> R;
  b_const : label -> R; b_slope : label -> label -> R; b_var : (label -> R) -> label -> num;
  b_eps : label -> label -> R; b_known : label -> bool; b_given : bool; b_size : num; b_max : Z }.
Definition b_goal (b : block) : target := goal (b_params b) (b_desired b) (b_tol b) (b_factor b).
Definition measured (all : list label) (b : block) (v : label -> R) (q : label) : R := affine all (b_const b q) (b_slope b q) v.
(** The target is met at these voltages. *)
Definition met (all : list label) (b : block) (v : label -> R) : Prop :=
  forall q, In q (b_params b) -> Rabs (b_desired b q - measured all b v q / b_factor b q) < b_tol b q.
Definition well_formed (all : list label) (b : block) : Prop :=
  NoDup (b_gates b) /\ b_gates b <> [] /\ incl (b_gates b) all /\ incl (b_tunable b) (b_gates b) /\
  NoDup (b_params b) /\ b_params b <> [] /\ incl (b_params b) (b_measured b) /\
  (forall q, In q (b_params b) -> b_factor b q <> 0 /\ 0 < b_tol b q /\ forall l, In l (b_gates b) -> 0 < b_eps b q l) /\
  independent (b_gates b) (map (b_slope b) (b_params b)).
(** The tuner before its first evaluation. *)
Definition start (p0 : label -> R) (b : block) : part (newton fd) :=
  mk_part (fresh_tuner (relevant (b_goal b)))
    (mk_newton (b_goal b)
       (map (fun q => if b_given b then given_fd (b_gates b) p0 (b_eps b q) (b_known b q) (fun l => b_slope b q l / b_factor b q)
                      else new_fd (b_gates b) p0 (b_eps b q) (b_known b q)) (b_params b))
       (vec (b_gates b) p0) (tab (b_params b) (fun _ => NaN)))
    (mk_limits (b_size b) (b_max b)) (b_tunable b).
(** Steps are not limited. *)
Definition unlimited (b : block) : Prop := b_size b = NaN.
(** Steps are limited, and the gradients are known from the start. *)
Definition limited (b : block) : Prop := b_given b = true /\ (1 <= b_max b)%Z /\ exists m, b_size b = Fin m /\ 0 < m.
(** Higher tuners have gates and parameters of their own and do not disturb the
    lower ones. *)
Definition triangular : list block -> Prop :=
  ForallOrdPairs (fun b b' => (forall l, In l (b_gates b') -> ~ In l (b_gates b) /\ forall q, In q (b_params b) -> b_slope b q l = 0) /\
                              (forall q, In q (b_params b') -> ~ In q (b_params b))).
(** Bound on the number of iterations, the first tuner having the index [i]. *)
Fixpoint iterations (i : nat) (bs : list block) : nat :=
  match bs with [] => 0 | b :: bs' => 1 + (i + 3) * (length (b_gates b) + 1) + iterations (S i) bs' end.
