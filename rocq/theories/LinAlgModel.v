(** The linear algebra behind the NewtonSolver and the finite difference
    estimator, over an arbitrary ordered field (exact arithmetic): qtune/solver.py
    L232-243, qtune/util.py L160-208, qtune/gradient.py L139-215.  Vectors over
    the gates are rows; the gates of the solver are the gates of the estimators. *)
From mathcomp Require Import all_ssreflect all_algebra.
From Verif Require Import PyExn.
Set Implicit Arguments. Unset Strict Implicit. Unset Printing Implicit Defensive.
Import GRing.Theory Num.Theory.
Local Open Scope ring_scope.

Section LinAlg.
Variable F : realFieldType.

(** [numpy.linalg.lstsq] in exact arithmetic (qtune/solver.py L239): the
    Moore-Penrose inverse, from a full rank factorisation.  The cut-off
    [rcond] (L238) for small singular values is not modelled. *)
Definition pinv m n (J : 'M[F]_(m, n)) : 'M[F]_(n, m) :=
  let C := col_base J in
  let R := row_base J in
  R^T *m invmx (R *m R^T) *m (invmx (C^T *m C) *m C^T).
Definition lstsq m n (J : 'M[F]_(m, n)) (d : 'cV[F]_m) : 'cV[F]_n := pinv J *m d.

(** Position, value and variance of a measurement (qtune/gradient.py L192). *)
Definition mmeas n := ('rV[F]_n * F * F)%type.

(** qtune/util.py L170-181: the differences as columns of a matrix, the
    differences of the values as a row.  [None]: RuntimeError at L181. *)
Definition diff_index (n size j : nat) : option (nat * nat) :=
  if size == n.+1 then Some (j.+1, 0)%N
  else if size == (2 * n)%N then Some ((2 * j).+1, 2 * j)%N
  else None.
Definition point n (ms : seq (mmeas n)) (i : nat) : mmeas n := nth (0, 0, 0) ms i.
Definition voltage_diff n (ms : seq (mmeas n)) : 'M[F]_n :=
  \matrix_(i, j) (if diff_index n (size ms) j is Some (a, b)
                  then (point ms a).1.1 0 i - (point ms b).1.1 0 i else 0).
Definition parameter_diff n (ms : seq (mmeas n)) : 'rV[F]_n :=
  \row_j (if diff_index n (size ms) j is Some (a, b)
          then (point ms a).1.2 - (point ms b).1.2 else 0).
(** qtune/util.py L190-194. *)
Definition diff_variances n (ms : seq (mmeas n)) : 'rV[F]_n :=
  \row_j (if diff_index n (size ms) j is Some (a, b)
          then (point ms a).2 + (point ms b).2 else 0).

(** qtune/util.py L160-199 [calculate_gradient_non_orthogonal] with variances:
    gradient and covariance. *)
Definition calc_gradient n (ms : seq (mmeas n)) : res ('rV[F]_n * 'M[F]_n) :=
  if (size ms == n.+1) || (size ms == 2 * n)%N then
    if voltage_diff ms \in unitmx then
      let inv := invmx (voltage_diff ms) in
      Ok (parameter_diff ms *m inv, inv^T *m diag_mx (diff_variances ms) *m inv)
    else Raise EvaluationError
  else Raise RuntimeError.

(** [v * epsilon], elementwise. *)
Definition scale n (v eps : 'rV[F]_n) : 'rV[F]_n := \row_i (v 0 i * eps 0 i).

(** A FiniteDifferencesGradientEstimator whose position is known
    (qtune/gradient.py L98-124). *)
Record mfd (n : nat) := mk_mfd {
  mf_pos : 'rV[F]_n;
  mf_eps : 'rV[F]_n;
  mf_est : option ('rV[F]_n);
  mf_cov : option ('M[F]_n);
  mf_stored : seq (mmeas n);
  mf_sym : bool }.

Section Estimator.
Variable n : nat.
(** qtune/util.py L202-208 [get_orthogonal_vector]. *)
Variable ortho : seq 'rV[F]_n -> res 'rV[F]_n.

(** Elements of a list two by two, [zip(l[1::2], l[::2])]. *)
Fixpoint pairs A (l : seq A) : seq (A * A) :=
  if l is a :: b :: l' then (b, a) :: pairs l' else [::].

(** qtune/gradient.py L139-180 [require_measurement]. *)
Definition mfd_require (st : mfd n) : res (option 'rV[F]_n) :=
  if mf_est st is Some _ then Ok None
  else
    let points := [seq m.1.1 | m <- mf_stored st] in
    let towards r := if r is Ok ov then Ok (Some (mf_pos st + scale ov (mf_eps st)))
                     else Raise (if r is Raise e then e else RuntimeError) in
    if points is p0 :: ps then
      if mf_sym st then
        if odd (size points) then Ok (Some (2%:R *: mf_pos st - last p0 points))
        else towards (ortho [seq q.1 - q.2 | q <- pairs points])
      else if size points == 1%N then towards (ortho [:: 0])
      else if (size points <= n)%N then towards (ortho [seq p - p0 | p <- ps])
      else Raise RuntimeError
    else towards (if n is 0 then Raise IndexError else Ok (\row_(i < n) (i == 0%N :> nat)%:R)).

(** qtune/gradient.py L182-215 [update]. *)
Definition mfd_update (p : 'rV[F]_n) (value var : F) (st : mfd n) : mfd n * res unit :=
  if mf_est st is Some _ then (st, Ok tt)
  else
    let stored := rcons (mf_stored st) (p, value, var) in
    let st1 := mk_mfd (mf_pos st) (mf_eps st) None (mf_cov st) stored (mf_sym st) in
    let arg := if mf_sym st
               then if size stored == (2 * n)%N then Some stored else None
               else if size stored == n.+1 then Some (rev stored) else None in
    if arg is Some ms then
      match calc_gradient ms with
      | Ok (g, c) => (mk_mfd (mf_pos st) (mf_eps st) (Some g) (Some c) stored (mf_sym st), Ok tt)
      | Raise e => (st1, Raise e)
      end
    else (st1, Ok tt).

(** A NewtonSolver with one finite difference estimator per parameter, all
    parameters having a desired value (qtune/solver.py L170-180). *)
Record mnewton (k : nat) := mk_mnewton {
  mn_desired : 'rV[F]_k;
  mn_ests : 'I_k -> mfd n;
  mn_pos : 'rV[F]_n;
  mn_vals : 'rV[F]_k }.

(** qtune/solver.py L219-224: the first request (estimators do not change by
    being asked, apart from the log of requests). *)
Fixpoint first_request (l : seq (res (option 'rV[F]_n))) : res (option 'rV[F]_n) :=
  match l with
  | [::] => Ok None
  | Ok None :: l' => first_request l'
  | r :: _ => r
  end.

(** Gradients as rows of the Jacobian; [None] if some are missing, which is an
    exception (NewtonModel.newton_step). *)
Definition jacobian k (ests : 'I_k -> mfd n) : option 'M[F]_(k, n) :=
  if [forall i, mf_est (ests i) != None] then
    Some (\matrix_(i, j) (if mf_est (ests i) is Some g then g 0 j else 0))
  else None.

(** qtune/solver.py L201-243 [suggest_next_position]. *)
Definition mn_suggest k (st : mnewton k) : res 'rV[F]_n :=
  match first_request [seq mfd_require (mn_ests st i) | i <- enum 'I_k] with
  | Raise e => Raise e
  | Ok (Some p) => Ok p
  | Ok None =>
      if jacobian (mn_ests st) is Some J
      then Ok (mn_pos st + (lstsq J (mn_desired st - mn_vals st)^T)^T)
      else Raise LinAlgError
  end.

(** qtune/solver.py L245-252 [update_after_step], for updates that do not
    raise; the first exception is reported. *)
Fixpoint first_exn (l : seq (res unit)) : res unit :=
  match l with
  | [::] => Ok tt
  | Ok _ :: l' => first_exn l'
  | Raise e :: _ => Raise e
  end.
Definition mn_update k (p : 'rV[F]_n) (vals vars : 'rV[F]_k) (st : mnewton k) : res (mnewton k) :=
  match first_exn [seq (mfd_update p (vals 0 i) (vars 0 i) (mn_ests st i)).2 | i <- enum 'I_k] with
  | Raise e => Raise e
  | Ok _ => Ok (mk_mnewton (mn_desired st) (fun i => (mfd_update p (vals 0 i) (vars 0 i) (mn_ests st i)).1) p vals)
  end.

(** One round of the tuning loop without step limit: evaluate at the voltages
    [v], feed the solver, take its suggestion as the next voltages
    (qtune/parameter_tuner.py L222-277, qtune/autotuner.py L243-291). *)
Definition round k (f : 'rV[F]_n -> 'rV[F]_k) (w : 'rV[F]_n -> 'rV[F]_k) (s : mnewton k * 'rV[F]_n) : res (mnewton k * 'rV[F]_n) :=
  match mn_update s.2 (f s.2) (w s.2) s.1 with
  | Raise e => Raise e
  | Ok st => match mn_suggest st with
             | Raise e => Raise e
             | Ok v => Ok (st, v)
             end
  end.
Fixpoint rounds k (f w : 'rV[F]_n -> 'rV[F]_k) (m : nat) (s : mnewton k * 'rV[F]_n) : res (mnewton k * 'rV[F]_n) :=
  if m is m'.+1 then
    match round f w s with
    | Ok s' => rounds f w m' s'
    | Raise e => Raise e
    end
  else Ok s.
End Estimator.
End LinAlg.
