(** Newton's method with Kalman estimators in exact arithmetic: the estimators
    (qtune/gradient.py L222-370) over the filter of KalmanModel.v, the solver
    (qtune/solver.py L201-252) and the tuning loop without step limit.  All
    parameters have a desired value and the gates of the solver are the gates
    of the estimators. *)
From mathcomp Require Import all_ssreflect all_algebra.
From Verif Require Import PyExn LinAlgModel LinAlgSpec KalmanModel.
Set Implicit Arguments. Unset Strict Implicit. Unset Printing Implicit Defensive.
Import GRing.Theory Num.Theory.
Local Open Scope ring_scope.

Section Loop.
Variable F : realFieldType.
Variable n : nat.

(** qtune/gradient.py L239-258, the attributes that change. *)
Record mkal := mk_mkal { mk_kf : filter F (1 * n) 1; mk_pos : 'rV[F]_n; mk_val : option F }.

(** qtune/gradient.py L330-359 [update] with [is_new_position=True], as the
    solver calls it (qtune/solver.py L250).  Lengths are compared by their
    squares. *)
Definition shortest2 : F := 10%:R ^- 14.
Definition mkal_update (p : 'rV[F]_n) (value var : F) (st : mkal) : mkal * res unit :=
  if mk_val st is Some v0 then
    if sqn (p - mk_pos st) < shortest2 then (mk_mkal (mk_kf st) p (Some value), Ok tt)
    else
      let r := kg_update (p - mk_pos st) (value - v0)%:M (Some var%:M) None true (mk_kf st) in
      if r.2 is Raise e then (mk_mkal r.1 (mk_pos st) (mk_val st), Raise e)
      else (mk_mkal r.1 p (Some value), Ok tt)
  else (mk_mkal (mk_kf st) p (Some value), Ok tt).

(** qtune/solver.py L158-180. *)
Record mkn (k : nat) := mk_mkn {
  kn_desired : 'rV[F]_k;
  kn_ests : 'I_k -> mkal;
  kn_pos : 'rV[F]_n;
  kn_vals : 'rV[F]_k }.

(** qtune/solver.py L187-189 [jacobian]. *)
Definition kn_jacobian k (ests : 'I_k -> mkal) : 'M[F]_(k, n) := \matrix_(i, j) grad (mk_kf (ests i)) 0 j.

(** qtune/solver.py L201-243 [suggest_next_position].  [request i e] is the
    point estimator [i] in state [e] asks for (KalmanModel.v [kal_require],
    [kal_require_tuned]); any function is allowed here. *)
Definition kn_suggest k (request : 'I_k -> mkal -> option 'rV[F]_n) (st : mkn k) : 'rV[F]_n :=
  if pmap (fun i => request i (kn_ests st i)) (enum 'I_k) is p :: _ then p
  else kn_pos st + (lstsq (kn_jacobian (kn_ests st)) (kn_desired st - kn_vals st)^T)^T.

(** qtune/solver.py L245-252 [update_after_step]; the first exception is
    reported. *)
Definition kn_update k (p : 'rV[F]_n) (vals vars : 'rV[F]_k) (st : mkn k) : res (mkn k) :=
  match first_exn [seq (mkal_update p (vals 0 i) (vars 0 i) (kn_ests st i)).2 | i <- enum 'I_k] with
  | Raise e => Raise e
  | Ok _ => Ok (mk_mkn (kn_desired st) (fun i => (mkal_update p (vals 0 i) (vars 0 i) (kn_ests st i)).1) p vals)
  end.

(** One round of the tuning loop (qtune/parameter_tuner.py L222-277,
    qtune/autotuner.py L243-291): the values at the voltages are measured, the
    solver is updated, its suggestion are the next voltages. *)
Definition kn_round k request (f w : 'rV[F]_n -> 'rV[F]_k) (s : mkn k * 'rV[F]_n) : res (mkn k * 'rV[F]_n) :=
  match kn_update s.2 (f s.2) (w s.2) s.1 with
  | Raise e => Raise e
  | Ok st => Ok (st, kn_suggest request st)
  end.
Fixpoint kn_rounds k request (f w : 'rV[F]_n -> 'rV[F]_k) (m : nat) (s : mkn k * 'rV[F]_n) : res (mkn k * 'rV[F]_n) :=
  if m is m'.+1 then
    match kn_rounds request f w m' s with
    | Ok s' => kn_round request f w s'
    | Raise e => Raise e
    end
  else Ok s.
End Loop.
