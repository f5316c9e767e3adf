(** Vocabulary for the linear algebra properties. *)
From mathcomp Require Import all_ssreflect all_algebra.
From Verif Require Import PyExn LinAlgModel.
Set Implicit Arguments. Unset Strict Implicit. Unset Printing Implicit Defensive.
Import GRing.Theory Num.Theory.
Local Open Scope ring_scope.

Section Spec.
Variable F : realFieldType.

(** Squared Euclidean length of a matrix or vector. *)
Definition sqn m n (v : 'M[F]_(m, n)) : F := \sum_i \sum_j v i j ^+ 2.

(** Scalar product of rows. *)
Definition dot n (u v : 'rV[F]_n) : F := \sum_i u 0 i * v 0 i.

(** Symmetric and positive semi-definite. *)
Definition psd n (P : 'M[F]_n) : Prop :=
  P^T = P /\ forall v : 'rV[F]_n, 0 <= (v *m P *m v^T) 0 0.

(** Any function that returns some non-zero vector orthogonal to the given
    ones, or ValueError if there is none. *)
Definition chooses_orthogonal n (ortho : seq 'rV[F]_n -> res 'rV[F]_n) : Prop :=
  forall vs, match ortho vs with
             | Ok ov => ov != 0 /\ forall v, v \in vs -> dot ov v = 0
             | Raise e => e = ValueError /\ forall ov, (forall v, v \in vs -> dot ov v = 0) -> ov = 0
             end.

(** Affine functions of the gates. *)
Definition affine n (g : 'rV[F]_n) (c : F) (p : 'rV[F]_n) : F := dot g p + c.
Definition affines n k (A : 'M[F]_(k, n)) (c : 'rV[F]_k) (p : 'rV[F]_n) : 'rV[F]_k := (A *m p^T)^T + c.

(** Measurements of a function at some points. *)
Definition measured n (f w : 'rV[F]_n -> F) (ps : seq 'rV[F]_n) : seq (mmeas F n) := [seq (p, f p, w p) | p <- ps].

(** A fresh estimator at [p0]. *)
Definition fresh n (p0 eps : 'rV[F]_n) (sym : bool) : mfd F n := mk_mfd p0 eps None None [::] sym.

(** An estimator that is fed with measurements of [f] at the points it asks
    for. *)
Section Fed.
Variables (n : nat) (ortho : seq 'rV[F]_n -> res 'rV[F]_n) (f w : 'rV[F]_n -> F).
Definition measure (p : 'rV[F]_n) (st : mfd F n) : res (mfd F n) :=
  let (st', r) := mfd_update p (f p) (w p) st in
  match r with Ok _ => Ok st' | Raise e => Raise e end.
Definition advance (r : res (mfd F n)) : res (mfd F n) :=
  match r with
  | Raise e => Raise e
  | Ok st => match mfd_require ortho st with
             | Ok (Some p) => measure p st
             | Ok None => Ok st
             | Raise e => Raise e
             end
  end.
(** [m] measurements at requested points. *)
Definition asked (m : nat) (st : mfd F n) : res (mfd F n) := iter m advance (Ok st).
(** The first of [m] measurements is at the position of the estimator, as in
    the tuning loop; the other ones are at requested points. *)
Definition fed (m : nat) (st : mfd F n) : res (mfd F n) :=
  if m is m'.+1 then iter m' advance (measure (mf_pos st) st) else Ok st.
End Fed.

(** Propagation of independent errors of values through a linear map [G] from
    values to rows: the sum over the values of the variance times the outer
    square of the change of [G] per unit of the value. *)
Definition propagated n (G : seq F -> 'rV[F]_n) (vars : seq F) : 'M[F]_n :=
  let s := size vars in
  \sum_(i < s) nth 0 vars i *: (let d := G [seq (j == i :> nat)%:R | j <- iota 0 s] - G (nseq s 0) in d^T *m d).

(** The gradient that is computed from given values at given points. *)
Definition gradient_of n (ps : seq 'rV[F]_n) (vals : seq F) : 'rV[F]_n :=
  if calc_gradient [seq (q.1, q.2, 0) | q <- zip ps vals] is Ok (g, _) then g else 0.
End Spec.
