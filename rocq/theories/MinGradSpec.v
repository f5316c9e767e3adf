(** Vocabulary for gradients from a minimal number of points. *)
From mathcomp Require Import all_ssreflect all_algebra.
From Verif Require Import PyExn LinAlgModel LinAlgSpec.
Set Implicit Arguments. Unset Strict Implicit. Unset Printing Implicit Defensive.
Import GRing.Theory Num.Theory.
Local Open Scope ring_scope.

Section Spec.
Variable F : realFieldType.

(** The pairs of points a gradient is computed from: the first point with every
    other one, or neighbours. *)
Definition compared (n size : nat) : seq (nat * nat) :=
  if size == n.+1 then [seq (0, j.+1)%N | j <- iota 0 n] else [seq (2 * j, (2 * j).+1)%N | j <- iota 0 n].

(** [G] explains the differences of the values by the differences of the points. *)
Definition explains k n (vals : seq 'rV[F]_k) (points : seq 'rV[F]_n) (G : 'M[F]_(k, n)) : Prop :=
  forall a b, (a, b) \in compared n (size points) ->
    nth 0 vals b - nth 0 vals a = (nth 0 points b - nth 0 points a) *m G^T.

(** Parameters that are quadratic functions of the gates. *)
Definition quadratic k n (Q : 'I_k -> 'M[F]_n) (A : 'M[F]_(k, n)) (c : 'rV[F]_k) (p : 'rV[F]_n) : 'rV[F]_k :=
  (\row_i (p *m Q i *m p^T) 0 0) + affines A c p.
(** Their Jacobian at [p]. *)
Definition slope k n (Q : 'I_k -> 'M[F]_n) (A : 'M[F]_(k, n)) (p : 'rV[F]_n) : 'M[F]_(k, n) :=
  A + \matrix_i (p *m (Q i + (Q i)^T)).
(** Points on both sides of [p]. *)
Definition both_sides n (p : 'rV[F]_n) (ds : seq 'rV[F]_n) : seq 'rV[F]_n := flatten [seq [:: p + d; p - d] | d <- ds].
End Spec.
