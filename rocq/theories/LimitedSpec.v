(** Vocabulary for limited steps. *)
From mathcomp Require Import all_ssreflect all_algebra.
From Verif Require Import PyExn LinAlgModel LinAlgSpec LimitedModel.
Set Implicit Arguments. Unset Strict Implicit. Unset Printing Implicit Defensive.
Import Order.TTheory GRing.Theory Num.Theory.
Local Open Scope ring_scope.

Section Spec.
Variables (F : realFieldType) (n k : nat).

(** The Euclidean length and the integer part. *)
Definition is_norm (norm : 'rV[F]_n -> F) : Prop := forall v, 0 <= norm v /\ norm v ^+ 2 = sqn v.
Definition is_int (int_of : F -> nat) : Prop := forall x, 0 <= x -> (int_of x)%:R <= x < (int_of x).+1%:R.
(** A tuner at the beginning: fresh estimators at the starting point. *)
Definition starting (des : 'rV[F]_k) (p0 : 'rV[F]_n) (eps : 'I_k -> 'rV[F]_n) (vals0 : 'rV[F]_k) : ltuner F n k :=
  mk_ltuner (mk_mnewton des (fun i => fresh p0 (eps i) false) p0 vals0) p0 0 0.
(** Neighbouring points are not farther than [m] from each other. *)
Definition close_points (m : F) (ps : seq 'rV[F]_n) : Prop :=
  forall i, (i.+1 < size ps)%N -> sqn (nth 0 ps i.+1 - nth 0 ps i) <= m ^+ 2.
End Spec.

Section Towards.
Variables (F : realFieldType) (n k : nat).
(** [v'] is on the way from [v] to [p], and the step has the length of the limit
    if the whole one would be longer. *)
Definition towards (limit : option F) (v p v' : 'rV[F]_n) : Prop :=
  exists c, [/\ 0 < c <= 1, v' = v + c *: (p - v) &
    if limit is Some m then if m ^+ 2 < sqn (p - v) then sqn (v' - v) = m ^+ 2 else c = 1 else c = 1].
End Towards.
