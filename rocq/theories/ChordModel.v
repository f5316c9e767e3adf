(** The tuning loop of LinAlgModel.v with measurements that differ from round to
    round: a NewtonSolver with finite difference estimators on a device that is
    not affine and not free of noise. *)
From mathcomp Require Import all_ssreflect all_algebra.
From Verif Require Import PyExn LinAlgModel.
Set Implicit Arguments. Unset Strict Implicit. Unset Printing Implicit Defensive.
Import GRing.Theory Num.Theory.
Local Open Scope ring_scope.

Section Chord.
Variables (F : realFieldType) (n k : nat).
Variable ortho : seq 'rV[F]_n -> res 'rV[F]_n.

(** [m] rounds (qtune/parameter_tuner.py L222-277, qtune/autotuner.py L243-291;
    no step limit) from round number [t] on; [f t p] are the values measured in
    round [t] at the voltages [p], [w t p] their variances. *)
Fixpoint rounds_at (f w : nat -> 'rV[F]_n -> 'rV[F]_k) (t m : nat) (s : mnewton F n k * 'rV[F]_n) : res (mnewton F n k * 'rV[F]_n) :=
  if m is m'.+1 then
    match round ortho (f t) (w t) s with
    | Ok s' => rounds_at f w t.+1 m' s'
    | Raise e => Raise e
    end
  else Ok s.
End Chord.
