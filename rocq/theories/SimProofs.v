(** Lemmas about tanh. *)
From Coq Require Import Reals List Lra Lia Psatz Arith.
Local Open Scope R_scope.

Lemma cosh_pos x : 0 < cosh x.
Proof. unfold cosh. pose proof (exp_pos x). pose proof (exp_pos (- x)). lra. Qed.
Lemma sinh_pos x : 0 < x -> 0 < sinh x.
Proof. intros H. unfold sinh. pose proof (exp_increasing (- x) x ltac:(lra)). lra. Qed.
Lemma exp_exp_neg x : exp x * exp (- x) = 1.
Proof. rewrite <- exp_plus. replace (x + - x) with 0 by ring. apply exp_0. Qed.
(** The increase over a window of half width [A] around [u]. *)
Lemma tanh_window u A : tanh (u + A) - tanh (u - A) = sinh (2 * A) / ((cosh u)² + (sinh A)²).
Proof.
  assert (E : cosh (u + A) * cosh (u - A) = (cosh u)² + (sinh A)²).
  { unfold cosh, sinh, Rsqr. replace (- (u + A)) with (- u + - A) by ring. replace (- (u - A)) with (- u + A) by ring. unfold Rminus. rewrite !exp_plus.
    pose proof (exp_exp_neg u). pose proof (exp_exp_neg A). set (p := exp u) in *. set (q := exp (- u)) in *. set (r := exp A) in *. set (t := exp (- A)) in *.
    assert (X : p * r * (p * t) = p * p * (r * t)) by ring.
    transitivity ((p * p * (r * t) + p * q * (r * r) + p * q * (t * t) + q * q * (r * t)) / 4); [field|]. rewrite H, H0.
    transitivity ((p * p + 2 * (p * q) + q * q + r * r - 2 * (r * t) + t * t) / 4); [rewrite H, H0|]; field. }
  assert (S : sinh (u + A) * cosh (u - A) - sinh (u - A) * cosh (u + A) = sinh (2 * A)).
  { unfold cosh, sinh. replace (- (u + A)) with (- u + - A) by ring. replace (- (u - A)) with (- u + A) by ring. replace (2 * A) with (A + A) by ring.
    replace (- (A + A)) with (- A + - A) by ring. unfold Rminus. rewrite !exp_plus.
    pose proof (exp_exp_neg u). set (p := exp u) in *. set (q := exp (- u)) in *. set (r := exp A) in *. set (t := exp (- A)) in *.
    transitivity ((p * q) * (r * r - t * t) / 2); [field|]. rewrite H. field. }
  rewrite <- E, <- S. unfold tanh. pose proof (cosh_pos (u + A)). pose proof (cosh_pos (u - A)). field. split; lra.
Qed.
Lemma cosh_incr x y : 0 <= x < y -> cosh x < cosh y.
Proof.
  intros [H1 H2]. unfold cosh. pose proof (exp_increasing x y H2) as I. pose proof (exp_exp_neg x) as Ex. pose proof (exp_exp_neg y) as Ey.
  pose proof (exp_pos x). pose proof (exp_pos y). pose proof (exp_pos (- x)). pose proof (exp_pos (- y)).
  assert (L1 : 1 <= exp x) by (destruct H1 as [H1|<-]; [left; rewrite <- exp_0; apply exp_increasing, H1|rewrite exp_0; lra]).
  assert (L2 : 1 < exp y) by lra.
  assert (exp (- x) - exp (- y) < exp y - exp x); [|lra].
  assert (E : exp (- x) - exp (- y) = (exp y - exp x) * (exp (- x) * exp (- y))).
  { transitivity ((exp y * exp (- y)) * exp (- x) - (exp x * exp (- x)) * exp (- y)); [rewrite Ex, Ey; ring|ring]. }
  rewrite E. assert (P : exp (- x) * exp (- y) < 1).
  { assert (exp (- x) <= 1) by nra. assert (exp (- y) < 1) by nra. nra. }
  nra.
Qed.
Lemma cosh_abs x : cosh (Rabs x) = cosh x.
Proof. unfold Rabs. destruct (Rcase_abs x); [|reflexivity]. unfold cosh. rewrite Ropp_involutive. lra. Qed.
Lemma window_decreasing u v A : 0 < A -> Rabs u < Rabs v -> tanh (v + A) - tanh (v - A) < tanh (u + A) - tanh (u - A).
Proof.
  intros HA H. rewrite !tanh_window. pose proof (cosh_incr (Rabs u) (Rabs v) (conj (Rabs_pos u) H)) as C. rewrite !cosh_abs in C.
  pose proof (sinh_pos (2 * A) ltac:(lra)) as S. pose proof (cosh_pos u) as Cu. pose proof (cosh_pos v) as Cv.
  assert (Q : (cosh u)² < (cosh v)²) by (unfold Rsqr; nra). pose proof (Rle_0_sqr (sinh A)). assert (0 < (cosh u)²) by (unfold Rsqr; nra).
  unfold Rdiv. apply Rmult_lt_compat_l; [exact S|]. apply Rinv_lt_contravar; [apply Rmult_lt_0_compat; lra|lra].
Qed.
Lemma window_pos u A : 0 < A -> 0 < tanh (u + A) - tanh (u - A).
Proof.
  intros HA. rewrite tanh_window. pose proof (sinh_pos (2 * A) ltac:(lra)). pose proof (cosh_pos u). pose proof (Rle_0_sqr (sinh A)).
  apply Rdiv_lt_0_compat; [lra|]. unfold Rsqr at 1. nra.
Qed.
