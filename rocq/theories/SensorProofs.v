(** Differences of neighbouring samples of a Gaussian peak. *)
From Coq Require Import Reals List Bool Arith Lra Lia Psatz.
From Verif Require Import PyBase UtilModel EvaluatorModel SensorSpec.
Import ListNotations.
Local Open Scope R_scope.

Section Bell.
Variable sigma : R.
Hypothesis Hs : 0 < sigma.
Definition bell (u : R) : R := exp (- (u * u) / (2 * (sigma * sigma))).
Let slope (u : R) : R := bell u * (- u / (sigma * sigma)).
Lemma V_pos : 0 < sigma * sigma. Proof. apply Rmult_lt_0_compat; exact Hs. Qed.
Lemma bell_pos u : 0 < bell u. Proof. apply exp_pos. Qed.
Lemma bell_lim u : derivable_pt_lim bell u (slope u).
Proof.
  pose proof V_pos as HV. unfold bell, slope. apply (derivable_pt_lim_comp (fun u => - (u * u) / (2 * (sigma * sigma))) exp); [|apply derivable_pt_lim_exp].
  replace (- u / (sigma * sigma)) with ((- (1 * u + u * 1)) * / (2 * (sigma * sigma)) + - (u * u) * 0) by (field; lra).
  apply (derivable_pt_lim_mult (fun u => - (u * u)) (fun _ => / (2 * (sigma * sigma)))); [|apply derivable_pt_lim_const].
  apply (derivable_pt_lim_opp (fun u => u * u)). apply (derivable_pt_lim_mult id id); apply derivable_pt_lim_id.
Qed.
Lemma slope_lim u : derivable_pt_lim slope u (bell u * ((u * u - sigma * sigma) / (sigma * sigma * (sigma * sigma)))).
Proof.
  pose proof V_pos as HV. unfold slope.
  replace (bell u * ((u * u - sigma * sigma) / (sigma * sigma * (sigma * sigma)))) with (bell u * (- u / (sigma * sigma)) * (- u / (sigma * sigma)) + bell u * (- (1) * / (sigma * sigma) + - u * 0)) by (field; lra).
  apply (derivable_pt_lim_mult bell (fun u => - u / (sigma * sigma))); [apply bell_lim|].
  apply (derivable_pt_lim_mult (fun u => - u) (fun _ => / (sigma * sigma))); [|apply derivable_pt_lim_const]. apply (derivable_pt_lim_opp id). apply derivable_pt_lim_id.
Qed.
Lemma slope_up x y : x < y -> (forall c, x < c < y -> sigma * sigma < c * c) -> slope x < slope y.
Proof.
  intros Hxy H. pose proof V_pos as HV. destruct (MVT_cor2 slope _ x y Hxy (fun c _ => slope_lim c)) as [c [E Hc]].
  pose proof (H c Hc). pose proof (bell_pos c). assert (0 < bell c * ((c * c - sigma * sigma) / (sigma * sigma * (sigma * sigma))) * (y - x)); [|lra].
  apply Rmult_lt_0_compat; [|lra]. apply Rmult_lt_0_compat; [assumption|]. apply Rdiv_lt_0_compat; [lra|]. apply Rmult_lt_0_compat; exact HV.
Qed.
Lemma slope_down x y : x < y -> (forall c, x < c < y -> c * c < sigma * sigma) -> slope y < slope x.
Proof.
  intros Hxy H. pose proof V_pos as HV. destruct (MVT_cor2 slope _ x y Hxy (fun c _ => slope_lim c)) as [c [E Hc]].
  pose proof (H c Hc). pose proof (bell_pos c). assert (0 < bell c * ((sigma * sigma - c * c) / (sigma * sigma * (sigma * sigma))) * (y - x)).
  { apply Rmult_lt_0_compat; [|lra]. apply Rmult_lt_0_compat; [assumption|]. apply Rdiv_lt_0_compat; [lra|]. apply Rmult_lt_0_compat; exact HV. }
  replace ((c * c - sigma * sigma) / (sigma * sigma * (sigma * sigma))) with (- ((sigma * sigma - c * c) / (sigma * sigma * (sigma * sigma)))) in E by (field; lra). lra.
Qed.
Let d (s u : R) : R := bell (u + s) - bell u.
Lemma steeper s u : 0 < s -> u + 2 * s <= - sigma \/ sigma <= u -> d s u < d s (u + s).
Proof.
  intros H0 Hu. unfold d. destruct (MVT_cor2 bell _ u (u + s) ltac:(lra) (fun c _ => bell_lim c)) as [c1 [E1 H1]]. destruct (MVT_cor2 bell _ (u + s) (u + s + s) ltac:(lra) (fun c _ => bell_lim c)) as [c2 [E2 H2]].
  rewrite E1, E2. replace (u + s - u) with s by ring. replace (u + s + s - (u + s)) with s by ring. apply Rmult_lt_compat_r; [exact H0|]. apply slope_up; [lra|]. intros c Hc. destruct Hu; nra.
Qed.
Lemma flatter s u : 0 < s -> - sigma <= u -> u + 2 * s <= sigma -> d s (u + s) < d s u.
Proof.
  intros H0 Hu1 Hu2. unfold d. destruct (MVT_cor2 bell _ u (u + s) ltac:(lra) (fun c _ => bell_lim c)) as [c1 [E1 H1]]. destruct (MVT_cor2 bell _ (u + s) (u + s + s) ltac:(lra) (fun c _ => bell_lim c)) as [c2 [E2 H2]].
  rewrite E1, E2. replace (u + s - u) with s by ring. replace (u + s + s - (u + s)) with s by ring. apply Rmult_lt_compat_r; [exact H0|]. apply slope_down; [lra|]. intros c Hc. nra.
Qed.
Lemma bell_lt u v : u * u < v * v -> bell v < bell u.
Proof. intros H. pose proof V_pos as HV. apply exp_increasing. unfold Rdiv. apply Rmult_lt_compat_r; [apply Rinv_0_lt_compat; lra|]. lra. Qed.
Lemma rises s u : 0 < s -> u + s <= 0 -> 0 < d s u.
Proof. intros H0 Hu. unfold d. assert (bell u < bell (u + s)); [apply bell_lt; nra|lra]. Qed.
Lemma falls s u : 0 < s -> 0 <= u -> d s u < 0.
Proof. intros H0 Hu. unfold d. assert (bell (u + s) < bell u); [apply bell_lt; nra|lra]. Qed.

Section Scan.
Variables (u0 s : R) (a last : nat).
Let u (k : nat) : R := u0 + INR k * s.
Let D (k : nat) : R := d s (u k).
Hypothesis Hstep : 0 < s <= sigma.
Hypothesis Hal : (a <= last)%nat.
Lemma u_S k : u (S k) = u k + s. Proof. unfold u. rewrite S_INR. ring. Qed.
Lemma u_le j k : (j <= k)%nat -> u j <= u k.
Proof. intros H. unfold u. apply le_INR in H. assert (INR j * s <= INR k * s) by (apply Rmult_le_compat_r; lra). lra. Qed.
Lemma D_S k : D (S k) = d s (u k + s). Proof. unfold D. rewrite u_S. reflexivity. Qed.

Lemma rising_place j : (a <= j <= last)%nat -> (forall k, (a <= k <= last)%nat -> D k <= D j) -> u a <= - sigma -> - sigma <= u (S last) -> - sigma - 2 * s < u j <= - sigma + s.
Proof.
  intros Hj HD Ha Hl. split.
  - apply Rnot_le_lt. intros K. assert (j <> last) by (intros ->; rewrite u_S in Hl; lra). pose proof (HD (S j) ltac:(lia)) as Q. rewrite D_S in Q. unfold D in Q. pose proof (steeper s (u j) (proj1 Hstep) ltac:(left; lra)). lra.
  - apply Rnot_lt_le. intros K. assert (j <> a) by (intros ->; lra). destruct j as [|j]; [lia|]. pose proof (HD j ltac:(lia)) as Q. rewrite u_S in K. rewrite D_S in Q. unfold D in Q.
    destruct (Rle_or_lt (u j + 2 * s) sigma) as [L|L].
    + pose proof (flatter s (u j) (proj1 Hstep) ltac:(lra) L). lra.
    + pose proof (HD a ltac:(lia)) as Q2. rewrite D_S in Q2. unfold D in Q2. pose proof (falls s (u j + s) (proj1 Hstep) ltac:(lra)). pose proof (rises s (u a) (proj1 Hstep) ltac:(lra)). lra.
Qed.
Lemma falling_place j : (a <= j <= last)%nat -> (forall k, (a <= k <= last)%nat -> D j <= D k) -> u a <= sigma -> sigma <= u (S last) -> sigma - 2 * s <= u j < sigma + s.
Proof.
  intros Hj HD Ha Hl. split.
  - apply Rnot_lt_le. intros K. assert (j <> last) by (intros ->; rewrite u_S in Hl; lra). destruct (Rle_or_lt (- sigma) (u j)) as [L|L].
    + pose proof (HD (S j) ltac:(lia)) as Q. rewrite D_S in Q. unfold D in Q. pose proof (flatter s (u j) (proj1 Hstep) L ltac:(lra)). lra.
    + pose proof (HD last ltac:(lia)) as Q. unfold D in Q. rewrite u_S in Hl. pose proof (rises s (u j) (proj1 Hstep) ltac:(lra)). pose proof (falls s (u last) (proj1 Hstep) ltac:(lra)). lra.
  - apply Rnot_le_lt. intros K. assert (j <> a) by (intros ->; lra). destruct j as [|j]; [lia|]. pose proof (HD j ltac:(lia)) as Q. rewrite u_S in K. rewrite D_S in Q. unfold D in Q.
    pose proof (steeper s (u j) (proj1 Hstep) ltac:(right; lra)). lra.
Qed.
Lemma last_place j : (a <= j <= last)%nat -> (forall k, (a <= k <= last)%nat -> D k <= D j) -> u (S last) <= - sigma \/ sigma <= u a -> j = last.
Proof.
  intros Hj HD Hu. destruct (Nat.eq_dec j last) as [|Hne]; [assumption|exfalso]. pose proof (HD (S j) ltac:(lia)) as Q. rewrite D_S in Q. unfold D in Q.
  assert (u j + 2 * s <= - sigma \/ sigma <= u j).
  { destruct Hu as [Hu|Hu]; [left|right; pose proof (u_le a j ltac:(lia)); lra]. pose proof (u_le (S (S j)) (S last) ltac:(lia)) as K. rewrite !u_S in K. rewrite u_S in Hu. lra. }
  pose proof (steeper s (u j) (proj1 Hstep) H). lra.
Qed.
End Scan.
End Bell.
