(** Property: what the evaluators of the sensing dot find in its simulations. *)
From Coq Require Import Reals List Bool Arith Lra Lia Psatz ZArith.
From Verif Require Import PyBase UtilModel UtilSpec UtilProofs UtilProps EvaluatorModel EvaluatorSpec EvaluatorProofs EvaluatorProps SimProofs SensorModel SensorSpec SensorProofs.
Import ListNotations.
Local Open Scope R_scope.
Local Open Scope list_scope.

(** C152.  A scan over a Gaussian peak of any height and width: the rising flank
    of a peak, and the falling flank of a dip, is found one width below the
    centre with an error of at most two points, if it is not in the outer
    sixteenths of the scan; the other one one width above the centre.  If the
    whole scan is on one side of both flanks, or the considered part is above
    them, the last considered point is chosen instead of the rising flank. *)
Theorem peak_flank :
  forall rising x data lo s A c sigma, 0 < sigma -> 0 < s <= sigma -> A <> 0 -> (16 <= length x)%nat -> length data = length x -> samples_peak data lo s A c sigma ->
  let a := (length x / 16)%nat in let last := (length x - 2 - a)%nat in
  exists j p, sensing_1d_choice rising x (np_diff data) = Ok p /\ nth_error x j = Some p /\ (a <= j <= last)%nat /\
    ((rising = true <-> 0 < A) -> (lo + INR a * s <= c - sigma <= lo + INR (S last) * s -> c - sigma - 2 * s < lo + INR j * s <= c - sigma + s) /\
       (lo + INR (S last) * s <= c - sigma \/ c + sigma <= lo + INR a * s -> j = last)) /\
    (~ (rising = true <-> 0 < A) -> lo + INR a * s <= c + sigma <= lo + INR (S last) * s -> c + sigma - 2 * s <= lo + INR j * s < c + sigma + s).
Proof.
  intros rising x data lo s A c sigma Hsig Hs HA Hn Hl Hd a last.
  destruct (sensing_1d_flank rising x data Hn Hl) as (j & p & E & Ej & H1 & H2 & M). fold a in H1, H2, M. exists j, p. split; [exact E|]. split; [exact Ej|].
  assert (Hj : (a <= j <= last)%nat) by (unfold last; lia). split; [exact Hj|].
  assert (HD : forall k, (k <= last)%nat -> slope_at [data] 0 k = A * (bell sigma (lo - c + INR k * s + s) - bell sigma (lo - c + INR k * s))).
  { intros k Hk. unfold slope_at. cbn [nth]. rewrite !Hd by (rewrite Hl; unfold last in Hk; lia). unfold bell. rewrite S_INR.
    replace (lo + (INR k + 1) * s - c) with (lo - c + INR k * s + s) by ring. replace (lo + INR k * s - c) with (lo - c + INR k * s) by ring. ring. }
  assert (HM : forall k, (a <= k <= last)%nat -> if rising then slope_at [data] 0 k <= slope_at [data] 0 j else slope_at [data] 0 j <= slope_at [data] 0 k) by (intros k Hk; apply M; unfold last in Hk; lia).
  assert (Hmax : (rising = true <-> 0 < A) -> forall k, (a <= k <= last)%nat -> bell sigma (lo - c + INR k * s + s) - bell sigma (lo - c + INR k * s) <= bell sigma (lo - c + INR j * s + s) - bell sigma (lo - c + INR j * s)).
  { intros Hr k Hk. specialize (HM k Hk). rewrite !HD in HM by lia. destruct rising.
    - apply Rmult_le_reg_l with A; [apply Hr; reflexivity|exact HM].
    - assert (A < 0) by (destruct (Rtotal_order A 0) as [K|[K|K]]; [exact K|contradiction|apply Hr in K; discriminate]). apply Rmult_le_reg_l with (- A); [lra|]. lra. }
  assert (Hmin : ~ (rising = true <-> 0 < A) -> forall k, (a <= k <= last)%nat -> bell sigma (lo - c + INR j * s + s) - bell sigma (lo - c + INR j * s) <= bell sigma (lo - c + INR k * s + s) - bell sigma (lo - c + INR k * s)).
  { intros Hr k Hk. specialize (HM k Hk). rewrite !HD in HM by lia. destruct rising.
    - assert (A < 0) by (destruct (Rtotal_order A 0) as [K|[K|K]]; [exact K|contradiction|exfalso; apply Hr; split; auto]). apply Rmult_le_reg_l with (- A); [lra|]. lra.
    - assert (0 < A) by (destruct (Rtotal_order A 0) as [K|[K|K]]; [exfalso; apply Hr; split; [discriminate|lra]|contradiction|exact K]). apply Rmult_le_reg_l with A; [assumption|exact HM]. }
  assert (Hal : (a <= last)%nat) by lia. clearbody a last. split.
  - intros Hr. split.
    + intros Hw. pose proof (rising_place sigma Hsig (lo - c) s a last Hs Hal j Hj (Hmax Hr) ltac:(lra) ltac:(lra)). lra.
    + intros Hw. apply (last_place sigma Hsig (lo - c) s a last Hs Hal j Hj (Hmax Hr)). lra.
  - intros Hr Hw. pose proof (falling_place sigma Hsig (lo - c) s a last Hs Hal j Hj (Hmin Hr) ltac:(lra) ltac:(lra)). lra.
Qed.
(** A dip at 10 of the width 3, sampled at 0, 1, ..., 31. *)
Example peak_flank_ex : let data := map (fun i => -2 * exp (- ((0 + INR i * 1 - 10) * (0 + INR i * 1 - 10)) / (2 * (3 * 3)))) (seq 0 32) in
  exists p, sensing_1d_choice true (map INR (seq 0 32)) (np_diff data) = Ok p /\ 11 <= p < 14.
Proof.
  intros data. destruct (peak_flank true (map INR (seq 0 32)) data 0 1 (-2) 10 3) as (j & p & E & Ej & _ & _ & H); try lra; [cbn; lia|reflexivity| |].
  - intros i Hi. unfold data in *. rewrite map_length, seq_length in Hi. set (f := fun k : nat => _). rewrite nth_indep with (d' := f 0%nat) by (rewrite map_length, seq_length; exact Hi).
    rewrite map_nth, seq_nth by exact Hi. reflexivity.
  - exists p. split; [exact E|]. assert (Hp : p = INR j).
    { rewrite nth_error_map in Ej. destruct (nth_error (seq 0 32) j) as [k|] eqn:Ek; [|discriminate]. cbn in Ej. injection Ej as <-. f_equal.
      assert (Hk : (j < length (seq 0 32))%nat) by (apply nth_error_Some; congruence). rewrite seq_length in Hk. rewrite (nth_error_nth' _ 0%nat) in Ek by (rewrite seq_length; exact Hk). rewrite seq_nth in Ek by exact Hk. injection Ek as <-. reflexivity. }
    replace (length (map INR (seq 0 32))) with 32%nat in H by reflexivity. change (32 / 16)%nat with 2%nat in H. cbn [Nat.sub] in H. rewrite !INR_IZR_INZ in H. cbn [Z.of_nat Pos.of_succ_nat Pos.succ] in H.
    rewrite <- INR_IZR_INZ in H. assert (~ (true = true <-> 0 < -2)) as N by (intros [K _]; specialize (K eq_refl); lra). specialize (H N ltac:(lra)). lra.
Qed.

(** *** The simulated sensing dot *)
Lemma width_square : width * width = 0.000002.
Proof. apply sqrt_sqrt. lra. Qed.
Lemma width_range : 0.0014142 < width < 0.0014143.
Proof. pose proof width_square as W. assert (0 <= width) by apply sqrt_pos. split; apply Rnot_le_lt; intros K; nra. Qed.
Lemma simulation_peak sdb1 sdb2 n : length (ss1d_simulation sdb1 sdb2 n) = 1280%nat /\
  samples_peak (ss1d_simulation sdb1 sdb2 n) (-0.004) spacing ((1 + 1000 * sdb1) * (1 + sdb1 - n)) (- sdb2) width.
Proof.
  assert (L : length (ss1d_simulation sdb1 sdb2 n) = 1280%nat) by (unfold ss1d_simulation, ss1d_points; rewrite !map_length, seq_length; reflexivity).
  split; [exact L|]. intros i Hi. rewrite L in Hi. unfold ss1d_simulation, ss1d_points. rewrite map_map.
  set (f := fun k : nat => _). rewrite nth_indep with (d' := f 0%nat) by (rewrite map_length, seq_length; exact Hi). rewrite map_nth, seq_nth by exact Hi. rewrite Nat.add_0_l. unfold f. rewrite width_square.
  f_equal. match goal with |- exp ?a = exp ?b => replace a with b; [reflexivity|] end. unfold spacing. lra.
Qed.
Lemma INR_lit z k : Z.of_nat k = z -> INR k = IZR z.
Proof. intros <-. apply INR_IZR_INZ. Qed.
Lemma some_inj (a b : R) : Some a = Some b -> a = b.
Proof. intros H. injection H as H. exact H. Qed.
Lemma scan_points b j p : nth_error (linspace (b - 0.004) (b + 0.004) 1280) j = Some p -> (j < 1280)%nat /\ p = b - 0.004 + INR j * (0.008 / 1279).
Proof.
  intros H. assert (Hj : (j < 1280)%nat). { rewrite <- (seq_length 1280 0). replace (length (seq 0 1280)) with (length (linspace (b - 0.004) (b + 0.004) 1280)) by (unfold linspace; apply map_length). apply nth_error_Some. congruence. }
  split; [exact Hj|]. rewrite (linspace_nth (b - 0.004) (b + 0.004) 1280 j Hj) in H by (apply Nat.ltb_lt; reflexivity). apply some_inj in H. rewrite <- H.
  rewrite (INR_lit 1279 (1280 - 1)) by reflexivity. lra.
Qed.

(** C152.  The simulated peak is where SDB2 is 0: the position found for its
    rising flank does not depend on the voltage at which the scan is done nor on
    the other gates, as long as the flank is in the scan. *)
Theorem sensing_dot_simulated :
  forall sdb1 n sdb2, 0 < (1 + 1000 * sdb1) * (1 + sdb1 - n) -> - width - 0.00349375 <= sdb2 <= 0.0035 - width ->
  exists p, ss1d_choice true sdb1 n sdb2 = Ok p /\ - width - 2 * spacing < p <= - width + 2 * spacing.
Proof.
  intros sdb1 n b HA Hb. destruct (simulation_peak sdb1 b n) as [L P]. pose proof width_range as W.
  assert (Lx : length (linspace (b - 0.004) (b + 0.004) 1280) = 1280%nat) by (unfold linspace; rewrite map_length, seq_length; reflexivity).
  destruct (peak_flank true (linspace (b - 0.004) (b + 0.004) 1280) (ss1d_simulation sdb1 b n) (-0.004) spacing ((1 + 1000 * sdb1) * (1 + sdb1 - n)) (- b) width) as (j & p & E & Ej & Hj & H & _).
  - lra. - unfold spacing. lra. - lra. - rewrite Lx. apply Nat.leb_le. reflexivity. - rewrite L, Lx. reflexivity. - exact P.
  - exists p. split; [exact E|]. rewrite Lx in *. change (1280 / 16)%nat with 80%nat in *. change (1280 - 2 - 80)%nat with 1198%nat in *.
    destruct H as [H _]; [split; [intros _; exact HA|reflexivity]|]. rewrite (INR_lit 80 80), (INR_lit 1199 1199) in H by reflexivity. unfold spacing in *. specialize (H ltac:(lra)).
    destruct (scan_points b j p Ej) as [Hj2 ->]. pose proof (pos_INR j) as P0. assert (P1 : INR j <= 1279). { rewrite <- (INR_lit 1279 1279) by reflexivity. apply le_INR. apply Nat.lt_succ_r. exact Hj2. } lra.
Qed.
Example sensing_dot_simulated_ex : exists p, ss1d_choice true 0.001 0.5 0 = Ok p /\ -0.0014268 < p < -0.0014017.
Proof.
  destruct (sensing_dot_simulated 0.001 0.5 0 ltac:(lra) ltac:(pose proof width_range; lra)) as (p & E & H). exists p. split; [exact E|]. pose proof width_range. unfold spacing in H. lra.
Qed.

(** The last considered point of the scan. *)
Lemma sensing_dot_far : forall sdb1 n sdb2, 0 < (1 + 1000 * sdb1) * (1 + sdb1 - n) -> sdb2 <= - width - 0.00349375 \/ 0.0035 + width <= sdb2 ->
  exists p, ss1d_choice true sdb1 n sdb2 = Ok p /\ p = sdb2 - 0.004 + 1198 * (0.008 / 1279).
Proof.
  intros sdb1 n b HA Hb. destruct (simulation_peak sdb1 b n) as [L P]. pose proof width_range as W.
  assert (Lx : length (linspace (b - 0.004) (b + 0.004) 1280) = 1280%nat) by (unfold linspace; rewrite map_length, seq_length; reflexivity).
  destruct (peak_flank true (linspace (b - 0.004) (b + 0.004) 1280) (ss1d_simulation sdb1 b n) (-0.004) spacing ((1 + 1000 * sdb1) * (1 + sdb1 - n)) (- b) width) as (j & p & E & Ej & Hj & H & _).
  - lra. - unfold spacing. lra. - lra. - rewrite Lx. apply Nat.leb_le. reflexivity. - rewrite L, Lx. reflexivity. - exact P.
  - exists p. split; [exact E|]. rewrite Lx in *. change (1280 / 16)%nat with 80%nat in *. change (1280 - 2 - 80)%nat with 1198%nat in *.
    destruct H as [_ H]; [split; [intros _; exact HA|reflexivity]|]. rewrite (INR_lit 80 80), (INR_lit 1199 1199) in H by reflexivity. unfold spacing in *. specialize (H ltac:(lra)).
    destruct (scan_points b j p Ej) as [_ ->]. rewrite H, (INR_lit 1198 1198) by reflexivity. reflexivity.
Qed.

(** C152.  The evaluation repeated, each time at the position found before.
    Below 2.08 mV all further choices are the flank after some time: from far
    below, the last considered point is chosen, which is 3.49 mV higher.  Above
    4.92 mV it is chosen as well, and the voltage grows for ever. *)
Theorem sensing_dot_repeated :
  forall sdb1 n bs, 0 < (1 + 1000 * sdb1) * (1 + sdb1 - n) -> (forall k, ss1d_choice true sdb1 n (bs k) = Ok (bs (S k))) ->
  (bs 0%nat <= 0.0035 - width -> exists K, forall k, (K <= k)%nat -> - width - 2 * spacing < bs k <= - width + 2 * spacing) /\
  (0.0035 + width <= bs 0%nat -> forall k, bs k >= bs 0%nat + INR k * 0.003).
Proof.
  intros sdb1 n bs HA Hb. pose proof width_range as W.
  assert (In : forall k, - width - 0.00349375 <= bs k <= 0.0035 - width -> - width - 2 * spacing < bs (S k) <= - width + 2 * spacing).
  { intros k Hk. destruct (sensing_dot_simulated sdb1 n (bs k) HA Hk) as (p & E & H). rewrite Hb in E. injection E as <-. exact H. }
  assert (Far : forall k, bs k <= - width - 0.00349375 \/ 0.0035 + width <= bs k -> bs (S k) = bs k - 0.004 + 1198 * (0.008 / 1279)).
  { intros k Hk. destruct (sensing_dot_far sdb1 n (bs k) HA Hk) as (p & E & H). rewrite Hb in E. injection E as <-. exact H. }
  assert (Stay : forall k, - width - 0.00349375 <= bs k <= 0.0035 - width -> forall d, - width - 2 * spacing < bs (S k + d)%nat <= - width + 2 * spacing).
  { intros k Hk d. induction d as [|d IH]; [rewrite Nat.add_0_r; apply In; exact Hk|]. rewrite Nat.add_succ_r. apply In. unfold spacing in IH. lra. }
  split.
  - intros H0.
    assert (Up : forall N k, bs k <= 0.0035 - width -> - width - 0.00349375 <= bs k + INR N * 0.003 -> exists K, - width - 0.00349375 <= bs K <= 0.0035 - width).
    { induction N as [|N IH]; intros k H1 H2.
      - exists k. cbn [INR] in H2. lra.
      - destruct (Rle_lt_dec (- width - 0.00349375) (bs k)) as [K|K]; [exists k; lra|]. rewrite S_INR in H2. apply (IH (S k)); rewrite (Far k) by lra; lra. }
    destruct (archimed ((- width - bs 0%nat) * 1000)) as [A1 _].
    destruct (Up (Z.to_nat (up ((- width - bs 0%nat) * 1000))) 0%nat H0) as [K HK].
    { rewrite INR_IZR_INZ. assert (IZR (up ((- width - bs 0%nat) * 1000)) <= IZR (Z.of_nat (Z.to_nat (up ((- width - bs 0%nat) * 1000))))) by (apply IZR_le; lia).
      assert (0 <= IZR (Z.of_nat (Z.to_nat (up ((- width - bs 0%nat) * 1000))))) by (apply IZR_le; lia). lra. }
    exists (S K). intros k Hk. replace k with (S K + (k - S K))%nat by lia. apply Stay. exact HK.
  - intros H0 k. induction k as [|k IH]; [cbn [INR]; lra|]. rewrite S_INR. pose proof (pos_INR k) as P. rewrite (Far k) by (right; lra). lra.
Qed.
(** Both cases occur. *)
Definition choices (b0 : R) : nat -> R := fix go k := match k with O => b0 | S k' => match ss1d_choice true 0.001 0.5 (go k') with Ok p => p | Raise _ => 0 end end.
Lemma choices_step b0 k : ss1d_choice true 0.001 0.5 (choices b0 k) = Ok (choices b0 (S k)).
Proof.
  assert (Lx : length (linspace (choices b0 k - 0.004) (choices b0 k + 0.004) 1280) = 1280%nat) by (unfold linspace; rewrite map_length, seq_length; reflexivity).
  cbn [choices]. fold (choices b0). destruct (simulation_peak 0.001 (choices b0 k) 0.5) as [L _].
  destruct (sensing_1d_flank true (linspace (choices b0 k - 0.004) (choices b0 k + 0.004) 1280) (ss1d_simulation 0.001 (choices b0 k) 0.5)) as (j & p & E & _).
  - rewrite Lx. apply Nat.leb_le. reflexivity. - rewrite L, Lx. reflexivity.
  - unfold ss1d_choice. rewrite E. reflexivity.
Qed.
Example sensing_dot_repeated_ex : (exists K, forall k, (K <= k)%nat -> Rabs (choices (-1) k + 0.0014142) <= 0.00002) /\ choices 0.005 1000 >= 3.
Proof.
  pose proof width_range as W. split.
  - destruct (proj1 (sensing_dot_repeated 0.001 0.5 (choices (-1)) ltac:(lra) (choices_step (-1)))) as [K HK]; [cbn [choices]; lra|]. exists K. intros k Hk. specialize (HK k Hk). unfold spacing in HK. apply Rabs_le. lra.
  - pose proof (proj2 (sensing_dot_repeated 0.001 0.5 (choices 0.005) ltac:(lra) (choices_step 0.005)) ltac:(cbn [choices]; lra) 1000%nat) as H.
    rewrite (INR_lit 1000 1000) in H by reflexivity. change (choices 0.005 0%nat) with 0.005 in H. lra.
Qed.

Lemma grid_point v n k : (k < n)%nat -> (1 < n)%nat -> nth k (linspace (-5 + 1000 * v) (5 + 1000 * v) n) 0 = grid v n k.
Proof.
  intros Hk Hn. pose proof (linspace_nth (-5 + 1000 * v) (5 + 1000 * v) n k Hk Hn) as H. apply (nth_error_nth _ _ 0) in H. rewrite H. unfold grid. unfold Rdiv. ring.
Qed.
Lemma map_nth_real {A} (g : A -> R) l k d : (k < length l)%nat -> nth k (map g l) 0 = g (nth k l d).
Proof. intros H. rewrite (nth_indep _ 0 (g d)) by (rewrite map_length; exact H). apply map_nth. Qed.
Lemma simulated_rise v1 v2 i j : (i < 20)%nat -> (S j < 104)%nat -> slope_at (ss2d_simulation v1 v2) i j = rise v1 v2 i j.
Proof.
  intros Hi Hj. assert (Ll : forall lo hi m, length (linspace lo hi m) = m) by (intros; unfold linspace; rewrite map_length; apply seq_length).
  unfold slope_at, ss2d_simulation. set (g := fun y : R => map _ _).
  rewrite (nth_indep (map g _) [] (g 0)) by (rewrite map_length, Ll; exact Hi). rewrite map_nth, grid_point by lia. unfold g.
  rewrite !(map_nth_real _ _ _ 0) by (rewrite Ll; lia). rewrite !grid_point by lia. reflexivity.
Qed.

(** C152.  The simulation of the two-dimensional scan covers 5 mV on each side
    whatever the measurement asks for: the offset of the chosen point from the
    voltages at which the scan was done is the one of the steepest simulated
    point times the asked range over 5 mV. *)
Theorem sensing_dot_2d_stretched :
  forall rising range v1 v2, exists i j p q, ss2d_choice rising range v1 v2 = Ok (p, q) /\ (i < 20)%nat /\ (4 <= j < 99)%nat /\
  (forall i' j', (i' < 20)%nat -> (4 <= j' < 99)%nat -> if rising then rise v1 v2 i j <= rise v1 v2 i' j' else rise v1 v2 i' j' <= rise v1 v2 i j) /\
  p - v1 = range / 0.005 * (grid v1 20 i / 1000 - v1) /\ q - v2 = range / 0.005 * (grid v2 104 j / 1000 - v2).
Proof.
  intros rising range v1 v2.
  assert (Ll : forall lo hi m, length (linspace lo hi m) = m) by (intros; unfold linspace; rewrite map_length; apply seq_length).
  destruct (sensing_2d_flank rising (linspace (v1 - range) (v1 + range) 20) (linspace (v2 - range) (v2 + range) 104) (ss2d_simulation v1 v2)) as [H _].
  - intros l Hl. unfold ss2d_simulation in Hl. apply in_map_iff in Hl. destruct Hl as (y & <- & _). rewrite map_length, !Ll. reflexivity.
  - unfold ss2d_simulation. rewrite map_length, !Ll. reflexivity.
  - unfold ss2d_simulation. intros K. apply (f_equal (@length _)) in K. rewrite map_length, Ll in K. discriminate.
  - rewrite Ll in H. change (104 / 25)%nat with 4%nat in H. destruct (H ltac:(lia)) as (i & j & p & q & E & Ei & Ej & H1 & H2 & M). clear H.
    assert (Hi : (i < 20)%nat) by (rewrite <- (Ll (v1 - range) (v1 + range) 20%nat); apply nth_error_Some; congruence).
    assert (Hlen : length (ss2d_simulation v1 v2) = 20%nat) by (unfold ss2d_simulation; rewrite map_length; apply Ll).
    exists i, j, p, q. split; [exact E|]. split; [exact Hi|]. split; [lia|]. split; [intros i' j' Hi' Hj'; rewrite <- !simulated_rise by lia; apply M; [rewrite Hlen; exact Hi'|lia|lia]|].
    rewrite linspace_nth in Ei by lia. rewrite linspace_nth in Ej by lia. apply some_inj in Ei. apply some_inj in Ej. rewrite <- Ei, <- Ej.
    unfold grid. rewrite (INR_lit 19 (20 - 1)), (INR_lit 103 (104 - 1)) by reflexivity. split; lra.
Qed.
(** With the range of 10 mV of the evaluator the offset is doubled; it agrees with
    the simulation for 5 mV, and for a scan of no width the voltages stay. *)
Example sensing_dot_2d_stretched_ex : exists p q p' q' i, ss2d_choice true 0.01 0 0 = Ok (p, q) /\ ss2d_choice true 0 0.3 0.4 = Ok (p', q') /\ p' = 0.3 /\ q' = 0.4 /\ p = 2 * (grid 0 20 i / 1000).
Proof.
  destruct (sensing_dot_2d_stretched true 0.01 0 0) as (i & j & p & q & E & _ & _ & _ & Hp & _).
  destruct (sensing_dot_2d_stretched true 0 0.3 0.4) as (i' & j' & p' & q' & E' & _ & _ & _ & Hp' & Hq').
  exists p, q, p', q', i. split; [exact E|]. split; [exact E'|]. split; [lra|]. split; [lra|]. lra.
Qed.

Print Assumptions peak_flank.
Print Assumptions sensing_dot_simulated.
Print Assumptions sensing_dot_repeated.
Print Assumptions sensing_dot_2d_stretched.
