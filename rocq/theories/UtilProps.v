(** Properties of the filters and transition finders (C47, C75, C76). *)
From Coq Require Import Reals List Bool Arith Lia Lra Psatz.
From Verif Require Import PyExn PyBase UtilModel UtilSpec UtilProofs.
Import ListNotations.
Local Open Scope R_scope.

(** ** moving_average_filter *)
(** It succeeds iff the width is positive and at most the number of points
    (or there is nothing to do); entry i is the mean of the last [width]
    samples up to i, of all samples up to i at the beginning. *)
Theorem moving_average_entries data width : (0 < width <= length data)%nat ->
  exists out, moving_average data width = Ok out /\ length out = length data /\
    forall i, (i < length data)%nat -> nth i out 0 = mean_range data (i + 1 - width) (i + 1).
Proof.
  intros Hw. rewrite moving_average_shape by lia. rewrite <- seq_app. replace (width + (length data - width))%nat with (length data) by lia.
  destruct (store_loop (fun i => if i <? width then total (slice 0 (i + 1) data) * (1 / INR (i + 1))
     else total (slice (i + 1 - width) (i + 1) data) * (1 / INR width)) (length data) 0 (repeat 0 (length data))) as (out & E & L & N);
    [rewrite repeat_length; lia|].
  exists out. split; [exact E|]. rewrite repeat_length in L. split; [assumption|]. intros i Hi. rewrite N. cbn [Nat.leb andb].
  destruct (Nat.ltb_spec i (0 + length data)); [|lia]. unfold slice, mean_range. destruct (Nat.ltb_spec i width).
  - replace (i + 1 - width)%nat with O by lia. rewrite total_slice by lia. rewrite !Nat.sub_0_r. field. apply not_0_INR. lia.
  - rewrite total_slice by lia. replace (i + 1 - (i + 1 - width))%nat with width by lia. field. apply not_0_INR. lia.
Qed.
Theorem moving_average_errors data width :
  ((length data < width)%nat -> moving_average data width = Raise IndexError) /\
  (data <> [] -> moving_average data 0 = Raise ZeroDivisionError) /\ moving_average [] 0 = Ok [].
Proof.
  split; [|split; [|reflexivity]].
  - intros H. rewrite moving_average_shape by lia. rewrite fold_left_app.
    rewrite store_overflow by (rewrite repeat_length; lia). apply store_raise.
  - intros H. unfold moving_average. cbn [seq fold_left]. rewrite Nat.sub_0_r. destruct data as [|a data]; [congruence|].
    cbn [length seq fold_left]. cbn [Nat.eqb]. generalize (seq 1 (length data)). induction l; cbn; auto.
Qed.
Example moving_average_entries_ex : exists out, moving_average [2; 4; 9; 5] 2 = Ok out /\ nth 0 out 0 = 2 /\ nth 2 out 0 = 13 / 2.
Proof.
  destruct (moving_average_entries [2; 4; 9; 5] 2) as (out & E & _ & N); [cbn; lia|]. exists out. split; [exact E|].
  rewrite !N by (cbn; lia). unfold mean_range. cbn. lra.
Qed.
(** The filtered data stay between the bounds of the data; constant data are
    unchanged. *)
Theorem moving_average_bounds data width out lo hi : (0 < width)%nat ->
  moving_average data width = Ok out -> (forall x, In x data -> lo <= x <= hi) -> forall y, In y out -> lo <= y <= hi.
Proof.
  intros Hw E H y Hy. destruct (le_lt_dec width (length data)) as [Hl|Hl].
  2:{ rewrite (proj1 (moving_average_errors data width)) in E by assumption. discriminate. }
  destruct (moving_average_entries data width) as (out' & E' & L & N); [lia|]. rewrite E' in E. inversion E; subst out'.
  apply (In_nth _ _ 0) in Hy. destruct Hy as (i & Hi & <-). rewrite L in Hi. rewrite N by assumption. unfold mean_range.
  set (n := (i + 1 - (i + 1 - width))%nat). assert (Hn : (0 < n)%nat) by (subst n; lia).
  assert (B : INR n * lo <= sum_range (fun k => nth k data 0) (i + 1 - width) n <= INR n * hi).
  { apply sum_range_bounds. intros k Hk. apply H, nth_In. subst n. lia. }
  apply lt_0_INR in Hn. set (s := sum_range _ _ _) in *. split.
  - apply Rmult_le_reg_r with (INR n); [assumption|]. unfold Rdiv. rewrite Rmult_assoc, Rinv_l by lra. lra.
  - apply Rmult_le_reg_r with (INR n); [assumption|]. unfold Rdiv. rewrite Rmult_assoc, Rinv_l by lra. lra.
Qed.
Theorem moving_average_constant c n width : (0 < width <= n)%nat -> moving_average (repeat c n) width = Ok (repeat c n).
Proof.
  intros Hw. destruct (moving_average_entries (repeat c n) width) as (out & E & L & N); [now rewrite repeat_length|].
  rewrite E. f_equal. rewrite repeat_length in L, N. apply (nth_ext _ _ 0 0); [now rewrite repeat_length|]. intros i Hi. rewrite L in Hi.
  rewrite N by assumption. rewrite nth_indep with (d' := c) by (now rewrite repeat_length). rewrite nth_repeat.
  unfold mean_range. rewrite (sum_range_const c).
  - field. apply not_0_INR. lia.
  - intros k Hk. rewrite nth_indep with (d' := c) by (rewrite repeat_length; lia). apply nth_repeat.
Qed.
Example moving_average_bounds_ex : exists out, moving_average [2; 4; 9; 5] 3 = Ok out /\ (forall y, In y out -> 2 <= y <= 9) /\
  moving_average [7; 7; 7; 7] 3 = Ok [7; 7; 7; 7].
Proof.
  destruct (moving_average_entries [2; 4; 9; 5] 3) as (out & E & _); [cbn; lia|]. exists out. split; [exact E|]. split.
  - apply (moving_average_bounds [2; 4; 9; 5] 3 out 2 9 ltac:(lia) E). intros x. cbn. intuition lra.
  - apply (moving_average_constant 7 4 3). lia.
Qed.

(** ** nth_diff *)
Theorem nth_diff_entries data n :
  ((n <= length data)%nat -> exists out, nth_diff data n = Ok out /\ length out = (length data - n)%nat /\
     forall i, (i < length data - n)%nat -> nth i out 0 = nth i data 0 - nth (i + n) data 0) /\
  ((length data < n)%nat -> nth_diff data n = Raise ValueError).
Proof.
  unfold nth_diff. destruct (Nat.ltb_spec (length data) n); split; intros; try lia; auto.
  eexists; split; [reflexivity|]. rewrite map_length, seq_length. split; [reflexivity|]. intros i Hi.
  set (f := fun i => nth i data 0 - nth (i + n) data 0).
  rewrite nth_indep with (d' := f O) by (rewrite map_length, seq_length; lia). rewrite map_nth, seq_nth by lia. reflexivity.
Qed.
Example nth_diff_entries_ex : nth_diff [5; 3; 1] 2 = Ok [5 - 1] /\ nth_diff [5; 3; 1] 4 = Raise ValueError.
Proof. split; reflexivity. Qed.
(** The MATLAB counterpart at_diff.m, which works in place, gives the same
    differences with the opposite sign. *)
Theorem at_diff_is_nth_diff data n : (n <= length data)%nat -> nth_diff data n = Ok (map Ropp (at_diff data n)).
Proof.
  intros H. unfold nth_diff. destruct (Nat.ltb_spec (length data) n); [lia|]. f_equal. unfold at_diff.
  destruct (forward_loop (fun a b => b - a) n data (length data - n)) as [L N]; [lia..|].
  set (out := fold_left _ _ _) in *.
  apply (nth_ext _ _ 0 0); rewrite !map_length, seq_length, ?firstn_length; [rewrite L; lia|]. intros i Hi.
  set (f := fun i => nth i data 0 - nth (i + n) data 0).
  rewrite nth_indep with (d' := f O) by (rewrite map_length, seq_length; lia). rewrite map_nth, seq_nth by lia. cbn [Nat.add].
  rewrite nth_indep with (d' := Ropp 0) by (rewrite map_length, firstn_length, L; lia). rewrite map_nth.
  replace (nth i (firstn (length data - n) out) 0) with (nth i out 0).
  - rewrite N. destruct (Nat.ltb_spec i (length data - n)); [|lia]. unfold f. ring.
  - rewrite <- (firstn_skipn (length data - n) out) at 1. apply app_nth1. rewrite firstn_length, L. lia.
Qed.
Example at_diff_is_nth_diff_ex : nth_diff [5; 3; 1; 7] 1 = Ok (map Ropp (at_diff [5; 3; 1; 7] 1)).
Proof. apply at_diff_is_nth_diff. cbn. lia. Qed.

(** ** new_find_lead_transition_index *)
(** The index is half a width behind the first place where the signal changes
    most over the width; the very last place is not considered.  It lies inside
    the data. *)
Theorem transition_index_max data w :
  ((w + 1 < length data)%nat -> exists j r, transition_index data w = Ok (j + r)%nat /\ even_rounding w r /\
     first_max (fun i => Rabs (nth i data 0 - nth (i + w) data 0)) (length data - w - 1) j /\ (j + r < length data)%nat) /\
  ((length data <= w + 1)%nat -> transition_index data w = Raise ValueError).
Proof.
  unfold transition_index. rewrite diff_length. split; intros H.
  - set (d := firstn _ _).
    assert (L : length d = (length data - w - 1)%nat) by (unfold d; rewrite firstn_length, map_length, diff_length; lia).
    destruct (argmax_first d) as (j & E & F); [intros E; rewrite E in L; cbn in L; lia|].
    rewrite E. exists j, (round_half w). split; [reflexivity|]. split; [apply round_half_even|].
    rewrite L in F. assert (F' : first_max (fun i => Rabs (nth i data 0 - nth (i + w) data 0)) (length data - w - 1) j).
    { eapply first_max_ext; [|exact F]. intros i Hi. cbn beta. unfold d.
      replace (nth i (firstn (length data - w - 1) (map Rabs (diff_in_place w data))) 0) with (nth i (map Rabs (diff_in_place w data)) 0).
      - rewrite <- Rabs_R0 at 1. rewrite (map_nth Rabs). rewrite diff_nth. destruct (Nat.ltb_spec i (length data - w - 1)); [reflexivity|lia].
      - rewrite <- (firstn_skipn (length data - w - 1) (map Rabs (diff_in_place w data))) at 1. apply app_nth1.
        rewrite firstn_length, map_length, diff_length. lia. }
    split; [exact F'|]. destruct F' as (F1 & _). pose proof (round_half_le w). lia.
  - replace (length data - w - 1)%nat with O by lia. reflexivity.
Qed.
Example transition_index_max_ex : exists j r, transition_index [0; 0; 0; 5; 5; 5] 2 = Ok (j + r)%nat /\ (j < 3)%nat.
Proof.
  destruct (proj1 (transition_index_max [0; 0; 0; 5; 5; 5] 2)) as (j & r & E & _ & (F & _) & _); [cbn; lia|].
  exists j, r. split; [exact E|]. exact F.
Qed.
(** A step from one level to another is found within half a width (for widths
    of at least one point): the index is between the last point before the
    step and half a width off. *)
Theorem transition_index_step a b n1 n2 w : a <> b -> (0 < w)%nat -> (w <= n1)%nat -> (w + 1 < n2)%nat ->
  exists k r, transition_index (repeat a n1 ++ repeat b n2) w = Ok k /\ even_rounding w r /\ (k = n1 - w + r)%nat.
Proof.
  intros Hab Hw H1 H2. destruct (proj1 (transition_index_max (repeat a n1 ++ repeat b n2) w)) as (j & r & E & R & F & _).
  { rewrite app_length, !repeat_length. lia. }
  exists (j + r)%nat, r. split; [exact E|]. split; [exact R|]. destruct F as (F1 & F2 & F3).
  rewrite app_length, !repeat_length in F1, F2.
  assert (V : forall i, (i < n1 + n2)%nat -> nth i (repeat a n1 ++ repeat b n2) 0 = if i <? n1 then a else b).
  { intros i Hi. destruct (Nat.ltb_spec i n1).
    - rewrite app_nth1 by (now rewrite repeat_length). rewrite nth_indep with (d' := a) by (now rewrite repeat_length). apply nth_repeat.
    - rewrite app_nth2 by (now rewrite repeat_length). rewrite repeat_length. rewrite nth_indep with (d' := b) by (rewrite repeat_length; lia). apply nth_repeat. }
  assert (D : forall i, (i + w < n1 + n2)%nat -> Rabs (nth i (repeat a n1 ++ repeat b n2) 0 - nth (i + w) (repeat a n1 ++ repeat b n2) 0) =
     if (n1 - w <=? i) && (i <? n1) then Rabs (a - b) else 0).
  { intros i Hi. rewrite !V by lia. destruct (Nat.ltb_spec i n1), (Nat.ltb_spec (i + w) n1), (Nat.leb_spec (n1 - w) i); cbn [andb]; try lia;
      try reflexivity; rewrite Rminus_diag_eq by reflexivity; apply Rabs_R0. }
  assert (P : 0 < Rabs (a - b)) by (apply Rabs_pos_lt; lra).
  assert (J : (n1 - w <= j < n1)%nat).
  { specialize (F2 (n1 - w)%nat ltac:(lia)). cbn beta in F2. rewrite (D (n1 - w)%nat) in F2 by lia.
    rewrite (D j) in F2 by lia.
    destruct (Nat.leb_spec (n1 - w) (n1 - w)), (Nat.ltb_spec (n1 - w) n1); try lia. cbn [andb] in F2.
    destruct (Nat.leb_spec (n1 - w) j), (Nat.ltb_spec j n1); cbn [andb] in F2; try lia; lra. }
  destruct (Nat.eq_dec j (n1 - w)) as [->|Hne]; [reflexivity|]. exfalso.
  specialize (F3 (n1 - w)%nat ltac:(lia)). cbn beta in F3. rewrite !D in F3 by lia.
  destruct (Nat.leb_spec (n1 - w) (n1 - w)), (Nat.ltb_spec (n1 - w) n1), (Nat.leb_spec (n1 - w) j), (Nat.ltb_spec j n1); try lia.
  cbn [andb] in F3. lra.
Qed.
Example transition_index_step_ex : exists k, transition_index (repeat 1 10 ++ repeat 3 20) 4 = Ok k /\ (k = 8)%nat.
Proof.
  destruct (transition_index_step 1 3 10 20 4) as (k & r & E & R & K); try lia; [lra|]. exists k. split; [exact E|].
  destruct R as [R|[[R _]|[R _]]]; lia.
Qed.
(** Claim "it finds the largest change over the width anywhere in the data":
    refuted for a change at the very end; and with width 0 (a range too wide
    for its number of points) the answer is always the first point. *)
Theorem transition_index_refuted :
  (transition_index [0; 1; 1; 10] 1 = Ok 0%nat /\ Rabs (1 - 10) > Rabs (0 - 1)) /\
  forall data, (1 < length data)%nat -> transition_index data 0 = Ok 0%nat.
Proof.
  split.
  - split; [|unfold Rabs; destruct (Rcase_abs (1 - 10)), (Rcase_abs (0 - 1)); lra].
    destruct (proj1 (transition_index_max [0; 1; 1; 10] 1)) as (j & r & E & R & (F1 & F2 & F3) & _); [cbn; lia|].
    rewrite E. cbn in F1.
    assert (j = 0%nat).
    { destruct j as [|[|j]]; [reflexivity| |lia]. specialize (F2 0%nat ltac:(cbn; lia)). cbn in F2. revert F2.
      unfold Rabs. destruct (Rcase_abs (0 - 1)), (Rcase_abs (1 - 1)); lra. }
    subst j. f_equal. destruct R as [R|[[R [q Q]]|[R _]]]; lia.
  - intros data H. destruct (proj1 (transition_index_max data 0)) as (j & r & E & R & (F1 & F2 & F3) & _); [lia|].
    rewrite E. f_equal. destruct R as [R|[[R [q Q]]|[R _]]]; [|lia..]. assert (r = 0)%nat by lia. subst r.
    destruct j as [|j]; [reflexivity|]. exfalso. specialize (F3 0%nat ltac:(lia)). cbn beta in F3.
    rewrite !Nat.add_0_r in F3. rewrite !Rminus_diag_eq in F3 by reflexivity. lra.
Qed.

(** ** find_lead_transition *)
Lemma linspace_nth lo hi n i : (i < n)%nat -> (1 < n)%nat -> nth_error (linspace lo hi n) i = Some (lo + INR i * ((hi - lo) / INR (n - 1))).
Proof.
  intros Hi Hn. unfold linspace.
  rewrite nth_error_map. rewrite (nth_error_nth' _ 0%nat) by (now rewrite seq_length). rewrite seq_nth by assumption.
  cbn [option_map Nat.add]. destruct (Nat.eqb_spec n 1); [lia|reflexivity].
Qed.
(** The position is a point of the scan; the caller's data are overwritten by
    the differences. *)
Theorem find_lead_transition_result data center range npoints n :
  0 <= range -> (1 < npoints)%nat -> (n + 1 < length data <= npoints)%nat ->
  (exists x, snd (find_lead_transition data center range npoints n) = Ok x /\ center - range <= x <= center + range) /\
  length (fst (find_lead_transition data center range npoints n)) = length data /\
  forall i, (i < length data - n - 1)%nat ->
    nth i (fst (find_lead_transition data center range npoints n)) 0 = nth i data 0 - nth (i + n) data 0.
Proof.
  intros Hr Hp Hn. unfold find_lead_transition. cbn [fst snd]. rewrite diff_length. split; [|split; [reflexivity|]].
  - set (d := map Rabs _). assert (L : length d = (length data - n - 1)%nat) by (unfold d; rewrite map_length, firstn_length, diff_length; lia).
    destruct (argmax_first d) as (j & E & F1 & _); [intros E; rewrite E in L; cbn in L; lia|]. rewrite E. rewrite L in F1.
    pose proof (round_half_le n). rewrite linspace_nth by lia. eexists; split; [reflexivity|].
    assert (0 < INR (npoints - 1)) by (apply lt_0_INR; lia).
    assert (0 <= INR (j + round_half n) <= INR (npoints - 1)) by (split; [apply pos_INR|apply le_INR; lia]).
    replace (center + range - (center - range)) with (2 * range) by ring.
    assert (0 <= 2 * range / INR (npoints - 1)) by (apply Rmult_le_pos; [lra|left; now apply Rinv_0_lt_compat]).
    assert (INR (j + round_half n) * (2 * range / INR (npoints - 1)) <= INR (npoints - 1) * (2 * range / INR (npoints - 1))) by (apply Rmult_le_compat_r; lra).
    assert (INR (npoints - 1) * (2 * range / INR (npoints - 1)) = 2 * range) by (field; lra).
    assert (0 <= INR (j + round_half n) * (2 * range / INR (npoints - 1))) by (apply Rmult_le_pos; lra). lra.
  - intros i Hi. rewrite diff_nth. destruct (Nat.ltb_spec i (length data - n - 1)); [reflexivity|lia].
Qed.
Example find_lead_transition_result_ex : let r := find_lead_transition [0; 0; 3; 3; 3] 10 2 5 1 in
  (exists x, snd r = Ok x /\ 8 <= x <= 12) /\ length (fst r) = 5%nat /\ nth 1 (fst r) 0 = -3.
Proof.
  intros r. destruct (find_lead_transition_result [0; 0; 3; 3; 3] 10 2 5 1) as ((x & E & B) & L & N); [lra|lia|cbn; lia|].
  split; [exists x; split; [exact E|lra]|]. split; [exact L|]. subst r. rewrite N by (cbn; lia). cbn. lra.
Qed.
(** Claim "calling it again with the same array gives the same answer":
    refuted, the first call has changed the array. *)
Theorem find_lead_transition_refuted :
  let data := [0; 0; 3; 3; 3; 3; 3] in
  let first := find_lead_transition data 0 3 7 1 in
  snd first = Ok (-2) /\ snd (find_lead_transition (fst first) 0 3 7 1) = Ok (-3) /\ fst first <> data.
Proof.
  cbn zeta.
  assert (E : diff_in_place 1 [0; 0; 3; 3; 3; 3; 3] = [0 - 0; 0 - 3; 3 - 3; 3 - 3; 3 - 3; 3; 3]) by reflexivity.
  unfold find_lead_transition. cbn [fst snd]. rewrite E.
  replace [0 - 0; 0 - 3; 3 - 3; 3 - 3; 3 - 3; 3; 3] with [0; -3; 0; 0; 0; 3; 3] by (repeat f_equal; ring).
  replace (diff_in_place 1 [0; -3; 0; 0; 0; 3; 3]) with [0 - -3; -3 - 0; 0 - 0; 0 - 0; 0 - 3; 3; 3] by reflexivity.
  replace [0 - -3; -3 - 0; 0 - 0; 0 - 0; 0 - 3; 3; 3] with [3; -3; 0; 0; -3; 3; 3] by (repeat f_equal; ring).
  cbn [length Nat.sub firstn map].
  assert (A3 : Rabs (-3) = 3) by (unfold Rabs; destruct (Rcase_abs (-3)); lra).
  assert (B3 : Rabs 3 = 3) by (unfold Rabs; destruct (Rcase_abs 3); lra). rewrite !A3, !B3, !Rabs_R0.
  unfold argmax, arg_by, arg_from, Rltb.
  repeat (match goal with |- context [Rlt_dec ?x ?y] => destruct (Rlt_dec x y); try lra end).
  cbn [Nat.add round_half Nat.even Nat.div2]. rewrite !linspace_nth by lia. cbn [Nat.sub INR].
  split; [f_equal; lra|]. split; [f_equal; lra|]. intros H. inversion H. lra.
Qed.

(** ** find_stepes_point_sensing_dot *)
(** At least 200 points are needed; then the detuning stays inside the scan. *)
Theorem steepest_point_inside data range npoints : 0 <= range -> length data = npoints ->
  ((200 <= npoints)%nat -> exists x, steepest_point data range npoints = Ok x /\ - range <= x <= range) /\
  ((npoints < 200)%nat -> steepest_point data range npoints = Raise IndexError).
Proof.
  intros Hr L. unfold steepest_point. split; intros Hn.
  - destruct (moving_average_entries data 200) as (d1 & E1 & L1 & _); [lia|]. rewrite E1.
    destruct (proj1 (nth_diff_entries d1 30)) as (d2 & E2 & L2 & _); [lia|]. rewrite E2.
    destruct (moving_average_entries d2 30) as (d3 & E3 & L3 & _); [lia|]. rewrite E3.
    destruct (argmin_some d3) as [j Ej]; [intros E; rewrite E in L3; cbn in L3; lia|]. rewrite Ej.
    apply argmin_bound in Ej. eexists; split; [reflexivity|].
    assert (0 < INR npoints) by (apply lt_0_INR; lia).
    assert (0 <= INR (j + 15) <= INR npoints) by (split; [apply pos_INR|apply le_INR; lia]).
    replace ((INR (j + 15) - INR npoints / 2) * range / (INR npoints / 2)) with ((2 * INR (j + 15) / INR npoints - 1) * range) by (field; lra).
    assert (0 <= 2 * INR (j + 15) / INR npoints <= 2).
    { split; [apply Rmult_le_pos; [lra|left; now apply Rinv_0_lt_compat]|].
      apply Rmult_le_reg_r with (INR npoints); [assumption|]. unfold Rdiv. rewrite Rmult_assoc, Rinv_l by lra. lra. }
    split; nra.
  - rewrite (proj1 (moving_average_errors data 200)) by lia. reflexivity.
Qed.
Example steepest_point_inside_ex : length (repeat 1 1280) = 1280%nat /\ (200 <= 1280)%nat.
Proof. split; [apply repeat_length|lia]. Qed.

Print Assumptions moving_average_entries.
Print Assumptions moving_average_errors.
Print Assumptions moving_average_bounds.
Print Assumptions moving_average_constant.
Print Assumptions nth_diff_entries.
Print Assumptions at_diff_is_nth_diff.
Print Assumptions transition_index_max.
Print Assumptions transition_index_step.
Print Assumptions transition_index_refuted.
Print Assumptions find_lead_transition_result.
Print Assumptions find_lead_transition_refuted.
Print Assumptions steepest_point_inside.
