(** The simulated experiment and the transitions found in its data. *)
From Coq Require Import Reals List Bool Arith Lra Lia Psatz Permutation ZArith String Sorted.
From Verif Require Import PyBase PyExn TargetModel TunerModel SeriesLemmas UtilModel UtilSpec UtilProofs UtilProps EvaluatorModel EvaluatorSpec EvaluatorProofs EvaluatorProps.
From Verif Require Import HistoryModel HistoryProofs SimModel SimSpec SimProofs.
Import ListNotations.
Local Open Scope string_scope.
Local Open Scope R_scope.
Local Open Scope list_scope.

Lemma window_height data lo s a b k c w i : samples_step data lo s a b k c -> 0 < k -> 0 < s -> (0 < w)%nat -> (i + w < length data)%nat ->
  Rabs (nth i data 0 - nth (i + w) data 0) =
  Rabs a * (tanh (k * (lo + (INR i + INR w / 2) * s - c) + k * (INR w / 2) * s) - tanh (k * (lo + (INR i + INR w / 2) * s - c) - k * (INR w / 2) * s)).
Proof.
  intros H Hk Hs Hw Hi. rewrite !H by lia. rewrite plus_INR.
  set (u := k * (lo + (INR i + INR w / 2) * s - c)). set (A := k * (INR w / 2) * s).
  replace (k * (lo + INR i * s - c)) with (u - A) by (unfold u, A; field). replace (k * (lo + (INR i + INR w) * s - c)) with (u + A) by (unfold u, A; field).
  replace (b + a * tanh (u - A) - (b + a * tanh (u + A))) with (- (a * (tanh (u + A) - tanh (u - A)))) by ring.
  rewrite Rabs_Ropp, Rabs_mult. f_equal. apply Rabs_right. apply Rle_ge, Rlt_le, window_pos. unfold A.
  apply Rmult_lt_0_compat; [apply Rmult_lt_0_compat; [exact Hk|]|exact Hs]. apply lt_INR in Hw. cbn in Hw. lra.
Qed.
(** C127: the window in which the data change most is the one whose middle is
    nearest to the transition, whatever its height, offset and steepness are. *)
Theorem transition_window data lo s a b k c w :
  samples_step data lo s a b k c -> a <> 0 -> 0 < k -> 0 < s -> (0 < w)%nat -> (w + 1 < length data)%nat ->
  exists j r, transition_index data w = Ok (j + r)%nat /\ even_rounding w r /\ (j + w + 1 < length data)%nat /\
    forall i, (i + w + 1 < length data)%nat -> Rabs (lo + (INR j + INR w / 2) * s - c) <= Rabs (lo + (INR i + INR w / 2) * s - c).
Proof.
  intros H Ha Hk Hs Hw HL. destruct (proj1 (transition_index_max data w) HL) as (j & r & E & R & (F1 & F2 & _) & _).
  exists j, r. split; [exact E|]. split; [exact R|]. split; [lia|]. intros i Hi. destruct (Rle_or_lt (Rabs (lo + (INR j + INR w / 2) * s - c)) (Rabs (lo + (INR i + INR w / 2) * s - c))) as [L|L]; [exact L|].
  exfalso. specialize (F2 i ltac:(lia)). rewrite (window_height data lo s a b k c w i) in F2 by (assumption || lia).
  rewrite (window_height data lo s a b k c w j) in F2 by (assumption || lia).
  assert (A : 0 < k * (INR w / 2) * s).
  { apply Rmult_lt_0_compat; [apply Rmult_lt_0_compat; [exact Hk|]|exact Hs]. apply lt_INR in Hw. cbn in Hw. lra. }
  assert (L' : Rabs (k * (lo + (INR i + INR w / 2) * s - c)) < Rabs (k * (lo + (INR j + INR w / 2) * s - c))).
  { rewrite !Rabs_mult. apply Rmult_lt_compat_l; [rewrite Rabs_right by lra; exact Hk|exact L]. }
  pose proof (window_decreasing _ _ _ A L') as D. apply (Rmult_lt_compat_l (Rabs a)) in D; [lra|]. apply Rabs_pos_lt, Ha.
Qed.
Print Assumptions transition_window.
Lemma nearest_nat m t : - (1 / 2) <= t <= INR m + 1 / 2 -> exists i, (i <= m)%nat /\ Rabs (INR i - t) <= 1 / 2.
Proof.
  induction m as [|m IH]; intros [H1 H2].
  - exists 0%nat. split; [lia|]. cbn in *. apply Rabs_le. lra.
  - destruct (Rle_or_lt t (INR m + 1 / 2)) as [L|L].
    + destruct (IH (conj H1 L)) as (i & Hi & E). exists i. split; [lia|exact E].
    + exists (S m). split; [lia|]. rewrite S_INR in *. apply Rabs_le. lra.
Qed.
Lemma half_rounded w r : even_rounding w r -> Rabs (INR r - INR w / 2) <= 1 / 2.
Proof.
  intros [H|[[H _]|[H _]]]; apply (f_equal INR) in H; rewrite ?plus_INR, ?mult_INR in H; cbn in H; apply Rabs_le; lra.
Qed.
(** A transition that is not too near to an end of the scan is found up to one
    sample. *)
Theorem transition_position data lo s a b k c w :
  samples_step data lo s a b k c -> a <> 0 -> 0 < k -> 0 < s -> (0 < w)%nat -> (w + 1 < length data)%nat ->
  lo + (INR w / 2 - 1 / 2) * s <= c <= lo + (INR (length data - w - 2) + INR w / 2 + 1 / 2) * s ->
  exists i, transition_index data w = Ok i /\ (i < length data)%nat /\ Rabs (lo + INR i * s - c) <= s.
Proof.
  intros H Ha Hk Hs Hw HL [C1 C2]. destruct (transition_window data lo s a b k c w H Ha Hk Hs Hw HL) as (j & r & E & R & J & N).
  destruct (nearest_nat (length data - w - 2) ((c - lo) / s - INR w / 2)) as (i & Hi & Ni).
  { assert (E1 : INR w / 2 - 1 / 2 <= (c - lo) / s) by (apply (Rmult_le_reg_r s); [exact Hs|]; unfold Rdiv at 3; rewrite Rmult_assoc, Rinv_l by lra; lra).
    assert (E2 : (c - lo) / s <= INR (length data - w - 2) + INR w / 2 + 1 / 2) by (apply (Rmult_le_reg_r s); [exact Hs|]; unfold Rdiv at 1; rewrite Rmult_assoc, Rinv_l by lra; lra).
    lra. }
  specialize (N i ltac:(lia)). exists (j + r)%nat. split; [exact E|].
  assert (RW : (2 * r <= w + 1)%nat) by (destruct R as [R|[[R _]|[R _]]]; lia). split; [lia|].
  assert (Q : Rabs (lo + (INR i + INR w / 2) * s - c) <= s * (1 / 2)).
  { replace (lo + (INR i + INR w / 2) * s - c) with (s * (INR i - ((c - lo) / s - INR w / 2))) by (field; lra).
    rewrite Rabs_mult, (Rabs_right s) by lra. apply Rmult_le_compat_l; [lra|exact Ni]. }
  pose proof (half_rounded w r R) as HR. rewrite plus_INR.
  replace (lo + (INR j + INR r) * s - c) with ((lo + (INR j + INR w / 2) * s - c) + s * (INR r - INR w / 2)) by ring.
  eapply Rle_trans; [apply Rabs_triang|]. rewrite (Rabs_mult s), (Rabs_right s) by lra.
  assert (s * Rabs (INR r - INR w / 2) <= s * (1 / 2)) by (apply Rmult_le_compat_l; [lra|exact HR]). lra.
Qed.
Print Assumptions transition_position.
(** Nine samples of a step at 4.3, half a width of 1. *)
Example transition_position_ex : let data := map (fun i => 2 + -3 * tanh (INR i - 4.3)) (seq 0 9) in
  samples_step data 0 1 (-3) 2 1 4.3 /\ exists i, transition_index data 2 = Ok i /\ Rabs (INR i - 4.3) <= 1.
Proof.
  cbv zeta. set (data := map _ _). assert (L : length data = 9%nat) by reflexivity.
  assert (S : samples_step data 0 1 (-3) 2 1 4.3).
  { intros i Hi. rewrite L in Hi. unfold data. rewrite (nth_indep _ 0 (2 + -3 * tanh (INR 0 - 4.3))) by (rewrite map_length, seq_length; exact Hi).
    rewrite (map_nth (fun i => 2 + -3 * tanh (INR i - 4.3)) (seq 0 9) 0%nat i), seq_nth by exact Hi. cbn [Nat.add]. f_equal. f_equal. f_equal. ring. }
  split; [exact S|]. destruct (transition_position data 0 1 (-3) 2 1 4.3 2 S) as (i & E & _ & D); [lra|lra|lra|lia|rewrite L; lia| |].
  - rewrite L. cbn. lra.
  - exists i. split; [exact E|]. replace (INR i - 4.3) with (0 + INR i * 1 - 4.3) by ring. exact D.
Qed.

Lemma rounding_unique w r r' : even_rounding w r -> even_rounding w r' -> r = r'.
Proof.
  intros [H|[[H [a Ha]]|[H [a Ha]]]] [K|[[K [b Hb]]|[K [b Hb]]]]; lia.
Qed.
(** The simulated scan has such samples. *)
Lemma simulation_samples v_lead v_opposite center range n : 0 < range -> (1 < n)%nat ->
  length (transition_simulation v_lead v_opposite center range n) = n /\
  samples_step (transition_simulation v_lead v_opposite center range n) (center - range) (2 * range / INR (n - 1)) 1 0 (5 / range) ((v_lead - v_opposite) * 0.001).
Proof.
  intros Hr Hn. assert (L : length (transition_simulation v_lead v_opposite center range n) = n) by (unfold transition_simulation, linspace; rewrite !map_length, seq_length; reflexivity).
  split; [exact L|]. intros i Hi. rewrite L in Hi. unfold transition_simulation.
  pose proof (linspace_nth (center - range) (center + range) n i Hi Hn) as E. apply (map_nth_error (fun x => tanh ((x - (v_lead - v_opposite) * 0.001) / range * 5))) in E.
  rewrite (nth_error_nth _ _ 0 E). replace ((center + range - (center - range)) / INR (n - 1)) with (2 * range / INR (n - 1)) by (f_equal; ring).
  rewrite Rmult_1_l, Rplus_0_l. set (s := 2 * range / INR (n - 1)). f_equal. field. lra.
Qed.
Lemma lookup_finite s g : finite_gates s -> In g (index s) -> exists v, lookup g s = Some (Fin v).
Proof.
  intros F H. induction s as [|[k x] s IH]; [destruct H|]. cbn [lookup]. unfold label_eqb. destruct (String.eqb_spec g k) as [->|N].
  - destruct (F k x (or_introl eq_refl)) as [v ->]. eauto.
  - destruct H as [H|H]; [cbn in H; congruence|]. apply IH; [|exact H]. intros k' v' K. apply (F k' v'). right. exact K.
Qed.
(** The evaluator LeadTransition on the simulated experiment: every value is the
    simulated position of the transition at the voltages of its scan, up to one
    sample, if that position is far enough from the ends of the scan. *)
Theorem lead_transition_simulated lead opposite width center range n n_meas shifting gates v_lead v_opposite :
  0 < range -> NoDup (index gates) -> finite_gates gates -> incl shifting (index gates) ->
  lookup lead gates = Some (Fin v_lead) -> lookup opposite gates = Some (Fin v_opposite) ->
  1 <= 0.0002 / range * INR n < INR n - 1 ->
  let spacing := 2 * range / INR (n - 1) in
  exists vs es, snd (lead_evaluate (calm (simulated lead opposite center range n)) width center range n n_meas shifting (mk_lab gates [])) = Ok (vs, es) /\
  length vs = Nat.min n_meas (length shifting) /\
  forall i g, (i < length vs)%nat -> nth_error shifting i = Some g ->
    let c := ((if String.eqb lead g then v_lead - width else v_lead) - (if String.eqb opposite g then v_opposite - width else v_opposite)) * 0.001 in
    Rabs (c - center) <= range - 0.0002 * (INR n / INR (n - 1)) - spacing ->
    exists v, nth_error vs i = Some (("position_" ++ g)%string, Fin v) /\ Rabs (v - c) <= spacing.
Proof.
  intros Hr Hnd Hf Hs Hl Ho Hw spacing. set (x := calm _).
  assert (Hn : (1 < n)%nat).
  { assert (1 < INR n) by lra. change 1 with (INR 1) in H. apply INR_lt in H. exact H. }
  destruct (lead_returns x width center range n n_meas shifting gates Hr Hnd Hf Hs (fun _ => eq_refl)) as [[vs es] E].
  { intros m a. apply simulation_samples; assumption. } { lra. }
  exists vs, es. split; [exact E|]. destruct (lead_values x width center range n n_meas shifting gates vs es Hr Hnd Hf Hs (fun _ => eq_refl) E) as [L V].
  destruct (lead_restores x width center range n n_meas shifting gates Hnd Hf Hs (fun _ => eq_refl)) as (_ & _ & M). cbv zeta in M.
  split; [exact L|]. intros i g Hi Hg c Hc. destruct (V i Hi) as (g' & at_ & v & j & r & w & Eg & Hin & Ev & _ & _ & W & R & FM & P).
  rewrite Hg in Eg. injection Eg as <-. exists v. split; [exact Ev|].
  destruct (M i at_ Hin) as (g2 & Eg2 & _ & Low). rewrite Hg in Eg2. injection Eg2 as <-.
  assert (D : measured x i at_ = transition_simulation (if String.eqb lead g then v_lead - width else v_lead) (if String.eqb opposite g then v_opposite - width else v_opposite) center range n).
  { unfold x, calm, measured, simulated, finite_value. rewrite (Low lead v_lead Hl), (Low opposite v_opposite Ho). reflexivity. }
  destruct (simulation_samples (if String.eqb lead g then v_lead - width else v_lead) (if String.eqb opposite g then v_opposite - width else v_opposite) center range n Hr Hn) as [Ln S].
  rewrite <- D in Ln, S. fold c spacing in S. set (data := measured x i at_) in *.
  assert (In1 : 0 < INR (n - 1)) by (change 0 with (INR 0); apply lt_INR; lia).
  assert (Hsp : 0 < spacing) by (unfold spacing; apply Rdiv_lt_0_compat; lra).
  assert (W0 : (0 < w)%nat). { destruct (Nat.eq_dec w 0) as [->|]; [|lia]. cbn in W. lra. }
  assert (W1 : (w + 1 < length data)%nat). { rewrite Ln. apply INR_lt. rewrite plus_INR. cbn [INR]. lra. }
  assert (WS : INR w / 2 * spacing <= 0.0002 * (INR n / INR (n - 1))).
  { replace (0.0002 * (INR n / INR (n - 1))) with (0.0002 / range * INR n / 2 * spacing) by (unfold spacing; field; lra).
    apply Rmult_le_compat_r; lra. }
  assert (EN : spacing * INR (n - 1) = 2 * range) by (unfold spacing; field; lra).
  assert (Hk : 0 < 5 / range) by (apply Rdiv_lt_0_compat; lra).
  assert (C : center - range + (INR w / 2 - 1 / 2) * spacing <= c <= center - range + (INR (length data - w - 2) + INR w / 2 + 1 / 2) * spacing).
  { assert (B1 := Rle_abs (c - center)). assert (B2 := Rle_abs (- (c - center))). rewrite Rabs_Ropp in B2. split; [lra|]. rewrite Ln. rewrite !minus_INR by lia. rewrite minus_INR in EN by lia. cbn [INR] in EN |- *. nra. }
  destruct (transition_position data (center - range) spacing 1 0 (5 / range) c w S ltac:(lra) Hk Hsp W0 W1 C) as (k & Ek & _ & Dk).
  destruct (proj1 (transition_index_max data w) ltac:(lia)) as (j' & r' & Ej & R' & FM' & _).
  assert (Jj : j' = j).
  { destruct FM as (A1 & A2 & A3), FM' as (B1 & B2 & B3). destruct (lt_eq_lt_dec j' j) as [[K|K]|K]; [|exact K|].
    - specialize (A3 j' K). specialize (B2 j A1). cbv beta in *. lra.
    - specialize (B3 j K). specialize (A2 j' B1). cbv beta in *. lra. }
  assert (Rr : r' = r) by (apply (rounding_unique w); assumption).
  rewrite Ek in Ej. injection Ej as ->. subst j' r'. destruct P as [P|P]; [lia|]. rewrite P. fold spacing. exact Dk.
Qed.
Print Assumptions lead_transition_simulated.
Example lead_transition_simulated_ex : exists vs es v,
  snd (lead_evaluate (calm (simulated "RFA" "RFB" 0 0.004 320)) 0.004 0 0.004 320 2 lead_default_shifting (mk_lab two_gates [])) = Ok (vs, es) /\
  nth_error vs 0 = Some ("position_RFB", Fin v) /\ Rabs (v - (1 - (2 - 0.004)) * 0.001) <= 2 * 0.004 / 319.
Proof.
  destruct lead_restores_ex as (A & B & C).
  destruct (lead_transition_simulated "RFA" "RFB" 0.004 0 0.004 320 2 lead_default_shifting two_gates 1 2) as (vs & es & E & L & V); try assumption; try reflexivity; try lra.
  - replace (INR 320) with 320 by (rewrite INR_IZR_INZ; reflexivity). lra.
  - destruct (V 0%nat "RFB") as (v & Ev & D); [rewrite L; cbn; lia|reflexivity| |].
    + cbn. replace (INR 320) with 320 by (rewrite INR_IZR_INZ; reflexivity). replace (INR (320 - 1)) with 319 by (rewrite INR_IZR_INZ; reflexivity).
      unfold Rabs. destruct (Rcase_abs _); lra.
    + exists vs, es, v. split; [exact E|]. split; [exact Ev|]. replace (INR (320 - 1)) with 319 in D by (rewrite INR_IZR_INZ; reflexivity). exact D.
Qed.
(** Without a margin the claim does not hold: a transition at the last of ten
    samples is found three samples before it. *)
Theorem transition_edge_refuted : exists data, samples_step data 0 1 1 0 1 9 /\ length data = 10%nat /\ transition_index data 4 = Ok 6%nat.
Proof.
  set (data := map (fun i => tanh (INR i - 9)) (seq 0 10)). assert (L : length data = 10%nat) by reflexivity. exists data.
  assert (S : samples_step data 0 1 1 0 1 9).
  { intros i Hi. rewrite L in Hi. unfold data. rewrite (nth_indep _ 0 (tanh (INR 0 - 9))) by (rewrite map_length, seq_length; exact Hi).
    rewrite (map_nth (fun i => tanh (INR i - 9)) (seq 0 10) 0%nat i), seq_nth by exact Hi. cbn [Nat.add]. rewrite Rplus_0_l, Rmult_1_l. f_equal. ring. }
  split; [exact S|]. split; [exact L|].
  destruct (transition_window data 0 1 1 0 1 9 4 S) as (j & r & E & R & J & N); try lra; try (rewrite ?L; lia).
  rewrite E. f_equal. rewrite L in J. assert (r = 2)%nat by (destruct R as [R|[[R _]|[R _]]]; lia). subst r.
  specialize (N 4%nat ltac:(rewrite L; lia)). cbn [INR] in N.
  assert (INR j <= 4) by (replace 4 with (INR 4) by (cbn; lra); apply le_INR; lia).
  rewrite !Rabs_left in N by lra. assert (4 <= INR j) by lra. replace 4 with (INR 4) in H0 by (cbn; lra). apply INR_le in H0. lia.
Qed.
Print Assumptions transition_edge_refuted.

(** ** The experiment *)
Theorem sim_constructor measurements sims :
  (sim_new measurements sims = Ok tt <-> incl measurements sims) /\ (~ incl measurements sims -> sim_new measurements sims = Raise RuntimeError).
Proof.
  assert (H : forallb (fun m => existsb (Nat.eqb m) sims) measurements = true <-> incl measurements sims).
  { rewrite forallb_forall. unfold incl. split; intros K m Hm; specialize (K m Hm).
    - apply existsb_exists in K as (x & Hx & E). apply Nat.eqb_eq in E. subst. exact Hx.
    - apply existsb_exists. exists m. split; [exact K|apply Nat.eqb_refl]. }
  unfold sim_new. destruct (forallb _ _); split.
  - split; [intros _; apply H; reflexivity|reflexivity].
  - intros C. exfalso. apply C, H. reflexivity.
  - split; [discriminate|]. intros C. apply H in C. discriminate.
  - reflexivity.
Qed.
Print Assumptions sim_constructor.
Example sim_constructor_ex : sim_new [1; 2]%nat [3; 2; 1]%nat = Ok tt /\ sim_new [1; 2]%nat [3; 1]%nat = Raise RuntimeError.
Proof. split; reflexivity. Qed.
Definition requests (l : list sim_op) : list series := flat_map (fun o => match o with SimSet v => [v] | SimRead => [] end) l.
Lemma upsert_index k x s l : In l (index (upsert k x s)) <-> l = k \/ In l (index s).
Proof.
  induction s as [|[m w] s IH]; cbn; [intuition|]. destruct (label_eqb k m) eqn:E; cbn.
  - apply String.eqb_eq in E. subst. intuition.
  - rewrite IH. intuition.
Qed.
Lemma upserts_index c : forall s l, In l (index (upserts c s)) <-> In l (index c) \/ In l (index s).
Proof.
  induction c as [|[k x] c IH]; intros s l; [cbn; tauto|]. change (upserts ((k, x) :: c) s) with (upserts c (upsert k x s)). rewrite IH, upsert_index. cbn. intuition.
Qed.
Lemma lookup_in l (s : series) x : lookup l s = Some x -> In (l, x) s.
Proof.
  induction s as [|[k y] s IH]; [discriminate|]. cbn. destruct (label_eqb l k) eqn:E; [|auto]. apply String.eqb_eq in E. intros H. injection H as <-. subst. auto.
Qed.
Lemma lookup_none l (s : series) : lookup l s = None -> ~ In l (index s).
Proof.
  induction s as [|[k y] s IH]; [tauto|]. cbn. destruct (label_eqb l k) eqn:E; [discriminate|]. intros H [C|C]; [|exact (IH H C)].
  subst. unfold label_eqb in E. rewrite String.eqb_refl in E. discriminate.
Qed.
Lemma sorted_strongly l : sorted l -> StronglySorted (fun a b => String.leb a b = true) l.
Proof. induction 1; constructor; [assumption|]. apply Forall_forall. assumption. Qed.
(** After any calls a reading is sorted and gives for every gate the voltage
    requested last, or the initial one; [set_gate_voltages] returns the request,
    whatever it is. *)
Theorem sim_voltages l given : Forall (fun v => NoDup (index v)) (requests l) ->
  let s := fold_left sim_step l given in
  (forall g, get g (sim_read s) = match last_requested g (requests l) with Some x => x | None => get g given end) /\
  (forall g, In g (index (sim_read s)) <-> In g (index given) \/ exists v, In v (requests l) /\ In g (index v)) /\
  StronglySorted (fun a b => String.leb a b = true) (index (sim_read s)) /\
  forall v, snd (sim_set v s) = v.
Proof.
  intros H s. unfold sim_read. split; [|split; [|split; [rewrite index_sort_series; apply sorted_strongly, sort_sorted|reflexivity]]].
  - intros g. rewrite get_sort_series. subst s. revert given. induction l as [|o l IH]; intros given; [reflexivity|]. cbn [fold_left].
    destruct o as [v|]; cbn [sim_step sim_set fst]; [|apply IH, H]. change (requests (SimSet v :: l)) with (v :: requests l) in *. inversion H; subst. rewrite IH by assumption. cbn [last_requested].
    destruct (last_requested g (requests l)); [reflexivity|]. destruct (upserts_get v given H2) as [U1 U2].
    destruct (lookup g v) as [x|] eqn:E; [apply U1, lookup_in, E|apply U2, lookup_none, E].
  - intros g. rewrite index_sort_series, sort_in. subst s. clear H. revert given. induction l as [|o l IH]; intros given; cbn [fold_left].
    + cbn. split; [auto|]. intros [K|(v & [] & _)]. exact K.
    + rewrite IH. destruct o as [v|]; cbn [sim_step sim_set fst].
      * change (requests (SimSet v :: l)) with (v :: requests l). rewrite upserts_index. cbn [In]. split.
        -- intros [[K|K]|(v' & K1 & K2)]; [right; exists v; auto|left; exact K|right; exists v'; auto].
        -- intros [K|(v' & [<-|K1] & K2)]; [auto|auto|right; exists v'; auto].
      * reflexivity.
Qed.
Print Assumptions sim_voltages.
Example sim_voltages_ex : let s := fold_left sim_step [SimSet [("RFB", Fin 3)]; SimRead; SimSet [("A", Fin 1); ("RFB", NaN)]] two_gates in
  sim_read s = [("A", Fin 1); ("RFA", Fin 1); ("RFB", NaN)].
Proof. reflexivity. Qed.
(** The series the caller gave as initial voltages is the state of the
    experiment: it changes with every setting. *)
Theorem initial_voltages_refuted : exists given v g, In g (index given) /\ get g (fst (sim_set v given)) <> get g given.
Proof. exists two_gates, [("RFA", Fin 5)], "RFA". split; [left; reflexivity|]. cbn. intros E. injection E as E. lra. Qed.
Print Assumptions initial_voltages_refuted.
(** A measurement is simulated at the present voltages; one without simulator
    raises KeyError, which cannot happen with the measurements given at first. *)
Theorem sim_measured {A} (sims : list (nat * (series -> res A))) m given :
  (forall f, NoDup (map fst sims) -> In (m, f) sims -> sim_measure sims m given = f (sim_read given)) /\
  (~ In m (map fst sims) -> sim_measure sims m given = Raise KeyError) /\
  (forall measurements, sim_new measurements (map fst sims) = Ok tt -> In m measurements -> exists f, In (m, f) sims /\ sim_measure sims m given = f (sim_read given)).
Proof.
  assert (F : forall p, find (fun p => Nat.eqb (fst p) m) sims = Some p -> In p sims /\ fst p = m).
  { intros p E. apply find_some in E as [K1 K2]. apply Nat.eqb_eq in K2. auto. }
  assert (N : find (fun p => Nat.eqb (fst p) m) sims = None -> ~ In m (map fst sims)).
  { intros E C. apply in_map_iff in C as (p & Hp & K). pose proof (find_none _ _ E p K) as Q. cbv beta in Q. rewrite Hp, Nat.eqb_refl in Q. discriminate. }
  unfold sim_measure. destruct (find _ sims) as [[k f]|] eqn:E.
  - destruct (F _ eq_refl) as [K1 K2]. cbn in K2. subst k. split; [|split].
    + intros f' ND H. f_equal. clear - ND H K1. induction sims as [|[a h] sims IH]; [destruct H|]. inversion ND; subst. destruct H as [H|H], K1 as [K|K].
      * congruence.
      * injection H as -> ->. exfalso. apply H2. apply in_map_iff. exists (m, f). auto.
      * injection K as -> ->. exfalso. apply H2. apply in_map_iff. exists (m, f'). auto.
      * apply IH; assumption.
    + intros C. exfalso. apply C, in_map_iff. exists (m, f). auto.
    + intros ms _ _. exists f. auto.
  - specialize (N eq_refl). split; [|split; [reflexivity|]].
    + intros f _ H. exfalso. apply N, in_map_iff. exists (m, f). auto.
    + intros ms Hok Hm. exfalso. apply N. apply (proj1 (sim_constructor ms (map fst sims))) in Hok. apply Hok, Hm.
Qed.
Print Assumptions sim_measured.
Example sim_measured_ex : sim_measure [(4%nat, fun s => Ok (get "RFA" s)); (7%nat, fun s => Ok (get "RFB" s))] 7 two_gates = Ok (Fin 2).
Proof. reflexivity. Qed.
(** The simulated detuning scan never succeeds with numpy 1.18 or later. *)
Theorem detune_simulation_refuted options : exists e, detune_points true options = Raise e.
Proof.
  unfold detune_points. repeat match goal with |- context [find ?f ?o] => destruct (find f o) as [[? ?]|] end; eauto.
Qed.
Print Assumptions detune_simulation_refuted.
Example detune_ex : let o := [("center", 0); ("range", 0.002); ("N_points", 100); ("N_average", 10)] in
  detune_points true o = Raise TypeError /\ detune_points false o = Ok 100.
Proof. split; reflexivity. Qed.
