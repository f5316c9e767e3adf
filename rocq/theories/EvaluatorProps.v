(** Properties of the evaluators (C45, C46, C77-C81). *)
From Coq Require Import Lra Psatz Permutation ZArith.
From Verif Require Import PyBase TargetModel TunerModel TunerSpec SeriesLemmas SensingDotProofs.
From Verif Require Import UtilModel UtilSpec UtilProofs UtilProps EvaluatorModel EvaluatorSpec EvaluatorProofs.
Local Open Scope string_scope.
Local Open Scope R_scope.
Local Open Scope list_scope.

(** ** LeadTransition *)
(** Without faults the gates are back where they were, also if the processing
    raises; measurement i was taken with exactly the i-th shifting gate lowered
    by the width, each measurement once and in order. *)
Theorem lead_restores x width center range n_points n_meas shifting gates :
  NoDup (index gates) -> finite_gates gates -> incl shifting (index gates) -> (forall k, fault x k = None) ->
  let out := lead_evaluate x width center range n_points n_meas shifting (mk_lab gates []) in
  l_gates (fst out) = gates /\
  measurements_of (l_log (fst out)) = seq 0 (Nat.min n_meas (length shifting)) /\
  forall m at_, In (LMeasure m at_) (l_log (fst out)) ->
    exists g, nth_error shifting m = Some g /\ lowered g width gates at_.
Proof.
  intros Hnd Hf Hs Hq. cbn zeta. destruct (finite_is_vec gates Hnd Hf) as [f E]. set (ls := index gates) in *.
  rewrite E. rewrite lead_evaluate_ok by assumption.
  set (gs := firstn n_meas shifting).
  assert (G : forall log', measurements_of log' = [] ->
    measurements_of ((LRead :: rounds_log ls f width 0 gs) ++ log') = seq 0 (Nat.min n_meas (length shifting)) /\
    forall m at_, In (LMeasure m at_) ((LRead :: rounds_log ls f width 0 gs) ++ log') ->
      exists g, nth_error shifting m = Some g /\ lowered g width (vec ls f) at_).
  { intros log' H1. split.
    - change (LRead :: rounds_log ls f width 0 gs) with ([LRead] ++ rounds_log ls f width 0 gs).
      rewrite !measurements_app, H1, rounds_measurements, app_nil_r. unfold gs. now rewrite firstn_length.
    - intros m a Hin. apply in_app_or in Hin. destruct Hin as [Hin|Hin].
      2:{ exfalso. assert (K : In m (measurements_of log')) by (apply in_flat_map; exists (LMeasure m a); cbn; auto). now rewrite H1 in K. }
      cbn in Hin. destruct Hin as [Hin|Hin]; [discriminate|]. apply rounds_in in Hin. destruct Hin as (_ & g & Eg & ->).
      rewrite Nat.sub_0_r in Eg. exists g. split; [|apply low_lowered]. now apply firstn_nth in Eg. }
  destruct (lead_process _ _ _ _ _) as [o|e]; cbn [fst l_gates l_log]; (split; [reflexivity|]).
  - apply (G [LSet (vec ls f)]). reflexivity.
  - specialize (G [] eq_refl). rewrite app_nil_r in G. apply G.
Qed.
Definition calm (d : nat -> series -> list R) : setup := mk_setup (fun _ => None) d.
Definition two_gates : series := [("RFA", Fin 1); ("RFB", Fin 2)].
Example lead_restores_ex : NoDup (index two_gates) /\ finite_gates two_gates /\ incl lead_default_shifting (index two_gates).
Proof.
  split; [|split].
  - repeat constructor; cbn; intuition congruence.
  - intros k v [E|[E|[]]]; inversion E; eauto.
  - intros k [<-|[<-|[]]]; cbn; auto.
Qed.

(** If operation k is the first to fail, the call raises that exception; the
    gates are then as before if reading (k = 0) or the shift (k mod 3 = 1)
    failed, but stay lowered if the measurement or the way back failed. *)
Theorem lead_crash x width center range n_points n_meas shifting gates k e :
  NoDup (index gates) -> finite_gates gates -> incl shifting (index gates) ->
  (forall j, (j < k)%nat -> fault x j = None) -> fault x k = Some e -> (k <= 3 * Nat.min n_meas (length shifting))%nat ->
  let out := lead_evaluate x width center range n_points n_meas shifting (mk_lab gates []) in
  snd out = Raise e /\
  ((k = 0 \/ k mod 3 = 1)%nat -> l_gates (fst out) = gates) /\
  ((0 < k)%nat -> (k mod 3 <> 1)%nat -> exists g, nth_error shifting ((k - 1) / 3) = Some g /\ lowered g width gates (l_gates (fst out))).
Proof.
  intros Hnd Hf Hs Hq He Hk. cbn zeta. destruct (finite_is_vec gates Hnd Hf) as [f E]. set (ls := index gates) in *.
  rewrite E. destruct k as [|k].
  { rewrite (lead_evaluate_read_fault _ _ _ _ _ _ _ _ _ e) by assumption. cbn [fst snd l_gates]. split; [reflexivity|]. split; [reflexivity|lia]. }
  destruct (lead_evaluate_fault x ls f width center range n_points n_meas shifting Hnd Hs e k) as (g & log & Eg & ->); auto.
  cbn [fst snd l_gates]. replace (S k - 1)%nat with k by lia. split; [reflexivity|].
  assert (M : (S k mod 3 = 1 <-> k mod 3 = 0)%nat).
  { pose proof (Nat.mod_upper_bound k 3 ltac:(lia)). rewrite <- (Nat.add_1_r k). rewrite Nat.add_mod by lia.
    change (1 mod 3)%nat with 1%nat. destruct (k mod 3) as [|[|[|]]]; cbn; lia. }
  destruct (Nat.eqb_spec (k mod 3) 0).
  - split; [reflexivity|]. intros _ H. exfalso. apply H. now apply M.
  - split; [intros [H|H]; [discriminate|apply M in H; contradiction]|]. intros _ _. exists g. split; [assumption|apply low_lowered].
Qed.
(** The first measurement fails: RFB stays 4 mV lower. *)
Example lead_crash_ex :
  let x := mk_setup (fun k => if (k =? 2)%nat then Some (OtherError 0) else None) (fun _ _ => []) in
  let out := lead_evaluate x 0.004 0 0.004 320 2 lead_default_shifting (mk_lab two_gates []) in
  snd out = Raise (OtherError 0) /\ lookup "RFB" (l_gates (fst out)) = Some (Fin (2 - 0.004)).
Proof.
  cbn zeta. destruct lead_restores_ex as (A & B & C). set (x := mk_setup _ _).
  destruct (lead_crash x 0.004 0 0.004 320 2 lead_default_shifting two_gates 2 (OtherError 0) A B C) as (R & _ & L); auto.
  - intros j Hj. destruct j as [|[|j]]; [reflexivity|reflexivity|lia].
  - cbn. lia.
  - split; [exact R|]. destruct (L ltac:(lia) ltac:(discriminate)) as (g & Eg & _ & Lg). inversion Eg; subst g.
    apply (Lg "RFB" 2). reflexivity.
Qed.

(** Every value returned is a point of the scan of the first measurement; it
    belongs to the first place where the data of measurement i change most over
    a fixed number of points.  The error is constant. *)
Theorem lead_values x width center range n_points n_meas shifting gates vs es :
  0 < range -> NoDup (index gates) -> finite_gates gates -> incl shifting (index gates) -> (forall k, fault x k = None) ->
  let out := lead_evaluate x width center range n_points n_meas shifting (mk_lab gates []) in
  snd out = Ok (vs, es) ->
  length vs = Nat.min n_meas (length shifting) /\
  forall i, (i < length vs)%nat -> exists g at_ v j r w,
    nth_error shifting i = Some g /\ In (LMeasure i at_) (l_log (fst out)) /\
    nth_error vs i = Some (("position_" ++ g)%string, Fin v) /\
    nth_error es i = Some (("position_" ++ g)%string, Fin (0.00001 * 0.00001)) /\
    center - range <= v <= center + range /\
    INR w <= 0.0002 / range * INR n_points < INR w + 1 /\ even_rounding w r /\
    first_max (fun i' => Rabs (nth i' (measured x i at_) 0 - nth (i' + w) (measured x i at_) 0)) (length (measured x i at_) - w - 1) j /\
    (n_points = 1%nat \/ v = center - range + INR (j + r) * (2 * range / INR (n_points - 1))).
Proof.
  intros Hr Hnd Hf Hs Hq. cbn zeta. destruct (finite_is_vec gates Hnd Hf) as [f E]. set (ls := index gates) in *.
  rewrite E. rewrite lead_evaluate_ok by assumption. set (gs := firstn n_meas shifting).
  destruct (lead_process _ _ _ _ _) as [o|e] eqn:Ep; cbn [fst snd l_log]; [|discriminate].
  intros Eo. inversion Eo; subst o. apply lead_process_entries in Ep. destruct Ep as [L N].
  rewrite rounds_data_length in L. unfold gs in L. rewrite firstn_length in L. fold gs in N.
  assert (L' : length vs = Nat.min n_meas (length shifting)) by lia. split; [exact L'|]. intros i Hi.
  destruct (nth_error gs i) as [g|] eqn:Eg.
  2:{ apply nth_error_None in Eg. unfold gs in Eg. rewrite firstn_length in Eg. lia. }
  assert (Eg' := firstn_nth n_meas shifting i g Eg).
  destruct (N i (measured x i (low ls f g width)) g) as (k & v & Ek & Ev & Evs & Ees).
  - rewrite rounds_data_nth. rewrite Eg. reflexivity.
  - assumption.
  - set (d := measured x i (low ls f g width)) in *. set (w := lead_lag range n_points) in *.
    destruct (le_lt_dec (length d) (w + 1)) as [Hle|Hlt].
    { rewrite (proj2 (transition_index_max d w)) in Ek by assumption. discriminate. }
    destruct (proj1 (transition_index_max d w) ltac:(lia)) as (j & r & Ej & Er & Fm & Hj).
    rewrite Ek in Ej. inversion Ej; subst k.
    exists g, (low ls f g width), v, j, r, w. split; [assumption|]. split.
    { apply in_or_app. left. right. apply (rounds_log_has ls f width gs 0 i g Eg). }
    split; [assumption|]. split; [assumption|]. split; [eapply linspace_in; [|exact Ev]; lra|].
    split; [apply lead_lag_floor; assumption|]. split; [assumption|]. split; [exact Fm|].
    destruct (Nat.eq_dec n_points 1) as [->|Hn]; [now left|right].
    unfold linspace in Ev. rewrite nth_error_map in Ev. destruct (nth_error (seq 0 n_points) (j + r)) as [q|] eqn:Eq; [|discriminate].
    assert (Hq' : (j + r < n_points)%nat). { rewrite <- (seq_length n_points 0). apply nth_error_Some. congruence. }
    rewrite (nth_error_nth' _ 0%nat) in Eq by (now rewrite seq_length). rewrite seq_nth in Eq by assumption. inversion Eq; subst q.
    cbn in Ev. destruct (Nat.eqb_spec n_points 1); [contradiction|]. inversion Ev. f_equal. f_equal. f_equal. ring.
Qed.
(** It returns whenever the data have the announced length, which has to be
    more than one width. *)
Theorem lead_returns x width center range n_points n_meas shifting gates :
  0 < range -> NoDup (index gates) -> finite_gates gates -> incl shifting (index gates) -> (forall k, fault x k = None) ->
  (forall m at_, length (measured x m at_) = n_points) -> 0.0002 / range * INR n_points < INR n_points - 1 ->
  exists o, snd (lead_evaluate x width center range n_points n_meas shifting (mk_lab gates [])) = Ok o.
Proof.
  intros Hr Hnd Hf Hs Hq Hl Hw. destruct (finite_is_vec gates Hnd Hf) as [f E]. set (ls := index gates) in *.
  rewrite E. rewrite lead_evaluate_ok by assumption.
  destruct (lead_process_total center range n_points (rounds_data x ls f width 0 (firstn n_meas shifting)) shifting) as [o ->].
  - pose proof (lead_lag_floor range n_points Hr). apply INR_lt. rewrite plus_INR. cbn [INR]. lra.
  - intros d Hd. apply In_nth_error in Hd. destruct Hd as [k Hk]. rewrite rounds_data_nth in Hk.
    destruct (nth_error _ k); [|discriminate]. inversion Hk. apply Hl.
  - eexists; reflexivity.
Qed.
Example lead_returns_ex : exists o,
  snd (lead_evaluate (calm (fun _ _ => repeat 0 320)) 0.004 0 0.004 320 2 lead_default_shifting (mk_lab two_gates [])) = Ok o.
Proof.
  destruct lead_restores_ex as (A & B & C). apply lead_returns; auto; [lra|].
  replace (INR 320) with 320 by (rewrite INR_IZR_INZ; reflexivity). lra.
Qed.
(** Claim "the value called position_X is the position of the transition in the
    scan of gate X": refuted for the defaults, every value carries the name of
    the other gate. *)
Theorem lead_labels_refuted x width center range n_points gates vs es i name v :
  0 < range -> NoDup (index gates) -> finite_gates gates -> incl lead_default_shifting (index gates) -> (forall k, fault x k = None) ->
  snd (lead_evaluate x width center range n_points (length lead_default_sweeping) lead_default_shifting (mk_lab gates [])) = Ok (vs, es) ->
  nth_error vs i = Some (name, v) ->
  exists swept, nth_error lead_default_sweeping i = Some swept /\ name <> ("position_" ++ swept)%string /\
    In name ["position_RFA"; "position_RFB"].
Proof.
  intros Hr Hnd Hf Hs Hq E Ei. destruct (lead_values x width center range n_points _ _ gates vs es Hr Hnd Hf Hs Hq E) as [L N].
  assert (Hi : (i < length vs)%nat) by (apply nth_error_Some; congruence). destruct (N i Hi) as (g & a & v' & j & r & w & Eg & _ & Ev & _).
  rewrite Ei in Ev. inversion Ev; subst. rewrite L in Hi. cbn in Hi.
  destruct i as [|[|i]]; [| |lia]; cbn in Eg; inversion Eg; subst; eexists; (split; [reflexivity|]); split; cbn; auto; discriminate.
Qed.

(** Claim "the points compared are the transition width of 0.2 mV apart": refuted.
    The scan goes from [center - range] to [center + range], and the points are
    0.4 mV apart up to the distance of neighbours. *)
Theorem lead_window_refuted center range n k :
  0 < range -> (2 <= n)%nat -> (k + lead_lag range n < n)%nat ->
  let axis i := nth i (linspace (center - range) (center + range) n) 0 in
  let spacing := 2 * range / INR (n - 1) in
  let d := axis (k + lead_lag range n)%nat - axis k in
  0.0004 - spacing < d <= 0.0004 + 0.0004 / INR (n - 1) /\ (spacing <= 0.0002 -> 0.0002 < d).
Proof.
  intros Hr Hn Hk axis spacing d. pose proof (lead_lag_floor range n Hr) as [F1 F2]. set (w := lead_lag range n) in *.
  assert (P : 1 <= INR (n - 1)). { change 1 with (INR 1). apply le_INR. lia. }
  assert (En : INR n = INR (n - 1) + 1). { rewrite <- S_INR. f_equal. lia. }
  assert (A : forall i, (i < n)%nat -> axis i = center - range + INR i * spacing).
  { intros i Hi. unfold axis, linspace. apply nth_error_nth. rewrite nth_error_map, (nth_error_nth' _ 0%nat) by (now rewrite seq_length).
    rewrite seq_nth by exact Hi. cbn [Nat.add option_map]. destruct (Nat.eqb_spec n 1); [lia|]. unfold spacing. f_equal. f_equal. f_equal. field. lra. }
  assert (D : d = INR w * spacing). { unfold d. rewrite !A by lia. rewrite plus_INR. ring. }
  assert (S0 : 0 < spacing). { unfold spacing. apply Rdiv_lt_0_compat; lra. }
  assert (Q : 0.0002 / range * INR n * spacing = 0.0004 + 0.0004 / INR (n - 1)).
  { unfold spacing. rewrite En. replace 0.0004 with (2 * 0.0002) by lra. set (q := 0.0002). field. lra. }
  assert (T : 0 < 0.0004 / INR (n - 1)) by (apply Rdiv_lt_0_compat; lra).
  assert (U : INR w * spacing <= 0.0002 / range * INR n * spacing) by (apply Rmult_le_compat_r; lra).
  assert (V : 0.0002 / range * INR n * spacing < (INR w + 1) * spacing) by (apply Rmult_lt_compat_r; lra).
  rewrite D. split; [split; lra|]. intros Hs. lra.
Qed.
(** The default scan: 16 points, 0.401 mV. *)
Example lead_window_ex : lead_lag 0.004 320 = 16%nat /\ 0.0004 < 16 * (2 * 0.004 / 319) < 0.000402.
Proof.
  split; [|lra]. pose proof (lead_lag_floor 0.004 320 ltac:(lra)) as [F1 F2]. set (w := lead_lag 0.004 320) in *.
  replace (INR 320) with 320 in * by (rewrite INR_IZR_INZ; reflexivity).
  assert ((16 < w + 1)%nat) by (apply INR_lt; rewrite plus_INR; change (INR 1) with 1; replace (INR 16) with 16 by (rewrite INR_IZR_INZ; reflexivity); lra).
  assert ((w < 17)%nat) by (apply INR_lt; replace (INR 17) with 17 by (rewrite INR_IZR_INZ; reflexivity); lra).
  lia.
Qed.

(** ** AveragingEvaluator *)
Section Avg.
  Context {W : Type} (inner : W -> W * res (series * series)).
  Lemma repeat_runs n w ps w' : runs inner n w ps w' -> repeat_inner inner n w = (w', Ok ps).
  Proof. induction 1 as [w|n w w1 w2 p e ps H _ IH]; [reflexivity|]. cbn. now rewrite H, IH. Qed.
  Lemma pick_ok l ps : (forall p, In p ps -> lookup l p <> None) -> pick l ps = Ok (map (fun p => get l p) ps).
  Proof.
    induction ps as [|p ps IH]; intros H; [reflexivity|]. cbn [pick map]. unfold get at 1. destruct (lookup l p) eqn:E.
    - rewrite IH by (intros; apply H; now right). reflexivity.
    - exfalso. apply (H p); [now left|assumption].
  Qed.
  Lemma average_ok parameters ps : (forall l p, In l parameters -> In p ps -> lookup l p <> None) ->
    average parameters ps = Ok (map (fun l => (l, nanmean (map (get l) ps))) parameters,
                                map (fun l => (l, ndiv (nanvar (map (get l) ps)) (ncount (non_nan (map (get l) ps))))) parameters).
  Proof.
    induction parameters as [|l ls IH]; intros H; [reflexivity|]. cbn [average map].
    rewrite pick_ok by (intros; apply H; auto; now left). rewrite IH by (intros; apply H; auto; now right). reflexivity.
  Qed.
  Lemma pick_missing l ps p : In p ps -> lookup l p = None -> pick l ps = Raise KeyError.
  Proof.
    induction ps as [|q ps IH]; intros H E; [destruct H|]. cbn [pick]. destruct H as [->|H]; [now rewrite E|].
    destruct (lookup l q); [|reflexivity]. now rewrite IH.
  Qed.
  Lemma pick_raise l ps e : pick l ps = Raise e -> e = KeyError.
  Proof.
    induction ps as [|q ps IH]; [discriminate|]. cbn [pick]. destruct (lookup l q); [|congruence].
    destruct (pick l ps) as [|e']; [discriminate|]. intros E. inversion E; subst. auto.
  Qed.
  Lemma average_missing l p parameters ps : In l parameters -> In p ps -> lookup l p = None -> average parameters ps = Raise KeyError.
  Proof.
    intros Hl Hp E. induction parameters as [|k ks IH]; [destruct Hl|]. cbn [average]. destruct Hl as [->|Hl].
    - now rewrite (pick_missing l ps p).
    - destruct (pick k ps) eqn:Ek; [|f_equal; eapply pick_raise; eauto]. now rewrite IH.
  Qed.
End Avg.

(** Values are averaged over the repetitions that gave a number.  The mean lies
    between the smallest and the largest one, the error is the squared standard
    error without Bessel's correction; zero iff all numbers agree. *)
Theorem averaging_result {W} (inner : W -> W * res (series * series)) n parameters w w' ps l :
  runs inner n w ps w' -> (forall k p, In k parameters -> In p ps -> lookup k p <> None) -> NoDup parameters -> In l parameters ->
  let values := map (get l) ps in
  no_infinity values ->
  exists avg err, averaging_evaluate inner n parameters w = (w', Ok (avg, err)) /\
    index avg = parameters /\ index err = parameters /\
    (finite_values values = [] -> lookup l avg = Some NaN /\ lookup l err = Some NaN) /\
    (finite_values values <> [] ->
       let m := rmean (finite_values values) in let v := rvar (finite_values values) / INR (length (finite_values values)) in
       lookup l avg = Some (Fin m) /\ lookup l err = Some (Fin v) /\ 0 <= v /\
       (forall lo hi, (forall r, In r (finite_values values) -> lo <= r <= hi) -> lo <= m <= hi) /\
       (v = 0 <-> forall a b, In a (finite_values values) -> In b (finite_values values) -> a = b)).
Proof.
  intros R K Hnd Hl. cbn zeta. intros Hi. unfold averaging_evaluate. rewrite (repeat_runs _ _ _ _ _ R).
  rewrite average_ok by assumption. do 2 eexists. split; [reflexivity|].
  assert (I : forall g : label -> num, index (map (fun k => (k, g k)) parameters) = parameters).
  { intros g. unfold index. rewrite map_map. cbn. apply map_id. }
  split; [apply I|]. split; [apply I|].
  assert (LK : forall g : label -> num, lookup l (map (fun k => (k, g k)) parameters) = Some (g l)).
  { intros g. change (map (fun k => (k, g k)) parameters) with (tab parameters g). rewrite lookup_tab. apply mem_In in Hl. now rewrite Hl. }
  rewrite (LK (fun k => nanmean (map (get k) ps))), (LK (fun k => ndiv (nanvar (map (get k) ps)) (ncount (non_nan (map (get k) ps))))).
  set (values := map (get l) ps) in *. split.
  - intros E. unfold nanmean, nanvar. cbn zeta. rewrite finite_of_non_nan by assumption. rewrite E. cbn [map nsum fold_right].
    change (ncount []) with (Fin 0). rewrite ndiv_0_0. split; reflexivity.
  - intros Hne. assert (P : 0 < INR (length (finite_values values))) by (apply lt_0_INR; destruct (finite_values values); [congruence|cbn; lia]).
    rewrite nanmean_fin, nanvar_fin by assumption. rewrite finite_of_non_nan, ncount_fin by assumption. rewrite ndiv_fin by lra.
    split; [reflexivity|]. split; [reflexivity|]. split.
    { apply Rmult_le_pos; [now apply rvar_nonneg|left; now apply Rinv_0_lt_compat]. }
    split; [intros lo hi H; now apply rmean_bounds|].
    rewrite <- (rvar_zero _ Hne). split; intros Z.
    + apply Rmult_integral in Z. destruct Z as [Z|Z]; [assumption|]. exfalso. revert Z. apply Rinv_neq_0_compat. lra.
    + rewrite Z. unfold Rdiv. ring.
Qed.
Example averaging_result_ex : exists avg err,
  averaging_evaluate (fun k : nat => (S k, Ok ([("a", nth k [Fin 1; NaN; Fin 3] NaN)], []))) 3 ["a"] 0%nat = (3%nat, Ok (avg, err)) /\
  lookup "a" avg = Some (Fin 2) /\ lookup "a" err = Some (Fin 0.5).
Proof.
  set (inner := fun k : nat => _).
  destruct (averaging_result inner 3 ["a"] 0%nat 3%nat [[("a", Fin 1)]; [("a", NaN)]; [("a", Fin 3)]] "a") as (avg & err & E & _ & _ & _ & H).
  - repeat (eapply runs_more; [reflexivity|]). apply runs_none.
  - intros k p [<-|[]] [<-|[<-|[<-|[]]]]; discriminate.
  - repeat constructor. intros [].
  - now left.
  - split; cbn; intuition discriminate.
  - exists avg, err. split; [exact E|]. destruct H as (A & B & _); [discriminate|]. rewrite A, B. cbn. unfold rmean, rvar, rmean, Rsqr. cbn.
    split; do 2 f_equal; lra.
Qed.
(** A single repetition that gives a number is reported with variance 0, i.e.
    as if it were exact, whatever error the inner evaluator reported. *)
Theorem averaging_single_refuted {W} (inner : W -> W * res (series * series)) parameters w w' p e l r :
  inner w = (w', Ok (p, e)) -> (forall k, In k parameters -> lookup k p <> None) -> NoDup parameters -> In l parameters ->
  lookup l p = Some (Fin r) ->
  exists avg err, averaging_evaluate inner 1 parameters w = (w', Ok (avg, err)) /\
    lookup l avg = Some (Fin r) /\ lookup l err = Some (Fin 0).
Proof.
  intros H K Hnd Hl Er.
  assert (G : get l p = Fin r) by (unfold get; now rewrite Er).
  destruct (averaging_result inner 1 parameters w w' [p] l) as (avg & err & E & _ & _ & _ & F).
  - eapply runs_more; [exact H|apply runs_none].
  - intros k q Hk [<-|[]]. auto.
  - assumption.
  - assumption.
  - cbn. rewrite G. split; cbn; intuition discriminate.
  - exists avg, err. split; [exact E|]. cbn [map] in F. rewrite G in F. cbn [finite_values flat_map app] in F.
    destruct F as (A & B & _); [discriminate|]. rewrite A, B. unfold rmean, rvar, rmean, rsum, Rsqr. cbn. split; do 2 f_equal; field.
Qed.
(** An exception of the inner evaluator ends the call at once, a parameter that
    the inner evaluator does not deliver raises KeyError. *)
Theorem averaging_raises {W} (inner : W -> W * res (series * series)) k n parameters w w1 w2 ps e :
  runs inner k w ps w1 ->
  (inner w1 = (w2, Raise e) -> (k < n)%nat -> averaging_evaluate inner n parameters w = (w2, Raise e)) /\
  (forall l p, In l parameters -> In p ps -> lookup l p = None -> k = n -> averaging_evaluate inner n parameters w = (w1, Raise KeyError)).
Proof.
  intros R. split.
  - intros H Hk. unfold averaging_evaluate. replace (repeat_inner inner n w) with (w2, @Raise (list series) e); [reflexivity|].
    revert n Hk. induction R as [w|k w w1 w1' p e' ps H' R IH]; intros n Hk; (destruct n as [|n]; [lia|]); cbn [repeat_inner].
    + now rewrite H.
    + rewrite H'. rewrite <- IH; auto. lia.
  - intros l p Hl Hp E ->. unfold averaging_evaluate. rewrite (repeat_runs _ _ _ _ _ R). f_equal.
    eapply average_missing; eauto.
Qed.
Example averaging_raises_ex :
  averaging_evaluate (fun k : nat => (S k, if (k =? 1)%nat then Raise RuntimeError else Ok ([("a", Fin 1)], []))) 3 ["a"] 0%nat = (2%nat, Raise RuntimeError) /\
  averaging_evaluate (fun k : nat => (S k, Ok ([("b", Fin 1)], []))) 2 ["a"] 0%nat = (2%nat, Raise KeyError).
Proof. split; reflexivity. Qed.
(** The averaged value is NaN iff all repetitions are NaN or infinities of both
    signs occur. *)
Theorem nanmean_nan xs : nanmean xs = NaN <-> (forall x, In x xs -> x = NaN) \/ (In PInf xs /\ In MInf xs).
Proof.
  assert (S : forall ys, ~ In NaN ys -> (nsum ys = NaN <-> In PInf ys /\ In MInf ys) /\
     (nsum ys = PInf -> In PInf ys /\ ~ In MInf ys) /\ (nsum ys = MInf -> In MInf ys /\ ~ In PInf ys) /\
     (forall r, nsum ys = Fin r -> ~ In PInf ys /\ ~ In MInf ys)).
  { induction ys as [|y ys IH]; intros H.
    - cbn. split; [split; [discriminate|tauto]|]. split; [discriminate|]. split; [discriminate|tauto].
    - cbn in H. destruct IH as (A & B & C & D); [tauto|]. change (nsum (y :: ys)) with (nadd y (nsum ys)).
      destruct (nsum ys) as [| | |r] eqn:E;
        [destruct (proj1 A eq_refl)|destruct (C eq_refl)|destruct (B eq_refl)|destruct (D r eq_refl)];
        destruct y; try tauto; cbn; intuition (try discriminate; auto). }
  assert (N : ~ In NaN (non_nan xs)) by (intros H; apply filter_In in H; destruct H; discriminate).
  destruct (S (non_nan xs) N) as (A & B & C & D). unfold nanmean, ncount.
  assert (I : forall y, y <> NaN -> In y (non_nan xs) <-> In y xs).
  { intros y Hy. unfold non_nan. rewrite filter_In. destruct y; cbn; intuition congruence. }
  assert (Z : (forall x, In x xs -> x = NaN) <-> non_nan xs = []).
  { split; intros H.
    - destruct (non_nan xs) as [|y ys] eqn:E; [reflexivity|]. exfalso. assert (K : In y (non_nan xs)) by (rewrite E; now left).
      unfold non_nan in K. apply filter_In in K. destruct K as [K K']. apply H in K. subst. discriminate.
    - intros x Hx. destruct x; auto; apply I in Hx; try discriminate; rewrite H in Hx; destruct Hx. }
  rewrite Z. assert (I1 := I PInf ltac:(discriminate)). assert (I2 := I MInf ltac:(discriminate)). rewrite <- I1, <- I2.
  destruct (non_nan xs) as [|y ys] eqn:E.
  - change (Fin (INR (length (@nil num)))) with (Fin 0). change (nsum []) with (Fin 0). rewrite ndiv_0_0. split; auto.
  - assert (P : 0 < INR (length (y :: ys))) by (apply lt_0_INR; cbn; lia).
    assert (Q : Rltb (INR (length (y :: ys))) 0 = false) by (apply Rltb_false; lra).
    assert (Q' : Reqb (INR (length (y :: ys))) 0 = false) by (apply Reqb_false; lra).
    assert (NE : y :: ys <> []) by discriminate.
    destruct (nsum (y :: ys)) as [| | |r] eqn:Es; cbn [ndiv].
    + tauto.
    + rewrite Q. split; [discriminate|]. intros [H|H]; [congruence|]. destruct (C eq_refl). tauto.
    + rewrite Q. split; [discriminate|]. intros [H|H]; [congruence|]. destruct (B eq_refl). tauto.
    + rewrite Q'. split; [discriminate|]. intros [H|H]; [congruence|]. destruct (D r eq_refl). tauto.
Qed.
Example nanmean_nan_ex : nanmean [PInf; MInf; Fin 1] = NaN /\ nanmean [NaN; PInf] <> NaN.
Proof.
  split; [apply nanmean_nan; right; cbn; auto|]. rewrite nanmean_nan. intros [H|[_ H]].
  - specialize (H PInf ltac:(cbn; auto)). discriminate.
  - cbn in H. intuition discriminate.
Qed.

(** ** Failed fits *)
(** A fit that does not converge (RuntimeError) becomes a NaN result of the
    tunnel coupling and load time evaluators; every other exception, and every
    exception of the measurement, passes through.  LeadTunnelTime passes all. *)
Theorem failed_fit dims fit e : (dims <= 2)%nat ->
  (fit = Raise e -> In e [RuntimeError; EvaluationError; RecursionError] ->
     (exists p err, tc_evaluate (Ok dims) fit = Ok (p, err) /\ p = [("parameter_tunnel_coupling", NaN)] /\ err = p) /\
     (exists p err, load_evaluate (Ok dims) fit = Ok (p, err) /\ p = [("parameter_time_load", NaN)] /\ err = p)) /\
  (fit = Raise e -> ~ In e [RuntimeError; EvaluationError; RecursionError] ->
     tc_evaluate (Ok dims) fit = Raise e /\ load_evaluate (Ok dims) fit = Raise e) /\
  (fit = Raise e -> lead_time_evaluate (Ok dims) fit = Raise e) /\
  (tc_evaluate (Raise e) fit = Raise e /\ load_evaluate (Raise e) fit = Raise e /\ lead_time_evaluate (Raise e) fit = Raise e).
Proof.
  intros Hd. unfold tc_evaluate, load_evaluate, lead_time_evaluate.
  assert (D : (2 <? dims)%nat = false) by (apply Nat.ltb_ge; assumption). rewrite D.
  split; [|split; [|split]].
  - intros -> H. assert (B : is_runtime_error e = true) by (destruct H as [<-|[<-|[<-|[]]]]; reflexivity). rewrite B.
    split; do 2 eexists; repeat split; reflexivity.
  - intros -> H. assert (B : is_runtime_error e = false) by (destruct e; cbn in *; try reflexivity; exfalso; apply H; tauto). rewrite B.
    split; reflexivity.
  - intros ->. reflexivity.
  - repeat split.
Qed.
Example failed_fit_ex : tc_evaluate (Ok 1%nat) (Raise ValueError) = Raise ValueError /\
  load_evaluate (Ok 1%nat) (Raise RuntimeError) = Ok ([("parameter_time_load", NaN)], [("parameter_time_load", NaN)]).
Proof. split; reflexivity. Qed.

(** A fit that converges is delivered as it is; the variances of the lead times
    are a fifth of the times.  Tunnel coupling data of more than two dimensions
    are not fitted at all. *)
Theorem good_fit dims v r : 
  ((dims <= 2)%nat -> tc_evaluate (Ok dims) (Ok (v, r)) = Ok ([("parameter_tunnel_coupling", v)], [("parameter_tunnel_coupling", r)])) /\
  ((2 < dims)%nat -> forall fit, tc_evaluate (Ok dims) fit = Ok ([("parameter_tunnel_coupling", NaN)], [("parameter_tunnel_coupling", NaN)])) /\
  load_evaluate (Ok dims) (Ok (v, r)) = Ok ([("parameter_time_load", v)], [("parameter_time_load", r)]) /\
  exists e, lead_time_evaluate (Ok dims) (Ok (v, r)) = Ok ([("parameter_time_rise", v); ("parameter_time_fall", r)], e) /\
    lookup "parameter_time_rise" e = Some (ndiv v (Fin 5)) /\ lookup "parameter_time_fall" e = Some (ndiv r (Fin 5)) /\ index e = ["parameter_time_rise"; "parameter_time_fall"].
Proof.
  split; [|split; [|split]].
  - intros H. unfold tc_evaluate. rewrite (proj2 (Nat.ltb_ge 2 dims) H). reflexivity.
  - intros H fit. unfold tc_evaluate. rewrite (proj2 (Nat.ltb_lt 2 dims) H). reflexivity.
  - reflexivity.
  - eexists. repeat split.
Qed.
Example good_fit_ex : tc_evaluate (Ok 3%nat) (Raise ValueError) = Ok ([("parameter_tunnel_coupling", NaN)], [("parameter_tunnel_coupling", NaN)]) /\
  tc_evaluate (Ok 1%nat) (Ok (Fin 2, Fin 1)) = Ok ([("parameter_tunnel_coupling", Fin 2)], [("parameter_tunnel_coupling", Fin 1)]).
Proof. split; [apply (good_fit 3 NaN NaN); lia|apply (good_fit 1 (Fin 2) (Fin 1)); lia]. Qed.

(** ** Sensing dot scans *)
(** Claim "SensingDot1D.evaluate returns the working point": refuted, no
    experiment whatsoever makes it return. *)
Theorem sensing_1d_refuted center data coef : exists e, sensing_1d_evaluate center data coef = Raise e /\
  ((exists c, center = Ok c) -> (exists d, data = Ok d) -> (exists c, coef = Ok c) -> e = AttributeError).
Proof.
  unfold sensing_1d_evaluate. destruct center; [destruct data; [destruct coef|]|]; eexists; (split; [reflexivity|]);
    intros [? H1] [? H2] [? H3]; congruence.
Qed.
Example sensing_1d_refuted_ex : sensing_1d_evaluate (Ok (Fin 0)) (Ok [1; 2]) (Ok [0]) = Raise AttributeError.
Proof. reflexivity. Qed.

(** The two dimensional scan: the result is a point of the scan at least one
    25th of the line away from both ends; for the "rising" flank it is the place
    where the signal decreases most, for the other where it increases most.
    Lines shorter than 25 points raise. *)
Theorem sensing_2d_flank rising x0 x1 lines :
  (forall l, In l lines -> length l = length x1) -> length x0 = length lines -> lines <> [] ->
  let c := (length x1 / 25)%nat in
  ((25 <= length x1)%nat -> exists i j a b, sensing_2d_point rising x0 x1 lines = Ok (a, b) /\
     nth_error x0 i = Some a /\ nth_error x1 j = Some b /\ (c <= j)%nat /\ (j + c + 1 < length x1)%nat /\
     forall i' j', (i' < length lines)%nat -> (c <= j')%nat -> (j' + c + 1 < length x1)%nat ->
       if rising then slope_at lines i j <= slope_at lines i' j' else slope_at lines i' j' <= slope_at lines i j) /\
  ((length x1 < 25)%nat -> sensing_2d_point rising x0 x1 lines = Raise ValueError).
Proof.
  intros Hl H0 Hne. cbn zeta. set (c := (length x1 / 25)%nat). split.
  - intros Hn. destruct (div_twice (length x1) Hn) as [Hc Hc2]. fold c in Hc, Hc2.
    unfold sensing_2d_point. cbn zeta. fold c. set (w := (length x1 - 1 - c - c)%nat). assert (Hw : (0 < w)%nat) by lia.
    assert (Ew : w = (length x1 - 1 - c - c)%nat) by reflexivity. clearbody w.
    set (rows := map (fun l => cut c (np_diff l)) lines).
    assert (Lr : forall r, In r rows -> length r = w).
    { intros r Hr. apply in_map_iff in Hr. destruct Hr as (l & <- & Hin). rewrite cut_length, np_diff_length, (Hl l Hin) by assumption. lia. }
    assert (Lc : length (concat rows) = (length lines * w)%nat).
    { rewrite (concat_rows rows w Lr). unfold rows. now rewrite map_length. }
    assert (Pl : (0 < length lines)%nat) by (destruct lines; [congruence|cbn; lia]).
    assert (NE : concat rows <> []) by (intros E; rewrite E in Lc; cbn in Lc; nia).
    assert (V : forall i j, (i < length lines)%nat -> (j < w)%nat -> nth (i * w + j) (concat rows) 0 = slope_at lines i (j + c)).
    { intros i j Hi Hj. rewrite (concat_nth rows w) by assumption.
      rewrite Nat.add_comm, Nat.mod_add, Nat.div_add by lia. rewrite Nat.mod_small, Nat.div_small by assumption. cbn [Nat.add].
      assert (Er : nth i rows [] = cut c (np_diff (nth i lines []))).
      { unfold rows. rewrite nth_indep with (d' := cut c (np_diff [])) by (now rewrite map_length).
        apply (map_nth (fun l => cut c (np_diff l)) lines []). }
      rewrite Er. assert (Li : length (nth i lines []) = length x1) by (apply Hl, nth_In, Hi).
      rewrite cut_nth; [|assumption|rewrite np_diff_length, Li; lia].
      rewrite np_diff_nth by (rewrite Li; lia). reflexivity. }
    assert (A : exists k, (if rising then argmin else argmax) (concat rows) = Ok k /\ (k < length lines * w)%nat /\
      forall k', (k' < length lines * w)%nat -> if rising then nth k (concat rows) 0 <= nth k' (concat rows) 0 else nth k' (concat rows) 0 <= nth k (concat rows) 0).
    { destruct rising.
      - destruct (argmin_first _ NE) as (k & E & F1 & F2 & _). rewrite Lc in F1, F2. exists k. repeat split; auto.
        intros k' Hk'. specialize (F2 k' Hk'). cbn beta in F2. lra.
      - destruct (argmax_first _ NE) as (k & E & F1 & F2 & _). rewrite Lc in F1, F2. exists k. repeat split; auto. }
    destruct A as (k & E & Hk & M). rewrite E.
    assert (Hi : (k / w < length lines)%nat) by (apply Nat.div_lt_upper_bound; lia).
    assert (Hj : (k mod w < w)%nat) by (apply Nat.mod_upper_bound; lia).
    destruct (nth_error x0 (k / w)) as [a|] eqn:Ea; [|apply nth_error_None in Ea; lia].
    destruct (nth_error x1 (k mod w + c)) as [b|] eqn:Eb; [|apply nth_error_None in Eb; lia].
    exists (k / w)%nat, (k mod w + c)%nat, a, b. split; [reflexivity|]. split; [assumption|]. split; [assumption|].
    split; [lia|]. split; [lia|]. intros i' j' Hi' H1 H2.
    assert (Ek : slope_at lines (k / w) (k mod w + c) = nth k (concat rows) 0).
    { rewrite <- V by assumption. f_equal. rewrite Nat.mul_comm. symmetry. apply Nat.div_mod. lia. }
    rewrite Ek. assert (Hj' : (j' - c < w)%nat) by (lia).
    assert (Ek' : slope_at lines i' j' = nth (i' * w + (j' - c)) (concat rows) 0).
    { rewrite V by assumption. f_equal. lia. }
    rewrite Ek'. apply M. nia.
  - intros Hn. assert (Z : c = O) by (apply Nat.div_small; assumption). unfold sensing_2d_point. cbn zeta. fold c. rewrite Z.
    assert (C : concat (map (fun l => cut 0 (np_diff l)) lines) = []).
    { clear. induction lines; [reflexivity|]. cbn. assumption. }
    rewrite C. destruct rising; reflexivity.
Qed.
(** Claim "with rising_flank the point of the steepest rise is returned":
    refuted by a line that falls once, from 1 to 0, and rises once, from 0 to 3. *)
Theorem sensing_2d_refuted :
  let line := repeat 1 13 ++ repeat 0 7 ++ repeat 3 10 in
  let x1 := map INR (seq 0 30) in
  sensing_2d_point true [0] x1 [line] = Ok (0, 12) /\ sensing_2d_point false [0] x1 [line] = Ok (0, 19) /\
  slope_at [line] 0 12 = -1 /\ slope_at [line] 0 19 = 3.
Proof.
  set (line := repeat 1 13 ++ repeat 0 7 ++ repeat 3 10). set (x1 := map INR (seq 0 30)). cbn zeta.
  assert (S1 : slope_at [line] 0 12 = -1) by (unfold slope_at; cbn; ring).
  assert (S2 : slope_at [line] 0 19 = 3) by (unfold slope_at; cbn; ring).
  assert (P : forall rising, exists j b, sensing_2d_point rising [0] x1 [line] = Ok (0, b) /\ nth_error x1 j = Some b /\ (1 <= j < 28)%nat /\
    if rising then slope_at [line] 0 j <= -1 else 3 <= slope_at [line] 0 j).
  { intros rising. destruct (proj1 (sensing_2d_flank rising [0] x1 [line] ltac:(intros l [<-|[]]; reflexivity) eq_refl ltac:(discriminate)))
      as (i & j & a & b & E & Ea & Eb & H1 & H2 & M); [cbn; lia|].
    change (length x1 / 25)%nat with 1%nat in *. change (length x1) with 30%nat in *.
    destruct i as [|i]; [|destruct i; discriminate]. inversion Ea; subst a. exists j, b. split; [exact E|]. split; [exact Eb|]. split; [lia|].
    destruct rising; [rewrite <- S1|rewrite <- S2]; apply (M 0%nat); cbn; lia. }
  split; [|split; [|split; assumption]].
  - destruct (P true) as (j & b & E & Eb & Hj & Hs). rewrite E. do 2 f_equal.
    assert (j = 12)%nat; [|subst j; cbn in Eb; inversion Eb; ring].
    do 28 (destruct j as [|j]; [try reflexivity; exfalso; first [lia | unfold slope_at in Hs; cbn in Hs; lra]|]). lia.
  - destruct (P false) as (j & b & E & Eb & Hj & Hs). rewrite E. do 2 f_equal.
    assert (j = 19)%nat; [|subst j; cbn in Eb; inversion Eb; ring].
    do 28 (destruct j as [|j]; [try reflexivity; exfalso; first [lia | unfold slope_at in Hs; cbn in Hs; lra]|]). lia.
Qed.
(** The one dimensional choice (never reached, see above) is the other way
    round. *)
Theorem sensing_1d_flank rising x y : (16 <= length x)%nat -> length y = length x ->
  exists j a, sensing_1d_choice rising x (np_diff y) = Ok a /\ nth_error x j = Some a /\ (length x / 16 <= j)%nat /\ (j + length x / 16 + 1 < length x)%nat /\
    forall j', (length x / 16 <= j')%nat -> (j' + length x / 16 + 1 < length x)%nat ->
      if rising then slope_at [y] 0 j' <= slope_at [y] 0 j else slope_at [y] 0 j <= slope_at [y] 0 j'.
Proof.
  intros Hn Hy. unfold sensing_1d_choice. cbn zeta. set (c := (length x / 16)%nat).
  assert (Hc : (0 < c /\ c + c + 1 < length x)%nat).
  { assert (c * 16 <= length x)%nat by (unfold c; rewrite Nat.mul_comm; apply Nat.mul_div_le; lia).
    split; [apply Nat.div_str_pos; lia|lia]. }
  assert (Lc : length (cut c (np_diff y)) = (length x - 1 - c - c)%nat) by (rewrite cut_length, np_diff_length, Hy by lia; reflexivity).
  assert (NE : cut c (np_diff y) <> []) by (intros E; rewrite E in Lc; cbn [length] in Lc; lia).
  assert (V : forall j, (j < length x - 1 - c - c)%nat -> nth j (cut c (np_diff y)) 0 = slope_at [y] 0 (j + c)).
  { intros j Hj. rewrite cut_nth; [|lia|rewrite np_diff_length; lia]. rewrite np_diff_nth by lia. reflexivity. }
  assert (A : exists k, (if rising then argmax else argmin) (cut c (np_diff y)) = Ok k /\ (k < length x - 1 - c - c)%nat /\
      forall k', (k' < length x - 1 - c - c)%nat -> if rising then nth k' (cut c (np_diff y)) 0 <= nth k (cut c (np_diff y)) 0 else nth k (cut c (np_diff y)) 0 <= nth k' (cut c (np_diff y)) 0).
  { destruct rising.
    - destruct (argmax_first _ NE) as (k & E & F1 & F2 & _). rewrite Lc in F1, F2. exists k. repeat split; auto.
    - destruct (argmin_first _ NE) as (k & E & F1 & F2 & _). rewrite Lc in F1, F2. exists k. repeat split; auto.
      intros k' Hk'. specialize (F2 k' Hk'). cbn beta in F2. lra. }
  destruct A as (k & E & Hk & M). rewrite E. destruct (nth_error x (k + c)) as [a|] eqn:Ea; [|apply nth_error_None in Ea; lia].
  exists (k + c)%nat, a. split; [reflexivity|]. split; [assumption|]. split; [lia|]. split; [lia|]. intros j' H1 H2.
  specialize (M (j' - c)%nat ltac:(lia)). rewrite !V in M by lia. replace (j' - c + c)%nat with j' in M by lia. exact M.
Qed.
Example sensing_1d_flank_ex : exists j a, sensing_1d_choice true (map INR (seq 0 16)) (np_diff (map INR (seq 0 16))) = Ok a /\ nth_error (map INR (seq 0 16)) j = Some a.
Proof.
  destruct (sensing_1d_flank true (map INR (seq 0 16)) (map INR (seq 0 16))) as (j & a & E & Ea & _); [cbn; lia|reflexivity|]. eauto.
Qed.

(** ** Range checks of the quadruple dot evaluators *)
(** Claim "QQDResp returns the measured positions when no bounds are given":
    refuted, every position above -infinity becomes NaN. *)
Theorem resp_default_refuted parameters min_height minb ana v :
  In v (resp_evaluate parameters min_height minb BNone ana) -> v = NaN \/ v = MInf.
Proof.
  unfold resp_evaluate. intros H. apply in_map_iff in H. destruct H as (((lo & hi) & p) & <- & Hin). cbn [fst snd].
  apply in_combine_l in Hin. apply in_combine_r in Hin. cbn [resp_max] in Hin. rewrite map_map in Hin. apply in_map_iff in Hin.
  destruct Hin as (l & <- & _). unfold in_window. cbn [snd]. destruct p; cbn; auto; destruct lo; cbn; auto; rewrite ?orb_true_r; auto.
Qed.
Example resp_default_refuted_ex : resp_evaluate ["a"; "b"] MInf BNone BNone [(Fin 1, Fin 1); (Fin 2, Fin 1)] = [NaN; NaN].
Proof. reflexivity. Qed.
(** With bounds: the i-th position is returned iff it is visible and inside its
    bounds, otherwise NaN. *)
Theorem resp_window parameters h los his ana i lo hi pos vis :
  map fst los = parameters -> map fst his = parameters -> length ana = length parameters ->
  nth_error (map snd los) i = Some (Fin lo) -> nth_error (map snd his) i = Some (Fin hi) -> nth_error ana i = Some (Fin pos, Fin vis) ->
  nth_error (resp_evaluate parameters (Fin h) (BSeries los) (BSeries his) ana) i =
    Some (if Rle_dec h vis then if Rle_dec lo pos then if Rle_dec pos hi then Fin pos else NaN else NaN else NaN).
Proof.
  intros E1 E2 E3 Elo Ehi Ea. unfold resp_evaluate. cbn [resp_min resp_max].
  assert (NC : forall (A B : Type) (a : list A) (b : list B) k x y, nth_error a k = Some x -> nth_error b k = Some y -> nth_error (combine a b) k = Some (x, y)).
  { clear. induction a as [|x0 a IH]; intros [|y0 b] [|k] x y Hx Hy; cbn in *; try discriminate; [congruence|auto]. }
  rewrite nth_error_map. rewrite (NC _ _ _ _ i (Fin lo, Fin hi) (resp_visible (Fin h) (Fin pos, Fin vis))).
  - cbn [option_map fst snd]. f_equal. unfold resp_visible, in_window. cbn [fst snd nltb].
    destruct (Rle_dec h vis).
    + replace (Rltb vis h) with false by (symmetry; apply Rltb_false; lra). cbn [nltb].
      destruct (Rle_dec lo pos); [replace (Rltb pos lo) with false by (symmetry; apply Rltb_false; lra)|replace (Rltb pos lo) with true by (symmetry; apply Rltb_true; lra); reflexivity].
      destruct (Rle_dec pos hi); [replace (Rltb hi pos) with false by (symmetry; apply Rltb_false; lra)|replace (Rltb hi pos) with true by (symmetry; apply Rltb_true; lra)]; reflexivity.
    + replace (Rltb vis h) with true by (symmetry; apply Rltb_true; lra). reflexivity.
  - now apply NC.
  - rewrite nth_error_map, Ea. reflexivity.
Qed.
Example resp_window_ex : nth_error (resp_evaluate ["a"] (Fin 0) (BSeries [("a", Fin 0)]) (BSeries [("a", Fin 2)]) [(Fin 1, Fin 1)]) 0 = Some (Fin 1).
Proof.
  rewrite (resp_window ["a"] 0 [("a", Fin 0)] [("a", Fin 2)] [(Fin 1, Fin 1)] 0 0 2 1 1); try reflexivity.
  repeat (destruct (Rle_dec _ _); [|lra]). reflexivity.
Qed.
(** QQDLine: a NaN among the fitted widths makes value and variance NaN; for
    finite widths the value is the mean if it lies in the window, else NaN, and
    the variance that of the mean. *)
Theorem line_value_result lo hi widths :
  (In NaN widths -> line_value (Fin lo) (Fin hi) widths = (NaN, NaN)) /\
  (forall rs, widths = map Fin rs -> rs <> [] ->
     (lo <= rmean rs <= hi -> fst (line_value (Fin lo) (Fin hi) widths) = Fin (rmean rs)) /\
     (~ lo <= rmean rs <= hi -> fst (line_value (Fin lo) (Fin hi) widths) = NaN) /\
     snd (line_value (Fin lo) (Fin hi) widths) = Fin (rvar rs / INR (length rs))).
Proof.
  split.
  - intros H. assert (N : forall ys, In NaN ys -> nsum ys = NaN).
    { clear. induction ys as [|y ys IH]; intros H; [destruct H|]. change (nsum (y :: ys)) with (nadd y (nsum ys)).
      destruct H as [->|H]; [reflexivity|]. rewrite IH by assumption. destruct y; reflexivity. }
    unfold line_value. cbn zeta. rewrite (N widths H). cbn [ndiv ncount].
    rewrite (N (map _ widths)); [reflexivity|]. apply in_map_iff. exists NaN. split; [reflexivity|assumption].
  - intros rs -> Hne. assert (P : 0 < INR (length rs)) by (apply lt_0_INR; destruct rs; [congruence|cbn; lia]).
    unfold line_value. cbn zeta. rewrite nsum_fin, ncount_fin, ndiv_fin by lra. fold (rmean rs). rewrite map_map. cbn [nsub nadd nopp nmul].
    rewrite <- (map_map (fun r => (r - rmean rs)²) Fin). rewrite nsum_fin, ndiv_fin by lra. fold (rvar rs). rewrite ndiv_fin by lra. cbn [fst snd].
    unfold in_window. cbn [nltb]. split; [|split; [|reflexivity]]; intros H.
    + replace (Rltb (rmean rs) lo) with false by (symmetry; apply Rltb_false; lra).
      replace (Rltb hi (rmean rs)) with false by (symmetry; apply Rltb_false; lra). reflexivity.
    + destruct (Rltb (rmean rs) lo) eqn:E1; [reflexivity|]. destruct (Rltb hi (rmean rs)) eqn:E2; [reflexivity|].
      apply Rltb_false in E1. apply Rltb_false in E2. exfalso. apply H. lra.
Qed.
Example line_value_result_ex : fst (line_value (Fin 0) (Fin 5) [Fin 1; Fin 3]) = Fin 2.
Proof.
  destruct (proj2 (line_value_result 0 5 [Fin 1; Fin 3]) [1; 3] eq_refl ltac:(discriminate)) as [A _].
  assert (M : rmean [1; 3] = 2) by (unfold rmean; cbn; field). rewrite M in A. apply A. lra.
Qed.

Print Assumptions lead_restores.
Print Assumptions lead_crash.
Print Assumptions lead_values.
Print Assumptions lead_returns.
Print Assumptions lead_labels_refuted.
Print Assumptions lead_window_refuted.
Print Assumptions averaging_result.
Print Assumptions averaging_single_refuted.
Print Assumptions averaging_raises.
Print Assumptions nanmean_nan.
Print Assumptions failed_fit.
Print Assumptions good_fit.
Print Assumptions sensing_1d_refuted.
Print Assumptions sensing_2d_flank.
Print Assumptions sensing_2d_refuted.
Print Assumptions sensing_1d_flank.
Print Assumptions resp_default_refuted.
Print Assumptions resp_window.
Print Assumptions line_value_result.
