(** Lemmas about the evaluators. *)
From Coq Require Import Lra Psatz Permutation ZArith.
From Verif Require Import PyBase TargetModel TunerModel TunerSpec SeriesLemmas SensingDotProofs.
From Verif Require Import UtilModel UtilSpec UtilProofs UtilProps EvaluatorModel EvaluatorSpec.
Local Open Scope R_scope.

(** ** Shifting one gate and restoring *)
Definition low (ls : list label) (f : label -> R) (g : label) (w : R) : series :=
  tab ls (fun k => Fin (if String.eqb k g then f k - w else f k)).

Lemma assign_self ls f : NoDup ls -> assign (tab ls f) (tab ls f) = Ok (tab ls f).
Proof.
  intros H. rewrite assign_tab; auto using incl_refl. f_equal. apply tab_ext. intros l Hl.
  apply mem_In in Hl. now rewrite Hl.
Qed.
Lemma assign_back ls f h : NoDup ls -> assign (tab ls h) (tab ls f) = Ok (tab ls f).
Proof.
  intros H. rewrite assign_tab; auto using incl_refl. f_equal. apply tab_ext. intros l Hl.
  apply mem_In in Hl. now rewrite Hl.
Qed.
Lemma sadd_fill_shift ls f g w : NoDup ls -> In g ls ->
  exists ls', Permutation ls' ls /\
    sadd_fill (vec ls f) [(g, Fin (-1 * w))] = tab ls' (fun k => Fin (if String.eqb k g then f k - w else f k)).
Proof.
  intros Hnd Hg. unfold sadd_fill, zip_with. rewrite index_vec. cbn [index map fst].
  set (u := union_index ls [g]). exists u.
  assert (P : Permutation u ls).
  { unfold u, union_index. destruct (list_eqb ls [g]); [apply Permutation_refl|].
    cbn [filter]. apply mem_In in Hg. rewrite Hg. cbn [negb]. rewrite app_nil_r. apply sort_perm. }
  split; [exact P|]. apply map_ext_in. intros k Hk. f_equal.
  rewrite vec_tab. rewrite get_tab by (eapply Permutation_in; eauto).
  unfold get. cbn [lookup]. unfold label_eqb. destruct (String.eqb_spec k g); unfold add_fill; cbn; f_equal; ring.
Qed.
Lemma assign_shift ls f h g w : NoDup ls -> In g ls ->
  assign (tab ls h) (sadd_fill (vec ls f) [(g, Fin (-1 * w))]) = Ok (low ls f g w).
Proof.
  intros Hnd Hg. destruct (sadd_fill_shift ls f g w Hnd Hg) as (ls' & P & ->).
  rewrite assign_tab; auto.
  - f_equal. apply tab_ext. intros k Hk. replace (mem k ls') with true; [reflexivity|].
    symmetry. apply mem_In. eapply Permutation_in; [apply Permutation_sym, P|assumption].
  - eapply Permutation_NoDup; [apply Permutation_sym, P|assumption].
  - intros k Hk. eapply Permutation_in; eauto.
Qed.
Lemma low_lowered ls f g w : lowered g w (vec ls f) (low ls f g w).
Proof.
  split.
  - change (index (low ls f g w) = index (vec ls f)). unfold low. now rewrite index_tab, index_vec.
  - intros k x. unfold low. rewrite vec_tab, !lookup_tab. destruct (mem k ls); [|discriminate].
    intros E. inversion E; subst. reflexivity.
Qed.

(** ** One operation *)
Definition quiet_op (x : setup) (k : nat) : Prop := fault x k = None.
Lemma read_ok x l : quiet_op x (length (l_log l)) -> lab_read x l = (mk_lab (l_gates l) (l_log l ++ [LRead]), Ok (l_gates l)).
Proof. intros H. unfold lab_read, attempt. now rewrite H. Qed.
Lemma op_fails {A} x (ev : lab -> lab_event) (act : lab -> lab * res A) l e :
  fault x (length (l_log l)) = Some e -> attempt x ev act l = (mk_lab (l_gates l) (l_log l ++ [ev l]), Raise e).
Proof. intros H. unfold attempt. now rewrite H. Qed.
Lemma set_ok x v l g : quiet_op x (length (l_log l)) -> assign (l_gates l) v = Ok g ->
  lab_set x v l = (mk_lab g (l_log l ++ [LSet v]), Ok tt).
Proof. intros H E. unfold lab_set, attempt. rewrite H. cbn [l_gates l_log]. now rewrite E. Qed.
Lemma measure_ok x m l : quiet_op x (length (l_log l)) ->
  lab_measure x m l = (mk_lab (l_gates l) (l_log l ++ [LMeasure m (l_gates l)]), Ok (measured x m (l_gates l))).
Proof. intros H. unfold lab_measure, attempt. now rewrite H. Qed.

(** The operations of one round. *)
Definition round_log (ls : list label) (f : label -> R) (w : R) (i : nat) (g : label) : list lab_event :=
  [LSet (sadd_fill (vec ls f) [(g, Fin (-1 * w))]); LMeasure i (low ls f g w); LSet (vec ls f)].
Fixpoint rounds_log (ls : list label) (f : label -> R) (w : R) (i : nat) (gs : list label) : list lab_event :=
  match gs with [] => [] | g :: gs' => round_log ls f w i g ++ rounds_log ls f w (S i) gs' end.
Fixpoint rounds_data (x : setup) (ls : list label) (f : label -> R) (w : R) (i : nat) (gs : list label) : list (list R) :=
  match gs with [] => [] | g :: gs' => measured x i (low ls f g w) :: rounds_data x ls f w (S i) gs' end.
Lemma rounds_log_length ls f w gs : forall i, length (rounds_log ls f w i gs) = (3 * length gs)%nat.
Proof. induction gs as [|g gs IH]; intros i; cbn [rounds_log]; [reflexivity|]. rewrite app_length, IH. cbn. lia. Qed.

Section Loop.
  Variables (x : setup) (ls : list label) (f : label -> R) (w : R).
  Hypothesis Hnd : NoDup ls.
  Notation cur := (vec ls f).
  Lemma cur_tab : cur = tab ls (fun k => Fin (f k)). Proof. apply vec_tab. Qed.
  Lemma back_ok : forall h, assign (tab ls h) cur = Ok cur.
  Proof. intros h. rewrite cur_tab. now apply assign_back. Qed.

  Lemma lead_loop_eq n_meas : forall shifting i,
    lead_loop x cur w n_meas i shifting = lead_loop x cur w n_meas i (firstn (n_meas - i) shifting).
  Proof.
    induction shifting as [|g gs IH]; intros i; [now rewrite firstn_nil|]. cbn [lead_loop].
    destruct (Nat.leb_spec n_meas i).
    - replace (n_meas - i)%nat with O by lia. reflexivity.
    - destruct (n_meas - i)%nat eqn:E; [lia|]. cbn [firstn lead_loop]. destruct (Nat.leb_spec n_meas i); [lia|].
      replace n with (n_meas - S i)%nat by lia. now rewrite <- IH.
  Qed.

  (** Without faults. *)
  Lemma lead_loop_ok n_meas : forall gs i l, (i + length gs <= n_meas)%nat -> (forall g, In g gs -> In g ls) ->
    l_gates l = cur -> (forall k, (k < 3 * length gs)%nat -> quiet_op x (length (l_log l) + k)) ->
    lead_loop x cur w n_meas i gs l = (mk_lab cur (l_log l ++ rounds_log ls f w i gs), Ok (rounds_data x ls f w i gs)).
  Proof.
    induction gs as [|g gs IH]; intros i l Hi Hg El Hq.
    - cbn. rewrite app_nil_r. destruct l; cbn in *. now subst.
    - cbn [lead_loop]. cbn [length] in *. destruct (Nat.leb_spec n_meas i); [lia|]. unfold lbind at 1.
      rewrite (set_ok _ _ _ (low ls f g w)).
      2:{ specialize (Hq O ltac:(lia)). now rewrite Nat.add_0_r in Hq. }
      2:{ rewrite El, cur_tab. rewrite <- cur_tab at 1. rewrite cur_tab at 1. apply assign_shift; auto. apply Hg. now left. }
      unfold lbind at 1. rewrite measure_ok.
      2:{ cbn [l_log]. rewrite app_length. cbn. apply (Hq 1%nat). lia. }
      cbn [l_gates l_log]. unfold lbind at 1. rewrite (set_ok _ _ _ cur).
      2:{ cbn [l_log]. rewrite !app_length. cbn. rewrite <- Nat.add_assoc. apply (Hq 2%nat). lia. }
      2:{ cbn [l_gates]. apply back_ok. }
      cbn [l_gates l_log]. unfold lbind at 1. rewrite IH; cbn [l_gates l_log]; auto.
      + cbn [rounds_log rounds_data]. unfold lret. rewrite <- !app_assoc. reflexivity.
      + lia.
      + intros; apply Hg; now right.
      + intros k Hk. rewrite !app_length. cbn. replace (length (l_log l) + 1 + 1 + 1 + k)%nat with (length (l_log l) + (3 + k))%nat by lia.
        apply Hq. lia.
  Qed.

  (** The first fault in operation k of the loop. *)
  Lemma lead_loop_fault n_meas e : forall gs i l k, (i + length gs <= n_meas)%nat -> (forall g, In g gs -> In g ls) ->
    l_gates l = cur -> (k < 3 * length gs)%nat -> (forall j, (j < k)%nat -> quiet_op x (length (l_log l) + j)) ->
    fault x (length (l_log l) + k) = Some e ->
    exists g log, nth_error gs (k / 3) = Some g /\
      lead_loop x cur w n_meas i gs l = (mk_lab (if (k mod 3 =? 0)%nat then cur else low ls f g w) log, Raise e).
  Proof.
    induction gs as [|g gs IH]; intros i l k Hi Hg El Hk Hq Hf; cbn [length] in *; [lia|].
    cbn [lead_loop]. destruct (Nat.leb_spec n_meas i); [lia|]. unfold lbind at 1.
    assert (As : assign cur (sadd_fill cur [(g, Fin (-1 * w))]) = Ok (low ls f g w)).
    { rewrite cur_tab at 1. apply assign_shift; auto. apply Hg. now left. }
    destruct k as [|k].
    { rewrite Nat.add_0_r in Hf. unfold lab_set at 1. rewrite (op_fails _ _ _ _ e) by assumption.
      exists g. eexists. split; [reflexivity|]. rewrite El. reflexivity. }
    rewrite (set_ok _ _ _ (low ls f g w)).
    2:{ specialize (Hq O ltac:(lia)). now rewrite Nat.add_0_r in Hq. }
    2:{ now rewrite El. }
    unfold lbind at 1. destruct k as [|k].
    { unfold lab_measure at 1. rewrite (op_fails _ _ _ _ e).
      - exists g. eexists. split; [reflexivity|]. reflexivity.
      - cbn [l_log]. rewrite app_length. cbn. exact Hf. }
    rewrite measure_ok.
    2:{ cbn [l_log]. rewrite app_length. cbn. apply (Hq 1%nat). lia. }
    cbn [l_gates l_log]. unfold lbind at 1. destruct k as [|k].
    { unfold lab_set at 1. rewrite (op_fails _ _ _ _ e).
      - exists g. eexists. split; [reflexivity|]. reflexivity.
      - cbn [l_log]. rewrite !app_length. cbn. rewrite <- Nat.add_assoc. exact Hf. }
    rewrite (set_ok _ _ _ cur).
    2:{ cbn [l_log]. rewrite !app_length. cbn. rewrite <- Nat.add_assoc. apply (Hq 2%nat). lia. }
    2:{ cbn [l_gates]. apply back_ok. }
    cbn [l_gates l_log]. unfold lbind at 1.
    set (l1 := mk_lab cur _).
    assert (L1 : length (l_log l1) = (length (l_log l) + 3)%nat) by (unfold l1; cbn [l_log]; rewrite !app_length; cbn; lia).
    destruct (IH (S i) l1 k) as (g' & log & E & R).
    - lia.
    - intros; apply Hg; now right.
    - reflexivity.
    - lia.
    - intros j Hj. rewrite L1. replace (length (l_log l) + 3 + j)%nat with (length (l_log l) + (3 + j))%nat by lia. apply Hq. lia.
    - rewrite L1. replace (length (l_log l) + 3 + k)%nat with (length (l_log l) + S (S (S k)))%nat by lia. exact Hf.
    - rewrite R. exists g', log. replace (S (S (S k))) with (k + 1 * 3)%nat by lia.
      rewrite Nat.div_add, Nat.mod_add by lia. rewrite Nat.add_1_r. cbn [nth_error]. split; [exact E|reflexivity].
  Qed.
End Loop.

Lemma measurements_app a b : measurements_of (a ++ b) = measurements_of a ++ measurements_of b.
Proof. apply flat_map_app. Qed.
Lemma rounds_measurements ls f w gs : forall i, measurements_of (rounds_log ls f w i gs) = seq i (length gs).
Proof.
  induction gs as [|g gs IH]; intros i; [reflexivity|]. cbn [rounds_log length seq]. rewrite measurements_app, IH. reflexivity.
Qed.
Lemma rounds_in ls f w gs : forall i m at_, In (LMeasure m at_) (rounds_log ls f w i gs) ->
  (i <= m)%nat /\ exists g, nth_error gs (m - i) = Some g /\ at_ = low ls f g w.
Proof.
  induction gs as [|g gs IH]; intros i m at_ H; [destruct H|]. cbn [rounds_log] in H. apply in_app_or in H. destruct H as [H|H].
  - cbn in H. destruct H as [H|[H|[H|[]]]]; try discriminate. inversion H; subst. split; [lia|]. exists g. now rewrite Nat.sub_diag.
  - apply IH in H. destruct H as (H1 & g' & H2 & H3). split; [lia|]. exists g'. split; [|assumption].
    replace (m - i)%nat with (S (m - S i)) by lia. exact H2.
Qed.

(** ** Processing *)
Lemma linspace_in lo hi n k v : lo <= hi -> nth_error (linspace lo hi n) k = Some v -> lo <= v <= hi.
Proof.
  intros H E. unfold linspace in E. rewrite nth_error_map in E.
  destruct (nth_error (seq 0 n) k) as [i|] eqn:Ek; [|discriminate]. cbn in E.
  assert (Hk : (k < n)%nat). { rewrite <- (seq_length n 0). apply nth_error_Some. congruence. }
  assert (i = k). { rewrite (nth_error_nth' _ 0%nat) in Ek by (now rewrite seq_length). rewrite seq_nth in Ek by assumption. inversion Ek. reflexivity. }
  subst i. inversion E as [E']. destruct (Nat.eqb_spec n 1); [lra|].
  assert (P : 0 < INR (n - 1)) by (apply lt_0_INR; lia).
  assert (Q : 0 <= INR k <= INR (n - 1)) by (split; [apply pos_INR|apply le_INR; lia]).
  assert (D : 0 <= (hi - lo) / INR (n - 1)) by (apply Rmult_le_pos; [lra|left; now apply Rinv_0_lt_compat]).
  assert (M : INR (n - 1) * ((hi - lo) / INR (n - 1)) = hi - lo) by (field; lra).
  assert (INR k * ((hi - lo) / INR (n - 1)) <= INR (n - 1) * ((hi - lo) / INR (n - 1))) by (apply Rmult_le_compat_r; lra).
  assert (0 <= INR k * ((hi - lo) / INR (n - 1))) by (apply Rmult_le_pos; lra). lra.
Qed.
Lemma lead_process_entries center range n_points : forall raw shifting vs es,
  lead_process center range n_points raw shifting = Ok (vs, es) ->
  length vs = Nat.min (length raw) (length shifting) /\
  forall i d g, nth_error raw i = Some d -> nth_error shifting i = Some g ->
    exists k v, transition_index d (lead_lag range n_points) = Ok k /\
      nth_error (linspace (center - range) (center + range) n_points) k = Some v /\
      nth_error vs i = Some (("position_" ++ g)%string, Fin v) /\
      nth_error es i = Some (("position_" ++ g)%string, Fin (0.00001 * 0.00001)).
Proof.
  induction raw as [|d raw IH]; intros [|g gs] vs es E; cbn [lead_process] in E.
  - inversion E. split; [reflexivity|]. intros [|i]; discriminate.
  - inversion E. split; [reflexivity|]. intros [|i]; discriminate.
  - inversion E. split; [reflexivity|]. intros [|i]; discriminate.
  - destruct (transition_index d (lead_lag range n_points)) as [k|] eqn:Ek; [|discriminate].
    destruct (nth_error (linspace _ _ _) k) as [v|] eqn:Ev; [|discriminate].
    destruct (lead_process center range n_points raw gs) as [[vs' es']|] eqn:Er; [|discriminate].
    inversion E; subst. destruct (IH gs vs' es' Er) as [L N]. split; [cbn; now rewrite L|].
    intros [|i] d' g' Ed Eg; cbn in Ed, Eg.
    + inversion Ed; inversion Eg; subst. exists k, v. auto.
    + cbn [nth_error]. eauto.
Qed.

(** ** The whole call *)
Section Call.
  Variables (x : setup) (ls : list label) (f : label -> R) (width center range : R) (n_points n_meas : nat) (shifting : list label).
  Hypothesis Hnd : NoDup ls.
  Hypothesis Hs : incl shifting ls.
  Notation gs := (firstn n_meas shifting).
  Lemma firstn_incl g : In g gs -> In g ls.
  Proof. intros Hg. apply Hs. rewrite <- (firstn_skipn n_meas shifting). apply in_or_app. now left. Qed.
  Lemma firstn_min : length gs = Nat.min n_meas (length shifting). Proof. apply firstn_length. Qed.
  Lemma firstn_nth i g : nth_error gs i = Some g -> nth_error shifting i = Some g.
  Proof.
    intros E. rewrite <- (firstn_skipn n_meas shifting). rewrite nth_error_app1; [assumption|].
    apply nth_error_Some. congruence.
  Qed.
  Lemma lead_evaluate_ok : (forall k, fault x k = None) ->
    let log := LRead :: rounds_log ls f width 0 gs in
    lead_evaluate x width center range n_points n_meas shifting (mk_lab (vec ls f) []) =
    match lead_process center range n_points (rounds_data x ls f width 0 gs) shifting with
    | Ok o => (mk_lab (vec ls f) (log ++ [LSet (vec ls f)]), Ok o)
    | Raise e => (mk_lab (vec ls f) log, Raise e)
    end.
  Proof.
    intros Hq. cbn zeta. unfold lead_evaluate. unfold lbind at 1. rewrite read_ok by apply Hq. cbn [l_gates l_log app].
    unfold lbind at 1. rewrite lead_loop_eq, Nat.sub_0_r.
    rewrite lead_loop_ok; auto using firstn_incl; [|rewrite firstn_min; lia|intros; apply Hq]. cbn [l_log app].
    destruct (lead_process _ _ _ _ _) as [o|e]; [|reflexivity].
    unfold lbind at 1. rewrite (set_ok _ _ _ (vec ls f)); [|apply Hq|cbn [l_gates]; rewrite vec_tab; now apply assign_back].
    reflexivity.
  Qed.
  Lemma lead_evaluate_read_fault e : fault x 0 = Some e ->
    lead_evaluate x width center range n_points n_meas shifting (mk_lab (vec ls f) []) = (mk_lab (vec ls f) [LRead], Raise e).
  Proof. intros H. unfold lead_evaluate, lbind at 1, lab_read. now rewrite (op_fails _ _ _ _ e). Qed.
  Lemma lead_evaluate_fault e k : (forall j, (j < S k)%nat -> fault x j = None) -> fault x (S k) = Some e ->
    (S k <= 3 * Nat.min n_meas (length shifting))%nat ->
    exists g log, nth_error shifting (k / 3) = Some g /\
      lead_evaluate x width center range n_points n_meas shifting (mk_lab (vec ls f) []) =
      (mk_lab (if (k mod 3 =? 0)%nat then vec ls f else low ls f g width) log, Raise e).
  Proof.
    intros Hq He Hk. unfold lead_evaluate, lbind at 1. rewrite read_ok by (apply Hq; cbn; lia). cbn [l_gates l_log app].
    unfold lbind at 1. rewrite lead_loop_eq, Nat.sub_0_r.
    destruct (lead_loop_fault x ls f width Hnd n_meas e gs 0 (mk_lab (vec ls f) [LRead]) k) as (g & log & Eg & R);
      auto using firstn_incl; try (rewrite firstn_min; lia).
    { cbn [l_log length]. intros j Hj. apply Hq. lia. }
    rewrite R. exists g, log. split; [now apply firstn_nth|reflexivity].
  Qed.
End Call.
Lemma rounds_data_nth x ls f w gs : forall i k, nth_error (rounds_data x ls f w i gs) k =
  option_map (fun g => measured x (i + k) (low ls f g w)) (nth_error gs k).
Proof.
  induction gs as [|g gs IH]; intros i [|k]; cbn; try reflexivity; [now rewrite Nat.add_0_r|]. rewrite IH. now rewrite Nat.add_succ_r.
Qed.
Lemma rounds_data_length x ls f w gs : forall i, length (rounds_data x ls f w i gs) = length gs.
Proof. induction gs as [|g gs IH]; intros i; cbn; auto. Qed.
Lemma rounds_log_has ls f w gs : forall i k g, nth_error gs k = Some g -> In (LMeasure (i + k) (low ls f g w)) (rounds_log ls f w i gs).
Proof.
  induction gs as [|g0 gs IH]; intros i [|k] g E; try discriminate; cbn [nth_error] in E; cbn [rounds_log]; apply in_or_app.
  - inversion E; subst. left. cbn. rewrite Nat.add_0_r. auto.
  - right. rewrite Nat.add_succ_r. apply (IH (S i)). assumption.
Qed.
Lemma lead_process_total center range n_points : forall raw shifting, (lead_lag range n_points + 1 < n_points)%nat ->
  (forall d, In d raw -> length d = n_points) ->
  exists o, lead_process center range n_points raw shifting = Ok o.
Proof.
  induction raw as [|d raw IH]; intros [|g gs] Hl Hd; cbn [lead_process]; try (eexists; reflexivity).
  assert (Ld : length d = n_points) by (apply Hd; now left).
  destruct (transition_index d (lead_lag range n_points)) as [k|e] eqn:E.
  - assert (Hk : (k < length d)%nat).
    { destruct (proj1 (transition_index_max d (lead_lag range n_points))) as (j & r & E' & _ & _ & L); [lia|]. rewrite E in E'. inversion E'. assumption. }
    destruct (nth_error (linspace (center - range) (center + range) n_points) k) as [v|] eqn:Ev.
    + destruct (IH gs) as [[vs es] ->]; auto; [intros; apply Hd; now right|eexists; reflexivity].
    + apply nth_error_None in Ev. unfold linspace in Ev. rewrite map_length, seq_length in Ev. lia.
  - exfalso. destruct (proj1 (transition_index_max d (lead_lag range n_points))) as (j & r & E' & _); [lia|]. congruence.
Qed.
Lemma lead_lag_floor range n_points : 0 < range ->
  INR (lead_lag range n_points) <= 0.0002 / range * INR n_points < INR (lead_lag range n_points) + 1.
Proof.
  intros Hr. unfold lead_lag. set (r := 0.0002 / range * INR n_points).
  assert (0 <= r). { apply Rmult_le_pos; [|apply pos_INR]. apply Rmult_le_pos; [lra|]. left. now apply Rinv_0_lt_compat. }
  assert (B := base_Int_part r). assert (0 <= Int_part r)%Z.
  { apply Z.lt_succ_r. apply lt_IZR. rewrite succ_IZR. lra. }
  rewrite INR_IZR_INZ, Z2Nat.id by assumption. lra.
Qed.

(** ** Means *)
Lemma finite_of_non_nan xs : no_infinity xs -> non_nan xs = map Fin (finite_values xs).
Proof.
  intros [H1 H2]. induction xs as [|x xs IH]; [reflexivity|]. cbn [In] in H1, H2.
  unfold non_nan in *. destruct x; cbn [filter isna negb finite_values flat_map app map]; try (exfalso; tauto); rewrite IH by tauto; reflexivity.
Qed.
Lemma nsum_fin rs : nsum (map Fin rs) = Fin (rsum rs).
Proof. induction rs as [|r rs IH]; [reflexivity|]. cbn. unfold nsum in IH. rewrite IH. reflexivity. Qed.
Lemma ncount_fin rs : ncount (map Fin rs) = Fin (INR (length rs)).
Proof. unfold ncount. now rewrite map_length. Qed.
Lemma ndiv_fin a b : b <> 0 -> ndiv (Fin a) (Fin b) = Fin (a / b).
Proof. intros H. cbn. apply Reqb_false in H. now rewrite H. Qed.
Lemma ndiv_0_0 : ndiv (Fin 0) (Fin 0) = NaN.
Proof.
  cbn. replace (Reqb 0 0) with true by (symmetry; unfold Reqb; destruct (Req_EM_T 0 0); congruence).
  unfold inf_of_sign. replace (Rltb 0 0) with false by (symmetry; apply Rltb_false; lra). reflexivity.
Qed.
Lemma nanmean_fin xs : no_infinity xs -> finite_values xs <> [] -> nanmean xs = Fin (rmean (finite_values xs)).
Proof.
  intros H Hne. unfold nanmean. rewrite finite_of_non_nan by assumption. rewrite nsum_fin, ncount_fin. apply ndiv_fin.
  apply not_0_INR. destruct (finite_values xs); [congruence|discriminate].
Qed.
Lemma nanvar_fin xs : no_infinity xs -> finite_values xs <> [] -> nanvar xs = Fin (rvar (finite_values xs)).
Proof.
  intros H Hne. unfold nanvar. cbn zeta. rewrite nanmean_fin by assumption. rewrite finite_of_non_nan by assumption.
  rewrite map_map. cbn [nsub nadd nopp nmul].
  rewrite <- (map_map (fun r => (r - rmean (finite_values xs))²) Fin). rewrite nsum_fin, ncount_fin.
  apply ndiv_fin. apply not_0_INR. destruct (finite_values xs); [congruence|discriminate].
Qed.
Lemma rmean_bounds rs lo hi : rs <> [] -> (forall r, In r rs -> lo <= r <= hi) -> lo <= rmean rs <= hi.
Proof.
  intros Hne H. unfold rmean.
  assert (P : 0 < INR (length rs)) by (apply lt_0_INR; destruct rs; [congruence|cbn; lia]).
  assert (B : INR (length rs) * lo <= rsum rs <= INR (length rs) * hi).
  { clear Hne P. induction rs as [|r rs IH]; [cbn; lra|]. cbn [length rsum fold_right]. fold (rsum rs). rewrite S_INR.
    assert (lo <= r <= hi) by (apply H; now left). assert (INR (length rs) * lo <= rsum rs <= INR (length rs) * hi) by (apply IH; intros; apply H; now right). lra. }
  split; apply Rmult_le_reg_r with (INR (length rs)); auto; unfold Rdiv; rewrite Rmult_assoc, Rinv_l by lra; lra.
Qed.
Lemma rsum_nonneg rs : (forall r, In r rs -> 0 <= r) -> 0 <= rsum rs.
Proof.
  induction rs as [|r rs IH]; intros H; cbn; [lra|]. fold (rsum rs).
  assert (0 <= r) by (apply H; now left). assert (0 <= rsum rs) by (apply IH; intros; apply H; now right). lra.
Qed.
Lemma rsum_zero rs : (forall r, In r rs -> 0 <= r) -> rsum rs = 0 -> forall r, In r rs -> r = 0.
Proof.
  induction rs as [|r rs IH]; intros H E x Hx; [destruct Hx|]. cbn in E. fold (rsum rs) in E.
  assert (0 <= r) by (apply H; now left). assert (0 <= rsum rs) by (apply rsum_nonneg; intros; apply H; now right).
  destruct Hx as [<-|Hx]; [lra|]. apply IH; auto; [intros; apply H; now right|lra].
Qed.
Lemma rvar_nonneg rs : rs <> [] -> 0 <= rvar rs.
Proof.
  intros Hne. unfold rvar. apply Rmult_le_pos; [|left; apply Rinv_0_lt_compat, lt_0_INR; destruct rs; [congruence|cbn; lia]].
  apply rsum_nonneg. intros r Hr. apply in_map_iff in Hr. destruct Hr as (y & <- & _). apply Rle_0_sqr.
Qed.
Lemma rvar_zero rs : rs <> [] -> rvar rs = 0 <-> forall a b, In a rs -> In b rs -> a = b.
Proof.
  intros Hne. assert (P : 0 < INR (length rs)) by (apply lt_0_INR; destruct rs; [congruence|cbn; lia]). split.
  - intros E. assert (Z : rsum (map (fun r => (r - rmean rs)²) rs) = 0).
    { unfold rvar in E. apply Rmult_integral in E. destruct E as [E|E]; [assumption|]. exfalso. revert E. apply Rinv_neq_0_compat. lra. }
    assert (M : forall a, In a rs -> a = rmean rs).
    { intros a Ha. assert (Q : (a - rmean rs)² = 0).
      { apply (rsum_zero (map (fun r => (r - rmean rs)²) rs)); auto.
        - intros r Hr. apply in_map_iff in Hr. destruct Hr as (y & <- & _). apply Rle_0_sqr.
        - apply in_map_iff. eauto. }
      apply Rsqr_0_uniq in Q. lra. }
    intros a b Ha Hb. rewrite (M a Ha), (M b Hb). reflexivity.
  - intros H. destruct rs as [|c rs]; [congruence|].
    assert (M : rmean (c :: rs) = c).
    { assert (c <= rmean (c :: rs) <= c); [|lra]. apply rmean_bounds; [discriminate|]. intros r Hr. rewrite (H r c); auto; [lra|now left]. }
    unfold rvar. rewrite M. replace (rsum _) with 0; [unfold Rdiv; ring|].
    symmetry. assert (G : forall l, (forall a, In a l -> a = c) -> rsum (map (fun r => (r - c)²) l) = 0).
    { induction l as [|a l IH]; intros Hl; [reflexivity|]. cbn. fold (rsum (map (fun r => (r - c)²) l)). rewrite IH by (intros; apply Hl; now right).
      rewrite (Hl a) by now left. unfold Rsqr. ring. }
    apply G. intros a Ha. apply H; auto. now left.
Qed.

(** ** Scans *)
Lemma arg_from_opp l : forall best v i,
  arg_from (fun a b => Rltb a b) best v i l = arg_from (fun a b => Rltb b a) best (- v) i (map Ropp l).
Proof.
  induction l as [|a l IH]; intros best v i; [reflexivity|]. cbn [arg_from map].
  replace (Rltb (- v) (- a)) with (Rltb a v).
  - destruct (Rltb a v); apply IH.
  - destruct (Rltb a v) eqn:E; symmetry; [apply Rltb_true in E; apply Rltb_true|apply Rltb_false in E; apply Rltb_false]; lra.
Qed.
Lemma argmin_argmax l : argmin l = argmax (map Ropp l).
Proof. destruct l as [|a l]; [reflexivity|]. cbn. f_equal. apply arg_from_opp. Qed.
Lemma argmin_first l : l <> [] -> exists j, argmin l = Ok j /\ first_max (fun i => - nth i l 0) (length l) j.
Proof.
  intros H. rewrite argmin_argmax. destruct (argmax_first (map Ropp l)) as (j & E & F).
  - destruct l; [congruence|discriminate].
  - exists j. split; [assumption|]. rewrite map_length in F. eapply first_max_ext; [|exact F]. intros i Hi.
    cbn beta. rewrite <- Ropp_0 at 1. apply (map_nth Ropp).
Qed.
Lemma np_diff_length l : length (np_diff l) = (length l - 1)%nat.
Proof. unfold np_diff. rewrite map_length, combine_length. destruct l; cbn [length tl]; lia. Qed.
Lemma np_diff_nth l j : (S j < length l)%nat -> nth j (np_diff l) 0 = nth (S j) l 0 - nth j l 0.
Proof.
  intros H. unfold np_diff. set (g := fun p : R * R => snd p - fst p).
  replace 0 with (g (0, 0)) at 1 by (unfold g; cbn; ring). rewrite map_nth.
  assert (C : forall (a b : list R) j, (j < length a)%nat -> (j < length b)%nat -> nth j (combine a b) (0, 0) = (nth j a 0, nth j b 0)).
  { clear. induction a as [|x a IH]; intros [|y b] [|j] Ha Hb; cbn in *; try lia; auto. apply IH; lia. }
  rewrite C; [|lia|destruct l; cbn in *; lia]. unfold g. cbn [fst snd]. destruct l; [cbn in H; lia|]. reflexivity.
Qed.
Lemma cut_length c l : (0 < c)%nat -> length (cut c l) = (length l - c - c)%nat.
Proof. intros H. unfold cut. destruct (Nat.eqb_spec c 0); [lia|]. rewrite firstn_length, skipn_length. lia. Qed.
Lemma cut_nth c l j : (0 < c)%nat -> (j < length l - c - c)%nat -> nth j (cut c l) 0 = nth (j + c) l 0.
Proof.
  intros H Hj. unfold cut. destruct (Nat.eqb_spec c 0); [lia|].
  assert (F : forall (a : list R) n k, (k < n)%nat -> nth k (firstn n a) 0 = nth k a 0).
  { clear. induction a as [|x a IH]; intros [|n] [|k] Hk; cbn; try lia; auto. apply IH. lia. }
  rewrite F by assumption.
  assert (G : forall n (a : list R) k, nth k (skipn n a) 0 = nth (k + n) a 0).
  { clear. induction n as [|n IH]; intros a k; [now rewrite Nat.add_0_r|].
    destruct a as [|x a]; cbn [skipn]; [destruct k; reflexivity|]. rewrite IH, Nat.add_succ_r. reflexivity. }
  apply G.
Qed.
Lemma concat_rows (rows : list (list R)) w : (forall r, In r rows -> length r = w) -> length (concat rows) = (length rows * w)%nat.
Proof.
  induction rows as [|r rows IH]; intros H; [reflexivity|]. cbn. rewrite app_length, IH by (intros; apply H; now right).
  rewrite (H r) by now left. reflexivity.
Qed.
Lemma concat_nth (rows : list (list R)) w k : (0 < w)%nat -> (forall r, In r rows -> length r = w) ->
  nth k (concat rows) 0 = nth (k mod w) (nth (k / w) rows []) 0.
Proof.
  intros Hw. revert k. induction rows as [|r rows IH]; intros k H.
  - cbn. destruct k, (_ / w)%nat, (_ mod w)%nat; reflexivity.
  - cbn [concat]. assert (Lr : length r = w) by (apply H; now left). destruct (le_lt_dec w k) as [Hk|Hk].
    + rewrite app_nth2 by lia. rewrite IH by (intros; apply H; now right). rewrite Lr.
      replace k with ((k - w) + 1 * w)%nat at 3 4 by lia. rewrite Nat.mod_add, Nat.div_add by lia. rewrite Nat.add_1_r. reflexivity.
    + rewrite app_nth1 by lia. rewrite Nat.div_small, Nat.mod_small by lia. reflexivity.
Qed.
Lemma div_twice n : (25 <= n)%nat -> (0 < n / 25 /\ n / 25 + n / 25 + 1 < n)%nat.
Proof. intros H. assert (n / 25 * 25 <= n)%nat by (rewrite Nat.mul_comm; apply Nat.mul_div_le; lia). split; [apply Nat.div_str_pos; lia|lia]. Qed.
