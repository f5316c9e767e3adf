(** Properties of the voltage guards (C49, C71-C74). *)
From Coq Require Import Lra Psatz.
From Verif Require Import PyBase TargetModel TunerModel TunerSpec SeriesLemmas MatlabModel MatlabSpec MatlabProofs.
Local Open Scope R_scope.
Local Open Scope string_scope.

(** ** set_qqd_gate_voltages.m *)
(** With finite numbers the guard accepts exactly the requests in limits, sets
    exactly what is asked, and otherwise changes nothing. *)
Theorem set_qqd_guard channels pretuned new h :
  NoDup (index new) -> finite_request new -> (forall g, In g (index new) -> exists x, h g = Fin x) ->
  (snd (set_qqd channels pretuned new h) = Ok tt <->
     incl (index new) channels /\ incl (index new) pretuned /\
     forall g x y, In (g, Fin y) new -> h g = Fin x -> -1.3 <= y <= 0 /\ Rabs (y - x) <= 0.01) /\
  (snd (set_qqd channels pretuned new h) = Ok tt ->
     within (-1.3) 0 (index new) (fst (set_qqd channels pretuned new h)) /\
     moved_at_most 0.01 (index new) h (fst (set_qqd channels pretuned new h)) /\
     (forall g, fst (set_qqd channels pretuned new h) g = asked new h g)) /\
  (snd (set_qqd channels pretuned new h) <> Ok tt -> fst (set_qqd channels pretuned new h) = h).
Proof.
  intros Hnd Hf Hold. rewrite set_qqd_eq.
  assert (Hbad : existsb (entry_bad (- (13 / 10)) 0 h) new = false <->
    forall g x y, In (g, Fin y) new -> h g = Fin x -> -1.3 <= y <= 0 /\ Rabs (y - x) <= 0.01).
  { rewrite existsb_false. split.
    - intros H g x y Hin E. apply (H _) in Hin. rewrite (entry_fine _ _ x) in Hin by assumption. lra.
    - intros H [g v] Hin. destruct (Hf g v Hin) as [y ->]. destruct (Hold g) as [x E]; [now apply (in_map fst) in Hin|].
      rewrite (entry_fine _ _ x) by assumption. specialize (H g x y Hin E). lra. }
  destruct (subset (index new) channels) eqn:E1; cbn [andb].
  2:{ cbn. split; [|split; [discriminate|reflexivity]]. split; [discriminate|]. intros (H & _).
      apply subset_incl in H. congruence. }
  destruct (subset (index new) pretuned) eqn:E2; cbn [andb].
  2:{ cbn. split; [|split; [discriminate|reflexivity]]. split; [discriminate|]. intros (_ & H & _).
      apply subset_incl in H. congruence. }
  apply subset_incl in E1. apply subset_incl in E2.
  destruct (existsb (entry_bad (- (13 / 10)) 0 h) new) eqn:E3; cbn [negb fst snd].
  - split; [|split; [discriminate|reflexivity]]. split; [discriminate|]. intros (_ & _ & H). apply Hbad in H. discriminate.
  - split; [|split; [|congruence]].
    + split; auto. intros _. repeat split; auto; eapply Hbad; eauto.
    + intros _.
      assert (G : forall g, In g (index new) -> exists x y, h g = Fin x /\ smset new h g = Fin y /\ -1.3 <= y <= 0 /\ Rabs (y - x) <= 0.01).
      { intros g Hg. destruct (Hold g Hg) as [x Ex]. apply in_map_iff in Hg. destruct Hg as ((g' & v) & Eg & Hin).
        cbn in Eg; subst g'. destruct (Hf g v Hin) as [y ->]. exists x, y.
        rewrite (smset_in new h g (Fin y)) by assumption. split; auto. split; auto. now apply (proj1 Hbad eq_refl g x y). }
      split; [|split].
      * intros g Hg. destruct (G g Hg) as (x & y & ? & ? & ? & ?). eauto.
      * intros g Hg. destruct (G g Hg) as (x & y & ? & ? & ? & ?). eauto 6.
      * intros g. now apply smset_asked.
Qed.
Definition quiet (v : R) : rig := fun _ => Fin v.
Example set_qqd_guard_ex :
  snd (set_qqd ["T"; "N"] ["T"; "N"] [("T", Fin (-0.505))] (quiet (-0.5))) = Ok tt /\
  snd (set_qqd ["T"; "N"] ["T"; "N"] [("T", Fin (-0.515))] (quiet (-0.5))) = Raise matlab_error.
Proof.
  split.
  - apply set_qqd_guard; [repeat constructor; intros []| | |].
    + intros g v [E|[]]. inversion E. eauto.
    + intros g _. eexists. reflexivity.
    + split; [|split]; [intros g [<-|[]]; cbn; auto..|]. intros g x y [E|[]] Ex. inversion E; subst. inversion Ex; subst.
      split; [lra|]. apply Rabs_le. lra.
  - rewrite set_qqd_eq. cbn [index map fst subset forallb mem existsb label_eqb String.eqb Ascii.eqb Bool.eqb orb andb].
    destruct (entry_bad _ _ _ _) eqn:E; [reflexivity|]. rewrite (entry_fine _ _ (-0.5)) in E by reflexivity.
    exfalso. destruct E as [_ E]. apply Rabs_def2 in E || idtac. revert E. unfold Rabs. destruct (Rcase_abs _); lra.
Qed.

(** ** SMTuneQQD.set_gate_voltages on top of it *)
(** Every request is completed with the present values of all gates, so all of
    them have to be in limits. *)
Theorem qqd_request_accepted channels pretuned gates new h :
  NoDup gates -> NoDup (index new) -> incl gates channels -> incl gates pretuned -> finite_request new ->
  (forall g, In g gates -> exists x, h g = Fin x) ->
  ((exists v, snd (qqd_set channels pretuned gates new h) = Ok v) <->
    incl (index new) gates /\
    forall g x y, In g gates -> h g = Fin x -> asked new h g = Fin y -> -1.3 <= y <= 0 /\ Rabs (y - x) <= 0.01) /\
  ((exists v, snd (qqd_set channels pretuned gates new h) = Ok v) ->
    (forall g, fst (qqd_set channels pretuned gates new h) g = asked new h g) /\
    forall v, snd (qqd_set channels pretuned gates new h) = Ok v ->
      (forall g, In g (index v) <-> In g gates) /\ forall g x, In (g, x) v -> x = asked new h g) /\
  ((forall v, snd (qqd_set channels pretuned gates new h) <> Ok v) -> fst (qqd_set channels pretuned gates new h) = h).
Proof.
  intros Hg Hn Hc Hp Hf Hold. rewrite qqd_set_eq by assumption. cbn zeta.
  apply subset_incl in Hc. apply subset_incl in Hp. rewrite Hc, Hp. cbn [andb].
  destruct (subset (index new) gates) eqn:E1.
  2:{ cbn. split; [|split; [intros [v H]; discriminate|reflexivity]]. split; [intros [v H]; discriminate|].
      intros (H & _). apply subset_incl in H. congruence. }
  assert (E1' := proj1 (subset_incl _ _) E1).
  assert (Hask : forall g, In g gates -> exists y, asked new h g = Fin y).
  { intros g Hgg. unfold asked. destruct (lookup g new) eqn:E; [|auto]. apply lookup_in in E. eapply Hf; eauto. }
  assert (Hbad : existsb (entry_bad (- (13 / 10)) 0 h) (tab (sort_labels gates) (asked new h)) = false <->
    forall g x y, In g gates -> h g = Fin x -> asked new h g = Fin y -> -1.3 <= y <= 0 /\ Rabs (y - x) <= 0.01).
  { rewrite existsb_false. split.
    - intros H g x y Hin E E'. specialize (H (g, Fin y)). rewrite (entry_fine _ _ x) in H by assumption.
      assert (K : In (g, Fin y) (tab (sort_labels gates) (asked new h))).
      { apply in_map_iff. exists g. rewrite E'. split; auto. now apply sort_labels_in. }
      specialize (H K). lra.
    - intros H p Hin. apply in_map_iff in Hin. destruct Hin as (g & <- & Hin). rewrite sort_labels_in in Hin.
      destruct (Hold g Hin) as [x E]. destruct (Hask g Hin) as [y E']. rewrite E'.
      rewrite (entry_fine _ _ x) by assumption. specialize (H g x y Hin E E'). lra. }
  assert (Hset : forall g, smset (tab (sort_labels gates) (asked new h)) h g = asked new h g).
  { intros g. destruct (in_dec string_dec g gates) as [Hin|Hout].
    - apply smset_tab_in; [now apply sort_labels_nodup|now apply sort_labels_in].
    - rewrite smset_tab_other by (now rewrite sort_labels_in). unfold asked.
      replace (lookup g new) with (@None num); [reflexivity|]. symmetry. apply lookup_notin. auto. }
  destruct (existsb _ _) eqn:E3; cbn [negb fst snd].
  - split; [|split; [intros [v H]; discriminate|reflexivity]]. split; [intros [v H]; discriminate|].
    intros (_ & H). apply Hbad in H. congruence.
  - split; [|split].
    + split; [|eauto]. intros _. split; [assumption|]. now apply Hbad.
    + intros _. split; [assumption|]. intros v E. inversion E; subst. unfold qqd_read, index. rewrite map_map. cbn.
      rewrite map_id. split; [intros; apply sort_labels_in|]. intros g x Hin. apply in_map_iff in Hin.
      destruct Hin as (g' & E' & _). inversion E'; subst. apply Hset.
    + intros H. exfalso. eapply H. reflexivity.
Qed.

(** Whatever is requested, one request after the other: all gates stay within
    [-1.3, 0] V, n requests move a gate by at most n * 10 mV, and no other
    channel is touched. *)
Theorem qqd_run_safe channels pretuned gates reqs h :
  NoDup gates -> incl gates channels -> incl gates pretuned ->
  (forall new, In new reqs -> NoDup (index new) /\ finite_request new) ->
  within (-1.3) 0 gates h ->
  within (-1.3) 0 gates (qqd_run channels pretuned gates reqs h) /\
  moved_at_most (INR (length reqs) * 0.01) gates h (qqd_run channels pretuned gates reqs h) /\
  only gates h (qqd_run channels pretuned gates reqs h).
Proof.
  intros Hg Hc Hp. revert h. induction reqs as [|new reqs IH]; intros h Hr Hw.
  - split; [exact Hw|]. split; [|intros g _; reflexivity]. intros g Hgg. destruct (Hw g Hgg) as (x & E & _).
    exists x, x. cbn. repeat split; auto. rewrite Rminus_diag_eq by reflexivity. rewrite Rabs_R0. lra.
  - change (qqd_run channels pretuned gates (new :: reqs) h)
      with (qqd_run channels pretuned gates reqs (fst (qqd_set channels pretuned gates new h))).
    set (h1 := fst (qqd_set channels pretuned gates new h)).
    destruct (Hr new (or_introl eq_refl)) as [Hn Hf].
    assert (K : within (-1.3) 0 gates h1 /\ moved_at_most 0.01 gates h h1 /\ only gates h h1).
    { destruct (qqd_request_accepted channels pretuned gates new h Hg Hn Hc Hp Hf) as (A & B & C).
      { intros g Hgg. destruct (Hw g Hgg) as (x & E & _). eauto. }
      fold h1 in B, C. destruct (snd (qqd_set channels pretuned gates new h)) as [v|e] eqn:E.
      - destruct A as [A _]. destruct A as [A1 A2]; [eauto|]. destruct B as [B _]; [eauto|].
        assert (D : forall g, In g gates -> exists x y, h g = Fin x /\ h1 g = Fin y /\ -1.3 <= y <= 0 /\ Rabs (y - x) <= 0.01).
        { intros g Hgg. destruct (Hw g Hgg) as (x & Ex & _).
          assert (Ey : exists y, asked new h g = Fin y).
          { unfold asked. destruct (lookup g new) eqn:El; [|eauto]. apply lookup_in in El. eapply Hf; eauto. }
          destruct Ey as [y Ey]. exists x, y. rewrite B. split; auto. split; auto. apply (A2 g); auto. }
        split; [|split].
        + intros g Hgg. destruct (D g Hgg) as (x & y & ? & ? & ? & ?). eauto.
        + intros g Hgg. destruct (D g Hgg) as (x & y & ? & ? & ? & ?). eauto 6.
        + intros g Hgg. rewrite B. unfold asked. replace (lookup g new) with (@None num); [reflexivity|].
          symmetry. apply lookup_notin. auto.
      - rewrite C by discriminate. split; [exact Hw|]. split; [|intros g _; reflexivity].
        intros g Hgg. destruct (Hw g Hgg) as (x & Ex & _). exists x, x. repeat split; auto.
        rewrite Rminus_diag_eq by reflexivity. rewrite Rabs_R0. lra. }
    destruct K as (K1 & K2 & K3). destruct (IH h1) as (I1 & I2 & I3); [intros; apply Hr; now right|assumption|].
    split; [assumption|]. split.
    + intros g Hgg. destruct (K2 g Hgg) as (x & y & Ex & Ey & D). destruct (I2 g Hgg) as (y' & z & Ey' & Ez & D').
      rewrite Ey in Ey'. inversion Ey'; subst y'. exists x, z. split; auto. split; auto.
      cbn [length]. rewrite S_INR. replace (z - x) with ((z - y) + (y - x)) by ring.
      eapply Rle_trans; [apply Rabs_triang|]. lra.
    + intros g Hgg. rewrite I3, K3 by assumption. reflexivity.
Qed.
Example qqd_run_safe_ex :
  within (-1.3) 0 ["T"; "N"] (quiet (-0.5)) /\ NoDup ["T"; "N"] /\
  (forall new, In new [[("T", Fin (-0.505))]; [("N", Fin 3)]] -> NoDup (index new) /\ finite_request new).
Proof.
  split; [|split].
  - intros g _. exists (-0.5). split; [reflexivity|lra].
  - repeat constructor; cbn; intuition congruence.
  - intros new [<-|[<-|[]]]; (split; [repeat constructor; intros []|]); intros g v [E|[]]; inversion E; eauto.
Qed.

(** A gate outside the window by more than 10 mV blocks every gate for good:
    no sequence of finite requests moves anything. *)
Theorem qqd_blocked channels pretuned gates reqs h g x :
  NoDup gates -> incl gates channels -> incl gates pretuned ->
  (forall new, In new reqs -> NoDup (index new) /\ finite_request new) ->
  (forall g, In g gates -> exists x, h g = Fin x) ->
  In g gates -> h g = Fin x -> (x > 0.01 \/ x < -1.31) ->
  qqd_run channels pretuned gates reqs h = h.
Proof.
  intros Hg Hc Hp Hr Hold Hin Ex Hx. induction reqs as [|new reqs IH]; [reflexivity|].
  change (qqd_run channels pretuned gates (new :: reqs) h)
    with (qqd_run channels pretuned gates reqs (fst (qqd_set channels pretuned gates new h))).
  destruct (Hr new (or_introl eq_refl)) as [Hn Hf].
  destruct (qqd_request_accepted channels pretuned gates new h Hg Hn Hc Hp Hf Hold) as (A & _ & C).
  rewrite C; [apply IH; intros; apply Hr; now right|]. intros v Ev.
  destruct A as [A _]. destruct A as [_ A]; [eauto|].
  assert (Ey : exists y, asked new h g = Fin y).
  { unfold asked. destruct (lookup g new) eqn:El; [|eauto]. apply lookup_in in El. eapply Hf; eauto. }
  destruct Ey as [y Ey]. destruct (A g x y Hin Ex Ey) as [A1 A2]. revert A2. unfold Rabs. destruct (Rcase_abs _); lra.
Qed.
Example qqd_blocked_ex : let h := fun g => if label_eqb g "T" then Fin 0.02 else Fin (-0.5) in
  qqd_run ["T"; "N"] ["T"; "N"] ["T"; "N"] [[("N", Fin (-0.501))]; [("T", Fin 0)]] h = h.
Proof.
  cbn zeta. apply (qqd_blocked _ _ _ _ _ "T" 0.02).
  - repeat constructor; cbn; intuition congruence.
  - apply incl_refl.
  - apply incl_refl.
  - intros new [<-|[<-|[]]]; (split; [repeat constructor; intros []|]); intros g v [E|[]]; inversion E; eauto.
  - intros g _. destruct (label_eqb g "T"); eauto.
  - now left.
  - reflexivity.
  - left. lra.
Qed.

(** Claim "the guard only lets voltages in [-1.3, 0] V and steps of 10 mV
    through": refuted by NaN.  A NaN request is set, and after it a step of
    any size passes. *)
Theorem qqd_nan_refuted channels pretuned gates h g v :
  NoDup gates -> incl gates channels -> incl gates pretuned -> In g gates -> within (-1.3) 0 gates h ->
  -1.3 <= v <= 0 ->
  let h1 := qqd_run channels pretuned gates [[(g, NaN)]] h in
  let h2 := qqd_run channels pretuned gates [[(g, NaN)]; [(g, Fin v)]] h in
  h1 g = NaN /\ h2 g = Fin v.
Proof.
  intros Hg Hc Hp Hin Hw Hv. cbn zeta.
  assert (Hnd : forall w, NoDup (index [(g, w)])) by (intros; repeat constructor; intros []).
  assert (Hsub : forall w, subset (index [(g, w)]) gates = true).
  { intros w. apply subset_incl. intros k [<-|[]]. exact Hin. }
  apply subset_incl in Hc. apply subset_incl in Hp.
  assert (Step : forall h' w, (forall k, In k gates -> k <> g -> exists x, h' k = Fin x /\ -1.3 <= x <= 0) ->
                 entry_bad (- (13 / 10)) 0 h' (g, w) = false ->
                 forall k, fst (qqd_set channels pretuned gates [(g, w)] h') k = if label_eqb k g then w else h' k).
  { intros h' w Ho He k. rewrite qqd_set_eq by auto. rewrite Hsub, Hc, Hp. cbn zeta. cbn [andb].
    replace (existsb _ _) with false.
    - cbn [negb fst]. unfold label_eqb. destruct (String.eqb_spec k g).
      + subst k. rewrite smset_tab_in by (auto using sort_labels_nodup; now apply sort_labels_in).
        unfold asked. cbn. unfold label_eqb. now rewrite String.eqb_refl.
      + destruct (in_dec string_dec k gates) as [Hk|Hk].
        * rewrite smset_tab_in by (auto using sort_labels_nodup; now apply sort_labels_in).
          unfold asked. cbn. unfold label_eqb. destruct (String.eqb_spec k g); congruence.
        * apply smset_tab_other. now rewrite sort_labels_in.
    - symmetry. apply existsb_false. intros p Hp'. apply in_map_iff in Hp'. destruct Hp' as (k' & <- & Hk').
      rewrite sort_labels_in in Hk'. unfold asked. cbn. unfold label_eqb. destruct (String.eqb_spec k' g).
      + subst k'. exact He.
      + destruct (Ho k' Hk' n) as (x & E & Hx). rewrite E. apply (entry_fine h' k' x); [assumption|].
        rewrite Rminus_diag_eq by reflexivity. rewrite Rabs_R0. lra. }
  assert (H1 : forall k, fst (qqd_set channels pretuned gates [(g, NaN)] h) k = if label_eqb k g then NaN else h k).
  { apply Step; [|apply entry_nan]. intros k Hk _. exact (Hw k Hk). }
  unfold qqd_run. cbn [fold_left]. split.
  - rewrite H1. unfold label_eqb. now rewrite String.eqb_refl.
  - rewrite Step.
    + unfold label_eqb. now rewrite String.eqb_refl.
    + intros k Hk Hkg. rewrite H1. unfold label_eqb. destruct (String.eqb_spec k g); [congruence|]. exact (Hw k Hk).
    + unfold entry_bad. cbn [fst snd]. rewrite H1. unfold label_eqb. rewrite String.eqb_refl. cbn [nltb nsub nadd nopp nabs].
      rewrite orb_false_r, orb_false_iff, !Rltb_false. lra.
Qed.
Example qqd_nan_refuted_ex : qqd_run ["T"] ["T"] ["T"] [[("T", NaN)]; [("T", Fin 0)]] (quiet (-1.3)) "T" = Fin 0.
Proof.
  apply (qqd_nan_refuted ["T"] ["T"] ["T"] (quiet (-1.3)) "T" 0).
  - repeat constructor; intros [].
  - apply incl_refl.
  - apply incl_refl.
  - now left.
  - intros g _. exists (-1.3). split; [reflexivity|lra].
  - lra.
Qed.

(** ** set_qqd_gate_voltages_abs_limit.m *)
(** The "lower limit" compares the step: a request is accepted iff every new
    voltage is at most -0.4 V and at most 1.3 V above the old one. *)
Theorem abs_limit_guard channels pretuned new h :
  NoDup (index new) -> finite_request new -> (forall g, In g (index new) -> exists x, h g = Fin x) ->
  (snd (set_qqd_abs_limit channels pretuned new h) = Ok tt <->
     incl (index new) channels /\ incl (index new) pretuned /\
     forall g x y, In (g, Fin y) new -> h g = Fin x -> y <= -0.4 /\ y <= x + 1.3) /\
  (snd (set_qqd_abs_limit channels pretuned new h) = Ok tt ->
     forall g, fst (set_qqd_abs_limit channels pretuned new h) g = asked new h g) /\
  (snd (set_qqd_abs_limit channels pretuned new h) <> Ok tt -> fst (set_qqd_abs_limit channels pretuned new h) = h).
Proof.
  intros Hnd Hf Hold. rewrite abs_limit_eq.
  assert (Hbad : existsb (fun p => nltb (Fin (- (4 / 10))) (snd p) || nltb (nsub (h (fst p)) (snd p)) (Fin (- (13 / 10)))) new = false <->
    forall g x y, In (g, Fin y) new -> h g = Fin x -> y <= -0.4 /\ y <= x + 1.3).
  { rewrite existsb_false. split.
    - intros H g x y Hin E. specialize (H _ Hin). cbn [fst snd] in H. rewrite E in H. cbn [nltb nsub nadd nopp] in H.
      rewrite orb_false_iff, !Rltb_false in H. lra.
    - intros H [g v] Hin. destruct (Hf g v Hin) as [y ->]. destruct (Hold g) as [x E]; [now apply (in_map fst) in Hin|].
      cbn [fst snd]. rewrite E. cbn [nltb nsub nadd nopp]. rewrite orb_false_iff, !Rltb_false.
      specialize (H g x y Hin E). lra. }
  destruct (subset (index new) channels) eqn:E1; cbn [andb].
  2:{ cbn. split; [|split; [discriminate|reflexivity]]. split; [discriminate|]. intros (H & _).
      apply subset_incl in H. congruence. }
  destruct (subset (index new) pretuned) eqn:E2; cbn [andb].
  2:{ cbn. split; [|split; [discriminate|reflexivity]]. split; [discriminate|]. intros (_ & H & _).
      apply subset_incl in H. congruence. }
  apply subset_incl in E1. apply subset_incl in E2.
  destruct (existsb _ new) eqn:E3; cbn [negb fst snd].
  - split; [|split; [discriminate|reflexivity]]. split; [discriminate|]. intros (_ & _ & H). apply Hbad in H. discriminate.
  - split; [|split; [|congruence]].
    + split; auto. intros _. repeat split; auto; eapply Hbad; eauto.
    + intros _ g. now apply smset_asked.
Qed.
(** Claim "no voltage below -1.3 V is accepted": refuted, from every state
    above -1.7 V every voltage below -0.4 V is accepted. *)
Theorem abs_limit_refuted channels pretuned h g x v :
  In g channels -> In g pretuned -> h g = Fin x -> x >= -1.7 -> v <= -0.4 ->
  snd (set_qqd_abs_limit channels pretuned [(g, Fin v)] h) = Ok tt /\
  fst (set_qqd_abs_limit channels pretuned [(g, Fin v)] h) g = Fin v.
Proof.
  intros Hc Hp Ex Hx Hv.
  destruct (abs_limit_guard channels pretuned [(g, Fin v)] h) as (A & B & _).
  - repeat constructor. intros [].
  - intros k w [E|[]]. inversion E. eauto.
  - intros k [<-|[]]. eauto.
  - assert (O : snd (set_qqd_abs_limit channels pretuned [(g, Fin v)] h) = Ok tt).
    { apply A. split; [|split]; [intros k [<-|[]]; assumption..|]. intros k x' y [E|[]] E'. inversion E; subst.
      rewrite Ex in E'. inversion E'; subst. lra. }
    split; [assumption|]. rewrite B by assumption. unfold asked. cbn. unfold label_eqb. now rewrite String.eqb_refl.
Qed.
Example abs_limit_refuted_ex : fst (set_qqd_abs_limit ["T"] ["T"] [("T", Fin (-50))] (quiet (-0.5))) "T" = Fin (-50).
Proof. apply (abs_limit_refuted ["T"] ["T"] (quiet (-0.5)) "T" (-0.5)); cbn; auto; lra. Qed.

(** ** set_gates_v_pretuned.m *)
Lemma combine_nodup {A B} (a : list A) (b : list B) : NoDup a -> NoDup (map fst (combine a b)).
Proof.
  revert b. induction a as [|x a IH]; intros b H; [constructor|]. destruct b as [|y b]; [constructor|].
  inversion H; subst. cbn. constructor; [|auto]. intros Hin. apply H2. apply in_map_iff in Hin.
  destruct Hin as ((u & w) & E & Hin). cbn in E; subst. now apply in_combine_l in Hin.
Qed.
(** Accepted iff the eight dot gates are within 30 mV and the sensing dot gates
    at most 30 mV above their pretuned values; then the new point is set.
    Otherwise the pretuned point is set although an error is raised. *)
Theorem set_pretuned_guard chan pre s2 s1 (args : label -> num) a (rp : list R) r2 r1 h :
  length chan = 8%nat -> NoDup (chan ++ ["SDB1"; "SDB2"]) ->
  (forall l, args l = Fin (a l)) -> pre = map Fin rp -> length rp = 8%nat -> s2 = Fin r2 -> s1 = Fin r1 ->
  (snd (set_pretuned chan pre s2 s1 args h) = Ok tt <->
     (forall i, (i < 8)%nat -> Rabs (nth i rp 0 - a (nth i dqd_fields "")) <= 0.03) /\ a "SDB2" <= r2 + 0.03 /\ a "SDB1" <= r1 + 0.03) /\
  (snd (set_pretuned chan pre s2 s1 args h) = Ok tt ->
     (forall i, (i < 8)%nat -> fst (set_pretuned chan pre s2 s1 args h) (nth i chan "") = Fin (a (nth i dqd_fields ""))) /\
     fst (set_pretuned chan pre s2 s1 args h) "SDB1" = Fin (a "SDB1") /\ fst (set_pretuned chan pre s2 s1 args h) "SDB2" = Fin (a "SDB2")) /\
  (snd (set_pretuned chan pre s2 s1 args h) <> Ok tt ->
     (forall i, (i < 8)%nat -> fst (set_pretuned chan pre s2 s1 args h) (nth i chan "") = Fin (nth i rp 0)) /\
     fst (set_pretuned chan pre s2 s1 args h) "SDB1" = s1 /\ fst (set_pretuned chan pre s2 s1 args h) "SDB2" = s2) /\
  only (chan ++ ["SDB1"; "SDB2"]) h (fst (set_pretuned chan pre s2 s1 args h)).
Proof.
  intros Lc Hnd Ha -> Lp -> ->.
  destruct rp as [|p0 [|p1 [|p2 [|p3 [|p4 [|p5 [|p6 [|p7 [|p8 rp]]]]]]]]]; try discriminate. clear Lp.
  destruct chan as [|c0 [|c1 [|c2 [|c3 [|c4 [|c5 [|c6 [|c7 [|c8 chan]]]]]]]]]; try discriminate. clear Lc.
  unfold set_pretuned, dqd_fields, max_distance. cbn [map combine existsb fst snd].
  rewrite !Ha. cbn [nltb nsub nadd nopp nabs].
  assert (F : forall P : nat -> Prop, (forall i, (i < 8)%nat -> P i) <-> (P 0 /\ P 1 /\ P 2 /\ P 3 /\ P 4 /\ P 5 /\ P 6 /\ P 7)%nat).
  { intros P. split; [intros H; repeat split; apply H; lia|].
    intros (? & ? & ? & ? & ? & ? & ? & ?) i Hi.
    destruct i as [|[|[|[|[|[|[|[|i]]]]]]]]; auto; lia. }
  rewrite !F. clear F. cbn [nth].
  cbn [app] in Hnd.
  set (b := _ || _ || _).
  assert (Hb : b = false <-> (Rabs (p0 - a "SB") <= 0.03 /\ Rabs (p1 - a "BB") <= 0.03 /\ Rabs (p2 - a "T") <= 0.03 /\
     Rabs (p3 - a "N") <= 0.03 /\ Rabs (p4 - a "SA") <= 0.03 /\ Rabs (p5 - a "BA") <= 0.03 /\ Rabs (p6 - a "RFA") <= 0.03 /\
     Rabs (p7 - a "RFB") <= 0.03) /\ a "SDB2" <= r2 + 0.03 /\ a "SDB1" <= r1 + 0.03).
  { unfold b. rewrite !orb_false_iff, !Rltb_false. unfold Rminus. intuition lra. }
  clearbody b.
  assert (N : forall i j, (i < j < 10)%nat -> nth i [c0; c1; c2; c3; c4; c5; c6; c7; "SDB1"; "SDB2"] "" <> nth j [c0; c1; c2; c3; c4; c5; c6; c7; "SDB1"; "SDB2"] "").
  { intros i j Hij E. apply (NoDup_nth _ "") in E; auto; cbn; lia. }
  assert (IN : forall vs k v, NoDup (index vs) -> In (k, v) vs -> smset vs h k = v) by (intros; now apply smset_in).
  cbn [app]. destruct b; cbn [fst snd].
  - set (h' := smset1 "SDB1" (Fin r1) _). replace h' with (smset [(c0, Fin p0); (c1, Fin p1); (c2, Fin p2); (c3, Fin p3); (c4, Fin p4); (c5, Fin p5); (c6, Fin p6); (c7, Fin p7); ("SDB2", Fin r2); ("SDB1", Fin r1)] h) by reflexivity. clear h'.
    assert (Hnd' : NoDup (index [(c0, Fin p0); (c1, Fin p1); (c2, Fin p2); (c3, Fin p3); (c4, Fin p4); (c5, Fin p5); (c6, Fin p6); (c7, Fin p7); ("SDB2", Fin r2); ("SDB1", Fin r1)])).
    { cbn. eapply Permutation.Permutation_NoDup; [|exact Hnd]. do 8 apply Permutation.perm_skip. apply Permutation.perm_swap. }
    split; [|split; [discriminate|split]].
    + split; [discriminate|]. intros H. apply Hb in H. discriminate.
    + intros _. repeat split; (apply IN; [exact Hnd'|cbn; tauto]).
    + intros g Hg. apply smset_other. cbn in Hg |- *. tauto.
  - split; [|split; [|split; [congruence|]]].
    + split; auto. intros _. now apply Hb.
    + intros _. repeat split; (apply IN; [exact Hnd|cbn; tauto]).
    + intros g Hg. apply smset_other. exact Hg.
Qed.
Example set_pretuned_guard_ex : NoDup (["SB"; "BB"; "T"; "N"; "SA"; "BA"; "RFA"; "RFB"] ++ ["SDB1"; "SDB2"]) /\
  snd (set_pretuned dqd_fields (map Fin [0; 0; 0; 0; 0; 0; 0; 0]%R) (Fin (-1)) (Fin (-1)) (fun l => Fin (if label_eqb l "SDB1" then -9 else if label_eqb l "SDB2" then -1 else 0)) (quiet 0)) = Ok tt.
Proof.
  assert (N : NoDup (["SB"; "BB"; "T"; "N"; "SA"; "BA"; "RFA"; "RFB"] ++ ["SDB1"; "SDB2"])).
  { repeat constructor; cbn; intuition discriminate. }
  split; [exact N|].
  eapply (set_pretuned_guard dqd_fields _ _ _ _ (fun l => if label_eqb l "SDB1" then -9 else if label_eqb l "SDB2" then -1 else 0)
           [0; 0; 0; 0; 0; 0; 0; 0]%R (-1) (-1)); try reflexivity; [exact N|].
  split; [|cbn; lra]. intros i Hi.
  destruct i as [|[|[|[|[|[|[|[|i]]]]]]]]; [cbn..|lia]; rewrite Rminus_diag_eq by reflexivity; rewrite Rabs_R0; lra.
Qed.
(** Claim "no gate gets more than 30 mV away from the pretuned point": refuted,
    the sensing dot gates may go down without limit. *)
Theorem set_pretuned_refuted chan (rp : list R) r2 r1 d h :
  length chan = 8%nat -> NoDup (chan ++ ["SDB1"; "SDB2"]) -> length rp = 8%nat -> 0 <= d ->
  exists args, (forall l, exists x, args l = Fin x) /\
    snd (set_pretuned chan (map Fin rp) (Fin r2) (Fin r1) args h) = Ok tt /\
    fst (set_pretuned chan (map Fin rp) (Fin r2) (Fin r1) args h) "SDB1" = Fin (r1 - d) /\
    fst (set_pretuned chan (map Fin rp) (Fin r2) (Fin r1) args h) "SDB2" = Fin (r2 - d).
Proof.
  intros Lc Hnd Lp Hd.
  pose (a := fun l => if label_eqb l "SDB1" then r1 - d else if label_eqb l "SDB2" then r2 - d
                      else match lookup l (combine dqd_fields (map Fin rp)) with Some (Fin x) => x | _ => 0 end).
  exists (fun l => Fin (a l)). split; [eauto|].
  destruct (set_pretuned_guard chan (map Fin rp) (Fin r2) (Fin r1) (fun l => Fin (a l)) a rp r2 r1 h) as (A & B & _); auto.
  assert (O : snd (set_pretuned chan (map Fin rp) (Fin r2) (Fin r1) (fun l => Fin (a l)) h) = Ok tt).
  { apply A. split; [|cbn; lra]. intros i Hi.
    destruct rp as [|p0 [|p1 [|p2 [|p3 [|p4 [|p5 [|p6 [|p7 [|p8 rp]]]]]]]]]; try discriminate.
    destruct i as [|[|[|[|[|[|[|[|i]]]]]]]]; [cbn..|lia]; rewrite Rminus_diag_eq by reflexivity; rewrite Rabs_R0; lra. }
  split; [exact O|]. exact (proj2 (B O)).
Qed.

(** ** change_sensing_dot_gates.m *)
Theorem change_sensing_guard r2 r1 d1 d2 v1 v2 h :
  h "SDB1" = Fin v1 -> h "SDB2" = Fin v2 ->
  let out := change_sensing (Fin r2) (Fin r1) (Fin d1) (Fin d2) h in
  (snd out = Ok tt <-> Rabs d1 <= 0.021 /\ Rabs d2 <= 0.021 /\ Rabs (v1 + d1 - r1) <= 0.07 /\ Rabs (v2 + d2 - r2) <= 0.07) /\
  (snd out = Ok tt -> fst out "SDB1" = Fin (v1 + d1) /\ fst out "SDB2" = Fin (v2 + d2)) /\
  (snd out <> Ok tt -> fst out = h) /\
  only ["SDB1"; "SDB2"] h (fst out).
Proof.
  intros E1 E2. cbn zeta. unfold change_sensing. rewrite E1, E2. cbn [nltb nsub nadd nopp nabs].
  change (v1 + d1 + - r1) with (v1 + d1 - r1). change (v2 + d2 + - r2) with (v2 + d2 - r2).
  destruct (Rltb (21 / 1000) (Rabs d1)) eqn:B1; [apply Rltb_true in B1|apply Rltb_false in B1].
  { cbn. repeat split; try discriminate; try reflexivity. intros (? & _). lra. }
  destruct (Rltb (21 / 1000) (Rabs d2)) eqn:B2; [apply Rltb_true in B2|apply Rltb_false in B2].
  { cbn. repeat split; try discriminate; try reflexivity. intros (_ & ? & _). lra. }
  destruct (Rltb (70 / 1000) (Rabs (v1 + d1 - r1))) eqn:B3; [apply Rltb_true in B3|apply Rltb_false in B3].
  { cbn [fst snd]. repeat split; try discriminate; try reflexivity. intros (_ & _ & ? & _). lra. }
  destruct (Rltb (70 / 1000) (Rabs (v2 + d2 - r2))) eqn:B4; [apply Rltb_true in B4|apply Rltb_false in B4].
  { cbn [fst snd]. repeat split; try discriminate; try reflexivity. intros (_ & _ & _ & ?). lra. }
  cbn [fst snd]. rewrite (smset1_other "SDB1" _ h "SDB2") by discriminate. rewrite E2. cbn [nadd].
  split; [split; [intros _; lra|reflexivity]|]. split; [|split; [congruence|]].
  - intros _. split; [rewrite smset1_other by discriminate|]; apply smset1_same.
  - intros g Hg. cbn in Hg. rewrite !smset1_other; auto; intros ->; tauto.
Qed.
Example change_sensing_guard_ex : snd (change_sensing (Fin (-1)) (Fin (-1)) (Fin 0.02) (Fin (-0.02)) (quiet (-1))) = Ok tt.
Proof.
  apply (change_sensing_guard (-1) (-1) 0.02 (-0.02) (-1) (-1) (quiet (-1)) eq_refl eq_refl).
  repeat split; apply Rabs_le; lra.
Qed.

(** ** retune_qpc.m *)
(** The gate ends within 5 mV of its start and within 100 mV of the pretuned
    value, or everything goes back to the pretuned point with an error. *)
Theorem retune_qpc_guard chan rp r2 position range gate idx h :
  NoDup (chan ++ [gate]) -> length chan = length rp -> (1 <= idx <= 1180)%nat ->
  let out := retune_qpc chan (map Fin rp) (Fin r2) position range gate idx h in
  (forall x, snd out = Ok x -> fst out gate = Fin x /\ Rabs (x - position) <= 0.005 /\ Rabs (x - r2) <= 0.1 /\ only [gate] h (fst out)) /\
  ((forall x, snd out <> Ok x) -> fst out gate = Fin r2 /\ only (chan ++ [gate]) h (fst out) /\
     forall i, (i < length chan)%nat -> fst out (nth i chan "") = Fin (nth i rp 0)).
Proof.
  intros Hnd Hlen Hidx. cbn zeta. unfold retune_qpc. cbn [nsub nadd nopp nabs nltb].
  set (x := qpc_x position idx). destruct (Rltb (100 / 1000) (Rabs (x + - r2))) eqn:B; cbn [fst snd].
  - split; [discriminate|]. intros _. split; [apply smset1_same|]. split.
    + intros g Hg. rewrite in_app_iff in Hg. cbn in Hg. rewrite smset1_other by (intros ->; tauto).
      rewrite smset_other. { apply smset1_other. intros ->; tauto. }
      intros Hin. apply in_map_iff in Hin. destruct Hin as ((u & w) & E & Hin). cbn in E; subst. apply in_combine_l in Hin. tauto.
    + intros i Hi. rewrite smset1_other.
      * apply smset_in; [apply combine_nodup; now apply NoDup_remove_1 in Hnd; rewrite app_nil_r in Hnd|].
        replace (nth i chan "", Fin (nth i rp 0)) with (nth i (combine chan (map Fin rp)) ("", Fin 0)).
        { apply nth_In. rewrite combine_length, map_length. lia. }
        rewrite combine_nth by (now rewrite map_length). f_equal. apply (map_nth Fin).
      * intros E. apply NoDup_remove_2 in Hnd. rewrite app_nil_r in Hnd. apply Hnd. rewrite <- E. now apply nth_In.
  - apply Rltb_false in B. split; [|intros H; exfalso; eapply H; reflexivity]. intros x' E. inversion E; subst x'.
    split; [apply smset1_same|]. split; [|split; [unfold Rminus; lra|]].
    + unfold x, qpc_x. replace (position + _ - position) with (- (5 / 1000) + (INR (49 + idx) - 1) * (10 / 1000) / 1279) by ring.
      assert (1 <= INR (49 + idx) <= 1280).
      { replace 1 with (INR 1) by reflexivity. replace 1280 with (INR 1280) by (rewrite INR_IZR_INZ; reflexivity). split; apply le_INR; lia. }
      apply Rabs_le. lra.
    + intros g Hg. cbn in Hg. rewrite !smset1_other; auto.
Qed.
Example retune_qpc_guard_ex : exists x, snd (retune_qpc ["T"] [Fin (-1)] (Fin (-0.5)) (-0.45) 0.005 "SDB2" 600 (quiet 0)) = Ok x.
Proof.
  unfold retune_qpc. cbn [nsub nadd nopp nabs nltb]. destruct (Rltb _ _) eqn:E; [|eexists; reflexivity]. exfalso.
  apply Rltb_true in E. revert E. unfold qpc_x. replace (INR (49 + 600)) with 649 by (rewrite INR_IZR_INZ; reflexivity).
  unfold Rabs. destruct (Rcase_abs _); lra.
Qed.
(** Claim "the new position is the place of the extremum in the scan": refuted,
    its distance from the centre is scaled by 5 mV / range (the scan covers
    centre - range to centre + range, makePythonChargeLineScan.m). *)
Theorem retune_qpc_refuted chan pre s2 position range gate idx h x :
  0 < range -> snd (retune_qpc chan pre s2 position range gate idx h) = Ok x ->
  x - position = 0.005 / range * (scan_point (position - range) (position + range) 1280 (48 + idx) - position).
Proof.
  intros Hr H. unfold retune_qpc in H. cbn zeta in H. destruct (nltb _ _); cbn in H; inversion H; subst.
  unfold qpc_x, scan_point. replace (INR (49 + idx)) with (INR (48 + idx) + 1) by (rewrite <- S_INR; reflexivity).
  replace (INR 1280) with 1280 by (rewrite INR_IZR_INZ; reflexivity). replace 0.005 with (5 / 1000) by lra. field. lra.
Qed.

Print Assumptions set_qqd_guard.
Print Assumptions qqd_request_accepted.
Print Assumptions qqd_run_safe.
Print Assumptions qqd_blocked.
Print Assumptions qqd_nan_refuted.
Print Assumptions abs_limit_guard.
Print Assumptions abs_limit_refuted.
Print Assumptions set_pretuned_guard.
Print Assumptions set_pretuned_refuted.
Print Assumptions change_sensing_guard.
Print Assumptions retune_qpc_guard.
Print Assumptions retune_qpc_refuted.
