(** Property: a hierarchy of tuners with steps of limited size on devices that
    are not affine. *)
From Verif Require Import PyBase TunerSpec TargetModel TunerModel SeriesLemmas NewtonModel EstimatorModel AutotunerModel AutotunerProofs ComposeModel KernelR ComposeSpec ComposeProofs ComposeHierarchy ComposeNumerics ComposeCoupledSpec ComposeCoupledProofs ComposeCurvedSpec ComposeCurvedProofs ComposeCurvedProps ComposeTowerSpec ComposeTowerProofs ComposeTowerProps ComposePaceSpec ComposePaceProofs.
From Coq Require Import Lra ZArith.
Local Open Scope list_scope.
Local Open Scope string_scope.

(** C150.  Bound on the number of iterations.  Every step of limited size costs
    as many iterations as a whole round. *)
Theorem paced_tower_rate :
  forall ortho calc lstsq, lstsq_shortest lstsq ->
  forall (all : list label) (tower : list storey) results (p0 : label -> R) (rest : list (part (newton fd))) path n M,
  NoDup all -> Forall (fun s => well_formed all (fst s) /\ b_given (fst s) = true) tower ->
  stacked all tower -> in_steps all p0 M tower -> length tower <= n ->
  (forall j b f, nth_error tower j = Some (b, f) -> forall v, results j (vec all v) = Ok (vec (b_measured b) (f v), tab (b_measured b) (b_var b v))) ->
  (forall p, In p rest -> coherent (fun s => index (nw_pos s)) (fun s => Some (map (fun g => Some (index (fd_pos g))) (nw_ests s))) all p) ->
  let E := newton_hierarchy ortho calc lstsq results n in
  exists m s v, m <= list_sum (map (fun j => 1 + M j * (j + 3)) (seq 0 (length tower))) /\
    iterates E m (fresh path (mk_world (vec all p0) (map (fun s => start p0 (fst s)) tower ++ rest))) = (s, Ok tt) /\
    s_at s = mk_at (length tower) false None path /\ w_gates (s_w s) = vec all v /\ (forall b f, In (b, f) tower -> hit b f v) /\
    (forall l, In l all -> (forall b f, In (b, f) tower -> ~ In l (b_gates b)) -> v l = p0 l).
Proof.
  intros ortho calc lstsq Hmin all tower results p0 rest path n M Hall Hwf Hst HM Hn Hm Hrest E.
  destruct (run_tower ortho calc lstsq all results n path tower p0 rest Hwf Hst Hn Hm Hrest (fun j k => k <= M j * (j + 3))) with (post := tower) (pre := @nil storey) (L := @nil (part (newton fd))) (v := p0) (tr := @nil event) as [m [ks [v [L [tr [H1 [Hk [Hc [Hs [H2 H3]]]]]]]]]]; [intros; lia| |reflexivity|constructor|reflexivity|].
  - intros pre b f post P L p v tr Ht HP HL Hp Hh Hv. destruct (HM pre b f post Ht) as [rho [r [Hfol [Hen Hr]]]].
    assert (Hsh : forall q, In q (b_params b) -> (Rabs (short_of b f v q) <= r)%R).
    { apply Hr.
      + intros b' f' H. clear -HL H. induction HL as [|x y l l' [_ Hxy] HL IH]; [destruct H|]. destruct H as [->|H]; [exact Hxy|exact (IH H)].
      + intros l Hl Hni. apply Hv; [exact Hl|]. intros [b' f'] H. exact (Hni b' f' H). }
    destruct Hen as [[Wu [Hrho Htol]]|[[_ [Wn [m [Wm Wp]]]] [Hrho [m' [G [a [c [Hsz [[HG HG'] [Hac [Ha Htol]]]]]]]]]]].
    + exact (rounds_tower ortho calc lstsq Hmin all Hall results n path tower Hwf Hst Hn Hm pre b f post P rho r Wu Ht HP Hrho Hfol (M (length pre)) L p v tr r HL Hp Hh ltac:(lra) Hsh Htol).
    + rewrite Wm in Hsz. injection Hsz as <-.
      destruct (limited_rounds ortho calc lstsq Hmin all Hall results n path tower Hwf Hst Hn Hm pre b f post m P rho r G Wm Wp Wn Ht HP Hrho Hfol HG HG' (a + c) a c L p v tr r (le_n _) HL Hp Hh ltac:(lra) Hsh Htol Ha) as [k [v' [L' [p' [tr' [Hk K]]]]]].
      exists k, v', L', p', tr'. split; [|exact K]. eapply Nat.le_trans; [exact Hk|]. apply Nat.mul_le_mono_r, Hac.
  - exists m. eexists. exists v. split; [|split; [exact H1|]].
    { rewrite <- Hk, Hs. apply (cap_sum (fun j => M j * (j + 3))). exact Hc. }
    cbn [s_at s_w w_gates]. split; [reflexivity|]. split; [reflexivity|]. split.
    + intros b f Hin. clear -H2 Hin. induction H2 as [|x y l l' [_ Hxy] H IH]; [destruct Hin|]. destruct Hin as [->|Hin]; [exact Hxy|exact (IH Hin)].
    + intros l Hl Hni. apply H3; [exact Hl|]. intros [b f] Hs'. exact (Hni b f Hs').
Qed.

(** Any error is paid for by some number of steps. *)
Lemma enough_exists lstsq all b rho r : lstsq_shortest lstsq -> well_formed all b -> unlimited b \/ limited b -> (0 <= rho < 1)%R -> (0 <= r)%R -> exists M, enough b rho r M.
Proof.
  intros Hmin Wb Hu Hrho Hr0.
  assert (Htol : forall q, In q (b_params b) -> (0 < b_tol b q)%R) by (intros q Hq; apply (proj1 (proj2 (proj1 (proj2 (proj2 (proj2 (proj2 (proj2 (proj2 (proj2 Wb))))))) q Hq)))).
  destruct (min_entry (b_params b) (b_tol b) Htol) as [e [He0 He]].
  destruct (pow_lt_1_zero rho ltac:(rewrite Rabs_pos_eq; lra) (e / (r + 1))%R) as [c HM]; [apply Rdiv_lt_0_compat; lra|].
  assert (Hc : forall q, In q (b_params b) -> (rho ^ c * r < b_tol b q)%R).
  { intros q Hq. apply Rlt_le_trans with e; [|apply He, Hq]. specialize (HM c (le_n _)). rewrite Rabs_pos_eq in HM by (apply pow_le; lra).
    assert (K : (rho ^ c * (r + 1) < e)%R).
    { apply Rmult_lt_reg_r with (/ (r + 1))%R; [apply Rinv_0_lt_compat; lra|]. rewrite Rmult_assoc, Rinv_r by lra. unfold Rdiv in HM. lra. }
    pose proof (pow_le rho c (proj1 Hrho)). lra. }
  destruct Hu as [Hu|Hl].
  - exists c. left. split; [exact Hu|]. split; [lra|exact Hc].
  - pose proof Hl as [_ [_ [m [Hsz Hm]]]]. destruct (reaches_exists lstsq all b Hmin Wb) as [G HG].
    assert (Hd : (0 < (1 - rho) * m)%R) by (apply Rmult_lt_0_compat; lra).
    assert (HA : exists a, (G * r <= INR a * ((1 - rho) * m))%R).
    { set (x := (G * r / ((1 - rho) * m))%R). destruct (archimed x) as [Hx _]. exists (Z.to_nat (up x)).
      assert (Hx2 : (x <= INR (Z.to_nat (up x)))%R).
      { rewrite INR_IZR_INZ. eapply Rle_trans; [apply Rlt_le, Hx|]. apply IZR_le. lia. }
      apply Rmult_le_compat_r with (r := ((1 - rho) * m)%R) in Hx2; [|lra]. unfold x, Rdiv in Hx2. rewrite Rmult_assoc, Rinv_l in Hx2 by lra. unfold x, Rdiv. lra. }
    destruct HA as [a Ha].
    exists (a + c). right. split; [exact Hl|]. split; [exact Hrho|]. exists m, G, a, c. split; [exact Hsz|]. split; [exact HG|]. split; [apply le_n|]. split; [|exact Hc].
    exact Ha.
Qed.

(** C150.  All tuners end at their targets together, whatever the sizes of the
    steps are limited to. *)
Theorem paced_tower_completes :
  forall ortho calc lstsq, lstsq_shortest lstsq ->
  forall (all : list label) (tower : list storey) results (p0 : label -> R) (rest : list (part (newton fd))) path n,
  NoDup all -> Forall (fun s => well_formed all (fst s) /\ b_given (fst s) = true /\ (unlimited (fst s) \/ limited (fst s)) /\ tame s) tower ->
  stacked all tower -> length tower <= n ->
  (forall j b f, nth_error tower j = Some (b, f) -> forall v, results j (vec all v) = Ok (vec (b_measured b) (f v), tab (b_measured b) (b_var b v))) ->
  (forall p, In p rest -> coherent (fun s => index (nw_pos s)) (fun s => Some (map (fun g => Some (index (fd_pos g))) (nw_ests s))) all p) ->
  let E := newton_hierarchy ortho calc lstsq results n in
  exists m s v, iterates E m (fresh path (mk_world (vec all p0) (map (fun s => start p0 (fst s)) tower ++ rest))) = (s, Ok tt) /\
    s_at s = mk_at (length tower) false None path /\ w_gates (s_w s) = vec all v /\ (forall b f, In (b, f) tower -> hit b f v) /\
    (forall l, In l all -> (forall b f, In (b, f) tower -> ~ In l (b_gates b)) -> v l = p0 l).
Proof.
  intros ortho calc lstsq Hmin all tower results p0 rest path n Hall Hwf Hst Hn Hm Hrest E.
  assert (Hwf' : Forall (fun s => well_formed all (fst s) /\ b_given (fst s) = true) tower) by (eapply Forall_impl; [|exact Hwf]; intros s [K1 [K2 _]]; auto).
  destruct (run_tower ortho calc lstsq all results n path tower p0 rest Hwf' Hst Hn Hm Hrest (fun _ _ => True)) with (post := tower) (pre := @nil storey) (L := @nil (part (newton fd))) (v := p0) (tr := @nil event) as [m [ks [v [L [tr [H1 [_ [_ [_ [H2 H3]]]]]]]]]]; [auto| |reflexivity|constructor|reflexivity|].
  - intros pre b f post P L p v tr Ht HP HL Hp Hh _. rewrite Forall_forall in Hwf. destruct (Hwf (b, f)) as [Wb [_ [Hu [rho [Hrho Hfol]]]]]; [rewrite Ht; apply in_or_app; right; left; reflexivity|]. cbn [fst snd] in Wb, Hu, Hfol.
    destruct (max_entry (b_params b) (short_of b f v)) as [r [Hr0 Hr]].
    destruct (enough_exists lstsq all b rho r Hmin Wb Hu Hrho Hr0) as [M [[Wu [_ Htol]]|[[_ [Wn [m [Wm Wp]]]] [_ [m' [G [a [c [Hsz [[HG HG'] [_ [Ha Htol]]]]]]]]]]]].
    + destruct (rounds_tower ortho calc lstsq Hmin all Hall results n path tower Hwf' Hst Hn Hm pre b f post P rho r Wu Ht HP ltac:(lra) (Hfol r) M L p v tr r HL Hp Hh ltac:(lra) Hr Htol) as [k [v' [L' [p' [tr' [_ K]]]]]].
      exists k, v', L', p', tr'. split; [exact I|exact K].
    + rewrite Wm in Hsz. injection Hsz as <-.
      destruct (limited_rounds ortho calc lstsq Hmin all Hall results n path tower Hwf' Hst Hn Hm pre b f post m P rho r G Wm Wp Wn Ht HP Hrho (Hfol r) HG HG' (a + c) a c L p v tr r (le_n _) HL Hp Hh ltac:(lra) Hr Htol Ha) as [k [v' [L' [p' [tr' [Hk K]]]]]].
      exists k, v', L', p', tr'. split; [exact I|exact K].
  - exists m. eexists. exists v. split; [exact H1|]. cbn [s_at s_w w_gates]. split; [reflexivity|]. split; [reflexivity|]. split.
    + intros b f Hin. clear -H2 Hin. induction H2 as [|x y l l' [_ Hxy] H IH]; [destruct Hin|]. destruct Hin as [->|Hin]; [exact Hxy|exact (IH Hin)].
    + intros l Hl Hni. apply H3; [exact Hl|]. intros [b f] Hs. exact (Hni b f Hs).
Qed.

(** *** Example *)
(** The two tuners of the hierarchy without limits, with steps of at most 3,
    two of them without evaluation between them, and of at most 10, three of
    them without evaluation. *)
Definition pc_first : block :=
  mk_block ["A"] ["A"] ["p"] ["p"] (fun _ => 10%R) (fun _ => 0.1%R) (fun _ => 1%R) (fun _ => 0%R) (fun _ _ => 1%R)
    (fun _ _ => Fin 0) (fun _ _ => 0.01%R) (fun _ => false) true (Fin 3) 2.
Definition pc_second : block :=
  mk_block ["B"] ["B"] ["q"] ["q"] (fun _ => 7%R) (fun _ => 0.1%R) (fun _ => 2%R) (fun _ => 0%R) (fun _ _ => 1%R)
    (fun _ _ => Fin 0) (fun _ _ => 0.01%R) (fun _ => false) true (Fin 10) 3.
Definition pc_tower : list storey := [(pc_first, tw_low); (pc_second, tw_high)].
Lemma pc_first_wf : well_formed cv_all pc_first.
Proof. cv_wf pc_first. intros [|x [|y cs]] Hl Hz; try discriminate. pose proof (Hz "A" (or_introl eq_refl)) as K. cbn in K. intros r [<-|[]]; lra. Qed.
Lemma pc_second_wf : well_formed cv_all pc_second.
Proof. cv_wf pc_second. intros [|x [|y cs]] Hl Hz; try discriminate. pose proof (Hz "B" (or_introl eq_refl)) as K. cbn in K. intros r [<-|[]]; lra. Qed.
Lemma pc_first_limited : limited pc_first.
Proof. split; [reflexivity|]. split; [cbn; lia|]. exists 3%R. split; [reflexivity|lra]. Qed.
Lemma pc_second_limited : limited pc_second.
Proof. split; [reflexivity|]. split; [cbn; lia|]. exists 10%R. split; [reflexivity|lra]. Qed.
Lemma pc_first_reaches : reaches pc_first 1%R.
Proof.
  split; [lra|]. intros w h r Hw [Hc _]. pose proof (Hw "p" (or_introl eq_refl)) as W. pose proof (Hc "p" (or_introl eq_refl)) as K. unfold gradient, dot in K. cbn in K.
  replace (w "p") with (h "A") in W by lra. rewrite rnorm_dot. unfold dot. cbn. rewrite Rplus_0_r, (sqrt_Rsqr_abs : forall x, sqrt (x * x) = Rabs x). lra.
Qed.
Lemma pc_second_reaches : reaches pc_second 2%R.
Proof.
  split; [lra|]. intros w h r Hw [Hc _]. pose proof (Hw "q" (or_introl eq_refl)) as W. pose proof (Hc "q" (or_introl eq_refl)) as K. unfold gradient, dot in K. cbn in K.
  rewrite rnorm_dot. unfold dot. cbn. rewrite Rplus_0_r, (sqrt_Rsqr_abs : forall x, sqrt (x * x) = Rabs x). replace (h "B") with (2 * w "q")%R by lra. rewrite Rabs_mult, (Rabs_pos_eq 2) by lra. lra.
Qed.
Lemma pc_stacked : stacked cv_all pc_tower.
Proof.
  constructor; [constructor; [|constructor]; cbn; split; [|split]|constructor; constructor].
  - intros l [<-|[]] [K|[]]. discriminate.
  - intros q [<-|[]] [K|[]]. discriminate.
  - intros v v' Hv q _. unfold tw_low. rewrite (Hv "A"); [reflexivity|left; reflexivity|]. intros [K|[]]. discriminate.
Qed.
Lemma pc_measured : forall j b f, nth_error pc_tower j = Some (b, f) -> forall v, tw_device j (vec cv_all v) = Ok (vec (b_measured b) (f v), tab (b_measured b) (b_var b v)).
Proof. intros [|[|j]] b f Hj v; cbn in Hj; [| |destruct j; discriminate]; injection Hj as <- <-; reflexivity. Qed.
Definition pc_start := fresh None (mk_world (vec cv_all (fun _ => 0%R)) [start (fun _ => 0%R) pc_first; start (fun _ => 0%R) pc_second]).
Example paced_tower_completes_ex :
  exists m s v, iterates tw_env m pc_start = (s, Ok tt) /\ is_tuning_complete tw_env (s_at s) = true /\ w_gates (s_w s) = vec cv_all v /\
    (9.9 < v "A" + Rabs (v "A") / 8 < 10.1 /\ 13.8 < v "B" + Rabs (v "B") / 4 + v "A" * v "A" < 14.2 /\ v "C" = 0)%R.
Proof.
  destruct (paced_tower_completes ref_ortho ref_calc ref_lstsq ref_lstsq_shortest cv_all pc_tower tw_device (fun _ => 0%R) [] None 2)
    as [m [s [v [H1 [H2 [H3 [H4 H5]]]]]]].
  - exact cv_nodup.
  - constructor; [|constructor; [|constructor]]; cbn [fst].
    + split; [apply pc_first_wf|]. split; [reflexivity|]. split; [right; apply pc_first_limited|]. exists (1/8)%R. split; [lra|]. exact tw_low_follows.
    + split; [apply pc_second_wf|]. split; [reflexivity|]. split; [right; apply pc_second_limited|]. exists (1/4)%R. split; [lra|]. exact tw_high_follows.
  - exact pc_stacked.
  - auto.
  - exact pc_measured.
  - intros p [].
  - exists m, s, v. split; [exact H1|]. split; [rewrite H2; reflexivity|]. split; [exact H3|].
    pose proof (H4 _ _ (or_introl eq_refl) "p" (or_introl eq_refl)) as K1. pose proof (H4 _ _ (or_intror (or_introl eq_refl)) "q" (or_introl eq_refl)) as K2.
    apply Rabs_def2 in K1. apply Rabs_def2 in K2. unfold short_of, tw_low, tw_high in K1, K2. cbn in K1, K2. split; [lra|]. split; [lra|].
    apply H5; [cbn; auto|]. intros b f [K|[K|[]]]; injection K as <- <-; cbn; intuition discriminate.
Qed.
(** Seven steps are enough for the first tuner and fifteen for the second. *)
Example paced_tower_rate_ex :
  exists m s, m <= 83 /\ iterates tw_env m pc_start = (s, Ok tt) /\ is_tuning_complete tw_env (s_at s) = true.
Proof.
  destruct (paced_tower_rate ref_ortho ref_calc ref_lstsq ref_lstsq_shortest cv_all pc_tower tw_device (fun _ => 0%R) [] None 2 (fun j => 8 * j + 7))
    as [m [s [v [H0 [H1 [H2 _]]]]]].
  - exact cv_nodup.
  - constructor; [|constructor; [|constructor]]; cbn [fst]; (split; [|reflexivity]); [apply pc_first_wf|apply pc_second_wf].
  - exact pc_stacked.
  - intros [|s1 [|s2 lower]] b f higher Ht; [| |destruct lower; discriminate Ht].
    + injection Ht as <- <- _. exists (1/8)%R, 10%R. split; [apply tw_low_follows|]. split.
      * right. split; [apply pc_first_limited|]. split; [lra|]. exists 3%R, 1%R, 4, 3. split; [reflexivity|]. split; [apply pc_first_reaches|]. split; [cbn; lia|]. split; [cbn; lra|]. intros q _. cbn. lra.
      * intros v _ Hv q _. unfold short_of, tw_low. cbn. rewrite (Hv "A") by (cbn; auto). rewrite Rabs_R0. apply Rabs_le. lra.
    + injection Ht as <- <- <- _. exists (1/4)%R, 34%R. split; [apply tw_high_follows|]. split.
      * right. split; [apply pc_second_limited|]. split; [lra|]. exists 10%R, 2%R, 10, 5. split; [reflexivity|]. split; [apply pc_second_reaches|]. split; [cbn; lia|]. split; [cbn; lra|]. intros q _. cbn. lra.
      * intros v Hlow Hv q _. pose proof (Hlow _ _ (or_introl eq_refl) "p" (or_introl eq_refl)) as K. apply Rabs_def2 in K. unfold short_of, tw_low in K. cbn in K.
        unfold short_of, tw_high. cbn. rewrite (Hv "B"); [|cbn; auto|intros b' f' [E|[]]; injection E as <- <-; cbn; intuition discriminate].
        rewrite Rabs_R0. assert (8.7 <= v "A" <= 9)%R by (revert K; unfold Rabs; destruct (Rcase_abs (v "A")); lra). apply Rabs_le. nra.
  - auto.
  - exact pc_measured.
  - intros p [].
  - exists m, s. split; [exact H0|]. split; [exact H1|]. rewrite H2. reflexivity.
Qed.
Print Assumptions paced_tower_rate.
Print Assumptions paced_tower_completes.
