(** Property: a hierarchy of tuners on devices that are not affine. *)
From Verif Require Import PyBase TargetModel TunerModel TunerSpec SeriesLemmas NewtonModel EstimatorModel AutotunerModel AutotunerProofs ComposeModel KernelR ComposeSpec ComposeProofs ComposeHierarchy ComposeNumerics ComposeCoupledSpec ComposeCoupledProofs ComposeCurvedSpec ComposeCurvedProofs ComposeCurvedProps ComposeTowerSpec ComposeTowerProofs.
From Coq Require Import Lra ZArith.
Local Open Scope list_scope.
Local Open Scope string_scope.

(** C149.  Tuners with given gradients on devices that follow these gradients
    up to a fraction below one.  Moving a lower tuner's gates may change what
    higher tuners measure in any way.  If higher tuners do not disturb lower
    ones, all tuners end at their targets together. *)
Theorem curved_tower_completes :
  forall ortho calc lstsq, lstsq_shortest lstsq ->
  forall (all : list label) (tower : list storey) results (p0 : label -> R) (rest : list (part (newton fd))) path n,
  NoDup all -> Forall (fun s => well_formed all (fst s) /\ unlimited (fst s) /\ b_given (fst s) = true /\ tame s) tower ->
  stacked all tower -> length tower <= n ->
  (forall j b f, nth_error tower j = Some (b, f) -> forall v, results j (vec all v) = Ok (vec (b_measured b) (f v), tab (b_measured b) (b_var b v))) ->
  (forall p, In p rest -> coherent (fun s => index (nw_pos s)) (fun s => Some (map (fun g => Some (index (fd_pos g))) (nw_ests s))) all p) ->
  let E := newton_hierarchy ortho calc lstsq results n in
  exists m s v, iterates E m (fresh path (mk_world (vec all p0) (map (fun s => start p0 (fst s)) tower ++ rest))) = (s, Ok tt) /\
    s_at s = mk_at (length tower) false None path /\ w_gates (s_w s) = vec all v /\ (forall b f, In (b, f) tower -> hit b f v) /\
    (forall l, In l all -> (forall b f, In (b, f) tower -> ~ In l (b_gates b)) -> v l = p0 l).
Proof.
  intros ortho calc lstsq Hmin all tower results p0 rest path n Hall Hwf Hst Hn Hm Hrest E.
  assert (Hwf' : Forall (fun s => well_formed all (fst s) /\ b_given (fst s) = true) tower) by (eapply Forall_impl; [|exact Hwf]; intros s [K1 [K2 [K3 _]]]; auto).
  destruct (run_tower ortho calc lstsq all results n path tower p0 rest Hwf' Hst Hn Hm Hrest (fun _ _ => True)) with (post := tower) (pre := @nil storey) (L := @nil (part (newton fd))) (v := p0) (tr := @nil event) as [m [ks [v [L [tr [H1 [_ [_ [_ [H2 H3]]]]]]]]]]; [auto| |reflexivity|constructor|reflexivity|].
  - intros pre b f post P L p v tr Ht HP HL Hp Hh _. rewrite Forall_forall in Hwf. destruct (Hwf (b, f)) as [Wb [Wu [_ [rho [Hrho Hfol]]]]]; [rewrite Ht; apply in_or_app; right; left; reflexivity|]. cbn [fst snd] in Wb, Wu, Hfol.
    destruct (max_entry (b_params b) (short_of b f v)) as [r [Hr0 Hr]].
    assert (Htol : forall q, In q (b_params b) -> (0 < b_tol b q)%R) by (intros q Hq; apply (proj1 (proj2 (proj1 (proj2 (proj2 (proj2 (proj2 (proj2 (proj2 (proj2 Wb))))))) q Hq)))).
    destruct (min_entry (b_params b) (b_tol b) Htol) as [e [He0 He]].
    destruct (pow_lt_1_zero rho ltac:(rewrite Rabs_pos_eq; lra) (e / (r + 1))%R) as [M HM]; [apply Rdiv_lt_0_compat; lra|].
    destruct (rounds_tower ortho calc lstsq Hmin all Hall results n path tower Hwf' Hst Hn Hm pre b f post P rho r Wu Ht HP ltac:(lra) (Hfol r) M L p v tr r HL Hp Hh ltac:(lra) Hr) as [k [v' [L' [p' [tr' [_ K]]]]]]; [|exists k, v', L', p', tr'; split; [exact I|exact K]].
    intros q Hq. apply Rlt_le_trans with e; [|apply He, Hq]. specialize (HM M (le_n _)). rewrite Rabs_pos_eq in HM by (apply pow_le; lra).
    assert (K : (rho ^ M * (r + 1) < e)%R).
    { apply Rmult_lt_reg_r with (/ (r + 1))%R; [apply Rinv_0_lt_compat; lra|]. rewrite Rmult_assoc, Rinv_r by lra. unfold Rdiv in HM. lra. }
    pose proof (pow_le rho M (proj1 Hrho)). lra.
  - exists m. eexists. exists v. split; [exact H1|]. cbn [s_at s_w w_gates]. split; [reflexivity|]. split; [reflexivity|]. split.
    + intros b f Hin. clear -H2 Hin. induction H2 as [|x y l l' [_ Hxy] H IH]; [destruct Hin|]. destruct Hin as [->|Hin]; [exact Hxy|exact (IH Hin)].
    + intros l Hl Hni. apply H3; [exact Hl|]. intros [b f] Hs. exact (Hni b f Hs).
Qed.

Lemma cap_sum (cap : nat -> nat) : forall ks i, (forall j k, nth_error ks j = Some k -> k <= cap (i + j)) -> list_sum (map S ks) <= list_sum (map (fun j => 1 + cap j) (seq i (length ks))).
Proof.
  induction ks as [|k ks IH]; intros i H; cbn [length seq map list_sum fold_right]; [lia|].
  pose proof (H 0 k eq_refl) as K. rewrite Nat.add_0_r in K.
  assert (list_sum (map S ks) <= list_sum (map (fun j => 1 + cap j) (seq (S i) (length ks)))) by (apply IH; intros j k' Hj; replace (S i + j) with (i + S j) by lia; exact (H (S j) k' Hj)).
  unfold list_sum in *. lia.
Qed.

(** C149.  Bound on the number of iterations: a round of tuner number j costs
    j+3 iterations, because all lower tuners are evaluated again.  The devices
    need to follow the gradients only as far as the targets are missed when the
    lower tuners are tuned. *)
Theorem curved_tower_rate :
  forall ortho calc lstsq, lstsq_shortest lstsq ->
  forall (all : list label) (tower : list storey) results (p0 : label -> R) (rest : list (part (newton fd))) path n M,
  NoDup all -> Forall (fun s => well_formed all (fst s) /\ unlimited (fst s) /\ b_given (fst s) = true) tower ->
  stacked all tower -> in_rounds all p0 M tower -> length tower <= n ->
  (forall j b f, nth_error tower j = Some (b, f) -> forall v, results j (vec all v) = Ok (vec (b_measured b) (f v), tab (b_measured b) (b_var b v))) ->
  (forall p, In p rest -> coherent (fun s => index (nw_pos s)) (fun s => Some (map (fun g => Some (index (fd_pos g))) (nw_ests s))) all p) ->
  let E := newton_hierarchy ortho calc lstsq results n in
  exists m s v, m <= list_sum (map (fun j => 1 + M j * (j + 3)) (seq 0 (length tower))) /\
    iterates E m (fresh path (mk_world (vec all p0) (map (fun s => start p0 (fst s)) tower ++ rest))) = (s, Ok tt) /\
    s_at s = mk_at (length tower) false None path /\ w_gates (s_w s) = vec all v /\ (forall b f, In (b, f) tower -> hit b f v) /\
    (forall l, In l all -> (forall b f, In (b, f) tower -> ~ In l (b_gates b)) -> v l = p0 l).
Proof.
  intros ortho calc lstsq Hmin all tower results p0 rest path n M Hall Hwf Hst HM Hn Hm Hrest E.
  assert (Hwf' : Forall (fun s => well_formed all (fst s) /\ b_given (fst s) = true) tower) by (eapply Forall_impl; [|exact Hwf]; intros s [K1 [K2 K3]]; auto).
  destruct (run_tower ortho calc lstsq all results n path tower p0 rest Hwf' Hst Hn Hm Hrest (fun j k => k <= M j * (j + 3))) with (post := tower) (pre := @nil storey) (L := @nil (part (newton fd))) (v := p0) (tr := @nil event) as [m [ks [v [L [tr [H1 [Hk [Hc [Hs [H2 H3]]]]]]]]]]; [intros; lia| |reflexivity|constructor|reflexivity|].
  - intros pre b f post P L p v tr Ht HP HL Hp Hh Hv. destruct (HM pre b f post Ht) as [rho [r [Hrho [Hfol [Htol Hr]]]]].
    assert (Wu : unlimited b) by (rewrite Forall_forall in Hwf; apply (Hwf (b, f)); rewrite Ht; apply in_or_app; right; left; reflexivity).
    apply (rounds_tower ortho calc lstsq Hmin all Hall results n path tower Hwf' Hst Hn Hm pre b f post P rho r Wu Ht HP Hrho Hfol (M (length pre)) L p v tr r HL Hp Hh ltac:(lra)); [|exact Htol].
    apply Hr.
    + intros b' f' H. clear -HL H. induction HL as [|x y l l' [_ Hxy] HL IH]; [destruct H|]. destruct H as [->|H]; [exact Hxy|exact (IH H)].
    + intros l Hl Hni. apply Hv; [exact Hl|]. intros [b' f'] H. exact (Hni b' f' H).
  - exists m. eexists. exists v. split; [|split; [exact H1|]].
    { rewrite <- Hk, Hs. apply (cap_sum (fun j => M j * (j + 3))). exact Hc. }
    cbn [s_at s_w w_gates]. split; [reflexivity|]. split; [reflexivity|]. split.
    + intros b f Hin. clear -H2 Hin. induction H2 as [|x y l l' [_ Hxy] H IH]; [destruct Hin|]. destruct Hin as [->|Hin]; [exact Hxy|exact (IH Hin)].
    + intros l Hl Hni. apply H3; [exact Hl|]. intros [b f] Hs'. exact (Hni b f Hs').
Qed.

(** *** Example *)
(** p = A + |A| / 8 and q = B + |B| / 4 + A^2: the second parameter depends on
    the first gate quadratically. *)
Definition tw_low (v : label -> R) (_ : label) : R := (v "A" + Rabs (v "A") / 8)%R.
Definition tw_high (v : label -> R) (_ : label) : R := (v "B" + Rabs (v "B") / 4 + v "A" * v "A")%R.
Definition tw_second : block :=
  mk_block ["B"] ["B"] ["q"] ["q"] (fun _ => 7%R) (fun _ => 0.1%R) (fun _ => 2%R) (fun _ => 0%R) (fun _ _ => 1%R)
    (fun _ _ => Fin 0) (fun _ _ => 0.01%R) (fun _ => false) true NaN 3.
Definition tw_device (i : nat) (v : series) : res (series * series) :=
  match i with 0 => cv_device tw_low ["p"] i v | _ => cv_device tw_high ["q"] i v end.
Definition tw_env := newton_hierarchy ref_ortho ref_calc ref_lstsq tw_device 2.
Lemma tw_low_follows r0 : follows (cv_one true) tw_low (1/8)%R r0.
Proof.
  intros v h w r _ _ Hw [Hc _] q [<-|[]]. pose proof (Hw "p" (or_introl eq_refl)) as W. pose proof (Hc "p" (or_introl eq_refl)) as K. unfold gradient, dot in K. cbn in K.
  unfold change, tw_low, moved. cbn. pose proof (kink (v "A") (h "A")) as Q. replace (w "p") with (h "A") in * by lra. apply Rabs_le. lra.
Qed.
Lemma tw_high_follows r0 : follows tw_second tw_high (1/4)%R r0.
Proof.
  intros v h w r _ _ Hw [Hc _] q [<-|[]]. pose proof (Hw "q" (or_introl eq_refl)) as W. pose proof (Hc "q" (or_introl eq_refl)) as K. unfold gradient, dot in K. cbn in K.
  unfold change, tw_high, moved. cbn. pose proof (kink (v "B") (h "B")) as Q. replace (h "B") with (2 * w "q")%R in * by lra.
  rewrite Rabs_mult, (Rabs_pos_eq 2) in Q by lra. apply Rabs_le. lra.
Qed.
Lemma tw_second_wf : well_formed cv_all tw_second.
Proof. cv_wf tw_second. intros [|x [|y cs]] Hl Hz; try discriminate. pose proof (Hz "B" (or_introl eq_refl)) as K. cbn in K. intros r [<-|[]]; lra. Qed.
Definition tw_tower : list storey := [(cv_one true, tw_low); (tw_second, tw_high)].
Lemma tw_stacked : stacked cv_all tw_tower.
Proof.
  constructor; [constructor; [|constructor]; cbn; split; [|split]|constructor; constructor].
  - intros l [<-|[]] [K|[]]. discriminate.
  - intros q [<-|[]] [K|[]]. discriminate.
  - intros v v' Hv q _. unfold tw_low. rewrite (Hv "A"); [reflexivity|left; reflexivity|]. intros [K|[]]. discriminate.
Qed.
Lemma tw_measured : forall j b f, nth_error tw_tower j = Some (b, f) -> forall v, tw_device j (vec cv_all v) = Ok (vec (b_measured b) (f v), tab (b_measured b) (b_var b v)).
Proof. intros [|[|j]] b f Hj v; cbn in Hj; [| |destruct j; discriminate]; injection Hj as <- <-; reflexivity. Qed.
Definition tw_start := fresh None (mk_world (vec cv_all (fun _ => 0%R)) [start (fun _ => 0%R) (cv_one true); start (fun _ => 0%R) tw_second]).
Example curved_tower_completes_ex :
  exists m s v, iterates tw_env m tw_start = (s, Ok tt) /\ is_tuning_complete tw_env (s_at s) = true /\ w_gates (s_w s) = vec cv_all v /\
    (9.9 < v "A" + Rabs (v "A") / 8 < 10.1 /\ 13.8 < v "B" + Rabs (v "B") / 4 + v "A" * v "A" < 14.2 /\ v "C" = 0)%R.
Proof.
  destruct (curved_tower_completes ref_ortho ref_calc ref_lstsq ref_lstsq_shortest cv_all tw_tower tw_device (fun _ => 0%R) [] None 2)
    as [m [s [v [H1 [H2 [H3 [H4 H5]]]]]]].
  - exact cv_nodup.
  - constructor; [|constructor; [|constructor]]; cbn [fst]; (split; [|split; [reflexivity|split; [reflexivity|]]]).
    + apply cv_one_wf.
    + exists (1/8)%R. split; [lra|]. apply tw_low_follows.
    + apply tw_second_wf.
    + exists (1/4)%R. split; [lra|]. apply tw_high_follows.
  - exact tw_stacked.
  - auto.
  - exact tw_measured.
  - intros p [].
  - exists m, s, v. split; [exact H1|]. split; [rewrite H2; reflexivity|]. split; [exact H3|].
    pose proof (H4 _ _ (or_introl eq_refl) "p" (or_introl eq_refl)) as K1. pose proof (H4 _ _ (or_intror (or_introl eq_refl)) "q" (or_introl eq_refl)) as K2.
    apply Rabs_def2 in K1. apply Rabs_def2 in K2. unfold short_of, tw_low, tw_high in K1, K2. cbn in K1, K2. split; [lra|]. split; [lra|].
    apply H5; [cbn; auto|]. intros b f [K|[K|[]]]; injection K as <- <-; cbn; intuition discriminate.
Qed.
(** Three rounds are enough for the first tuner and five for the second. *)
Example curved_tower_rate_ex :
  exists m s, m <= 31 /\ iterates tw_env m tw_start = (s, Ok tt) /\ is_tuning_complete tw_env (s_at s) = true.
Proof.
  destruct (curved_tower_rate ref_ortho ref_calc ref_lstsq ref_lstsq_shortest cv_all tw_tower tw_device (fun _ => 0%R) [] None 2 (fun j => 2 * j + 3))
    as [m [s [v [H0 [H1 [H2 _]]]]]].
  - exact cv_nodup.
  - constructor; [|constructor; [|constructor]]; cbn [fst]; (split; [|split; reflexivity]); [apply cv_one_wf|apply tw_second_wf].
  - exact tw_stacked.
  - intros [|s1 [|s2 lower]] b f higher Ht; [| |destruct lower; discriminate Ht].
    + injection Ht as <- <- _. exists (1/8)%R, 10%R. split; [lra|]. split; [apply tw_low_follows|]. split; [intros q _; cbn; lra|].
      intros v _ Hv q _. unfold short_of, tw_low. cbn. rewrite (Hv "A") by (cbn; auto). rewrite Rabs_R0. apply Rabs_le. lra.
    + injection Ht as <- <- <- _. exists (1/4)%R, 34%R. split; [lra|]. split; [apply tw_high_follows|]. split; [intros q _; cbn; lra|].
      intros v Hlow Hv q _. pose proof (Hlow _ _ (or_introl eq_refl) "p" (or_introl eq_refl)) as K. apply Rabs_def2 in K. unfold short_of, tw_low in K. cbn in K.
      unfold short_of, tw_high. cbn. rewrite (Hv "B"); [|cbn; auto|intros b' f' [E|[]]; injection E as <- <-; cbn; intuition discriminate].
      rewrite Rabs_R0. assert (8.7 <= v "A" <= 9)%R by (revert K; unfold Rabs; destruct (Rcase_abs (v "A")); lra). apply Rabs_le. nra.
  - auto.
  - exact tw_measured.
  - intros p [].
  - exists m, s. split; [exact H0|]. split; [exact H1|]. rewrite H2. reflexivity.
Qed.
Print Assumptions curved_tower_completes.
Print Assumptions curved_tower_rate.
