(** Two tuners of a hierarchy that disturb each other: Autotuner, SubsetTuners,
    NewtonSolvers and estimators with known gradients together
    (ComposeModel.v).  The Autotuner goes back to the first tuner after every
    step (qtune/autotuner.py L256-270), so that the second one's steps are undone
    in turn. *)
From Verif Require Import PyBase TargetModel TunerModel TunerSpec SeriesLemmas NewtonModel EstimatorModel GradientProps AutotunerModel ComposeModel KernelR ComposeSpec ComposeProofs ComposeNumerics ComposeHierarchy ComposeCoupledSpec ComposeCoupledProofs.
From Coq Require Import Lra ZArith.
Local Open Scope string_scope.
Local Open Scope list_scope.

(** C146.  Feedback below one: the run completes, both targets are met, and
    other gates are not touched. *)
Theorem coupled_pair_completes :
  forall ortho calc lstsq, lstsq_shortest lstsq ->
  forall (all : list label) (b0 b1 : block) results (p0 : label -> R) (rest : list (part (newton fd))) path n rho,
  NoDup all -> well_formed all b0 -> well_formed all b1 -> unlimited b0 -> unlimited b1 -> b_given b0 = true -> b_given b1 = true ->
  separate b0 b1 -> 2 <= n ->
  (forall j b, nth_error [b0; b1] j = Some b -> forall v, results j (vec all v) = Ok (vec (b_measured b) (measured all b v), tab (b_measured b) (b_var b v))) ->
  (forall p, In p rest -> coherent (fun s => index (nw_pos s)) (fun s => Some (map (fun g => Some (index (fd_pos g))) (nw_ests s))) all p) ->
  (0 <= rho < 1)%R -> feedback b0 b1 rho ->
  let E := newton_hierarchy ortho calc lstsq results n in
  exists m s v, iterates E m (fresh path (mk_world (vec all p0) (start p0 b0 :: start p0 b1 :: rest))) = (s, Ok tt) /\
    s_at s = mk_at 2 false None path /\ w_gates (s_w s) = vec all v /\ met all b0 v /\ met all b1 v /\
    (forall l, In l all -> ~ In l (b_gates b0) -> ~ In l (b_gates b1) -> v l = p0 l).
Proof.
  intros ortho calc lstsq Hmin all b0 b1 results p0 rest path n rho Hall Hb0 Hb1 Hu0 Hu1 Hv0 Hv1 Hsep Hn Hm Hrest Hrho Hfb E.
  assert (Hm0 : measures all results 0 b0) by (exact (Hm 0 b0 eq_refl)). assert (Hm1 : measures all results 1 b1) by (exact (Hm 1 b1 eq_refl)).
  assert (Hend : forall m s v, iterates E m (fresh path (mk_world (vec all p0) (start p0 b0 :: start p0 b1 :: rest))) = (s, Ok tt) ->
    complete all path b0 b1 rest v s -> outside all b0 b1 p0 v ->
    exists m s v, iterates E m (fresh path (mk_world (vec all p0) (start p0 b0 :: start p0 b1 :: rest))) = (s, Ok tt) /\
      s_at s = mk_at 2 false None path /\ w_gates (s_w s) = vec all v /\ met all b0 v /\ met all b1 v /\
      (forall l, In l all -> ~ In l (b_gates b0) -> ~ In l (b_gates b1) -> v l = p0 l)).
  { intros m s v Hit [pa [pb [tr [-> [H1 H2]]]]] Ho. eexists. eexists. exists v. split; [exact Hit|]. cbn [s_at s_w w_gates].
    split; [reflexivity|]. split; [reflexivity|]. split; [exact H1|]. split; [exact H2|]. exact Ho. }
  assert (Hsh : forall b h v, b = b0 \/ b = b1 -> outside all b0 b1 v (fun l => v l + if mem l (b_gates b) then h l else 0)%R).
  { intros b h v Hb l _ H0 H1. rewrite (proj2 (SeriesLemmas.mem_false l (b_gates b))) by (destruct Hb; subst b; assumption). lra. }
  assert (Htr : forall x y z, outside all b0 b1 x y -> outside all b0 b1 y z -> outside all b0 b1 x z).
  { intros x y z A B l Hl H0 H1. rewrite (B l Hl H0 H1). exact (A l Hl H0 H1). }
  destruct (pair_start ortho calc lstsq Hmin all Hall results n path b0 b1 rest Hb0 Hb1 Hu0 Hsep Hn Hm0 Hm1 Hrest p0 Hv0 Hv1) as [v [m [s [_ [Hit [Hc Hv]]]]]].
  assert (Ho : outside all b0 b1 p0 v).
  { destruct (tuned_at all b0 p0); [destruct Hv as [_ ->]; intros l _ _ _; reflexivity|]. destruct Hv as [h [-> _]]. apply Hsh. left; reflexivity. }
  destruct (tuned_at all b1 v); [exact (Hend m s v Hit Hc Ho)|].
  assert (Hgo : forall m' s' v', iterates E m' (fresh path (mk_world (vec all p0) (start p0 b0 :: start p0 b1 :: rest))) = (s', Ok tt) ->
    second all path b0 b1 rest v' s' -> (forall q, In q (b_params b0) -> missing all b0 v' q = 0%R) -> outside all b0 b1 p0 v' ->
    exists m s v, iterates E m (fresh path (mk_world (vec all p0) (start p0 b0 :: start p0 b1 :: rest))) = (s, Ok tt) /\
      s_at s = mk_at 2 false None path /\ w_gates (s_w s) = vec all v /\ met all b0 v /\ met all b1 v /\
      (forall l, In l all -> ~ In l (b_gates b0) -> ~ In l (b_gates b1) -> v l = p0 l)).
  { intros m' s' v' Hit' Hs Hz Ho'.
    destruct (turns_end ortho calc lstsq Hmin all Hall results n path b0 b1 rest Hb0 Hb1 Hu0 Hu1 Hsep Hn Hm0 Hm1 Hrest rho (proj1 Hrho) Hfb (proj2 Hrho) v' s' Hs Hz) as [m2 [s2 [v2 [Hit2 [Hc2 Ho2]]]]].
    apply (Hend (m' + m2) s2 v2); [rewrite (iterates_app E m' m2 _ _ Hit'); exact Hit2|exact Hc2|exact (Htr _ _ _ Ho' Ho2)]. }
  destruct (tuned_at all b0 p0).
  - destruct (turn ortho calc lstsq Hmin all Hall results n path b0 b1 rest Hb0 Hb1 Hu0 Hu1 Hsep Hn Hm0 Hm1 Hrest v s Hc) as [h1 [s1 [m1 [_ [_ [Hit1 Hcase]]]]]].
    cbn zeta in Hcase. set (v1 := (fun l => v l + if mem l (b_gates b1) then h1 l else 0)%R) in *.
    assert (Ho1 : outside all b0 b1 p0 v1) by (apply (Htr _ v _ Ho), Hsh; right; reflexivity).
    assert (Hit' : iterates E (m + m1) (fresh path (mk_world (vec all p0) (start p0 b0 :: start p0 b1 :: rest))) = (s1, Ok tt)) by (rewrite (iterates_app E m m1 _ _ Hit); exact Hit1).
    destruct (tuned_at all b0 v1); [exact (Hend _ _ v1 Hit' Hcase Ho1)|]. destruct Hcase as [h0 [Hh0 Hcase]].
    set (v2 := (fun l => v1 l + if mem l (b_gates b0) then h0 l else 0)%R) in *.
    assert (Ho2 : outside all b0 b1 p0 v2) by (apply (Htr _ v1 _ Ho1), Hsh; left; reflexivity).
    destruct (tuned_at all b1 v2); [exact (Hend _ _ v2 Hit' Hcase Ho2)|].
    apply (Hgo (m + m1) s1 v2 Hit' Hcase); [|exact Ho2]. intros q Hq. apply shift_own; assumption.
  - destruct Hv as [h [-> Hh]]. apply (Hgo m s _ Hit Hc); [|exact Ho]. intros q Hq. apply shift_own; assumption.
Qed.

(** C146.  The rate: if the first target is hit exactly at the start and the
    second one is missed by at most [r], at most 7M+2 iterations suffice, where
    rho^M r is below the tolerances. *)
Theorem coupled_pair_rate :
  forall ortho calc lstsq, lstsq_shortest lstsq ->
  forall (all : list label) (b0 b1 : block) results (p0 : label -> R) (rest : list (part (newton fd))) path n rho r M,
  NoDup all -> well_formed all b0 -> well_formed all b1 -> unlimited b0 -> unlimited b1 -> b_given b0 = true -> b_given b1 = true ->
  separate b0 b1 -> 2 <= n ->
  (forall j b, nth_error [b0; b1] j = Some b -> forall v, results j (vec all v) = Ok (vec (b_measured b) (measured all b v), tab (b_measured b) (b_var b v))) ->
  (forall p, In p rest -> coherent (fun s => index (nw_pos s)) (fun s => Some (map (fun g => Some (index (fd_pos g))) (nw_ests s))) all p) ->
  (0 <= rho)%R -> feedback b0 b1 rho ->
  (forall q, In q (b_params b0) -> missing all b0 p0 q = 0%R) -> (forall q, In q (b_params b1) -> Rabs (missing all b1 p0 q) <= r)%R ->
  (forall q, In q (b_params b1) -> rho ^ M * r < b_tol b1 q)%R ->
  let E := newton_hierarchy ortho calc lstsq results n in
  exists m s v, m <= 7 * M + 2 /\
    iterates E m (fresh path (mk_world (vec all p0) (start p0 b0 :: start p0 b1 :: rest))) = (s, Ok tt) /\
    s_at s = mk_at 2 false None path /\ w_gates (s_w s) = vec all v /\ met all b0 v /\ met all b1 v.
Proof.
  intros ortho calc lstsq Hmin all b0 b1 results p0 rest path n rho r M Hall Hb0 Hb1 Hu0 Hu1 Hv0 Hv1 Hsep Hn Hm Hrest Hrho Hfb Hz Hr HM E.
  assert (Hm0 : measures all results 0 b0) by (exact (Hm 0 b0 eq_refl)). assert (Hm1 : measures all results 1 b1) by (exact (Hm 1 b1 eq_refl)).
  destruct (pair_start ortho calc lstsq Hmin all Hall results n path b0 b1 rest Hb0 Hb1 Hu0 Hsep Hn Hm0 Hm1 Hrest p0 Hv0 Hv1) as [v [m [s [_ [Hit [Hc Hv]]]]]].
  rewrite (exact_tuned all b0 p0 Hb0 Hz) in Hv. destruct Hv as [-> ->].
  destruct (tuned_at all b1 p0).
  - destruct Hc as [pa [pb [tr [-> [H1 H2]]]]]. exists 2. eexists. exists p0. split; [lia|]. split; [exact Hit|]. cbn [s_at s_w w_gates]. auto.
  - destruct (turns ortho calc lstsq Hmin all Hall results n path b0 b1 rest Hb0 Hb1 Hu0 Hu1 Hsep Hn Hm0 Hm1 Hrest rho Hfb M p0 s r Hc Hz Hr HM) as [m2 [s2 [v2 [Hm2 [Hit2 [Hc2 _]]]]]].
    destruct Hc2 as [pa [pb [tr [-> [H1 H2]]]]]. exists (2 + m2). eexists. exists v2. split; [lia|].
    split; [rewrite (iterates_app E 2 m2 _ _ Hit); exact Hit2|]. cbn [s_at s_w w_gates]. auto.
Qed.

(** C146.  One gate and one parameter per tuner, and the influence across
    the tuners at least as strong as the own one: every call of [iterate]
    succeeds, and the run never completes. *)
Theorem coupled_pair_runs_forever :
  forall ortho calc lstsq, lstsq_shortest lstsq ->
  forall (all : list label) (b0 b1 : block) results (p0 : label -> R) path (l0 l1 q0 q1 : label),
  NoDup all -> well_formed all b0 -> well_formed all b1 -> unlimited b0 -> unlimited b1 -> b_given b0 = true -> b_given b1 = true ->
  separate b0 b1 ->
  (forall j b, nth_error [b0; b1] j = Some b -> forall v, results j (vec all v) = Ok (vec (b_measured b) (measured all b v), tab (b_measured b) (b_var b v))) ->
  b_gates b0 = [l0] -> b_gates b1 = [l1] -> b_params b0 = [q0] -> b_params b1 = [q1] ->
  (Rabs (gradient b0 q0 l0 * gradient b1 q1 l1) <= Rabs (gradient b0 q0 l1 * gradient b1 q1 l0))%R ->
  missing all b0 p0 q0 = 0%R -> (b_tol b1 q1 <= Rabs (missing all b1 p0 q1))%R ->
  (b_tol b0 q0 * Rabs (gradient b1 q1 l1) <= Rabs (gradient b0 q0 l1) * Rabs (missing all b1 p0 q1))%R ->
  let E := newton_hierarchy ortho calc lstsq results 2 in
  forall m, exists s, iterates E m (fresh path (mk_world (vec all p0) [start p0 b0; start p0 b1])) = (s, Ok tt) /\ is_tuning_complete E (s_at s) = false.
Proof.
  intros ortho calc lstsq Hmin all b0 b1 results p0 path l0 l1 q0 q1 Hall Hb0 Hb1 Hu0 Hu1 Hv0 Hv1 Hsep Hm Hg0 Hg1 Hp0 Hp1 Hk Hz He1 He0 E m.
  assert (Hm0 : measures all results 0 b0) by (exact (Hm 0 b0 eq_refl)). assert (Hm1 : measures all results 1 b1) by (exact (Hm 1 b1 eq_refl)).
  assert (Hz' : forall q, In q (b_params b0) -> missing all b0 p0 q = 0%R) by (rewrite Hp0; intros q [<-|[]]; exact Hz).
  destruct (pair_start ortho calc lstsq Hmin all Hall results 2 path b0 b1 [] Hb0 Hb1 Hu0 Hsep (le_n 2) Hm0 Hm1 ltac:(intros p []) p0 Hv0 Hv1) as [v [m0 [s0 [_ [Hit [Hc Hv]]]]]].
  rewrite (exact_tuned all b0 p0 Hb0 Hz') in Hv. destruct Hv as [-> ->].
  assert (Hf : tuned_at all b1 p0 = false).
  { destruct (tuned_at all b1 p0) eqn:Ht; [|reflexivity]. pose proof (proj1 (tuned_met all b1 p0) Ht q1) as K. rewrite Hp1 in K. specialize (K (or_introl eq_refl)). unfold missing in He1. lra. }
  rewrite Hf in Hc.
  destruct (runaway_long ortho calc lstsq Hmin all Hall results 2 path b0 b1 l0 l1 q0 q1 Hb0 Hb1 Hu0 Hu1 Hsep eq_refl Hm0 Hm1 Hg0 Hg1 Hp0 Hp1
    (Rabs (missing all b1 p0 q1)) He1 He0 Hk (S m) p0 s0 Hc Hz (Rle_refl _)) as [m1 [s1 [Hle Hit1]]].
  assert (Hrun : iterates E (m + (1 + (1 + (m1 - m)))) (fresh path (mk_world (vec all p0) [start p0 b0; start p0 b1])) = (s1, Ok tt)).
  { replace (m + (1 + (1 + (m1 - m)))) with (2 + m1) by lia. rewrite (iterates_app E 2 m1 _ _ Hit). exact Hit1. }
  destruct (iterates_prefix ortho calc lstsq results 2 m _ _ _ Hrun) as [s2 [H1 H2]].
  destruct (iterates_prefix ortho calc lstsq results 2 1 _ _ _ H2) as [s3 [H3 _]].
  exists s2. split; [exact H1|]. cbn [iterates] in H3. fold E in H3. destruct (iterate E s2) as [s4 [[]|ex]] eqn:Hi; [|discriminate].
  exact (complete_stops ortho calc lstsq results 2 s2 s4 Hi).
Qed.

(** *** Examples *)
(** p = A + c B belongs to the first tuner (gate A), q = B + C + c A and
    r = B - C to the second one (gates B and C). *)
Definition cp_slope (c : R) (q l : label) : R :=
  if String.eqb q "p" then (if String.eqb l "A" then 1 else if String.eqb l "B" then c else 0)%R
  else if String.eqb q "q" then (if String.eqb l "A" then c else 1)%R
  else (if String.eqb l "A" then 0 else if String.eqb l "B" then 1 else -1)%R.
Definition cp_low (c d : R) : block :=
  mk_block ["A"] ["A"] ["p"] ["p"; "q"; "r"] (fun _ => d) (fun _ => 0.1%R) (fun _ => 2%R) (fun _ => 0%R) (cp_slope c)
    (fun _ _ => Fin 0) (fun _ _ => 0.01%R) (String.eqb "p") true NaN 3.
Definition cp_high (c : R) : block :=
  mk_block ["B"; "C"] ["B"; "C"] ["q"; "r"] ["p"; "q"; "r"] (fun _ => 5%R) (fun _ => 0.1%R) (fun _ => 1%R) (fun _ => 0%R) (cp_slope c)
    (fun _ _ => Fin 0) (fun _ _ => 0.02%R) (String.eqb "q") true NaN 4.
(** The same with the gate B and the parameter q only. *)
Definition cp_single (c : R) : block :=
  mk_block ["B"] ["B"] ["q"] ["p"; "q"; "r"] (fun _ => 5%R) (fun _ => 0.1%R) (fun _ => 1%R) (fun _ => 0%R) (cp_slope c)
    (fun _ _ => Fin 0) (fun _ _ => 0.02%R) (String.eqb "q") true NaN 4.
Definition cp_all := ["A"; "B"; "C"].
Definition cp_device (c : R) (i : nat) (v : series) : res (series * series) :=
  let x l := match get l v with Fin r => r | _ => 0%R end in
  Ok (vec ["p"; "q"; "r"] (measured cp_all (cp_high c) x), tab ["p"; "q"; "r"] (fun _ => Fin 0)).
Definition cp_env (c : R) := newton_hierarchy ref_ortho ref_calc ref_lstsq (cp_device c) 2.
Definition cp_start (d : R) (c : R) (b : block) := fresh None (mk_world (vec cp_all (fun _ => 0%R)) [start (fun _ => 0%R) (cp_low c d); start (fun _ => 0%R) b]).

Lemma cp_nodup : NoDup cp_all.
Proof. repeat (constructor; [cbn; intuition congruence|]). constructor. Qed.
Lemma cp_low_wf c d : well_formed cp_all (cp_low c d).
Proof.
  unfold well_formed. cbn [cp_low b_gates b_tunable b_params b_measured b_factor b_tol b_eps].
  split; [repeat (constructor; [cbn; intuition congruence|]); constructor|]. split; [discriminate|].
  split; [intros l [<-|[]]; cbn; auto|]. split; [apply incl_refl|].
  split; [repeat (constructor; [cbn; intuition congruence|]); constructor|]. split; [discriminate|].
  split; [intros l [<-|[]]; cbn; auto|]. split; [intros; split; [lra|]; split; [lra|intros; lra]|].
  intros [|x [|y cs]] Hl Hz; try discriminate. pose proof (Hz "A" (or_introl eq_refl)) as K. cbn in K. intros r [<-|[]]; lra.
Qed.
Lemma cp_high_wf c : well_formed cp_all (cp_high c).
Proof.
  unfold well_formed. cbn [cp_high b_gates b_tunable b_params b_measured b_factor b_tol b_eps].
  split; [repeat (constructor; [cbn; intuition congruence|]); constructor|]. split; [discriminate|].
  split; [intros l [<-|[<-|[]]]; cbn; auto|]. split; [apply incl_refl|].
  split; [repeat (constructor; [cbn; intuition congruence|]); constructor|]. split; [discriminate|].
  split; [intros l [<-|[<-|[]]]; cbn; auto|]. split; [intros; split; [lra|]; split; [lra|intros; lra]|].
  intros [|x [|y [|z cs]]] Hl Hz; try discriminate. pose proof (Hz "B" (or_introl eq_refl)) as K1. pose proof (Hz "C" (or_intror (or_introl eq_refl))) as K2.
  cbn in K1, K2. intros r [<-|[<-|[]]]; lra.
Qed.
Lemma cp_single_wf c : well_formed cp_all (cp_single c).
Proof.
  unfold well_formed. cbn [cp_single b_gates b_tunable b_params b_measured b_factor b_tol b_eps].
  split; [repeat (constructor; [cbn; intuition congruence|]); constructor|]. split; [discriminate|].
  split; [intros l [<-|[]]; cbn; auto|]. split; [apply incl_refl|].
  split; [repeat (constructor; [cbn; intuition congruence|]); constructor|]. split; [discriminate|].
  split; [intros l [<-|[]]; cbn; auto|]. split; [intros; split; [lra|]; split; [lra|intros; lra]|].
  intros [|x [|y cs]] Hl Hz; try discriminate. pose proof (Hz "B" (or_introl eq_refl)) as K. cbn in K. intros r [<-|[]]; lra.
Qed.
Lemma cp_separate c d : separate (cp_low c d) (cp_high c).
Proof. split; cbn; intuition congruence. Qed.
Lemma abs_range x r : (Rabs x <= r)%R -> (- r <= x <= r)%R.
Proof. unfold Rabs. destruct (Rcase_abs x); lra. Qed.
(** The feedback is c^2. *)
Lemma cp_feedback c d : feedback (cp_low c d) (cp_high c) (c * c).
Proof.
  intros w h1 h0 r [H1 _] [H0 _] Hr q Hq.
  pose proof (H1 "q" (or_introl eq_refl)) as K1. pose proof (H1 "r" (or_intror (or_introl eq_refl))) as K2. pose proof (H0 "p" (or_introl eq_refl)) as K0.
  pose proof (Hr "q" (or_introl eq_refl)) as R1. pose proof (Hr "r" (or_intror (or_introl eq_refl))) as R2.
  unfold dot, gradient in *. cbn in K0, K1, K2.
  assert (Hr0 : (0 <= r)%R) by (pose proof (Rabs_pos (w "q")); lra).
  assert (HB : (Rabs (h1 "B") <= r)%R) by (apply Rabs_le; apply abs_range in R1; apply abs_range in R2; lra).
  assert (HA : (h0 "A" = - (c * h1 "B"))%R) by lra.
  destruct Hq as [<-|[<-|[]]]; cbn.
  - replace (c / 1 * h0 "A" + 0)%R with (- (c * c * h1 "B"))%R by (rewrite HA; field). rewrite Rabs_Ropp, Rabs_mult, (Rabs_pos_eq (c * c)) by nra.
    apply Rmult_le_compat_l; [nra|exact HB].
  - replace (0 / 1 * h0 "A" + 0)%R with 0%R by field. rewrite Rabs_R0. apply Rmult_le_pos; [nra|exact Hr0].
Qed.
Lemma cp_measures c d b j b' : b_measured b = ["p"; "q"; "r"] -> b_const b = (fun _ => 0%R) -> b_slope b = cp_slope c -> b_var b = (fun _ _ => Fin 0) ->
  nth_error [cp_low c d; b] j = Some b' -> forall v, cp_device c j (vec cp_all v) = Ok (vec (b_measured b') (measured cp_all b' v), tab (b_measured b') (b_var b' v)).
Proof.
  intros H1 H2 H3 H4 Hj v. destruct j as [|[|j]]; [| |destruct j; discriminate]; injection Hj as <-; [reflexivity|].
  unfold measured. rewrite H1, H2, H3, H4. reflexivity.
Qed.

Example coupled_pair_completes_ex :
  exists m s v, iterates (cp_env (1/2)) m (cp_start 7 (1/2) (cp_high (1/2))) = (s, Ok tt) /\ is_tuning_complete (cp_env (1/2)) (s_at s) = true /\
    w_gates (s_w s) = vec cp_all v /\ (13.8 < v "A" + v "B" / 2 < 14.2 /\ 4.9 < v "B" + v "C" + v "A" / 2 < 5.1 /\ 4.9 < v "B" - v "C" < 5.1)%R.
Proof.
  destruct (coupled_pair_completes ref_ortho ref_calc ref_lstsq ref_lstsq_shortest cp_all (cp_low (1/2) 7) (cp_high (1/2)) (cp_device (1/2)) (fun _ => 0%R) [] None 2 (1/2 * (1/2))%R)
    as [m [s [v [H1 [H2 [H3 [H4 [H5 _]]]]]]]]; try reflexivity.
  - exact cp_nodup.
  - apply cp_low_wf.
  - apply cp_high_wf.
  - apply cp_separate.
  - intros j b'. apply cp_measures; reflexivity.
  - intros p [].
  - lra.
  - apply cp_feedback.
  - exists m, s, v. split; [exact H1|]. split; [rewrite H2; reflexivity|]. split; [exact H3|].
    pose proof (H4 "p" (or_introl eq_refl)) as K1. pose proof (H5 "q" (or_introl eq_refl)) as K2. pose proof (H5 "r" (or_intror (or_introl eq_refl))) as K3.
    apply Rabs_def2 in K1. apply Rabs_def2 in K2. apply Rabs_def2 in K3. unfold measured, affine, dot in *. cbn in K1, K2, K3. lra.
Qed.

Example coupled_pair_rate_ex :
  exists m s v, m <= 23 /\ iterates (cp_env (1/2)) m (cp_start 0 (1/2) (cp_high (1/2))) = (s, Ok tt) /\ is_tuning_complete (cp_env (1/2)) (s_at s) = true /\
    w_gates (s_w s) = vec cp_all v /\ (-0.2 < v "A" + v "B" / 2 < 0.2 /\ 4.9 < v "B" + v "C" + v "A" / 2 < 5.1)%R.
Proof.
  destruct (coupled_pair_rate ref_ortho ref_calc ref_lstsq ref_lstsq_shortest cp_all (cp_low (1/2) 0) (cp_high (1/2)) (cp_device (1/2)) (fun _ => 0%R) [] None 2 (1/2 * (1/2))%R 5%R 3)
    as [m [s [v [Hm [H1 [H2 [H3 [H4 H5]]]]]]]]; try reflexivity.
  - exact cp_nodup.
  - apply cp_low_wf.
  - apply cp_high_wf.
  - apply cp_separate.
  - intros j b'. apply cp_measures; reflexivity.
  - intros p [].
  - lra.
  - apply cp_feedback.
  - intros q [<-|[]]. unfold missing, measured, affine, dot. cbn. lra.
  - intros q _. unfold missing, measured, affine, dot. cbn. apply Rabs_le. split; lra.
  - intros q _. cbn. lra.
  - exists m, s, v. split; [exact Hm|]. split; [exact H1|]. split; [rewrite H2; reflexivity|]. split; [exact H3|].
    pose proof (H4 "p" (or_introl eq_refl)) as K1. pose proof (H5 "q" (or_introl eq_refl)) as K2.
    apply Rabs_def2 in K1. apply Rabs_def2 in K2. unfold measured, affine, dot in *. cbn in K1, K2. lra.
Qed.

Example coupled_pair_runs_forever_ex : forall m, exists s, iterates (cp_env 2) m (cp_start 0 2 (cp_single 2)) = (s, Ok tt) /\ is_tuning_complete (cp_env 2) (s_at s) = false.
Proof.
  apply (coupled_pair_runs_forever ref_ortho ref_calc ref_lstsq ref_lstsq_shortest cp_all (cp_low 2 0) (cp_single 2) (cp_device 2) (fun _ => 0%R) None "A" "B" "p" "q"); try reflexivity.
  - exact cp_nodup.
  - apply cp_low_wf.
  - apply cp_single_wf.
  - split; cbn; intuition congruence.
  - intros j b'. apply cp_measures; reflexivity.
  - unfold gradient. cbn. rewrite !Rabs_pos_eq by lra. lra.
  - unfold missing, measured, affine, dot. cbn. lra.
  - unfold missing, measured, affine, dot. cbn. rewrite Rabs_pos_eq by lra. lra.
  - unfold gradient, missing, measured, affine, dot. cbn. rewrite !Rabs_pos_eq by lra. lra.
Qed.
Print Assumptions coupled_pair_completes.
Print Assumptions coupled_pair_rate.
Print Assumptions coupled_pair_runs_forever.
