(** Limited step sizes in the whole loop (ComposeModel.v): a tuner whose
    solver wants to go further than [max_step_size] walks there in pieces,
    several of them without an evaluation in between. *)
From Verif Require Import PyBase TargetModel TunerModel TunerSpec SeriesLemmas NewtonModel EstimatorModel GradientProps AutotunerModel ComposeModel KernelR ComposeSpec ComposeProofs ComposeNumerics ComposeHierarchy ComposeProps.
From Coq Require Import Lra ZArith.
Local Open Scope string_scope.
Local Open Scope list_scope.

(** C107.  The first tuner of a hierarchy, affine parameters with linearly
    independent gradients that are known from the start, steps limited to the
    length [m] > 0 and at most [N] >= 1 of them between two evaluations.  If
    the target can be met exactly within [M] such lengths, at voltages [x], it
    is met after at most 3M+1 calls, none of which raises; it stops on a
    straight line, not further from the start than [x]; only its own gates have
    moved and the other tuners have not been touched. *)
Theorem limited_tuner_reaches_target :
  forall ortho calc lstsq, lstsq_shortest lstsq ->
  forall (all gs ps ms tg : list label) (d tol f : label -> R) (eps : label -> label -> R)
         (c : label -> R) (a : label -> label -> R) (var : (label -> R) -> label -> num) results
         (p0 x : label -> R) (known : label -> bool) (pos vals : series) (m : R) (N : Z) (M : nat) (rest : list (part (newton fd))) path n,
  NoDup all -> NoDup gs -> gs <> [] -> incl gs all -> incl tg gs -> NoDup ps -> ps <> [] -> incl ps ms ->
  (forall q, In q ps -> f q <> 0 /\ 0 < tol q)%R ->
  (forall v, results 0 (vec all v) = Ok (vec ms (fun q => affine all (c q) (a q) v), tab ms (var v))) ->
  independent gs (map a ps) ->
  index pos = gs -> index vals = ps -> n <> 0 ->
  (forall p, In p rest -> coherent (fun s => index (nw_pos s)) (fun s => Some (map (fun g => Some (index (fd_pos g))) (nw_ests s))) all p) ->
  (0 < m)%R -> (1 <= N)%Z ->
  (forall l, In l all -> ~ In l gs -> x l = p0 l) -> (forall q, In q ps -> affine all (c q) (a q) x / f q = d q)%R ->
  (rnorm gs (fun l => x l - p0 l) <= INR M * m)%R ->
  let E := newton_hierarchy ortho calc lstsq results n in
  let t := goal ps d tol f in
  let p1 := mk_part (fresh_tuner (relevant t)) (mk_newton t (map (fun q => given_fd gs p0 (eps q) (known q) (fun l => a q l / f q)%R) ps) pos vals) (mk_limits (Fin m) N) tg in
  exists k v p1' tr, k <= 3 * M + 1 /\
    iterates E k (fresh path (mk_world (vec all p0) (p1 :: rest))) = (mk_sys (mk_at 1 false None path) (mk_world (vec all v) (p1' :: rest)) tr, Ok tt) /\
    (forall l, In l all -> ~ In l gs -> v l = p0 l) /\
    (forall q, In q ps -> Rabs (d q - affine all (c q) (a q) v / f q) < tol q)%R /\
    (rnorm gs (fun l => v l - p0 l) <= rnorm gs (fun l => x l - p0 l))%R /\
    exists r, (0 <= r <= 1 /\ forall q, In q ps -> d q - affine all (c q) (a q) v / f q = r * (d q - affine all (c q) (a q) p0 / f q))%R.
Proof.
  intros ortho calc lstsq Hmin all gs ps ms tg d tol f eps c a var results p0 x known pos vals m N M rest path n
    Hall Hgs Hgs0 Hin Htg Hps Hps0 Hms Hpos Hres Hind Hp Hv Hn Hrest Hm HN Hx Hxd HM E t p1.
  assert (Hrel : relevant t = ps) by apply relevant_goal.
  assert (Hf : forall q, In q ps -> f q <> 0%R) by (intros q Hq; apply (Hpos q Hq)).
  destruct (newton_from_exists lstsq all gs ps d f Hgs Hgs0 Hps0 Hf c a Hind Hmin p0) as [h0 Hh0].
  assert (Hsx : (rnorm gs h0 <= rnorm gs (fun l => x l - p0 l))%R).
  { rewrite !rnorm_dot. apply sqrt_le_1_alt. apply (proj2 (proj2 Hh0)). intros q Hq.
    pose proof (affine_diff all gs ps f Hall Hgs Hin Hf c a p0 q x p0 Hq Hx (fun _ _ _ => eq_refl)) as K. rewrite <- K, (Hxd q Hq). reflexivity. }
  pose proof (limited_from_start ortho calc lstsq all gs ps ms tg d tol f eps Hall Hgs Hgs0 Hin Htg Hps Hps0 Hms Hf
             (fun q Hq => proj2 (Hpos q Hq)) c a var results 0 Hres Hind p0 (mk_limits (Fin m) N) rest path Hrest n (not_eq_sym Hn) (fun _ L => L = [])) as Hfs.
  specialize (Hfs ltac:(intros v L ->; reflexivity) ltac:(intros v L -> p []) ltac:(discriminate) ltac:(intros v L -> p q []) (fun _ => False)).
  specialize (Hfs ltac:(intros v v' L p tr -> _ _; apply reach_here; exists [], tr; auto) Hmin m Hm eq_refl HN h0 Hh0 known [] pos vals (fresh_tuner (relevant t)) [] M).
  destruct Hfs as [k [s' [Hk [[Hi Hd]|[_ []]]]]]; try assumption; try reflexivity.
  - cbn. rewrite Hrel. unfold index. rewrite map_map. apply map_id.
  - lra.
  - destruct Hd as [r [L' [v [t' [ests [tr [Hr [Hon [-> [-> [_ [Hre _]]]]]]]]]]]].
    eexists k, v, _, tr. split; [lia|]. split; [exact Hi|]. split; [exact (segment_near all gs p0 h0 r v Hon)|].
    split; [exact (proj1 (reached_iff _ _ _ _) Hre)|]. split.
    + rewrite (rnorm_scaled gs h0 (fun l => v l - p0 l)%R r) by (try lra; intros l Hl; rewrite (Hon l (Hin l Hl)), (proj2 (SeriesLemmas.mem_In l gs) Hl); lra).
      pose proof (rnorm_nonneg gs h0). nra.
    + exists (1 - r)%R. split; [lra|]. intros q Hq. exact (segment_distance lstsq all gs ps d f Hall Hgs Hin Hf c a p0 h0 Hh0 r v q Hon Hq).
Qed.

(** C107.  Several tuners, each with unlimited steps or with limited ones and
    known gradients; all but the last know their gradients.  After finitely
    many calls of [iterate] all targets are met. *)
Theorem hierarchy_with_limits_completes :
  forall ortho calc lstsq, ortho_exact ortho -> calc_exact calc -> lstsq_shortest lstsq ->
  forall (all : list label) (bs : list block) results (p0 : label -> R) (rest : list (part (newton fd))) path n,
  NoDup all -> Forall (well_formed all) bs -> Forall (fun b => unlimited b \/ limited b) bs -> triangular bs -> length bs <= n ->
  (forall j b, nth_error bs j = Some b -> forall v, results j (vec all v) = Ok (vec (b_measured b) (measured all b v), tab (b_measured b) (b_var b v))) ->
  (forall p, In p rest -> coherent (fun s => index (nw_pos s)) (fun s => Some (map (fun g => Some (index (fd_pos g))) (nw_ests s))) all p) ->
  (forall j b, nth_error bs j = Some b -> S j < length bs -> b_given b = true) ->
  let E := newton_hierarchy ortho calc lstsq results n in
  exists m s v,
    iterates E m (fresh path (mk_world (vec all p0) (map (start p0) bs ++ rest))) = (s, Ok tt) /\
    s_at s = mk_at (length bs) false None path /\ w_gates (s_w s) = vec all v /\
    (forall b, In b bs -> met all b v) /\ (forall l, In l all -> (forall b, In b bs -> ~ In l (b_gates b)) -> v l = p0 l).
Proof.
  intros ortho calc lstsq Ho Hc Hmin all bs results p0 rest path n Hall Hwf Hst Htri Hn Hm Hr Hg E.
  assert (Hls : lstsq_exact lstsq).
  { intros ls rows b A1 A2 A3 A4 A5. destruct (Hmin ls rows b A1 A2 A3 A4 A5) as [y [H1 [H2 _]]]. exists y. auto. }
  assert (Hst' : Forall (fun b => unlimited b \/ limited b /\ lstsq_shortest lstsq) bs).
  { eapply Forall_impl; [|exact Hst]. intros b [H|H]; auto. }
  destruct (run_blocks ortho calc lstsq Ho Hc Hls all Hall results n path bs p0 rest Hwf Hst' Htri Hn Hm Hr bs [] [] p0 []) as [m0 [_ [m [s [_ Hrun]]]]].
  - reflexivity.
  - constructor.
  - reflexivity.
  - reflexivity.
  - exists m, s. destruct Hrun as [[Hrun Hd]|[Hrun Hd]].
    + destruct Hd as [L' [v [tr [-> [HF Hout]]]]]. exists v. split; [exact Hrun|]. split; [reflexivity|]. split; [reflexivity|]. split; [|exact Hout].
      intros b Hb. destruct (In_nth_error _ _ Hb) as [j Hj].
      assert (Hsome : exists p, settled all b v p).
      { clear -HF Hj. revert j Hj. induction HF as [|b' p' bs' L'' Hp _ IH]; intros [|j] Hj; cbn in Hj; try discriminate; [injection Hj as ->; eauto|eauto]. }
      destruct Hsome as [p Hp]. apply (settled_met all b v p Hp).
    + destruct Hd as [j [b [v [H4 [H5 [H6 _]]]]]]. rewrite (Hg j b H4 H5) in H6. discriminate.
Qed.

(** The device of [first_tuner_reaches_target_instance] with the two gates
    limited to steps of length 1/2, at most three between evaluations.  The
    target is met exactly at A = 19/3, B = 4/3, less than 7 away. *)
Definition ex_limited_part :=
  mk_part (fresh_tuner (relevant ex_target))
    (mk_newton ex_target (map (fun q => given_fd ex_gs (fun _ => 0%R) (fun _ => 0.01%R) (String.eqb q "p") (fun l => ex_a q l / (if String.eqb q "p" then 2 else 1))%R) ex_ps)
       (vec ex_gs (fun _ => 0%R)) (tab ex_ps (fun _ => NaN))) (mk_limits (Fin 0.5) 3) ex_gs.

Example limited_tuner_reaches_target_instance :
  exists k v p' tr, k <= 43 /\
    iterates ex_env k (fresh None (mk_world (vec ex_all (fun _ => 0%R)) [ex_limited_part])) = (mk_sys (mk_at 1 false None None) (mk_world (vec ex_all v) [p']) tr, Ok tt) /\
    is_tuning_complete ex_env (mk_at 1 false None None) = true /\
    v "C" = 0%R /\ (9.8 < 1 + v "A" + 2 * v "B" < 10.2 /\ 4.9 < v "A" - v "B" < 5.1)%R /\ (v "A" * v "A" + v "B" * v "B" < 49)%R.
Proof.
  set (x := fun l => if String.eqb l "A" then (19 / 3)%R else if String.eqb l "B" then (4 / 3)%R else 0%R).
  assert (Hx7 : (rnorm ex_gs (fun l => x l - 0) < 7)%R).
  { rewrite rnorm_dot. rewrite <- (sqrt_square 7) by lra. apply sqrt_lt_1_alt. unfold dot, x; cbn. lra. }
  destruct (limited_tuner_reaches_target ref_ortho ref_calc ref_lstsq ref_lstsq_shortest
    ex_all ex_gs ex_ps ["q"; "p"; "r"] ex_gs (fun _ => 5%R) (fun _ => 0.1%R) (fun q => if String.eqb q "p" then 2%R else 1%R) (fun _ _ => 0.01%R)
    ex_c ex_a (fun _ _ => Fin 0) ex_results (fun _ => 0%R) x (fun q => String.eqb q "p") (vec ex_gs (fun _ => 0%R)) (tab ex_ps (fun _ => NaN)) 0.5 3 14 [] None 1)
    as [m [v [p' [tr [Hm [Hi [Hout [Hq [Hlen _]]]]]]]]].
  - exact ex_nodup.
  - repeat (constructor; [cbn; intuition congruence|]). constructor.
  - discriminate.
  - intros l Hl. cbn in Hl |- *. tauto.
  - apply incl_refl.
  - repeat (constructor; [cbn; intuition congruence|]). constructor.
  - discriminate.
  - intros l Hl. cbn in Hl |- *. tauto.
  - intros q Hq. split; [destruct (String.eqb q "p"); lra|lra].
  - exact ex_measures.
  - exact ex_independent.
  - reflexivity.
  - reflexivity.
  - discriminate.
  - intros p [].
  - lra.
  - lia.
  - intros l [<-|[<-|[<-|[]]]] Hn; try (exfalso; apply Hn; cbn; tauto). reflexivity.
  - intros q [<-|[<-|[]]]; unfold affine, dot, x, ex_c, ex_a; cbn; lra.
  - replace (INR 14 * 0.5)%R with 7%R by (cbn; lra). lra.
  - exists m, v, p', tr. split; [lia|]. split; [exact Hi|]. split; [reflexivity|]. split; [apply Hout; [cbn; tauto|cbn; intuition congruence]|].
    pose proof (Hq "p" (or_introl eq_refl)) as Kp. pose proof (Hq "q" (or_intror (or_introl eq_refl))) as Kq. apply Rabs_def2 in Kp. apply Rabs_def2 in Kq.
    assert (HC : v "C" = 0%R) by (apply Hout; [cbn; tauto|cbn; intuition congruence]).
    unfold affine, dot, ex_c, ex_a in Kp, Kq. cbn in Kp, Kq. rewrite HC in Kp, Kq.
    split; [lra|]. assert (H7 : (rnorm ex_gs (fun l => v l - 0) < 7)%R) by lra.
    rewrite rnorm_dot, <- (sqrt_square 7) in H7 by lra. apply sqrt_lt_0_alt in H7. unfold dot in H7. cbn in H7. lra.
Qed.

(** Two tuners, the steps of both limited: the lower one of length 1/2, the
    upper one of length 1/4. *)
Definition ex_low_limited : block :=
  let b := ex_low 7 true in
  mk_block (b_gates b) (b_tunable b) (b_params b) (b_measured b) (b_desired b) (b_tol b) (b_factor b) (b_const b) (b_slope b) (b_var b) (b_eps b) (b_known b) true (Fin 0.5) 3.
Definition ex_high_limited : block :=
  let b := ex_high in
  mk_block (b_gates b) (b_tunable b) (b_params b) (b_measured b) (b_desired b) (b_tol b) (b_factor b) (b_const b) (b_slope b) (b_var b) (b_eps b) (b_known b) true (Fin 0.25) 4.

Example hierarchy_with_limits_completes_instance :
  exists m s v,
    iterates ex_env2 m (fresh None (mk_world (vec ex_all (fun _ => 0%R)) [start (fun _ => 0%R) ex_low_limited; start (fun _ => 0%R) ex_high_limited])) = (s, Ok tt) /\
    is_tuning_complete ex_env2 (s_at s) = true /\ w_gates (s_w s) = vec ex_all v /\
    (13.8 < v "A" < 14.2 /\ 4.9 < v "A" + v "B" + v "C" < 5.1 /\ 4.9 < v "B" - v "C" < 5.1)%R.
Proof.
  destruct (hierarchy_with_limits_completes ref_ortho ref_calc ref_lstsq ref_ortho_exact ref_calc_exact ref_lstsq_shortest
    ex_all [ex_low_limited; ex_high_limited] ex_device (fun _ => 0%R) [] None 2) as [m [s [v [H1 [H2 [H3 [H4 _]]]]]]].
  - exact ex_nodup.
  - constructor; [exact (ex_low_wf 7 true)|constructor; [exact ex_high_wf|constructor]].
  - constructor; [|constructor; [|constructor]]; right; (split; [reflexivity|split; [cbn; lia|eexists; split; [reflexivity|lra]]]).
  - pose proof (ex_triangular 7 true) as T. inversion T as [|b0 bs0 T1 T2]; subst. inversion T1 as [|b1 bs1 T3 T4]; subst.
    constructor; [constructor; [exact T3|constructor]|constructor; [constructor|constructor]].
  - cbn. lia.
  - intros [|[|j]] b Hj v; [injection Hj as <-|injection Hj as <-|destruct j; discriminate]; reflexivity.
  - intros p [].
  - intros [|[|j]] b Hj Hl; [injection Hj as <-; reflexivity|cbn in Hl; lia|cbn in Hl; lia].
  - exists m, s, v. split; [exact H1|]. split; [rewrite H2; reflexivity|]. split; [exact H3|].
    pose proof (H4 _ (or_introl eq_refl) "p" (or_introl eq_refl)) as K1. pose proof (H4 _ (or_intror (or_introl eq_refl)) "q" (or_introl eq_refl)) as K2.
    pose proof (H4 _ (or_intror (or_introl eq_refl)) "r" (or_intror (or_introl eq_refl))) as K3.
    apply Rabs_def2 in K1. apply Rabs_def2 in K2. apply Rabs_def2 in K3. unfold measured, affine, dot in *. cbn in K1, K2, K3. lra.
Qed.
Print Assumptions limited_tuner_reaches_target.
Print Assumptions hierarchy_with_limits_completes.
