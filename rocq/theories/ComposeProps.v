(** Properties of the whole loop: Autotuner, SubsetTuners, NewtonSolvers and
    finite difference estimators together (ComposeModel.v), for numerical
    routines that are exact (ComposeSpec.v). *)
From Verif Require Import PyBase TargetModel TunerModel TunerSpec SeriesLemmas NewtonModel EstimatorModel GradientProps AutotunerModel ComposeModel KernelR ComposeSpec ComposeProofs ComposeNumerics ComposeHierarchy.
From Coq Require Import Lra ZArith.
Local Open Scope string_scope.
Local Open Scope list_scope.

(** C95.  The first tuner of a hierarchy: affine parameters whose gradients on
    its gates are linearly independent.  From the start, without a known
    gradient, [iterate] meets the target after at most 3n+4 calls (n gates),
    none of which raises; only the gates of the tuner have moved, and the other
    tuners have not been touched.  Steps are not limited here. *)
Theorem first_tuner_reaches_target :
  forall ortho calc lstsq, ortho_exact ortho -> calc_exact calc -> lstsq_exact lstsq ->
  forall (all gs ps ms tg : list label) (d tol f : label -> R) (eps : label -> label -> R)
         (c : label -> R) (a : label -> label -> R) (var : (label -> R) -> label -> num) results
         (p0 : label -> R) (known : label -> bool) (pos vals : series) (N : Z) (rest : list (part (newton fd))) path n,
  NoDup all -> NoDup gs -> gs <> [] -> incl gs all -> incl tg gs -> NoDup ps -> ps <> [] -> incl ps ms ->
  (forall q, In q ps -> f q <> 0 /\ 0 < tol q /\ forall l, In l gs -> 0 < eps q l)%R ->
  (forall v, results 0 (vec all v) = Ok (vec ms (fun q => affine all (c q) (a q) v), tab ms (var v))) ->
  independent gs (map a ps) ->
  index pos = gs -> index vals = ps -> n <> 0 ->
  (forall p, In p rest -> coherent (fun s => index (nw_pos s)) (fun s => Some (map (fun g => Some (index (fd_pos g))) (nw_ests s))) all p) ->
  let E := newton_hierarchy ortho calc lstsq results n in
  let t := goal ps d tol f in
  let p1 := mk_part (fresh_tuner (relevant t)) (mk_newton t (map (fun q => new_fd gs p0 (eps q) (known q)) ps) pos vals) (mk_limits NaN N) tg in
  exists m v p1' tr, m <= 3 * length gs + 4 /\
    iterates E m (fresh path (mk_world (vec all p0) (p1 :: rest))) = (mk_sys (mk_at 1 false None path) (mk_world (vec all v) (p1' :: rest)) tr, Ok tt) /\
    (forall l, In l all -> ~ In l gs -> v l = p0 l) /\
    (forall q, In q ps -> Rabs (d q - affine all (c q) (a q) v / f q) < tol q)%R.
Proof.
  intros ortho calc lstsq Ho Hc Hls all gs ps ms tg d tol f eps c a var results p0 known pos vals N rest path n
    Hall Hgs Hgs0 Hin Htg Hps Hps0 Hms Hpos Hres Hind Hp Hv Hn Hrest E t p1.
  assert (Hrel : relevant t = ps) by apply relevant_goal.
  pose proof (from_start ortho calc lstsq Ho Hc Hls all gs ps ms tg d tol f eps Hall Hgs Hgs0 Hin Htg Hps Hps0 Hms
             (fun q Hq => proj1 (Hpos q Hq)) (fun q Hq => proj1 (proj2 (Hpos q Hq))) (fun q l Hq Hl => proj2 (proj2 (Hpos q Hq)) l Hl)
             c a var results 0 Hres Hind p0 (mk_limits NaN N) rest path Hrest n (not_eq_sym Hn) (fun _ L => L = [])) as Hfs.
  specialize (Hfs ltac:(intros v L ->; reflexivity) ltac:(intros v L -> p []) ltac:(discriminate) ltac:(intros v L -> p q []) (fun _ => False)).
  specialize (Hfs ltac:(intros v v' L p tr -> _ _; apply reach_here; exists [], tr; auto) false known [] pos vals (fresh_tuner (relevant t)) [] eq_refl).
  destruct Hfs as [m [s' [Hm [[Hi Hd]|[_ []]]]]]; try assumption; try reflexivity.
  - cbn. rewrite Hrel. unfold index. rewrite map_map. apply map_id.
  - destruct Hd as [L' [v [t' [ests [tr [-> [-> [Hnear [_ [Hr _]]]]]]]]]].
    eexists m, v, _, tr. split; [lia|]. split; [exact Hi|]. split; [exact Hnear|]. exact (proj1 (reached_iff _ _ _ _) Hr).
Qed.

(** Two gates of three, two parameters; the estimator of "q" is created without
    a position. *)
Definition ex_all := ["A"; "B"; "C"].
Definition ex_gs := ["A"; "B"].
Definition ex_ps := ["p"; "q"].
Definition ex_c (q : label) : R := if String.eqb q "p" then 1%R else 0%R.
Definition ex_a (q l : label) : R :=
  if String.eqb q "p" then (if String.eqb l "A" then 1 else if String.eqb l "B" then 2 else 3)%R
  else (if String.eqb l "A" then 1 else if String.eqb l "B" then -1 else 0)%R.
Definition ex_results (i : nat) (v : series) : res (series * series) :=
  let x l := match get l v with Fin r => r | _ => 0%R end in
  Ok (vec ["q"; "p"; "r"] (fun q => affine ex_all (ex_c q) (ex_a q) x), tab ["q"; "p"; "r"] (fun _ => Fin 0)).
Definition ex_target := goal ex_ps (fun _ => 5%R) (fun _ => 0.1%R) (fun q => if String.eqb q "p" then 2%R else 1%R).
Definition ex_ests := map (fun q => new_fd ex_gs (fun _ => 0%R) (fun _ => 0.01%R) (String.eqb q "p")) ex_ps.
Definition ex_env := newton_hierarchy ref_ortho ref_calc ref_lstsq ex_results 1.
Definition ex_solver := mk_newton ex_target ex_ests (vec ex_gs (fun _ => 0%R)) (tab ex_ps (fun _ => NaN)).
Definition ex_part := mk_part (fresh_tuner (relevant ex_target)) ex_solver (mk_limits NaN 3) ex_gs.

Lemma ex_nodup : NoDup ex_all.
Proof. repeat (constructor; [cbn; intuition congruence|]). constructor. Qed.
Lemma ex_independent : independent ex_gs (map ex_a ex_ps).
Proof.
  intros [|x [|y [|z cs]]] Hl Hz; try discriminate. pose proof (Hz "A" (or_introl eq_refl)) as H1. pose proof (Hz "B" (or_intror (or_introl eq_refl))) as H2.
  cbn in H1, H2. intros r [<-|[<-|[]]]; lra.
Qed.
Lemma ex_measures v : ex_results 0 (vec ex_all v) = Ok (vec ["q"; "p"; "r"] (fun q => affine ex_all (ex_c q) (ex_a q) v), tab ["q"; "p"; "r"] (fun _ => Fin 0)).
Proof. reflexivity. Qed.

(** The constructor of the solver accepts this. *)
Example ex_solver_constructed :
  nw_init (fd_ops ref_ortho ref_calc) ex_target ex_ests (vec ex_gs (fun _ => 0%R)) None = Ok ex_solver.
Proof. reflexivity. Qed.

Example first_tuner_reaches_target_instance :
  exists m v p' tr, m <= 10 /\
    iterates ex_env m (fresh None (mk_world (vec ex_all (fun _ => 0%R)) [ex_part])) = (mk_sys (mk_at 1 false None None) (mk_world (vec ex_all v) [p']) tr, Ok tt) /\
    is_tuning_complete ex_env (mk_at 1 false None None) = true /\
    v "C" = 0%R /\ (9.8 < 1 + v "A" + 2 * v "B" < 10.2 /\ 4.9 < v "A" - v "B" < 5.1)%R.
Proof.
  destruct (first_tuner_reaches_target ref_ortho ref_calc ref_lstsq ref_ortho_exact ref_calc_exact ref_lstsq_exact
    ex_all ex_gs ex_ps ["q"; "p"; "r"] ex_gs (fun _ => 5%R) (fun _ => 0.1%R) (fun q => if String.eqb q "p" then 2%R else 1%R) (fun _ _ => 0.01%R)
    ex_c ex_a (fun _ _ => Fin 0) ex_results (fun _ => 0%R) (fun q => String.eqb q "p") (vec ex_gs (fun _ => 0%R)) (tab ex_ps (fun _ => NaN)) 3 [] None 1)
    as [m [v [p' [tr [Hm [Hi [Hout Hq]]]]]]].
  - exact ex_nodup.
  - repeat (constructor; [cbn; intuition congruence|]). constructor.
  - discriminate.
  - intros l [<-|[<-|[]]]; cbn; auto.
  - apply incl_refl.
  - repeat (constructor; [cbn; intuition congruence|]). constructor.
  - discriminate.
  - intros l [<-|[<-|[]]]; cbn; auto.
  - intros q _. split; [destruct (String.eqb q "p"); lra|]. split; [lra|intros; lra].
  - apply ex_measures.
  - exact ex_independent.
  - reflexivity.
  - reflexivity.
  - discriminate.
  - intros p [].
  - exists m, v, p', tr. split; [exact Hm|]. split; [exact Hi|]. split; [reflexivity|].
    assert (HC : v "C" = 0%R) by (apply Hout; cbn; intuition congruence).
    pose proof (Hq "p" (or_introl eq_refl)) as H1. pose proof (Hq "q" (or_intror (or_introl eq_refl))) as H2.
    apply Rabs_def2 in H1. apply Rabs_def2 in H2. unfold affine, dot in H1, H2. cbn in H1, H2. rewrite HC in H1, H2.
    split; [exact HC|]. split; lra.
Qed.
Print Assumptions first_tuner_reaches_target.

(** C96.  A whole hierarchy in which no tuner disturbs the ones before it:
    either [iterate] completes, all targets are met and gates of no tuner have
    kept their voltages; or an evaluation raises EvaluationError, at a tuner
    below the last one whose target is met and that started without
    gradients. *)
Theorem hierarchy_completes_or_fails :
  forall ortho calc lstsq, ortho_exact ortho -> calc_exact calc -> lstsq_exact lstsq ->
  forall (all : list label) (bs : list block) results (p0 : label -> R) (rest : list (part (newton fd))) path n,
  NoDup all -> Forall (well_formed all) bs -> Forall unlimited bs -> triangular bs -> length bs <= n ->
  (forall j b, nth_error bs j = Some b -> forall v, results j (vec all v) = Ok (vec (b_measured b) (measured all b v), tab (b_measured b) (b_var b v))) ->
  (forall p, In p rest -> coherent (fun s => index (nw_pos s)) (fun s => Some (map (fun g => Some (index (fd_pos g))) (nw_ests s))) all p) ->
  let E := newton_hierarchy ortho calc lstsq results n in
  exists m s, m <= iterations 0 bs /\
    let run := iterates E m (fresh path (mk_world (vec all p0) (map (start p0) bs ++ rest))) in
    (exists v, run = (s, Ok tt) /\ s_at s = mk_at (length bs) false None path /\ w_gates (s_w s) = vec all v /\
       (forall b, In b bs -> met all b v) /\ (forall l, In l all -> (forall b, In b bs -> ~ In l (b_gates b)) -> v l = p0 l)) \/
    (exists j b v, run = (s, Raise EvaluationError) /\ s_at s = mk_at j false None path /\ w_gates (s_w s) = vec all v /\
       nth_error bs j = Some b /\ S j < length bs /\ b_given b = false /\ met all b v).
Proof.
  intros ortho calc lstsq Ho Hc Hls all bs results p0 rest path n Hall Hwf Hun Htri Hn Hm Hr E.
  destruct (run_blocks ortho calc lstsq Ho Hc Hls all Hall results n path bs p0 rest Hwf (Forall_impl _ (fun b H => or_introl H) Hun) Htri Hn Hm Hr bs [] [] p0 []) as [m0 [Hm0 [m [s [Hle Hrun]]]]].
  - reflexivity.
  - constructor.
  - reflexivity.
  - reflexivity.
  - exists m, s. split; [specialize (Hm0 Hun); cbn [length] in Hm0; lia|]. destruct Hrun as [[Hrun Hd]|[Hrun Hd]].
    + left. destruct Hd as [L' [v [tr [-> [HF Hout]]]]]. exists v. split; [exact Hrun|]. split; [reflexivity|]. split; [reflexivity|]. split; [|exact Hout].
      intros b Hb. destruct (In_nth_error _ _ Hb) as [j Hj].
      assert (Hsome : exists p, settled all b v p).
      { clear - HF Hb. induction HF as [|x y l l' Hxy HF IH]; [destruct Hb|]. destruct Hb as [<-|Hb]; [exists y; exact Hxy|exact (IH Hb)]. }
      destruct Hsome as [p Hp]. exact (settled_met all b v p Hp).
    + right. destruct Hd as [j [b [v [H1 [H2 [H3 [H4 [H5 H6]]]]]]]]. exists j, b, v. auto 10.
Qed.

(** With gradients known from the start below the last tuner, it completes. *)
Theorem hierarchy_with_gradients_completes :
  forall ortho calc lstsq, ortho_exact ortho -> calc_exact calc -> lstsq_exact lstsq ->
  forall (all : list label) (bs : list block) results (p0 : label -> R) (rest : list (part (newton fd))) path n,
  NoDup all -> Forall (well_formed all) bs -> Forall unlimited bs -> triangular bs -> length bs <= n ->
  (forall j b, nth_error bs j = Some b -> forall v, results j (vec all v) = Ok (vec (b_measured b) (measured all b v), tab (b_measured b) (b_var b v))) ->
  (forall p, In p rest -> coherent (fun s => index (nw_pos s)) (fun s => Some (map (fun g => Some (index (fd_pos g))) (nw_ests s))) all p) ->
  (forall j b, nth_error bs j = Some b -> S j < length bs -> b_given b = true) ->
  let E := newton_hierarchy ortho calc lstsq results n in
  exists m s v, m <= iterations 0 bs /\
    iterates E m (fresh path (mk_world (vec all p0) (map (start p0) bs ++ rest))) = (s, Ok tt) /\
    s_at s = mk_at (length bs) false None path /\ w_gates (s_w s) = vec all v /\
    (forall b, In b bs -> met all b v) /\ (forall l, In l all -> (forall b, In b bs -> ~ In l (b_gates b)) -> v l = p0 l).
Proof.
  intros ortho calc lstsq Ho Hc Hls all bs results p0 rest path n Hall Hwf Hun Htri Hn Hm Hr Hg E.
  destruct (hierarchy_completes_or_fails ortho calc lstsq Ho Hc Hls all bs results p0 rest path n Hall Hwf Hun Htri Hn Hm Hr)
    as [m [s [Hle [[v [H1 [H2 [H3 [H4 H5]]]]]|[j [b [v [_ [_ [_ [H4 [H5 [H6 _]]]]]]]]]]]]].
  - exists m, s, v. auto 10.
  - rewrite (Hg j b H4 H5) in H6. discriminate.
Qed.

(** C97.  The failure of C96 happens.  The first tuner has one gate and is tuned
    from the start, the second one is not: as soon as the second one has moved
    its gates, the first one measures its only point again and raises
    EvaluationError, though its target is still met. *)
Theorem tuned_tuner_fails_again :
  forall ortho calc lstsq, ortho_exact ortho -> calc_exact calc -> lstsq_exact lstsq ->
  forall (all : list label) (b0 b1 : block) results (p0 : label -> R) (rest : list (part (newton fd))) path n,
  NoDup all -> well_formed all b0 -> well_formed all b1 -> unlimited b1 -> triangular [b0; b1] -> 2 <= n ->
  (forall j b, nth_error [b0; b1] j = Some b -> forall v, results j (vec all v) = Ok (vec (b_measured b) (measured all b v), tab (b_measured b) (b_var b v))) ->
  (forall p, In p rest -> coherent (fun s => index (nw_pos s)) (fun s => Some (map (fun g => Some (index (fd_pos g))) (nw_ests s))) all p) ->
  length (b_gates b0) = 1 -> b_given b0 = false -> met all b0 p0 -> ~ met all b1 p0 ->
  let E := newton_hierarchy ortho calc lstsq results n in
  exists m s v, m <= 4 * length (b_gates b1) + 6 /\
    iterates E m (fresh path (mk_world (vec all p0) (start p0 b0 :: start p0 b1 :: rest))) = (s, Raise EvaluationError) /\
    s_at s = mk_at 0 false None path /\ w_gates (s_w s) = vec all v /\ met all b0 v.
Proof.
  intros ortho calc lstsq Ho Hc Hls all b0 b1 results p0 rest path n Hall Hwf0 Hwf1 Hun Htri Hn Hm Hr H1 Hgv Hmet Hnot E.
  pose proof Hwf0 as V. destruct V as [V1 [V2 [V3 [V4 [V5 [V6 [V7 [V8 V9]]]]]]]].
  pose proof Hwf1 as W. destruct W as [W1 [W2 [W3 [W4 [W5 [W6 [W7 [W8 W9]]]]]]]].
  assert (Hrest1 : forall p, In p (start p0 b1 :: rest) -> coherent (fun s => index (nw_pos s)) (fun s => Some (map (fun g => Some (index (fd_pos g))) (nw_ests s))) all p)
    by (intros p [<-|Hp]; [apply start_coherent; exact Hwf1|apply Hr, Hp]).
  assert (Hpair : (forall l, In l (b_gates b1) -> ~ In l (b_gates b0) /\ forall q, In q (b_params b0) -> b_slope b0 q l = 0%R) /\ (forall q, In q (b_params b1) -> ~ In q (b_params b0))).
  { inversion Htri as [|x l Hx _]; subst. rewrite Forall_forall in Hx. apply Hx. left; reflexivity. }
  assert (Hn0 : 0 <> n) by lia. assert (Hn1 : 1 <> n) by lia.
  (* the first evaluation of the first tuner *)
  pose proof (first_eval ortho calc lstsq all (b_gates b0) (b_params b0) (b_measured b0) (b_tunable b0) (b_desired b0) (b_tol b0) (b_factor b0) (b_eps b0)
    V1 V2 V3 V4 V5 V6 V7 (fun q Hq => proj1 (V8 q Hq)) (b_const b0) (b_slope b0) (b_var b0) results 0 (Hm 0 b0 eq_refl) p0 (mk_limits (b_size b0) (b_max b0)) (start p0 b1 :: rest) path Hrest1 n Hn0
    (fun _ L => L = []) ltac:(intros v L ->; reflexivity) ltac:(intros v L -> p [])
    (b_given b0) (b_known b0) [] (vec (b_gates b0) p0) (tab (b_params b0) (fun _ => NaN)) (fresh_tuner (relevant (b_goal b0))) [] eq_refl (index_vec _ _) (index_tab _ _) eq_refl) as Hfirst.
  destruct Hfirst as [t0 [ests0 [tr0 [Hi0 [Hg0 Hl0]]]]].
  { unfold b_goal. rewrite relevant_goal. cbn. unfold index. rewrite map_map. apply map_id. } { reflexivity. }
  rewrite Hgv in Hl0.
  assert (Hre : reached (b_params b0) (b_desired b0) (b_tol b0) (fun q => affine all (b_const b0 q) (b_slope b0 q) p0 / b_factor b0 q)%R = true) by (apply reached_iff; exact Hmet).
  cbn zeta beta in Hi0. rewrite Hre in Hi0.
  set (P0 := mk_part t0 (mk_newton (goal (b_params b0) (b_desired b0) (b_tol b0) (b_factor b0)) ests0 (vec (b_gates b0) p0)
                (vec (b_params b0) (fun q => affine all (b_const b0 q) (b_slope b0 q) p0 / b_factor b0 q)%R)) (mk_limits (b_size b0) (b_max b0)) (b_tunable b0)).
  assert (HP0 : coherent (fun s => index (nw_pos s)) (fun s => Some (map (fun g => Some (index (fd_pos g))) (nw_ests s))) all P0).
  { apply (settled_coherent all b0 p0 P0 Hwf0). exists p0, t0, ests0. split; [reflexivity|]. split; [exact Hg0|]. split; [apply reached_iff; exact Hmet|].
    split; [|rewrite Hgv; discriminate]. right. exists []. split; [cbn; lia|]. split; [exact Hl0|reflexivity]. }
  set (low := fun (v : label -> R) L => (forall l, In l all -> v l = p0 l) /\ L = [P0]).
  set (bad := fun s : sys (world (newton fd)) => s_at s = mk_at 0 false None path /\ exists v, w_gates (s_w s) = vec all v /\ met all b0 v).
  pose proof (from_start ortho calc lstsq Ho Hc Hls all (b_gates b1) (b_params b1) (b_measured b1) (b_tunable b1) (b_desired b1) (b_tol b1) (b_factor b1) (b_eps b1)
    Hall W1 W2 W3 W4 W5 W6 W7 (fun q Hq => proj1 (W8 q Hq)) (fun q Hq => proj1 (proj2 (W8 q Hq))) (fun q l Hq Hl => proj2 (proj2 (W8 q Hq)) l Hl)
    (b_const b1) (b_slope b1) (b_var b1) results 1 (Hm 1 b1 eq_refl) W9 p0 (mk_limits (b_size b1) (b_max b1)) rest path Hr n Hn1 low) as Hfs.
  specialize (Hfs ltac:(intros v L [_ ->]; reflexivity) ltac:(intros v L [_ ->] p [<-|[]]; exact HP0)).
  specialize (Hfs ltac:(intros v p L [Hv HL]; inversion HL; subst; cbn [P0 p_tuner]; rewrite (proj1 Hg0); f_equal; apply vec_agree; intros l Hl; symmetry; apply Hv, Hl)).
  specialize (Hfs ltac:(intros v L [_ ->] p q [<-|[]] Hq; cbn [P0 p_solver nw_target]; rewrite relevant_goal; apply (proj2 Hpair q Hq)) bad).
  assert (Hclimb : forall v v' L p tr, low v L -> (forall l, In l all -> ~ In l (b_gates b1) -> v' l = v l) ->
    coherent (fun s => index (nw_pos s)) (fun s => Some (map (fun g => Some (index (fd_pos g))) (nw_ests s))) all p ->
    reach E bad 1 (mk_sys (mk_at 0 false None path) (mk_world (vec all v') (L ++ p :: rest)) tr)
      (fun s => exists L' tr', low v' L' /\ s = mk_sys (mk_at 1 false None path) (mk_world (vec all v') (L' ++ p :: rest)) tr')).
  { intros v v' L p tr [Hv ->] Hv' Hp.
    destruct (settle_fails ortho calc lstsq Hc all (b_gates b0) (b_params b0) (b_measured b0) (b_tunable b0) (b_desired b0) (b_tol b0) (b_factor b0) (b_eps b0)
      V1 V2 V3 V4 V5 V6 V7 (fun q Hq => proj1 (V8 q Hq)) (b_const b0) (b_slope b0) (b_var b0) results 0 (Hm 0 b0 eq_refl) p0 (mk_limits (b_size b0) (b_max b0)) (p :: rest) path) with
      (n := n) (low := fun (_ : label -> R) (L : list (part (newton fd))) => L = []) (L := @nil (part (newton fd))) (v := p0) (v' := v') (t := t0) (ests := ests0) (tr := tr) (hist := @nil (label -> R))
      as [t' [s' [tr' Hi]]].
    - intros x [<-|Hx]; [exact Hp|apply Hr, Hx].
    - exact Hn0.
    - intros x L ->; reflexivity.
    - intros x L -> y [].
    - reflexivity.
    - exact Hg0.
    - cbn. lia.
    - exact Hl0.
    - intros l Hl. cbn. rewrite <- (Hv l (V3 l Hl)). apply Hv'; [apply V3, Hl|]. intros Hl1. exact (proj1 (proj1 Hpair l Hl1) Hl).
    - exists 1. eexists. split; [lia|]. right. split; [apply iterates_raise; exact Hi|]. split; [reflexivity|]. exists v'. split; [reflexivity|].
      intros q Hq. rewrite (measured_agree all b0 p0 v' (b_gates b1) q).
      + apply Hmet, Hq.
      + intros l Hl. apply (proj2 (proj1 Hpair l Hl) q Hq).
      + intros l Hl Hl1. rewrite <- (Hv l Hl). apply Hv'; assumption. }
  specialize (Hfs Hclimb (b_given b1) (b_known b1) [P0] (vec (b_gates b1) p0) (tab (b_params b1) (fun _ => NaN)) (fresh_tuner (relevant (b_goal b1))) tr0 Hun).
  destruct Hfs as [m [s' [Hle [[_ Hd]|[Hrun [Hat [v [Hv Hmv]]]]]]]].
  { split; [reflexivity|reflexivity]. } { apply index_vec. } { apply index_tab. } { reflexivity. }
  { unfold b_goal. rewrite relevant_goal. cbn. unfold index. rewrite map_map. apply map_id. } { reflexivity. }
  - exfalso. destruct Hd as [L' [v [t' [ests [tr [_ [[Hv _] [_ [_ [Hreach _]]]]]]]]]]. apply Hnot. intros q Hq.
    pose proof (proj1 (reached_iff _ _ _ _) Hreach q Hq) as K. unfold measured, affine in *.
    rewrite (dot_ext all (b_slope b1 q) (b_slope b1 q) p0 v) by (first [reflexivity|intros; symmetry; auto]). exact K.
  - exists (S m), s', v. split; [lia|]. split; [|split; [exact Hat|]; split; [exact Hv|exact Hmv]].
    cbn [iterates]. unfold fresh. cbn [app] in Hi0. cbn [app] in Hrun. unfold E, start at 1. rewrite Hgv in Hi0 |- *.
    change (goal (b_params b0) (b_desired b0) (b_tol b0) (b_factor b0)) with (b_goal b0) in *.
    etransitivity; [|exact Hrun]. rewrite Hi0. reflexivity.
Qed.

(** Three gates, two tuners: the first one moves "A" only, the second one "B"
    and "C", where "q" also depends on "A".  At the start (all gates at zero)
    the target of the first one is met if [d] is zero. *)
Definition ex_low (d : R) (given : bool) : block :=
  mk_block ["A"] ["A"] ["p"] ["p"; "q"; "r"] (fun _ => d) (fun _ => 0.1%R) (fun _ => 2%R) (fun _ => 0%R)
    (fun q l => if String.eqb l "A" then (if String.eqb q "r" then 0 else 1)%R
                else if String.eqb q "p" then 0%R else if String.eqb l "B" then 1%R else if String.eqb q "q" then 1%R else (-1)%R)
    (fun _ _ => Fin 0) (fun _ _ => 0.01%R) (String.eqb "p") given NaN 3.
Definition ex_high : block :=
  mk_block ["B"; "C"] ["B"; "C"] ["q"; "r"] ["p"; "q"; "r"] (fun _ => 5%R) (fun _ => 0.1%R) (fun _ => 1%R) (fun _ => 0%R)
    (b_slope (ex_low 0 false)) (fun _ _ => Fin 0) (fun _ _ => 0.02%R) (String.eqb "q") false NaN 4.
Definition ex_device (i : nat) (v : series) : res (series * series) :=
  let x l := match get l v with Fin r => r | _ => 0%R end in
  Ok (vec ["p"; "q"; "r"] (measured ex_all ex_high x), tab ["p"; "q"; "r"] (fun _ => Fin 0)).
Definition ex_env2 := newton_hierarchy ref_ortho ref_calc ref_lstsq ex_device 2.

Lemma ex_low_wf d given : well_formed ex_all (ex_low d given).
Proof.
  unfold well_formed. cbn [ex_low b_gates b_tunable b_params b_measured b_factor b_tol b_eps].
  split; [repeat (constructor; [cbn; intuition congruence|]); constructor|]. split; [discriminate|].
  split; [intros l [<-|[]]; cbn; auto|]. split; [apply incl_refl|].
  split; [repeat (constructor; [cbn; intuition congruence|]); constructor|]. split; [discriminate|].
  split; [intros l [<-|[]]; cbn; auto|]. split; [intros; split; [lra|]; split; [lra|intros; lra]|].
  intros [|x [|y cs]] Hl Hz; try discriminate. pose proof (Hz "A" (or_introl eq_refl)) as K. cbn in K. intros r [<-|[]]; lra.
Qed.
Lemma ex_high_wf : well_formed ex_all ex_high.
Proof.
  unfold well_formed. cbn [ex_high b_gates b_tunable b_params b_measured b_factor b_tol b_eps].
  split; [repeat (constructor; [cbn; intuition congruence|]); constructor|]. split; [discriminate|].
  split; [intros l [<-|[<-|[]]]; cbn; auto|]. split; [apply incl_refl|].
  split; [repeat (constructor; [cbn; intuition congruence|]); constructor|]. split; [discriminate|].
  split; [intros l [<-|[<-|[]]]; cbn; auto|]. split; [intros; split; [lra|]; split; [lra|intros; lra]|].
  intros [|x [|y [|z cs]]] Hl Hz; try discriminate. pose proof (Hz "B" (or_introl eq_refl)) as K1. pose proof (Hz "C" (or_intror (or_introl eq_refl))) as K2.
  cbn in K1, K2. intros r [<-|[<-|[]]]; lra.
Qed.
Lemma ex_triangular d given : triangular [ex_low d given; ex_high].
Proof.
  constructor; [|repeat constructor]. constructor; [|constructor]. split.
  - intros l Hl. split; [cbn in *; intuition congruence|]. intros q Hq. cbn in *.
    destruct Hl as [<-|[<-|[]]]; destruct Hq as [<-|[]]; reflexivity.
  - cbn. intuition congruence.
Qed.
Lemma ex_device_measures d given j b : nth_error [ex_low d given; ex_high] j = Some b ->
  forall v, ex_device j (vec ex_all v) = Ok (vec (b_measured b) (measured ex_all b v), tab (b_measured b) (b_var b v)).
Proof.
  intros Hj v. destruct j as [|[|j]]; [| |destruct j; discriminate]; injection Hj as <-; reflexivity.
Qed.

(** Without gradients: one of the two outcomes. *)
Example hierarchy_completes_or_fails_instance :
  exists m s, m <= 20 /\
    let run := iterates ex_env2 m (fresh None (mk_world (vec ex_all (fun _ => 0%R)) [start (fun _ => 0%R) (ex_low 7 false); start (fun _ => 0%R) ex_high])) in
    (exists v, run = (s, Ok tt) /\ w_gates (s_w s) = vec ex_all v /\
       (13.8 < v "A" < 14.2 /\ 4.9 < v "A" + v "B" + v "C" < 5.1 /\ 4.9 < v "B" - v "C" < 5.1)%R) \/
    (run = (s, Raise EvaluationError) /\ a_index (s_at s) = 0).
Proof.
  destruct (hierarchy_completes_or_fails ref_ortho ref_calc ref_lstsq ref_ortho_exact ref_calc_exact ref_lstsq_exact
    ex_all [ex_low 7 false; ex_high] ex_device (fun _ => 0%R) [] None 2) as [m [s [Hm [[v [H1 [H2 [H3 [H4 _]]]]]|[j [b [v [H1 [H2 [H3 [H4 [H5 [H6 _]]]]]]]]]]]]].
  - exact ex_nodup.
  - constructor; [apply ex_low_wf|constructor; [apply ex_high_wf|constructor]].
  - repeat constructor.
  - apply ex_triangular.
  - cbn. lia.
  - apply ex_device_measures.
  - intros p [].
  - exists m, s. split; [exact Hm|]. left. exists v. split; [exact H1|]. split; [exact H3|].
    pose proof (H4 _ (or_introl eq_refl) "p" (or_introl eq_refl)) as K1. pose proof (H4 _ (or_intror (or_introl eq_refl)) "q" (or_introl eq_refl)) as K2.
    pose proof (H4 _ (or_intror (or_introl eq_refl)) "r" (or_intror (or_introl eq_refl))) as K3.
    apply Rabs_def2 in K1. apply Rabs_def2 in K2. apply Rabs_def2 in K3. unfold measured, affine, dot in *. cbn in K1, K2, K3. lra.
  - exists m, s. split; [exact Hm|]. right. split; [exact H1|]. rewrite H2. cbn in H5 |- *. lia.
Qed.

(** With a known gradient of the first one: both targets are met. *)
Example hierarchy_with_gradients_completes_instance :
  exists m s v, m <= 20 /\
    iterates ex_env2 m (fresh None (mk_world (vec ex_all (fun _ => 0%R)) [start (fun _ => 0%R) (ex_low 7 true); start (fun _ => 0%R) ex_high])) = (s, Ok tt) /\
    is_tuning_complete ex_env2 (s_at s) = true /\ w_gates (s_w s) = vec ex_all v /\
    (13.8 < v "A" < 14.2 /\ 4.9 < v "A" + v "B" + v "C" < 5.1 /\ 4.9 < v "B" - v "C" < 5.1)%R.
Proof.
  destruct (hierarchy_with_gradients_completes ref_ortho ref_calc ref_lstsq ref_ortho_exact ref_calc_exact ref_lstsq_exact
    ex_all [ex_low 7 true; ex_high] ex_device (fun _ => 0%R) [] None 2) as [m [s [v [Hm [H1 [H2 [H3 [H4 _]]]]]]]].
  - exact ex_nodup.
  - constructor; [apply ex_low_wf|constructor; [apply ex_high_wf|constructor]].
  - repeat constructor.
  - apply ex_triangular.
  - cbn. lia.
  - apply ex_device_measures.
  - intros p [].
  - intros [|[|j]] b Hj Hl; [injection Hj as <-; reflexivity|cbn in Hl; lia|cbn in Hl; lia].
  - exists m, s, v. split; [exact Hm|]. split; [exact H1|]. split; [rewrite H2; reflexivity|]. split; [exact H3|].
    pose proof (H4 _ (or_introl eq_refl) "p" (or_introl eq_refl)) as K1. pose proof (H4 _ (or_intror (or_introl eq_refl)) "q" (or_introl eq_refl)) as K2.
    pose proof (H4 _ (or_intror (or_introl eq_refl)) "r" (or_intror (or_introl eq_refl))) as K3.
    apply Rabs_def2 in K1. apply Rabs_def2 in K2. apply Rabs_def2 in K3. unfold measured, affine, dot in *. cbn in K1, K2, K3. lra.
Qed.

(** The first one is tuned from the start: the run raises, though "p" is still
    within its tolerance. *)
Example tuned_tuner_fails_again_instance :
  exists m s v, m <= 14 /\
    iterates ex_env2 m (fresh None (mk_world (vec ex_all (fun _ => 0%R)) [start (fun _ => 0%R) (ex_low 0 false); start (fun _ => 0%R) ex_high])) = (s, Raise EvaluationError) /\
    a_index (s_at s) = 0 /\ w_gates (s_w s) = vec ex_all v /\ (-0.2 < v "A" < 0.2)%R.
Proof.
  destruct (tuned_tuner_fails_again ref_ortho ref_calc ref_lstsq ref_ortho_exact ref_calc_exact ref_lstsq_exact
    ex_all (ex_low 0 false) ex_high ex_device (fun _ => 0%R) [] None 2) as [m [s [v [Hm [H1 [H2 [H3 H4]]]]]]].
  - exact ex_nodup.
  - apply ex_low_wf.
  - apply ex_high_wf.
  - reflexivity.
  - apply ex_triangular.
  - lia.
  - apply ex_device_measures.
  - intros p [].
  - reflexivity.
  - reflexivity.
  - intros q [<-|[]]. unfold measured, affine, dot. cbn. apply Rabs_def1; lra.
  - intros K. specialize (K "q" (or_introl eq_refl)). apply Rabs_def2 in K. unfold measured, affine, dot in K. cbn in K. lra.
  - exists m, s, v. split; [exact Hm|]. split; [exact H1|]. split; [rewrite H2; reflexivity|]. split; [exact H3|].
    pose proof (H4 "p" (or_introl eq_refl)) as K. apply Rabs_def2 in K. unfold measured, affine, dot in K. cbn in K. lra.
Qed.

Print Assumptions hierarchy_completes_or_fails.
Print Assumptions hierarchy_with_gradients_completes.
Print Assumptions tuned_tuner_fails_again.
