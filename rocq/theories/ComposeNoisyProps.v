(** Property: evaluators whose answers change from call to call. *)
From Verif Require Import PyBase TargetModel TunerModel TunerSpec SeriesLemmas NewtonModel EstimatorModel AutotunerModel AutotunerProofs ComposeModel KernelR ComposeSpec ComposeProofs ComposeHierarchy ComposeNumerics ComposeCoupledSpec ComposeCoupledProofs ComposeCurvedSpec ComposeCurvedProofs ComposeCurvedProps ComposeNoisySpec ComposeNoisyProofs.
From Coq Require Import Lra ZArith.
Local Open Scope list_scope.
Local Open Scope string_scope.

(** C148.  The device follows the given gradients up to the fraction rho < 1,
    every measured value is wrong by at most [eta].  As soon as
    rho^M r + 2 eta (1 - rho^M) / (1 - rho) is below the tolerances, 3M+1 calls
    suffice, and the true values are then at most [eta] out of tolerance. *)
Theorem noisy_tuner_completes :
  forall ortho calc lstsq, lstsq_shortest lstsq ->
  forall (all : list label) (b : block) g fs results (p0 : label -> R) (rest : list (part (newton fd))) path n rho eta r r0 M,
  NoDup all -> well_formed all b -> unlimited b -> b_given b = true -> 1 <= n ->
  (forall k v, results k 0 (vec all v) = Ok (vec (b_measured b) (fs k v), tab (b_measured b) (b_var b v))) ->
  (forall p, In p rest -> coherent (fun s => index (nw_pos s)) (fun s => Some (map (fun g => Some (index (fd_pos g))) (nw_ests s))) all p) ->
  (0 <= rho < 1)%R -> noisy b g fs eta -> follows b g rho r0 ->
  (r + eta <= r0)%R -> (2 * eta / (1 - rho) + eta <= r0)%R ->
  (forall q, In q (b_params b) -> Rabs (short_of b g p0 q) + eta <= r)%R ->
  (forall q, In q (b_params b) -> rho ^ M * r + 2 * eta / (1 - rho) * (1 - rho ^ M) < b_tol b q)%R ->
  let Es := fun k => newton_hierarchy ortho calc lstsq (results k) n in
  exists m s v, m <= 3 * M + 1 /\ calls Es 0 m (fresh path (mk_world (vec all p0) (start p0 b :: rest))) = (s, Ok tt) /\
    s_at s = mk_at 1 false None path /\ w_gates (s_w s) = vec all v /\
    (forall q, In q (b_params b) -> Rabs (short_of b g v q) < b_tol b q + eta)%R /\ (forall l, In l all -> ~ In l (b_gates b) -> v l = p0 l).
Proof.
  intros ortho calc lstsq Hmin all b g fs results p0 rest path n rho eta r r0 M Hall Hb Hu Hgv Hn Hm Hrest Hrho Hnoise Hfol Hr1 Hr2 Hr HM Es.
  assert (Hn0 : 0 <> n) by lia. assert (Hind : independent (b_gates b) (map (b_slope b) (b_params b))) by apply Hb.
  assert (Hend : forall i v, hit b (fs i) v -> forall q, In q (b_params b) -> (Rabs (short_of b g v q) < b_tol b q + eta)%R).
  { intros i v Hhit q Hq. pose proof (Hhit q Hq) as K1. pose proof (measured_near all b Hb fs g eta Hnoise i v q Hq) as K2. revert K1 K2.
    generalize (short_of b (fs i) v q) (short_of b g v q). intros x y. unfold Rabs. destruct (Rcase_abs (x - y)), (Rcase_abs x), (Rcase_abs y); lra. }
  destruct (first_given ortho calc lstsq all (results 0) n path Hn0 b Hb rest Hrest (fs 0) (Hm 0) p0 [] Hgv) as [p [tr [Hs H1]]].
  change (newton_hierarchy ortho calc lstsq (results 0) n) with (Es 0) in H1.
  destruct (hits b (fs 0) p0) eqn:Hh; cbn [negb] in H1.
  - exists 1. eexists. exists p0. split; [lia|]. split; [apply calls_one; exact H1|]. cbn [s_at s_w w_gates]. split; [reflexivity|]. split; [reflexivity|].
    split; [apply (Hend 0), hits_hit, Hh|reflexivity].
  - assert (Hfol' : follows (with_slopes (b_slope b) b) g rho r0) by (destruct b; exact Hfol).
    destruct (noisy_rounds ortho calc lstsq Hmin all Hall results n path Hn0 b Hb Hu rest Hrest fs Hm (b_slope b) p0 Hind g rho eta r0 Hrho Hfol' Hnoise M 0 1 p0 p tr r Hs Hh)
      as [m [s [v [p' [tr' [i [Hmm [H2 [-> [H3 H4]]]]]]]]]]; [reflexivity|auto| |exact HM|].
    { intros q Hq. pose proof (Hr q Hq) as K1. pose proof (measured_near all b Hb fs g eta Hnoise 0 p0 q Hq) as K2. revert K1 K2.
      generalize (short_of b (fs 0) p0 q) (short_of b g p0 q). intros x y. unfold Rabs. destruct (Rcase_abs (x - y)), (Rcase_abs x), (Rcase_abs y); lra. }
    exists (1 + m). eexists. exists v. split; [lia|]. split; [etransitivity; [exact (calls_app Es 1 m 0 _ _ (calls_one Es 0 _ _ H1))|exact H2]|].
    cbn [s_at s_w w_gates]. split; [reflexivity|]. split; [reflexivity|]. split; [exact (Hend i v H3)|exact H4].
Qed.

(** C148.  Measured values that never hit the target: every call succeeds and
    tuning does not end. *)
Theorem unreached_tuner_runs_forever :
  forall ortho calc lstsq, lstsq_shortest lstsq ->
  forall (all : list label) (b : block) fs results (p0 : label -> R) (rest : list (part (newton fd))) path n,
  NoDup all -> well_formed all b -> unlimited b -> b_given b = true -> 1 <= n ->
  (forall k v, results k 0 (vec all v) = Ok (vec (b_measured b) (fs k v), tab (b_measured b) (b_var b v))) ->
  (forall p, In p rest -> coherent (fun s => index (nw_pos s)) (fun s => Some (map (fun g => Some (index (fd_pos g))) (nw_ests s))) all p) ->
  (forall k v, ~ hit b (fs k) v) ->
  let Es := fun k => newton_hierarchy ortho calc lstsq (results k) n in
  forall m, exists s, calls Es 0 m (fresh path (mk_world (vec all p0) (start p0 b :: rest))) = (s, Ok tt) /\ is_tuning_complete (Es m) (s_at s) = false.
Proof.
  intros ortho calc lstsq Hmin all b fs results p0 rest path n Hall Hb Hu Hgv Hn Hm Hrest Hnot Es m.
  assert (Hn0 : 0 <> n) by lia. assert (Hind : independent (b_gates b) (map (b_slope b) (b_params b))) by apply Hb.
  destruct (first_given ortho calc lstsq all (results 0) n path Hn0 b Hb rest Hrest (fs 0) (Hm 0) p0 [] Hgv) as [p [tr [Hs H1]]].
  change (newton_hierarchy ortho calc lstsq (results 0) n) with (Es 0) in H1.
  assert (Hh : hits b (fs 0) p0 = false) by (destruct (hits b (fs 0) p0) eqn:K; [destruct (Hnot 0 p0); apply hits_hit; exact K|reflexivity]).
  rewrite Hh in H1. cbn [negb] in H1.
  destruct (missed_rounds ortho calc lstsq Hmin all Hall results n path Hn0 b Hb Hu rest Hrest fs Hm (b_slope b) p0 Hind Hnot (m + 1) 0 1 p0 p tr Hs) as [k [s [Hk Hit]]].
  assert (Hrun : calls Es 0 (m + (1 + (k - m))) (fresh path (mk_world (vec all p0) (start p0 b :: rest))) = (s, Ok tt)).
  { replace (m + (1 + (k - m))) with (1 + k) by lia. etransitivity; [exact (calls_app Es 1 k 0 _ _ (calls_one Es 0 _ _ H1))|exact Hit]. }
  destruct (calls_prefix Es m _ 0 _ _ Hrun) as [s2 [H2 H3]].
  destruct (calls_prefix Es 1 _ _ _ _ H3) as [s3 [H4 _]].
  exists s2. split; [exact H2|]. cbn [calls] in H4. rewrite Nat.add_0_l in H4. destruct (iterate (Es m) s2) as [s4 [[]|ex]] eqn:Hi; [|discriminate].
  apply (incomplete_calls Es m s2 s4); [|exact Hi]. intros w. eexists. reflexivity.
Qed.

(** *** Examples *)
(** The device of ComposeCurvedProps with a noise that changes its sign at every
    call, and with one that always points away from the target. *)
Definition nz_fs (k : nat) (v : label -> R) (q : label) : R := (cv_sum v q + (-1) ^ k / 50)%R.
Definition nz_results (k : nat) := cv_device (nz_fs k) ["p"; "q"].
Definition nz_env (k : nat) := newton_hierarchy ref_ortho ref_calc ref_lstsq (nz_results k) 1.
Lemma cv_pair_wf : well_formed cv_all cv_pair.
Proof. cv_wf cv_pair. intros [|x [|y cs]] Hl Hz; try discriminate. pose proof (Hz "A" (or_introl eq_refl)) as K. cbn in K. intros r [<-|[]]; lra. Qed.
Lemma cv_pair_follows r : follows cv_pair cv_sum (1/16) r.
Proof.
  intros v h w r' _ _ Hw [Hc Hs] q [<-|[]]. pose proof (Hw "p" (or_introl eq_refl)) as W. pose proof (Hc "p" (or_introl eq_refl)) as K. unfold gradient, dot in K. cbn in K.
  assert (Hw2 : changes cv_pair w (fun _ => w "p")) by (intros q [<-|[]]; unfold gradient, dot; cbn; field).
  pose proof (Hs _ Hw2) as M. unfold dot in M. cbn in M.
  assert (HA : h "A" = w "p").
  { assert ((h "A" - w "p") * (h "A" - w "p") <= 0)%R; [|nra]. replace (h "B") with (2 * w "p" - h "A")%R in M by lra. lra. }
  unfold change, cv_sum, moved. cbn. pose proof (kink (v "A") (h "A")) as Q. rewrite HA in Q |- *. apply Rabs_le. apply abs_range in W.
  assert (Rabs (w "p") <= r')%R by (apply Rabs_le; lra). lra.
Qed.
Example noisy_tuner_completes_ex :
  exists m s v, m <= 7 /\ calls nz_env 0 m (cv_start cv_pair) = (s, Ok tt) /\ is_tuning_complete (nz_env m) (s_at s) = true /\
    w_gates (s_w s) = vec cv_all v /\ (19.78 < v "A" + v "B" + Rabs (v "A") / 8 < 20.22)%R.
Proof.
  destruct (noisy_tuner_completes ref_ortho ref_calc ref_lstsq ref_lstsq_shortest cv_all cv_pair cv_sum nz_fs nz_results (fun _ => 0%R) [] None 1 (1/16)%R (1/100)%R (10.01)%R 20%R 2)
    as [m [s [v [Hm [H1 [H2 [H3 [H4 H5]]]]]]]]; try reflexivity.
  - exact cv_nodup.
  - exact cv_pair_wf.
  - intros p [].
  - lra.
  - intros k v q _. unfold nz_fs. cbn. replace ((cv_sum v q + (-1) ^ k / 50 - cv_sum v q) / 2)%R with ((-1) ^ k * (1 / 100))%R by field.
    rewrite Rabs_mult, pow_1_abs, (Rabs_pos_eq (1 / 100)) by lra. lra.
  - apply cv_pair_follows.
  - lra.
  - lra.
  - intros q _. unfold short_of, cv_sum. cbn. rewrite Rabs_R0. rewrite Rabs_pos_eq by lra. lra.
  - intros q _. cbn. lra.
  - exists m, s, v. split; [lia|]. split; [exact H1|]. split; [rewrite H2; reflexivity|]. split; [exact H3|].
    pose proof (H4 "p" (or_introl eq_refl)) as K. apply Rabs_def2 in K. unfold short_of, cv_sum in K. cbn in K. lra.
Qed.
(** A noise of 0.2, the tolerance 0.1 times the factor 2. *)
Definition nz_away (k : nat) (v : label -> R) (q : label) : R := (cv_sum v q + if Rlt_dec (cv_sum v q) 20 then - 0.2 else 0.2)%R.
Example unreached_tuner_runs_forever_ex :
  noisy cv_pair cv_sum nz_away 0.1%R /\
  forall m, exists s, calls (fun k => newton_hierarchy ref_ortho ref_calc ref_lstsq (cv_device (nz_away k) ["p"; "q"]) 1) 0 m (cv_start cv_pair) = (s, Ok tt) /\
    is_tuning_complete (nz_env m) (s_at s) = false.
Proof.
  split.
  { intros k v q _. unfold nz_away. cbn. apply Rabs_le. destruct (Rlt_dec (cv_sum v q) 20); lra. }
  apply (unreached_tuner_runs_forever ref_ortho ref_calc ref_lstsq ref_lstsq_shortest cv_all cv_pair nz_away (fun k => cv_device (nz_away k) ["p"; "q"]) (fun _ => 0%R) [] None 1); try reflexivity.
  - exact cv_nodup.
  - exact cv_pair_wf.
  - intros p [].
  - intros k v H. pose proof (H "p" (or_introl eq_refl)) as K. apply Rabs_def2 in K. unfold short_of, nz_away in K. cbn in K. destruct (Rlt_dec (cv_sum v "p") 20); lra.
Qed.
Print Assumptions noisy_tuner_completes.
Print Assumptions unreached_tuner_runs_forever.
