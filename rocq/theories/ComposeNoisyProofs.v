From Verif Require Import PyBase TargetModel TunerModel TunerSpec SeriesLemmas TunerProofs SolverModel SensingDotProofs NewtonModel EstimatorModel NewtonSpec NewtonProofs EstimatorProofs GradientProps AutotunerModel AutotunerProofs ComposeModel KernelR ComposeSpec ComposeProofs ComposeHierarchy ComposeCoupledSpec ComposeCoupledProofs ComposeCurvedSpec ComposeCurvedProofs ComposeNoisySpec.
From Coq Require Import Lra ZArith.
Local Open Scope list_scope.

Lemma calls_app {W} (Es : nat -> env W) m j : forall k s s', calls Es k m s = (s', Ok tt) -> calls Es k (m + j) s = calls Es (k + m) j s'.
Proof.
  induction m as [|m IH]; intros k s s' H; cbn in *; [inversion H; rewrite Nat.add_0_r; reflexivity|].
  destruct (iterate (Es k) s) as [s1 [u|e]]; [|discriminate]. rewrite (IH _ _ _ H). f_equal. lia.
Qed.
Lemma calls_one {W} (Es : nat -> env W) k s s' : iterate (Es k) s = (s', Ok tt) -> calls Es k 1 s = (s', Ok tt).
Proof. intros H. cbn. rewrite H. reflexivity. Qed.
Lemma calls_prefix {W} (Es : nat -> env W) m j : forall k s s', calls Es k (m + j) s = (s', Ok tt) ->
  exists s1, calls Es k m s = (s1, Ok tt) /\ calls Es (k + m) j s1 = (s', Ok tt).
Proof.
  induction m as [|m IH]; intros k s s' H; cbn in *; [exists s; rewrite Nat.add_0_r; auto|].
  destruct (iterate (Es k) s) as [s1 [u|e]]; [|discriminate]. destruct (IH _ _ _ H) as [s2 [H1 H2]]. exists s2. split; [exact H1|]. rewrite <- H2. f_equal. lia.
Qed.

(** Calls that compute or set voltages do not look at the device. *)
Section Blind.
Context {S : Type} (O : solver_ops S) (sg : S -> list label) (sn : S -> option (list (option (list label)))).
Variables (results results' : nat -> series -> res (series * series)) (n : nat).
Let E := hierarchy O sg sn results n.
Let E' := hierarchy O sg sn results' n.

Lemma ready_keeps s : s_at (fst (ready_to_tune E' s)) = s_at s.
Proof.
  unfold ready_to_tune, bind, call, get_at, get_w, lift, raise, E', hierarchy. cbn.
  destruct (a_to_set (s_at s)) as [v|]; [destruct (subset (index v) (index (w_gates (s_w s))))|]; reflexivity.
Qed.
Lemma iterate_blind s : a_to_set (s_at s) <> None \/ a_status (s_at s) = true -> iterate E s = iterate E' s.
Proof.
  intros H. unfold iterate, bind. assert (Hr : ready_to_tune E s = ready_to_tune E' s) by reflexivity.
  pose proof (ready_keeps s) as Hw. rewrite Hr. destruct (ready_to_tune E' s) as [s1 [rdy|ex]]; [|reflexivity]. cbn [fst] in Hw. destruct rdy; [|reflexivity]. cbn [negb].
  unfold get_at. change (is_tuning_complete E (s_at s1)) with (is_tuning_complete E' (s_at s1)). destruct (is_tuning_complete E' (s_at s1)); [reflexivity|].
  rewrite Hw. destruct (a_to_set (s_at s)) as [v|]; [reflexivity|]. destruct H as [H| ->]; [congruence|reflexivity].
Qed.
Lemma next_pending s s' : a_to_set (s_at s) = None -> a_status (s_at s) = true -> iterate E' s = (s', Ok tt) -> a_to_set (s_at s') <> None.
Proof.
  intros H1 H2. unfold iterate, bind. pose proof (ready_keeps s) as Hw. destruct (ready_to_tune E' s) as [s1 [rdy|ex]]; [|discriminate]. cbn [fst] in Hw. destruct rdy; [|discriminate]. cbn [negb].
  unfold get_at. destruct (is_tuning_complete E' (s_at s1)); [discriminate|]. rewrite Hw, H1, H2.
  unfold do_next, bind, get_at, get_w, call, put_at, save_current_status. rewrite Hw.
  destruct (e_next E' (a_index (s_at s)) (tuned_parameters E' (s_at s) (s_w s1)) (s_w s1)) as [w' [v|ex]]; [|discriminate]. cbn [s_at a_path].
  destruct (a_path (s_at s)); cbn; intros K; inversion K; cbn; discriminate.
Qed.
End Blind.

(** A call that succeeds finds tuning incomplete. *)
Lemma incomplete_calls {W} (Es : nat -> env W) k s s' : (forall w, exists r, e_read (Es k) w = (w, r)) -> iterate (Es k) s = (s', Ok tt) -> is_tuning_complete (Es k) (s_at s) = false.
Proof.
  intros Hrd. unfold iterate, bind.
  assert (Hw : s_at (fst (ready_to_tune (Es k) s)) = s_at s).
  { unfold ready_to_tune, bind, call, get_at, get_w, lift, raise. destruct (Hrd (s_w s)) as [r ->]. destruct r as [x|x]; [|reflexivity]. cbn.
    destruct (a_to_set (s_at s)) as [v|]; [destruct (subset (index v) (index x))|]; reflexivity. }
  destruct (ready_to_tune (Es k) s) as [s1 [rdy|ex]]; [|discriminate]. cbn [fst] in Hw. destruct rdy; [|discriminate]. cbn [negb].
  unfold get_at. rewrite Hw. destruct (is_tuning_complete (Es k) (s_at s)); [discriminate|reflexivity].
Qed.

Section Noisy.
Variable ortho : list (list num) -> res (list num).
Variable calc : list measurement -> res (list num * list (list num)).
Variable lstsq : list series -> list num -> res (list num).
Hypothesis Hmin : lstsq_shortest lstsq.
Variable all : list label.
Hypothesis Hall : NoDup all.
Variable results : nat -> nat -> series -> res (series * series).
Variables (n : nat) (path : option string).
Hypothesis Hn : 0 <> n.
Let Es := fun k => newton_hierarchy ortho calc lstsq (results k) n.
Let sg := fun s : newton fd => index (nw_pos s).
Let sn := fun s : newton fd => Some (map (fun g => Some (index (fd_pos g))) (nw_ests s)).
Let st (j : nat) (b : bool) (v : label -> R) (parts : list (part (newton fd))) (tr : list event) :=
  mk_sys (mk_at j b None path) (mk_world (vec all v) parts) tr.
Variable b : block.
Hypothesis Hb : well_formed all b.
Hypothesis Hun : unlimited b.
Variable rest : list (part (newton fd)).
Hypothesis Hrest : forall p, In p rest -> coherent sg sn all p.
Variable fs : nat -> (label -> R) -> label -> R.
Hypothesis Hres : forall k v, results k 0 (vec all v) = Ok (vec (b_measured b) (fs k v), tab (b_measured b) (b_var b v)).
Variables (a : label -> label -> R) (p0 : label -> R).
Hypothesis Hind : independent (b_gates b) (map a (b_params b)).
Let ba := with_slopes a b.

(** An evaluation replaces all that was measured before. *)
Lemma eval_again k f0 v v' p tr : standing all b f0 a p0 v p -> exists p' tr', standing all b (fs k) a p0 v' p' /\
  iterate (Es k) (st 0 false v' (p :: rest) tr) = (st (if hits b (fs k) v' then 1 else 0) (negb (hits b (fs k) v')) v' (p' :: rest) tr', Ok tt).
Proof.
  intros [t [ests [-> [Hg Hl]]]]. pose proof Hb as W. destruct W as [W1 [W2 [W3 [W4 [W5 [W6 [W7 [W8 W9]]]]]]]]. pose proof Hg as G'. destruct G' as [G1 [G2 [G3 G4]]].
  set (par := fun q => (fs k v' q / b_factor b q)%R). set (rvar := fun q => ndiv (b_var b v' q) (Fin (b_factor b q * b_factor b q))).
  set (tgt := goal (b_params b) (b_desired b) (b_tol b) (b_factor b)).
  destruct (nw_update_forall ortho calc lstsq all (b_gates b) (b_params b) (b_desired b) (b_tol b) (b_factor b) W2 W3 W6
     (learnt (b_gates b) (b_factor b) (b_eps b) a p0) v' par rvar (vec (b_gates b) v) (vec (b_params b) (fun q => (f0 v q / b_factor b q)%R)) ests) as [ests' [Hu Hl2]].
  { apply index_vec. } { apply index_vec. }
  { revert Hl. apply F2_impl. intros q g _ [pts [cov [req ->]]]. eexists. split.
    + apply (update_done calc all (b_gates b) p0 (b_eps b q) W2 (v', par q, rvar q)).
    + exists pts, cov, req. reflexivity. }
  destruct (eval_curved ortho calc lstsq all (results k) n path Hn b Hb rest Hrest (fs k) (Hres k) v' t
     (mk_newton tgt ests (vec (b_gates b) v) (vec (b_params b) (fun q => (f0 v q / b_factor b q)%R))) (mk_newton tgt ests' (vec (b_gates b) v') (vec (b_params b) par)) tr) as [t' [tr' [H2 Hg']]]; try reflexivity; try assumption.
  - rewrite G2. apply index_vec.
  - rewrite G1, index_vec. apply incl_refl.
  - cbn [nw_pos]. rewrite index_vec. exact W3.
  - exact (learnt_pos _ _ _ _ _ _ _ Hl).
  - eexists. exists tr'. split; [|exact H2]. exists t', ests'. auto.
Qed.

(** The step uses what was measured last, whatever the device says now. *)
Lemma step_again j k v p tr : standing all b (fs j) a p0 v p -> exists h tr', moves ba (short_of b (fs j) v) h /\
  calls Es k 2 (st 0 true v (p :: rest) tr) = (st 0 false (moved b h v) (p :: rest) tr', Ok tt).
Proof.
  intros Hs. destruct (step_known ortho calc lstsq Hmin all Hall (results j) n path Hn b Hb Hun rest Hrest (fs j) a p0 Hind v p tr Hs) as [h [tr' [Hh Hit]]].
  exists h, tr'. split; [exact Hh|]. cbn [iterates] in Hit. cbn [calls]. unfold Es, newton_hierarchy.
  assert (HE : forall i s, a_to_set (s_at s) <> None \/ a_status (s_at s) = true -> iterate (newton_hierarchy ortho calc lstsq (results i) n) s = iterate (newton_hierarchy ortho calc lstsq (results j) n) s) by (intros i s; apply iterate_blind).
  fold (newton_hierarchy ortho calc lstsq (results k) n) (newton_hierarchy ortho calc lstsq (results (S k)) n).
  rewrite HE by (right; reflexivity). fold (st 0 true v (p :: rest) tr) in Hit.
  destruct (iterate (newton_hierarchy ortho calc lstsq (results j) n) (st 0 true v (p :: rest) tr)) as [s1 [[]|ex]] eqn:H1; [|discriminate].
  rewrite HE; [exact Hit|]. left. unfold newton_hierarchy in H1. eapply next_pending; [| |exact H1]; reflexivity.
Qed.
Lemma round_again j k v p tr : standing all b (fs j) a p0 v p -> exists h p' tr', moves ba (short_of b (fs j) v) h /\ standing all b (fs (k + 2)) a p0 (moved b h v) p' /\
  calls Es k 3 (st 0 true v (p :: rest) tr) =
    (st (if hits b (fs (k + 2)) (moved b h v) then 1 else 0) (negb (hits b (fs (k + 2)) (moved b h v))) (moved b h v) (p' :: rest) tr', Ok tt).
Proof.
  intros Hs. destruct (step_again j k v p tr Hs) as [h [tr1 [Hh H1]]]. destruct (eval_again (k + 2) (fs j) v (moved b h v) p tr1 Hs) as [p' [tr2 [Hs' H2]]].
  exists h, p', tr2. split; [exact Hh|]. split; [exact Hs'|]. change 3 with (2 + 1). rewrite (calls_app Es 2 1 _ _ _ H1). apply calls_one. exact H2.
Qed.

(** Targets that are never hit. *)
Lemma missed_rounds : (forall k v, ~ hit b (fs k) v) -> forall N j k v p tr, standing all b (fs j) a p0 v p ->
  exists m s, N <= m /\ calls Es k m (st 0 true v (p :: rest) tr) = (s, Ok tt).
Proof.
  intros Hnot. induction N as [|N IH]; intros j k v p tr Hs; [exists 0; eexists; split; [lia|reflexivity]|].
  destruct (round_again j k v p tr Hs) as [h [p' [tr' [_ [Hs' Hit]]]]].
  assert (Hh : hits b (fs (k + 2)) (moved b h v) = false) by (destruct (hits b (fs (k + 2)) (moved b h v)) eqn:K; [destruct (Hnot (k + 2) (moved b h v)); apply hits_hit, K|reflexivity]).
  rewrite Hh in Hit. cbn [negb] in Hit. destruct (IH (k + 2) (k + 3) (moved b h v) p' tr' Hs') as [m [s [Hm Hit2]]].
  exists (3 + m), s. split; [lia|]. rewrite (calls_app Es 3 m _ _ _ Hit). exact Hit2.
Qed.

(** The device [g] follows the gradients, what is measured is [g] up to [eta]. *)
Variables (g : (label -> R) -> label -> R) (rho eta r0 : R).
Hypothesis Hrho : (0 <= rho < 1)%R.
Hypothesis Hfol : follows ba g rho r0.
Hypothesis Hnoise : noisy b g fs eta.

Lemma measured_near k v q : In q (b_params b) -> (Rabs (short_of b (fs k) v q - short_of b g v q) <= eta)%R.
Proof.
  intros Hq. pose proof (Hnoise k v q Hq) as K. rewrite <- Rabs_Ropp in K. replace (short_of b (fs k) v q - short_of b g v q)%R with (- ((fs k v q - g v q) / b_factor b q))%R; [exact K|].
  unfold short_of. pose proof Hb as W. destruct W as [_ [_ [_ [_ [_ [_ [_ [W8 _]]]]]]]]. destruct (W8 q Hq) as [Hf _]. field. exact Hf.
Qed.
Lemma noise_pos : (0 <= eta)%R.
Proof.
  pose proof Hb as W. destruct W as [_ [_ [_ [_ [_ [W6 _]]]]]]. destruct (cons_of (b_params b) W6) as [q0 [ps' Hps]].
  eapply Rle_trans; [apply Rabs_pos|apply (Hnoise 0 p0 q0)]. rewrite Hps. left; reflexivity.
Qed.
(** Measured errors of at most [e] become at most [rho e + 2 eta]. *)
Lemma noisy_round j k v h e : moves ba (short_of b (fs j) v) h -> (e + eta <= r0)%R -> (forall q, In q (b_params b) -> Rabs (short_of b (fs j) v q) <= e)%R ->
  forall q, In q (b_params b) -> (Rabs (short_of b (fs k) (moved b h v) q) <= rho * e + 2 * eta)%R.
Proof.
  intros Hm He Hsh q Hq.
  assert (Hg : (Rabs (change ba g h v q - short_of b (fs j) v q) <= rho * e)%R).
  { apply (Hfol v h (short_of b (fs j) v) e); [pose proof noise_pos; lra| |exact Hsh|exact Hm|exact Hq].
    intros q' Hq'. change (short_of ba g v q') with (short_of b g v q'). pose proof (measured_near j v q' Hq') as K1. pose proof (Hsh q' Hq') as K2.
    revert K1 K2. generalize (short_of b (fs j) v q') (short_of b g v q'). intros x y. unfold Rabs. destruct (Rcase_abs (x - y)), (Rcase_abs x), (Rcase_abs y); lra. }
  change (change ba g h v q) with (change b g h v q) in Hg.
  pose proof (measured_near k (moved b h v) q Hq) as K1. pose proof (measured_near j v q Hq) as K2.
  rewrite (short_moved all b Hb g v h q Hq) in K1. revert K1 K2 Hg.
  generalize (short_of b (fs k) (moved b h v) q) (short_of b g v q) (change b g h v q) (short_of b (fs j) v q). intros x y z w. unfold Rabs.
  destruct (Rcase_abs (x - (y - z))), (Rcase_abs (w - y)), (Rcase_abs (z - w)), (Rcase_abs x); lra.
Qed.

Lemma noisy_rounds M : forall j k v p tr e, standing all b (fs j) a p0 v p -> hits b (fs j) v = false -> (forall l, In l all -> ~ In l (b_gates b) -> v l = p0 l) ->
  (e + eta <= r0 /\ 2 * eta / (1 - rho) + eta <= r0)%R ->
  (forall q, In q (b_params b) -> Rabs (short_of b (fs j) v q) <= e)%R -> (forall q, In q (b_params b) -> rho ^ M * e + 2 * eta / (1 - rho) * (1 - rho ^ M) < b_tol b q)%R ->
  exists m s v' p' tr' i, m <= 3 * M /\ calls Es k m (st 0 true v (p :: rest) tr) = (s, Ok tt) /\ s = st 1 false v' (p' :: rest) tr' /\ hit b (fs i) v' /\
    (forall l, In l all -> ~ In l (b_gates b) -> v' l = p0 l).
Proof.
  induction M as [|M IH]; intros j k v p tr e Hs Hh Ho Hr Hsh HM.
  - exfalso. rewrite (proj2 (hits_hit b (fs j) v)) in Hh; [discriminate|]. intros q Hq. pose proof (HM q Hq) as K. cbn [pow] in K. pose proof (Hsh q Hq). lra.
  - destruct (round_again j k v p tr Hs) as [h [p' [tr' [Hm [Hs' Hit]]]]]. set (v' := moved b h v) in *.
    assert (Ho' : forall l, In l all -> ~ In l (b_gates b) -> v' l = p0 l) by (apply outside_moved; exact Ho).
    destruct (hits b (fs (k + 2)) v') eqn:Hh'; cbn [negb] in Hit.
    + exists 3. eexists. exists v', p', tr', (k + 2). split; [lia|]. split; [exact Hit|]. split; [reflexivity|]. split; [apply hits_hit, Hh'|exact Ho'].
    + assert (Hd : (0 < 1 - rho)%R) by lra. set (c := (2 * eta / (1 - rho))%R) in *.
      assert (Hc : (2 * eta = c * (1 - rho))%R) by (unfold c; field; lra).
      destruct (IH (k + 2) (k + 3) v' p' tr' (rho * e + 2 * eta)%R Hs' Hh' Ho') as [m [s [v2 [p2 [tr2 [i [Hmm [Hit2 Hfin]]]]]]]].
      { split; [|apply Hr]. rewrite Hc. destruct Hr as [Hr1 Hr2]. nra. }
      { intros q Hq. apply (noisy_round j (k + 2) v h e Hm (proj1 Hr) Hsh q Hq). }
      { intros q Hq. pose proof (HM q Hq) as K. cbn [pow] in K. rewrite Hc. replace (rho ^ M * (rho * e + c * (1 - rho)) + c * (1 - rho ^ M))%R with (rho * rho ^ M * e + c * (1 - rho * rho ^ M))%R by ring. exact K. }
      exists (3 + m), s, v2, p2, tr2, i. split; [lia|]. split; [rewrite (calls_app Es 3 m _ _ _ Hit); exact Hit2|exact Hfin].
Qed.
End Noisy.
