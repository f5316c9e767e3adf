(** Hierarchies in which tuners measure their gradients. *)
From Verif Require Import PyBase TargetModel TunerModel TunerSpec SeriesLemmas TunerProofs SolverModel SensingDotProofs NewtonModel EstimatorModel NewtonSpec NewtonProofs EstimatorProofs GradientProps AutotunerModel AutotunerProofs ComposeModel KernelR ComposeSpec ComposeProofs ComposeHierarchy ComposeCoupledSpec ComposeCoupledProofs ComposeCurvedSpec ComposeCurvedProofs ComposeTowerSpec ComposeTowerProofs ComposePaceSpec ComposeStudySpec.
From Coq Require Import Lra ZArith.
Local Open Scope list_scope.

(** The tuner once its gradients are known. *)
Definition taught (a : label -> label -> R) (b : block) : block :=
  mk_block (b_gates b) (b_tunable b) (b_params b) (b_measured b) (b_desired b) (b_tol b) (b_factor b) (b_const b) a (b_var b)
    (b_eps b) (b_known b) true (b_size b) (b_max b).
Lemma taught_wf all a b : well_formed all b -> independent (b_gates b) (map a (b_params b)) -> well_formed all (taught a b).
Proof. intros [W1 [W2 [W3 [W4 [W5 [W6 [W7 [W8 _]]]]]]]] Hi. unfold well_formed, taught. cbn. auto 10. Qed.
Lemma taught_self b : b_given b = true -> taught (b_slope b) b = b.
Proof. destruct b. cbn. intros ->. reflexivity. Qed.

Lemma require_small ortho (Hortho : ortho_exact ortho) (Hunit : ortho_unit ortho) (gs : list label) p0 eps tj m0 ms req : NoDup gs -> gs <> [] -> S (length ms) <= length gs ->
  exists u, nonzero gs u /\ orthogonal gs u (steps_from m0 ms) /\ (forall l, In l gs -> Rabs (u l) <= 1)%R /\
    let pt := vec gs (fun l => p0 l + u l * eps l)%R in
    fd_require ortho gs tj (fdst gs p0 eps (m0 :: ms) None None req) = (fdst gs p0 eps (m0 :: ms) None None (req ++ [pt]), Ok (Some pt)).
Proof.
  intros Hgs Hgs0 Hl. set (us := match ms with [] => [fun _ => 0%R] | _ => steps_from m0 ms end).
  assert (Hus : us <> []) by (unfold us, steps_from; destruct ms; discriminate).
  assert (Hsome : exists u, nonzero gs u /\ orthogonal gs u us).
  { destruct ms as [|m1 ms]; unfold us.
    - exists (fun _ => 1%R). split.
      + destruct gs as [|g0 gs']; [contradiction|]. exists g0. split; [left; reflexivity|exact R1_neq_R0].
      + intros v [<-|[]]. rewrite dot_comm. apply dot_zero_l. reflexivity.
    - destruct (orthogonal_exists String.string_dec gs (steps_from m0 (m1 :: ms)) Hgs) as [u [H1 H2]].
      + unfold steps_from. rewrite map_length. exact Hl.
      + exists u. split; [exact H1|exact H2]. }
  destruct (proj1 (Hortho gs us Hgs Hgs0 Hus) Hsome) as [u [Hu [Hu1 Hu2]]]. exists u. split; [exact Hu1|]. split.
  { unfold us in Hu2. destruct ms; [intros v []|exact Hu2]. }
  split; [exact (Hunit gs us u Hu)|].
  cbn zeta.
  destruct (fd_requests ortho gs tj gs p0 eps None req false (map (fun m => (r_at m, Fin (r_val m), snd m)) (m0 :: ms)) Hgs0 (incl_refl _) Hgs) as [_ [_ [H _]]].
  rewrite <- taken_points in H. change (mk_fd (vec gs p0) (vec gs eps) None None (taken gs (m0 :: ms)) req false) with (fdst gs p0 eps (m0 :: ms) None None req) in H.
  specialize (H u ltac:(discriminate) ltac:(discriminate)). rewrite map_length in H. specialize (H (fun _ => Hl)).
  assert (Ho : ortho match map (fun m : reading => (r_at m, Fin (r_val m), snd m)) (m0 :: ms) with
               | [] => [] | [_] => [array gs (fun _ => 0%R)]
               | m1 :: (_ :: _) as ms' => map (fun m => array gs (fun l => (place m l - place m1 l)%R)) ms' end = Ok (array gs u)).
  { rewrite <- Hu. f_equal. unfold us, steps_from. destruct ms as [|m1 ms]; [reflexivity|]. cbn [map]. f_equal. rewrite !map_map. reflexivity. }
  specialize (H Ho). clear Ho.
  unfold fd_require in *. change (unknown (fd_pos (fdst gs p0 eps (m0 :: ms) None None req))) with (unknown (vec gs p0)) in *. rewrite unknown_vec in * by exact Hgs0.
  change (fd_est (fdst gs p0 eps (m0 :: ms) None None req)) with (@None series) in *. cbv iota in *.
  destruct (fd_point ortho gs (fdst gs p0 eps (m0 :: ms) None None req)) as [pt|e]; cbn [snd] in H; [|discriminate]. inversion H; subst. reflexivity.
Qed.

Section Study.
Variable ortho : list (list num) -> res (list num).
Variable calc : list measurement -> res (list num * list (list num)).
Variable lstsq : list series -> list num -> res (list num).
Hypothesis Hmin : lstsq_shortest lstsq.
Hypothesis Hortho : ortho_exact ortho.
Hypothesis Hunit : ortho_unit ortho.
Hypothesis Hcalc : calc_exact calc.
Variable all : list label.
Hypothesis Hall : NoDup all.
Variable results : nat -> series -> res (series * series).
Variables (n : nat) (path : option string).
Let F := fd_ops ortho calc.
Let O := nw_ops F lstsq.
Let E := newton_hierarchy ortho calc lstsq results n.
Let sg := fun s : newton fd => index (nw_pos s).
Let sn := fun s : newton fd => Some (map (fun g => Some (index (fd_pos g))) (nw_ests s)).
Let st (j : nat) (b : bool) (v : label -> R) (parts : list (part (newton fd))) (tr : list event) :=
  mk_sys (mk_at j b None path) (mk_world (vec all v) parts) tr.
Definition settled_at (v : label -> R) (s : storey) (p : part (newton fd)) : Prop := stands all s v p /\ hit (fst s) (snd s) v.

Section Level.
Variables (pre : list storey) (b : block) (f : (label -> R) -> label -> R) (P : list (part (newton fd))).
Hypothesis Hpre : Forall (fun s => well_formed all (fst s) /\ b_given (fst s) = true) pre.
Hypothesis Hb : well_formed all b.
Hypothesis Hst : stacked all (pre ++ [(b, f)]).
Hypothesis Hn : S (length pre) <= n.
Hypothesis Hmeas : forall j b' f', nth_error (pre ++ [(b, f)]) j = Some (b', f') -> forall v, results j (vec all v) = Ok (vec (b_measured b') (f' v), tab (b_measured b') (b_var b' v)).
Hypothesis HP : forall x, In x P -> coherent sg sn all x.
Let i := length pre.
Let gs := b_gates b.
Let ps := b_params b.
Let tgt := goal ps (b_desired b) (b_tol b) (b_factor b).
Let par (v : label -> R) (q : label) : R := (f v q / b_factor b q)%R.
Let rvar (v : label -> R) (q : label) : num := ndiv (b_var b v q) (Fin (b_factor b q * b_factor b q)).
Let good (t : tuner) (v : label -> R) : Prop := t_last t = Some (vec all v) /\ t_params t = vec ps (par v) /\ t_failed t = false /\ t_queue t = 0%Z.
Let own (t : tuner) (s : newton fd) : part (newton fd) := mk_part t s (mk_limits (b_size b) (b_max b)) (b_tunable b).
Let solver (ests : list fd) (v : label -> R) : newton fd := mk_newton tgt ests (vec gs v) (vec ps (par v)).

(** The hierarchy up to this tuner with any gradients. *)
Lemma level_wf a : independent (b_gates b) (map a (b_params b)) -> Forall (fun s => well_formed all (fst s) /\ b_given (fst s) = true) (pre ++ [(taught a b, f)]).
Proof. intros Hi. apply Forall_app. split; [exact Hpre|]. constructor; [|constructor]. split; [apply taught_wf; assumption|reflexivity]. Qed.
Lemma level_stacked a : stacked all (pre ++ [(taught a b, f)]).
Proof.
  clear -Hst. unfold stacked in *. revert Hst. generalize pre. intros l. induction l as [|s l IH]; cbn [app]; intros H.
  - constructor; constructor.
  - inversion H as [|x y H1 H2]; subst. constructor; [|exact (IH H2)]. apply Forall_app in H1. destruct H1 as [H1 H3]. apply Forall_app. split; [exact H1|].
    inversion H3 as [|x y H4 _]; subst. constructor; [exact H4|constructor].
Qed.
Lemma level_measured a j b' f' : nth_error (pre ++ [(taught a b, f)]) j = Some (b', f') -> forall v, results j (vec all v) = Ok (vec (b_measured b') (f' v), tab (b_measured b') (b_var b' v)).
Proof.
  intros Hj v. destruct (Nat.lt_ge_cases j (length pre)) as [Hl|Hl].
  - rewrite nth_error_app1 in Hj by exact Hl. apply Hmeas. rewrite nth_error_app1 by exact Hl. exact Hj.
  - rewrite nth_error_app2 in Hj by exact Hl. destruct (j - length pre) as [|k] eqn:Hk; [|destruct k; discriminate]. injection Hj as <- <-.
    apply (Hmeas j b f). rewrite nth_error_app2, Hk by exact Hl. reflexivity.
Qed.
Lemma level_n a : length (pre ++ [(taught a b, f)]) <= n.
Proof. rewrite app_length. cbn. lia. Qed.
Lemma level_coherent v L : Forall2 (settled_at v) pre L -> forall p, In p L -> coherent sg sn all p.
Proof.
  intros HL p Hp. destruct (F2_in_r _ _ _ HL p Hp) as [s [Hs [K _]]]. apply (stands_coherent all s v p); [|exact K]. rewrite Forall_forall in Hpre. apply Hpre, Hs.
Qed.
Lemma level_results v : results i (vec all v) = Ok (vec (b_measured b) (f v), tab (b_measured b) (b_var b v)).
Proof. apply (Hmeas i b f). unfold i. rewrite nth_error_app2, Nat.sub_diag by lia. reflexivity. Qed.

Variable p0 : label -> R.
Let rd (q : label) (v : label -> R) : reading := (v, par v q, rvar v q).
Let apart (hist : list (label -> R)) : Prop := independent (b_gates b) (map (fun v l => v l - p0 l)%R hist).
Let crossed (hist : list (label -> R)) : Prop :=
  ForallOrdPairs (fun x y => dot (b_gates b) (fun l => (x l - p0 l) / b_eps b (hd ""%string (b_params b)) l)%R (fun l => y l - p0 l)%R = 0%R) hist.

Lemma study_round hist v t ests L tr : S (length hist) <= length (b_gates b) -> good t v -> beside all b p0 v -> apart hist -> crossed hist -> Forall2 (collecting b f p0 hist) ps ests ->
  unlimited b -> Forall2 (settled_at v) pre L ->
  exists v' t' ests' L' tr', beside all b p0 v' /\ apart (v' :: hist) /\ crossed (v' :: hist) /\ good t' v' /\ Forall2 (settled_at v') pre L' /\
    iterates E (i + 3) (st i true v (L ++ own t (solver ests v) :: P) tr) = (st (if hits b f v' then S i else i) (negb (hits b f v')) v' (L' ++ own t' (solver ests' v') :: P) tr', Ok tt) /\
    (S (length hist) < length (b_gates b) -> Forall2 (collecting b f p0 (v' :: hist)) ps ests') /\ (S (length hist) = length (b_gates b) -> Forall2 (collected b f p0 (v' :: hist)) ps ests').
Proof.
  intros Hlen Hg [Hnv Hcl] Hap Hcr Hl Hun HL. pose proof Hb as W. destruct W as [W1 [W2 [W3 [W4 [W5 [W6 [W7 [W8 W9]]]]]]]]. pose proof Hg as G'. destruct G' as [G1 [G2 [G3 G4]]].
  destruct (cons_of ps W6) as [q0 [ps' Hpseq]].
  destruct ests as [|g0 ests0]; [rewrite Hpseq in Hl; inversion Hl|].
  assert (Hl0 : collecting b f p0 hist q0 g0 /\ Forall2 (collecting b f p0 hist) ps' ests0) by (rewrite Hpseq in Hl; inversion Hl; auto). destruct Hl0 as [[req0 Hg0] Hl0].
  assert (Hq0 : In q0 ps) by (rewrite Hpseq; left; reflexivity).
  destruct (require_small ortho Hortho Hunit (b_gates b) p0 (b_eps b q0) None (rd q0 p0) (map (rd q0) (rev hist)) req0 W1 W2) as [u [Hu1 [Hu2 [Hu4 Hu3]]]].
  { rewrite map_length, rev_length. exact Hlen. }
  cbn zeta in Hu3. set (h := (fun l => p0 l + u l * b_eps b q0 l)%R) in *.
  set (g0' := fdst (b_gates b) p0 (b_eps b q0) (rd q0 p0 :: map (rd q0) (rev hist)) None None (req0 ++ [vec (b_gates b) h])) in *.
  assert (Hl' : Forall2 (collecting b f p0 hist) ps (g0' :: ests0)).
  { rewrite Hpseq. constructor; [|exact Hl0]. exists (req0 ++ [vec (b_gates b) h]). reflexivity. }
  assert (Hs : forall tuned, (forall q, In q ps -> ~ In q tuned) -> so_suggest O tuned (solver (g0 :: ests0) v) = (solver (g0' :: ests0) v, Ok (vec (b_gates b) h))).
  { intros tuned Htun. apply (suggest_ask ortho calc lstsq (b_gates b) (b_params b) (b_desired b) (b_tol b) (b_factor b) W2 tuned q0 ps'); [exact Hpseq|symmetry; exact (F2_length _ _ _ Hl0)|apply index_vec|exact Htun|].
    rewrite Hg0. exact Hu3. }
  set (v' := (fun l => v l + step_to (b_gates b) h v l)%R).
  assert (Hhd : hd ""%string (b_params b) = q0) by (fold ps; rewrite Hpseq; reflexivity).
  assert (Hon : forall l, In l (b_gates b) -> v' l = h l) by (intros l Hin; unfold v', step_to; rewrite (proj2 (SeriesLemmas.mem_In l (b_gates b)) Hin); lra).
  assert (Hout : forall l, In l all -> ~ In l (b_gates b) -> v' l = v l) by (intros l H1 H2; unfold v', step_to; rewrite (proj2 (SeriesLemmas.mem_false l (b_gates b)) H2); lra).
  assert (Hnv' : beside all b p0 v').
  { split; [intros l H1 H2; rewrite (Hout l H1 H2); apply Hnv; assumption|]. intros l Hin. rewrite (Hon l Hin), Hhd. unfold h. pose proof (proj2 (proj2 (W8 q0 Hq0)) l Hin) as He.
    replace (p0 l + u l * b_eps b q0 l - p0 l)%R with (u l * b_eps b q0 l)%R by ring. rewrite Rabs_mult, (Rabs_pos_eq (b_eps b q0 l)) by lra. pose proof (Hu4 l Hin). nra. }
  assert (Hap' : apart (v' :: hist)).
  { unfold apart. cbn [map]. apply (independent_cons (b_gates b) _ _ u Hap).
    - intros e He. apply in_map_iff in He. destruct He as [x [<- Hx]]. apply Hu2. unfold steps_from. apply in_map_iff. exists (rd q0 x). split; [reflexivity|].
      apply in_map. apply -> in_rev. exact Hx.
    - assert (Hp : (0 < dot (b_gates b) u (fun l => v' l - p0 l))%R); [|lra].
      apply sum_pos.
      + intros l Hin. rewrite (Hon l Hin). unfold h. pose proof (proj2 (proj2 (W8 q0 Hq0)) l Hin). replace (u l * (p0 l + u l * b_eps b q0 l - p0 l))%R with (u l * u l * b_eps b q0 l)%R by ring.
        apply Rmult_le_pos; [apply Rle_0_sqr|lra].
      + destruct Hu1 as [l [Hin Hne]]. exists l. split; [exact Hin|]. rewrite (Hon l Hin). unfold h. pose proof (proj2 (proj2 (W8 q0 Hq0)) l Hin).
        replace (u l * (p0 l + u l * b_eps b q0 l - p0 l))%R with (u l * u l * b_eps b q0 l)%R by ring. apply Rmult_lt_0_compat; [nra|lra]. }
  assert (Hcr' : crossed (v' :: hist)).
  { constructor; [|exact Hcr]. apply Forall_forall. intros y Hy. rewrite Hhd.
    rewrite (dot_ext (b_gates b) _ u _ (fun l => y l - p0 l)%R); [|intros l Hin; rewrite (Hon l Hin); unfold h; field; pose proof (proj2 (proj2 (W8 q0 Hq0)) l Hin); lra|reflexivity].
    apply Hu2. unfold steps_from. apply in_map_iff. exists (rd q0 y). split; [reflexivity|]. apply in_map. apply -> in_rev. exact Hy. }
  set (P' := fun q g => (S (length hist) < length (b_gates b) -> collecting b f p0 (v' :: hist) q g) /\ (S (length hist) = length (b_gates b) -> collected b f p0 (v' :: hist) q g)).
  set (low := fun x L0 => Forall2 (settled_at x) pre L0).
  assert (Hni : i <> n) by (unfold i; lia).
  destruct (next_set_any ortho calc lstsq all (b_gates b) (b_params b) (b_tunable b) Hall W3 W4 results i (mk_limits (b_size b) (b_max b)) P path HP n Hni low)
    with (L := L) (v := v) (t := t) (t' := t) (s := solver (g0 :: ests0) v) (s' := solver (g0' :: ests0) v) (v' := v') (tr := tr) as [tr1 Hit1].
  { intros x L0 K. symmetry. exact (F2_length _ _ _ K). }
  { exact level_coherent. }
  { intros x y L0 K. destruct (F2_in_r _ _ _ K y (or_introl eq_refl)) as [s [_ [K1 _]]]. exact (stands_last all s x y K1). }
  { intros x L0 K y q Hy Hq. destruct (F2_in_r _ _ _ K y Hy) as [s [Hs0 [K1 _]]]. rewrite (stands_target all s x y K1). unfold b_goal. rewrite relevant_goal.
    pose proof (pairs_app _ _ _ Hst s (b, f) Hs0 (or_introl eq_refl)) as [_ [K2 _]]. apply K2. exact Hq. }
  { exact HL. } { exact G1. } { exact G1. }
  { cbn [solver nw_pos]. rewrite index_vec. exact W3. } { exact (collecting_pos _ _ _ _ _ Hl). } { cbn [solver nw_pos]. rewrite index_vec. exact W3. } { exact (collecting_pos _ _ _ _ _ Hl'). }
  { intros tuned Htun. eexists. rewrite (next_unlimited O (mk_limits (b_size b) (b_max b)) tuned _ (solver (g0' :: ests0) v) all v (b_gates b) h); try assumption; try reflexivity.
    apply Hs, Htun. }
  set (pw := own t (solver (g0' :: ests0) v)).
  assert (Hpw : coherent sg sn all pw).
  { unfold coherent, pw, own, sg, sn. cbn [p_tuner p_solver p_gates nw_pos nw_ests solver]. rewrite G1, !index_vec. split; [apply incl_refl|]. split; [exact W3|].
    intros e He. apply in_map_iff in He. destruct He as [g [<- Hg1]]. pose proof (collecting_pos _ _ _ _ _ Hl') as Hp. rewrite Forall_forall in Hp. exists (b_gates b). rewrite (Hp g Hg1). auto. }
  destruct (climb_tower ortho calc lstsq all results n path (pre ++ [(taught (b_slope b) b, f)]) (level_wf _ W9) (level_stacked _) (level_n _) (level_measured _) v v' (pw :: P)) with (ss2 := pre) (ss1 := @nil storey) (more := [(taught (b_slope b) b, f)]) (L1 := @nil (part (newton fd))) (L2 := L) (tr := tr1) as [L' [tr2 [HL' Hit2]]].
  { intros x [<-|Hx]; [exact Hpw|apply HP, Hx]. }
  { reflexivity. } { constructor. } { revert HL. apply F2_impl. intros s p _ [K _]. exact K. }
  { intros s Hs0. apply (lower_hit all (pre ++ [(taught (b_slope b) b, f)]) (level_stacked _) pre (taught (b_slope b) b) f [] v v' eq_refl Hout s Hs0).
    clear -HL Hs0. induction HL as [|x y l l' [_ Hxy] HL IH]; [destruct Hs0|]. destruct Hs0 as [<-|Hs0]; [exact Hxy|exact (IH Hs0)]. }
  destruct (nw_update_forall ortho calc lstsq all (b_gates b) (b_params b) (b_desired b) (b_tol b) (b_factor b) W2 W3 W6 P' v' (par v') (rvar v') (vec gs v) (vec ps (par v)) (g0' :: ests0)) as [ests' [Hu Hl2]].
  { apply index_vec. } { apply index_vec. }
  { revert Hl'. apply F2_impl. intros q g Hq [req ->]. destruct (Nat.eq_dec (S (length hist)) (length (b_gates b))) as [Heq|Hne].
    - destruct (learn_secant calc all 1 ltac:(lia) b Hb f Hcalc p0 q hist v' req Hq Heq Hap') as [g' [K1 K2]]. exists g'. split; [exact K1|]. split; [lia|intros _; exact K2].
    - eexists. split.
      + apply (update_more calc all (b_gates b) p0 (b_eps b q) W2 W3 (rd q v')). rewrite map_length. cbn. rewrite rev_length. lia.
      + split; [|lia]. intros _. exists req. f_equal. cbn [rev map]. rewrite map_app. reflexivity. }
  destruct (eval_storey ortho calc lstsq all results n path b f i L' P Hb Hni level_results (eq_sym (F2_length _ _ _ HL')) (level_coherent v' L' HL') HP v' t (solver (g0' :: ests0) v) (solver ests' v') tr2) as [t' [tr3 [H2 Hg']]]; try reflexivity; try assumption.
  { rewrite G2. apply index_vec. } { rewrite G1, index_vec. apply incl_refl. } { cbn [solver nw_pos]. rewrite index_vec. exact W3. } { exact (collecting_pos _ _ _ _ _ Hl'). }
  exists v', t', ests', L', tr3. split; [exact Hnv'|]. split; [exact Hap'|]. split; [exact Hcr'|]. split; [exact Hg'|]. split; [exact HL'|]. split.
  - replace (i + 3) with (2 + (i + 1)) by lia. etransitivity; [exact (iterates_app E 2 (i + 1) _ _ Hit1)|]. etransitivity; [exact (iterates_app E i 1 _ _ Hit2)|]. apply iterates_one. exact H2.
  - split; intros Hc'; revert Hl2; apply F2_impl; intros q g _ [K1 K2]; auto.
Qed.

Hypothesis Hfar : forall x, beside all b p0 x -> ~ hit b f x.
Lemma far_false x : beside all b p0 x -> hits b f x = false.
Proof. intros H. destruct (hits b f x) eqn:K; [|reflexivity]. exfalso. exact (Hfar x H (proj1 (hits_hit b f x) K)). Qed.

Lemma study_phase k : forall hist v t ests L tr, length hist + k = length (b_gates b) -> k <> 0 -> good t v -> beside all b p0 v -> (forall x, In x hist -> beside all b p0 x) -> apart hist -> crossed hist ->
  Forall2 (collecting b f p0 hist) ps ests -> unlimited b -> Forall2 (settled_at v) pre L ->
  exists a v' L' p' tr', secants all b f p0 a /\ beside all b p0 v' /\ Forall2 (settled_at v') pre L' /\ stands all (taught a b, f) v' p' /\
    iterates E (k * (i + 3)) (st i true v (L ++ own t (solver ests v) :: P) tr) = (st i true v' (L' ++ p' :: P) tr', Ok tt).
Proof.
  induction k as [|k IH]; intros hist v t ests L tr Hlen Hk Hg Hnv Hnh Hap Hcr Hl Hun HL; [contradiction|].
  destruct (study_round hist v t ests L tr ltac:(lia) Hg Hnv Hap Hcr Hl Hun HL) as [v' [t' [ests' [L' [tr' [A [B [B2 [C [HL' [D [E1 E2]]]]]]]]]]]].
  rewrite (far_false v' A) in D. cbn [negb] in D.
  assert (Hnh' : forall x, In x (v' :: hist) -> beside all b p0 x) by (intros x [<-|Hx]; [exact A|apply Hnh, Hx]).
  destruct k as [|k].
  - assert (Hlen' : S (length hist) = length (b_gates b)) by lia.
    assert (Hnd : NoDup ps) by (apply Hb). destruct (choose_slopes b f p0 (v' :: hist) ps ests' Hnd (E2 Hlen')) as [a [Ha1 Ha2]].
    exists a, v', L', (own t' (solver ests' v')), tr'. split.
    { exists (v' :: hist). split; [exact Hlen'|]. split; [exact B|]. split; [exact B2|]. split; [intros x Hx; apply (Hnh' x Hx)|]. intros x q Hx Hq. apply (Ha1 q Hq x Hx). }
    split; [exact A|]. split; [exact HL'|]. split; [|rewrite Nat.mul_1_l; exact D].
    exists p0, t', ests'. split; [reflexivity|]. split; [exact C|]. exact Ha2.
  - destruct (IH (v' :: hist) v' t' ests' L' tr') as [a [v2 [L2 [p2 [tr2 [K1 [K2 [K3 [K4 K5]]]]]]]]]; try assumption; [cbn; lia|lia|apply E1; lia|].
    exists a, v2, L2, p2, tr2. split; [exact K1|]. split; [exact K2|]. split; [exact K3|]. split; [exact K4|].
    change (S (S k) * (i + 3)) with ((i + 3) + S k * (i + 3)). etransitivity; [exact (iterates_app E (i + 3) _ _ _ D)|exact K5].
Qed.

(** From the first evaluation to known gradients. *)
Lemma study_level L tr : b_given b = false -> unlimited b -> Forall2 (settled_at p0) pre L ->
  exists a v' L' p' tr', secants all b f p0 a /\ beside all b p0 v' /\ Forall2 (settled_at v') pre L' /\ stands all (taught a b, f) v' p' /\
    iterates E (1 + length (b_gates b) * (i + 3)) (st i false p0 (L ++ start p0 b :: P) tr) = (st i true v' (L' ++ p' :: P) tr', Ok tt).
Proof.
  intros Hgv Hun HL. pose proof Hb as W. destruct W as [W1 [W2 [W3 [W4 [W5 [W6 [W7 [W8 W9]]]]]]]]. unfold start. rewrite Hgv.
  set (ests := map _ (b_params b)).
  destruct (nw_update_forall ortho calc lstsq all (b_gates b) (b_params b) (b_desired b) (b_tol b) (b_factor b) W2 W3 W6
     (collecting b f p0 []) p0 (par p0) (rvar p0) (vec gs p0) (tab ps (fun _ => NaN)) ests) as [ests' [Hu Hl]].
  { apply index_vec. } { apply index_tab. }
  { unfold ests. generalize (b_params b). intros l. induction l as [|q l IH]; constructor; [|exact IH].
    eexists. split; [apply (update_first calc all (b_gates b) p0 (b_eps b q) W1 W2 W3 (rd q p0) (b_known b q)); reflexivity|]. exists []. reflexivity. }
  assert (Hni : i <> n) by (unfold i; lia).
  assert (Hn0 : beside all b p0 p0).
  { split; [reflexivity|]. intros l Hin. rewrite Rminus_diag_eq, Rabs_R0 by reflexivity. destruct (cons_of ps W6) as [q0 [ps' Hpseq]].
    replace (hd ""%string (b_params b)) with q0 by (fold ps; rewrite Hpseq; reflexivity). apply Rlt_le, (proj2 (proj2 (W8 q0 ltac:(fold ps; rewrite Hpseq; left; reflexivity)))), Hin. }
  destruct (eval_storey ortho calc lstsq all results n path b f i L P Hb Hni level_results (eq_sym (F2_length _ _ _ HL)) (level_coherent p0 L HL) HP p0 (fresh_tuner (relevant (b_goal b))) (mk_newton tgt ests (vec gs p0) (tab ps (fun _ => NaN))) (solver ests' p0) tr) as [t' [tr' [H2 Hg']]]; try reflexivity.
  - unfold b_goal. rewrite relevant_goal. cbn. unfold index. rewrite map_map. apply map_id.
  - cbn [nw_pos]. rewrite index_vec. exact W3.
  - unfold ests. cbn [nw_ests]. apply Forall_forall. intros g Hin. apply in_map_iff in Hin. destruct Hin as [q [<- _]]. unfold new_fd.
    destruct (b_known b q); cbn; first [apply index_vec|apply index_tab].
  - exact Hu.
  - rewrite (far_false p0 Hn0) in H2. cbn [negb] in H2.
    destruct (study_phase (length (b_gates b)) [] p0 t' ests' L tr') as [a [v2 [L2 [p2 [tr2 [K1 [K2 [K3 [K4 K5]]]]]]]]]; try assumption.
    + reflexivity.
    + intros K. apply length_zero_iff_nil in K. contradiction.
    + intros x [].
    + apply independent_nil.
    + constructor.
    + exists a, v2, L2, p2, tr2. split; [exact K1|]. split; [exact K2|]. split; [exact K3|]. split; [exact K4|].
      etransitivity; [exact (iterates_app E 1 _ _ _ (iterates_one E _ _ H2))|exact K5].
Qed.
End Level.

Section Done.
Variables (pre : list storey) (b : block) (f : (label -> R) -> label -> R) (P : list (part (newton fd))).
Hypothesis Hpre : Forall (fun s => well_formed all (fst s) /\ b_given (fst s) = true) pre.
Hypothesis Hb : well_formed all b.
Hypothesis Hst : stacked all (pre ++ [(b, f)]).
Hypothesis Hn : S (length pre) <= n.
Hypothesis Hmeas : forall j b' f', nth_error (pre ++ [(b, f)]) j = Some (b', f') -> forall v, results j (vec all v) = Ok (vec (b_measured b') (f' v), tab (b_measured b') (b_var b' v)).
Hypothesis HP : forall x, In x P -> coherent sg sn all x.
Let i := length pre.

Lemma given_level rho r M v L tr : b_given b = true -> follows b f rho r -> enough b rho r M -> (forall q, In q (b_params b) -> Rabs (short_of b f v q) <= r)%R -> Forall2 (settled_at v) pre L ->
  exists m v' L' p' tr', m <= 1 + M * (i + 3) /\ iterates E m (st i false v (L ++ start v b :: P) tr) = (st (S i) false v' (L' ++ p' :: P) tr', Ok tt) /\
    Forall2 (settled_at v') pre L' /\ settled_at v' (b, f) p' /\ (forall l, In l all -> ~ In l (b_gates b) -> v' l = v l).
Proof.
  intros Hgv Hfol Hen Hsh HL.
  assert (Hwf : Forall (fun s => well_formed all (fst s) /\ b_given (fst s) = true) (pre ++ [(b, f)])) by (apply Forall_app; split; [exact Hpre|constructor; [split; assumption|constructor]]).
  assert (Hn' : length (pre ++ [(b, f)]) <= n) by (rewrite app_length; cbn; lia).
  assert (Hni : i <> n) by (unfold i; lia).
  destruct (eval_start ortho calc lstsq all results n path b f i L P Hb Hni (level_results pre b f Hn Hmeas) (eq_sym (F2_length _ _ _ HL)) (level_coherent pre Hpre v L HL) HP v tr Hgv) as [p [tr1 [Hp Hit1]]].
  destruct (hits b f v) eqn:Hh; cbn [negb] in Hit1.
  - exists 1, v, L, p, tr1. split; [lia|]. split; [exact (iterates_one E _ _ Hit1)|]. split; [exact HL|]. split; [split; [exact Hp|apply hits_hit, Hh]|reflexivity].
  - assert (Hgo : exists m v' L' p' tr', m <= M * (i + 3) /\ iterates E m (st i true v (L ++ p :: P) tr1) = (st (S i) false v' (L' ++ p' :: P) tr', Ok tt) /\
      Forall2 (settled_at v') pre L' /\ settled_at v' (b, f) p' /\ (forall l, In l all -> ~ In l (b_gates b) -> v' l = v l)).
    { destruct Hen as [[Wu [Hrho Htol]]|[[_ [Wn [m [Wm Wp]]]] [Hrho [m' [G [a [c [Hsz [[HG HG'] [Hac [Ha Htol]]]]]]]]]]].
      - exact (rounds_tower ortho calc lstsq Hmin all Hall results n path _ Hwf Hst Hn' Hmeas pre b f [] P rho r Wu eq_refl HP Hrho Hfol M L p v tr1 r HL Hp Hh ltac:(lra) Hsh Htol).
      - rewrite Wm in Hsz. injection Hsz as <-.
        destruct (limited_rounds ortho calc lstsq Hmin all Hall results n path _ Hwf Hst Hn' Hmeas pre b f [] m P rho r G Wm Wp Wn eq_refl HP Hrho Hfol HG HG' (a + c) a c L p v tr1 r (le_n _) HL Hp Hh ltac:(lra) Hsh Htol Ha) as [k [v' [L' [p' [tr' [Hk K]]]]]].
        exists k, v', L', p', tr'. split; [|exact K]. eapply Nat.le_trans; [exact Hk|]. apply Nat.mul_le_mono_r, Hac. }
    destruct Hgo as [m [v' [L' [p' [tr' [Hm [Hit2 K]]]]]]]. exists (1 + m), v', L', p', tr'. split; [lia|]. split; [|exact K].
    etransitivity; [exact (iterates_app E 1 m _ _ (iterates_one E _ _ Hit1))|exact Hit2].
Qed.

Lemma learn_level v L tr : b_given b = false -> unlimited b -> (forall x, beside all b v x -> ~ hit b f x) ->
  (forall a, secants all b f v a -> independent (b_gates b) (map a (b_params b)) /\ exists rho, (0 <= rho < 1)%R /\ forall r, follows (with_slopes a b) f rho r) -> Forall2 (settled_at v) pre L ->
  exists m a v' L' p' tr', independent (b_gates b) (map a (b_params b)) /\ iterates E m (st i false v (L ++ start v b :: P) tr) = (st (S i) false v' (L' ++ p' :: P) tr', Ok tt) /\
    Forall2 (settled_at v') pre L' /\ settled_at v' (taught a b, f) p' /\ (forall l, In l all -> ~ In l (b_gates b) -> v' l = v l).
Proof.
  intros Hgv Hun Hfar Hsec HL.
  destruct (study_level pre b f P Hpre Hb Hst Hn Hmeas HP v Hfar L tr Hgv Hun HL) as [a [v1 [L1 [p1 [tr1 [Ha [Hbe [HL1 [Hp1 Hit1]]]]]]]]].
  destruct (Hsec a Ha) as [Hi [rho [Hrho Hfol]]].
  destruct (max_entry (b_params b) (short_of b f v1)) as [r [Hr0 Hr]].
  assert (Htol : forall q, In q (b_params b) -> (0 < b_tol b q)%R) by (intros q Hq; apply (proj1 (proj2 (proj1 (proj2 (proj2 (proj2 (proj2 (proj2 (proj2 (proj2 Hb))))))) q Hq)))).
  destruct (min_entry (b_params b) (b_tol b) Htol) as [e [He0 He]].
  destruct (pow_lt_1_zero rho ltac:(rewrite Rabs_pos_eq; lra) (e / (r + 1))%R) as [M HM]; [apply Rdiv_lt_0_compat; lra|].
  destruct (rounds_tower ortho calc lstsq Hmin all Hall results n path _ (level_wf pre b f Hpre Hb a Hi) (level_stacked pre b f Hst a) (level_n pre b f Hn a) (level_measured pre b f Hmeas a) pre (taught a b) f [] P rho r Hun eq_refl HP ltac:(lra) (Hfol r) M L1 p1 v1 tr1 r HL1 Hp1) as [k [v' [L' [p' [tr' [_ [Hit2 [K1 [K2 K3]]]]]]]]].
  { exact (far_false b f v Hfar v1 Hbe). } { lra. } { exact Hr. }
  { intros q Hq. apply Rlt_le_trans with e; [|apply He, Hq]. specialize (HM M (le_n _)). rewrite Rabs_pos_eq in HM by (apply pow_le; lra).
    assert (K : (rho ^ M * (r + 1) < e)%R).
    { apply Rmult_lt_reg_r with (/ (r + 1))%R; [apply Rinv_0_lt_compat; lra|]. rewrite Rmult_assoc, Rinv_r by lra. unfold Rdiv in HM. lra. }
    pose proof (pow_le rho M (proj1 Hrho)). lra. }
  exists (1 + length (b_gates b) * (i + 3) + k), a, v', L', p', tr'. split; [exact Hi|]. split; [etransitivity; [exact (iterates_app E _ k _ _ Hit1)|exact Hit2]|]. split; [exact K1|]. split; [exact K2|].
  intros l Hl Hnl. rewrite (K3 l Hl Hnl). apply (proj1 Hbe); assumption.
Qed.

Lemma learn_level_in M v L tr : b_given b = false -> unlimited b -> teaches_in all b f v M -> Forall2 (settled_at v) pre L ->
  exists m a v' L' p' tr', m <= 1 + (length (b_gates b) + M) * (i + 3) /\ independent (b_gates b) (map a (b_params b)) /\
    iterates E m (st i false v (L ++ start v b :: P) tr) = (st (S i) false v' (L' ++ p' :: P) tr', Ok tt) /\
    Forall2 (settled_at v') pre L' /\ settled_at v' (taught a b, f) p' /\ (forall l, In l all -> ~ In l (b_gates b) -> v' l = v l).
Proof.
  intros Hgv Hun [Hfar Hsec] HL.
  destruct (study_level pre b f P Hpre Hb Hst Hn Hmeas HP v Hfar L tr Hgv Hun HL) as [a [v1 [L1 [p1 [tr1 [Ha [Hbe [HL1 [Hp1 Hit1]]]]]]]]].
  destruct (Hsec a Ha) as [Hi [rho [r [Hrho [Hfol [Htol Hr]]]]]].
  destruct (rounds_tower ortho calc lstsq Hmin all Hall results n path _ (level_wf pre b f Hpre Hb a Hi) (level_stacked pre b f Hst a) (level_n pre b f Hn a) (level_measured pre b f Hmeas a) pre (taught a b) f [] P rho r Hun eq_refl HP Hrho Hfol M L1 p1 v1 tr1 r HL1 Hp1) as [k [v' [L' [p' [tr' [Hk [Hit2 [K1 [K2 K3]]]]]]]]].
  { exact (far_false b f v Hfar v1 Hbe). } { lra. } { exact (Hr v1 Hbe). } { exact Htol. }
  exists (1 + length (b_gates b) * (i + 3) + k), a, v', L', p', tr'. split; [change (k <= M * (i + 3)) in Hk; rewrite Nat.mul_add_distr_r; lia|]. split; [exact Hi|]. split; [etransitivity; [exact (iterates_app E _ k _ _ Hit1)|exact Hit2]|]. split; [exact K1|]. split; [exact K2|].
  intros l Hl Hnl. rewrite (K3 l Hl Hnl). apply (proj1 Hbe); assumption.
Qed.
End Done.

(** *** All tuners *)
Variables (tower : list storey) (p0 : label -> R) (rest : list (part (newton fd))).
Hypothesis Hwf : Forall (fun s => well_formed all (fst s)) tower.
Hypothesis Hst : stacked all tower.
Hypothesis Hn : length tower <= n.
Hypothesis Hmeas : forall j b f, nth_error tower j = Some (b, f) -> forall v, results j (vec all v) = Ok (vec (b_measured b) (f v), tab (b_measured b) (b_var b v)).
Hypothesis Hrest : forall p, In p rest -> coherent sg sn all p.
Variable cap : nat -> nat -> Prop.
(** The tuners as they were given and with the gradients they have by now. *)
Let known (s s' : storey) : Prop := exists a, s' = (taught a (fst s), snd s) /\ independent (b_gates (fst s)) (map a (b_params (fst s))).
Hypothesis Hcap : forall pre b f post pre' P L v tr, tower = pre ++ (b, f) :: post -> Forall2 known pre pre' -> (forall x, In x P -> coherent sg sn all x) ->
  Forall (fun s => well_formed all (fst s) /\ b_given (fst s) = true) pre' -> stacked all (pre' ++ [(b, f)]) ->
  (forall j b' f', nth_error (pre' ++ [(b, f)]) j = Some (b', f') -> forall v, results j (vec all v) = Ok (vec (b_measured b') (f' v), tab (b_measured b') (b_var b' v))) ->
  Forall2 (settled_at v) pre' L -> reached all p0 pre v ->
  exists m a v' L' p' tr', cap (length pre) m /\ independent (b_gates b) (map a (b_params b)) /\ iterates E m (st (length pre') false v (L ++ start v b :: P) tr) = (st (S (length pre')) false v' (L' ++ p' :: P) tr', Ok tt) /\
    Forall2 (settled_at v') pre' L' /\ settled_at v' (taught a b, f) p' /\ (forall l, In l all -> ~ In l (b_gates b) -> v' l = v l).

Lemma known_wf pre pre' post : tower = pre ++ post -> Forall2 known pre pre' -> Forall (fun s => well_formed all (fst s) /\ b_given (fst s) = true) pre'.
Proof.
  intros Ht H. rewrite Ht in Hwf. apply Forall_app in Hwf. destruct Hwf as [W _]. clear -H W. induction H as [|s s' l l' [a [-> Hi]] H IH]; [constructor|].
  inversion W as [|x y W1 W2]; subst. constructor; [|apply IH, W2]. split; [apply taught_wf; assumption|reflexivity].
Qed.
Lemma known_stacked pre pre' b f post : tower = pre ++ (b, f) :: post -> Forall2 known pre pre' -> stacked all (pre' ++ [(b, f)]).
Proof.
  intros Ht H. rewrite Ht in Hst. clear -H Hst. unfold stacked in *. induction H as [|s s' l l' [a [-> Hi]] H IH]; cbn [app] in *.
  - constructor; constructor.
  - inversion Hst as [|x y H1 H2]; subst. constructor; [|exact (IH H2)].
    assert (H3 : Forall (fun s0 => (forall l0, In l0 (b_gates (fst s0)) -> ~ In l0 (b_gates (fst s))) /\ (forall q, In q (b_params (fst s0)) -> ~ In q (b_params (fst s))) /\
      forall v v', (forall l0, In l0 all -> ~ In l0 (b_gates (fst s0)) -> v' l0 = v l0) -> forall q, In q (b_params (fst s)) -> snd s v' q = snd s v q) (l ++ [(b, f)])).
    { apply Forall_app in H1. destruct H1 as [K1 K2]. apply Forall_app. split; [exact K1|]. inversion K2; subst. constructor; [assumption|constructor]. }
    clear -H H3. induction H as [|u u' m m' [c [-> Hc]] H IH]; cbn [app] in *; [exact H3|]. inversion H3; subst. constructor; [assumption|auto].
Qed.
Lemma known_measured pre pre' b f post : tower = pre ++ (b, f) :: post -> Forall2 known pre pre' ->
  forall j b' f', nth_error (pre' ++ [(b, f)]) j = Some (b', f') -> forall v, results j (vec all v) = Ok (vec (b_measured b') (f' v), tab (b_measured b') (b_var b' v)).
Proof.
  intros Ht H j b' f' Hj v. rewrite Ht in Hmeas. clear -H Hj Hmeas. assert (Hl : length pre = length pre') by exact (F2_length _ _ _ H).
  destruct (Nat.lt_ge_cases j (length pre')) as [Hlt|Hge].
  - rewrite nth_error_app1 in Hj by exact Hlt. assert (K : exists s, nth_error pre j = Some s /\ known s (b', f')).
    { clear -H Hj. revert j Hj. induction H as [|s s' l l' Hs H IH]; intros [|j] Hj; cbn in Hj; try discriminate; [injection Hj as ->; exists s; auto|exact (IH j Hj)]. }
    destruct K as [[b0 f0] [K [a [Heq _]]]]. injection Heq as -> ->. apply (Hmeas j b0 f0). rewrite nth_error_app1 by lia. exact K.
  - rewrite nth_error_app2 in Hj by exact Hge. destruct (j - length pre') as [|k] eqn:Hk; [|destruct k; discriminate]. injection Hj as <- <-.
    apply (Hmeas j b f). rewrite nth_error_app2 by lia. replace (j - length pre) with 0 by lia. reflexivity.
Qed.
Lemma known_hit pre pre' v L : Forall2 known pre pre' -> Forall2 (settled_at v) pre' L -> forall b f, In (b, f) pre -> hit b f v.
Proof.
  intros H. revert L. induction H as [|s s' l l' [a [-> _]] H IH]; intros L HL b f Hin; [destruct Hin|]. inversion HL as [|x y m m' [_ K] HL']; subst.
  destruct Hin as [->|Hin]; [exact K|exact (IH _ HL' b f Hin)].
Qed.

Lemma run_study : forall post pre pre' L v tr, tower = pre ++ post -> Forall2 known pre pre' -> Forall2 (settled_at v) pre' L -> (forall l, In l all -> (forall b f, In (b, f) pre -> ~ In l (b_gates b)) -> v l = p0 l) ->
  exists m ks v' L' tr', iterates E m (st (length pre) false v (L ++ map (fun s => start p0 (fst s)) post ++ rest) tr) = (st (length tower) false v' (L' ++ rest) tr', Ok tt) /\
    length ks = length post /\ (forall j k, nth_error ks j = Some k -> cap (length pre + j) k) /\ m = list_sum ks /\ reached all p0 tower v'.
Proof.
  induction post as [|[b f] post IH]; intros pre pre' L v tr Ht Hk HL Hv.
  - rewrite app_nil_r in Ht. exists 0, [], v, L, tr. rewrite Ht. split; [reflexivity|]. split; [reflexivity|]. split; [intros [|j] k Hj; discriminate|]. split; [reflexivity|].
    split; [exact (known_hit pre pre' v L Hk HL)|exact Hv].
  - set (P := map (fun s => start p0 (fst s)) post ++ rest).
    assert (HP : forall x, In x P -> coherent sg sn all x).
    { intros x Hx. apply in_app_or in Hx. destruct Hx as [Hx|Hx]; [|apply Hrest, Hx]. apply in_map_iff in Hx. destruct Hx as [s [<- Hs]]. apply start_coherent. rewrite Forall_forall in Hwf. apply Hwf.
      rewrite Ht. apply in_or_app. right; right; exact Hs. }
    assert (Wb : well_formed all b) by (rewrite Forall_forall in Hwf; apply (Hwf (b, f)); rewrite Ht; apply in_or_app; right; left; reflexivity).
    destruct (Hcap pre b f post pre' P L v tr Ht Hk HP (known_wf _ _ _ Ht Hk) (known_stacked _ _ _ _ _ Ht Hk) (known_measured _ _ _ _ _ Ht Hk) HL (conj (known_hit pre pre' v L Hk HL) Hv))
      as [m1 [a [v1 [L1 [p1 [tr1 [Hm1 [Hi [Hit1 [HL1 [Hp1 Ho1]]]]]]]]]]].
    rewrite (start_agree b v p0) in Hit1.
    2:{ intros l Hl. apply Hv; [apply Wb, Hl|]. intros b' f' Hs. rewrite Ht in Hst. pose proof (pairs_app _ _ _ Hst (b', f') (b, f) Hs (or_introl eq_refl)) as K. apply (proj1 K l Hl). }
    destruct (IH (pre ++ [(b, f)]) (pre' ++ [(taught a b, f)]) (L1 ++ [p1]) v1 tr1) as [m2 [ks [v2 [L2 [tr2 [Hit2 [Hks [Hck [Hm2 Hr2]]]]]]]]].
    { rewrite <- app_assoc. exact Ht. }
    { apply Forall2_app; [exact Hk|]. constructor; [|constructor]. exists a. split; [reflexivity|exact Hi]. }
    { apply Forall2_app; [exact HL1|]. constructor; [exact Hp1|constructor]. }
    { intros l Hl Hnl. rewrite (Ho1 l Hl). 2:{ apply (Hnl b f), in_or_app. right; left; reflexivity. } apply Hv; [exact Hl|]. intros b' f' Hs. apply (Hnl b' f'), in_or_app. left; exact Hs. }
    rewrite <- (F2_length _ _ _ Hk) in Hit1. rewrite app_length in Hit2, Hck. cbn [length] in Hit2, Hck. rewrite Nat.add_1_r, <- !app_assoc in Hit2. cbn [app] in Hit2.
    exists (m1 + m2), (m1 :: ks), v2, L2, tr2. split; [|split; [|split; [|split]]].
    + cbn [map app]. etransitivity; [exact (iterates_app E m1 m2 _ _ Hit1)|exact Hit2].
    + cbn. rewrite Hks. reflexivity.
    + intros [|j] k Hj; cbn in Hj; [injection Hj as <-; rewrite Nat.add_0_r; exact Hm1|]. replace (length pre + S j) with (length pre + 1 + j) by lia. apply Hck, Hj.
    + cbn. unfold list_sum in Hm2. lia.
    + exact Hr2.
Qed.
End Study.
