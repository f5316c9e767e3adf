From Verif Require Import PyBase TargetModel TunerModel TunerSpec SeriesLemmas TunerProofs SolverModel SensingDotProofs NewtonModel EstimatorModel NewtonSpec NewtonProofs EstimatorProofs GradientProps AutotunerModel AutotunerProofs ComposeModel KernelR ComposeSpec ComposeProofs ComposeHierarchy ComposeCoupledSpec ComposeCoupledProofs ComposeCurvedSpec.
From Coq Require Import Lra ZArith.
Local Open Scope list_scope.

(** One iteration only looks at the device at the voltages on the gates. *)
Section Agree.
Context {S : Type} (O : solver_ops S) (sg : S -> list label) (sn : S -> option (list (option (list label)))).
Variables (results results' : nat -> series -> res (series * series)) (n : nat).
Let E := hierarchy O sg sn results n.
Let E' := hierarchy O sg sn results' n.

Lemma is_tuned_agrees i v w : results i (w_gates w) = results' i (w_gates w) -> e_is_tuned E i v w = e_is_tuned E' i v w.
Proof.
  intros H. unfold E, E', hierarchy. cbn [e_is_tuned]. unfold on_part. destruct (nth_error (w_parts w) i) as [p|]; [|reflexivity].
  assert (K : subset_is_tuned O (fun x => (x, results i x)) v (mk_tsys (p_tuner p) (p_solver p) (w_gates w) []) =
              subset_is_tuned O (fun x => (x, results' i x)) v (mk_tsys (p_tuner p) (p_solver p) (w_gates w) [])); [|rewrite K; reflexivity].
  unfold subset_is_tuned, evaluate, teval, tbind, temit, tget, tput, tsolver, tret. cbn [ts_t ts_s ts_x ts_tr].
  destruct (negb (t_queue (p_tuner p) =? 0)%Z); [reflexivity|]. cbn [ts_t ts_s ts_x ts_tr]. rewrite H. reflexivity.
Qed.
Lemma iterate_agrees s : (forall i, results i (w_gates (s_w s)) = results' i (w_gates (s_w s))) -> iterate E s = iterate E' s.
Proof.
  intros H. unfold iterate, bind.
  assert (Hr : ready_to_tune E s = ready_to_tune E' s) by reflexivity.
  assert (Hw : s_w (fst (ready_to_tune E' s)) = s_w s).
  { unfold ready_to_tune, bind, call, get_at, get_w, lift, raise, E', hierarchy. cbn. destruct (a_to_set (s_at s)) as [v|]; [destruct (subset (index v) (index (w_gates (s_w s))))|]; reflexivity. }
  rewrite Hr. destruct (ready_to_tune E' s) as [s1 [rdy|ex]]; [|reflexivity]. cbn [fst] in Hw. destruct rdy; [|reflexivity]. cbn [negb].
  unfold get_at. change (is_tuning_complete E (s_at s1)) with (is_tuning_complete E' (s_at s1)). destruct (is_tuning_complete E' (s_at s1)); [reflexivity|].
  destruct (a_to_set (s_at s1)) as [v|]; [reflexivity|]. destruct (a_status (s_at s1)); [reflexivity|].
  assert (Hd : do_eval E s1 = do_eval E' s1); [|rewrite Hd; reflexivity].
  unfold do_eval, bind, get_at, call. change (e_read E (s_w s1)) with (s_w s1, @Ok series (w_gates (s_w s1))).
  change (e_read E' (s_w s1)) with (s_w s1, @Ok series (w_gates (s_w s1))). cbn [s_w s_at s_tr].
  rewrite is_tuned_agrees by (rewrite Hw; apply H). reflexivity.
Qed.
End Agree.

Section Curved.
Variable ortho : list (list num) -> res (list num).
Variable calc : list measurement -> res (list num * list (list num)).
Variable lstsq : list series -> list num -> res (list num).
Hypothesis Hmin : lstsq_shortest lstsq.
Variable all : list label.
Hypothesis Hall : NoDup all.
Variable results : nat -> series -> res (series * series).
Variables (n : nat) (path : option string).
Hypothesis Hn : 0 <> n.
Let F := fd_ops ortho calc.
Let O := nw_ops F lstsq.
Let E := newton_hierarchy ortho calc lstsq results n.
Let sg := fun s : newton fd => index (nw_pos s).
Let sn := fun s : newton fd => Some (map (fun g => Some (index (fd_pos g))) (nw_ests s)).
Let st (j : nat) (b : bool) (v : label -> R) (parts : list (part (newton fd))) (tr : list event) :=
  mk_sys (mk_at j b None path) (mk_world (vec all v) parts) tr.
Variable b : block.
Hypothesis Hb : well_formed all b.
Hypothesis Hun : unlimited b.
Variable rest : list (part (newton fd)).
Hypothesis Hrest : forall p, In p rest -> coherent sg sn all p.
Variable f : (label -> R) -> label -> R.
Hypothesis Hres : forall v, results 0 (vec all v) = Ok (vec (b_measured b) (f v), tab (b_measured b) (b_var b v)).
Let gs := b_gates b.
Let ps := b_params b.
Let tgt := goal ps (b_desired b) (b_tol b) (b_factor b).
Let par (v : label -> R) (q : label) : R := (f v q / b_factor b q)%R.
Let rvar (v : label -> R) (q : label) : num := ndiv (b_var b v q) (Fin (b_factor b q * b_factor b q)).
Let good (t : tuner) (v : label -> R) : Prop := t_last t = Some (vec all v) /\ t_params t = vec ps (par v) /\ t_failed t = false /\ t_queue t = 0%Z.
Let own (t : tuner) (s : newton fd) : part (newton fd) := mk_part t s (mk_limits (b_size b) (b_max b)) (b_tunable b).
Let solver (ests : list fd) (v : label -> R) : newton fd := mk_newton tgt ests (vec gs v) (vec ps (par v)).
Definition hits (v : label -> R) : bool := reached (b_params b) (b_desired b) (b_tol b) (fun q => f v q / b_factor b q)%R.

Lemma hits_hit v : hits v = true <-> hit b f v.
Proof. apply reached_iff. Qed.

Lemma eval_curved v t s s' tr : t_queue t = 0%Z -> index (t_params t) = ps -> nw_target s = tgt -> nw_target s' = tgt ->
  match t_last t with Some x => incl (index x) all | None => True end -> incl (index (nw_pos s)) all -> Forall (fun g => index (fd_pos g) = gs) (nw_ests s) ->
  so_update O (vec all v) (vec ps (par v)) (tab ps (rvar v)) s = (s', Ok tt) ->
  exists t' tr', iterate E (st 0 false v (own t s :: rest) tr) = (st (if hits v then 1 else 0) (negb (hits v)) v (own t' s' :: rest) tr', Ok tt) /\ good t' v.
Proof.
  intros Hq Hp Ht Ht' Hl Hpos Hest Hu. destruct Hb as [W1 [W2 [W3 [W4 [W5 [W6 [W7 [W8 W9]]]]]]]].
  set (results' := fun i (_ : series) => results i (vec all v)).
  assert (Hz : forall q, affine all (f v q) (fun _ => 0%R) v = f v q) by (intros q; unfold affine; rewrite dot_zero_l by reflexivity; lra).
  assert (Hvec : forall ls (k : label -> R), vec ls (fun q => (affine all (f v q) (fun _ => 0) v / k q)%R) = vec ls (fun q => (f v q / k q)%R)) by (intros ls k; apply vec_ext; intros q _; rewrite Hz; reflexivity).
  assert (Hrc : reached ps (b_desired b) (b_tol b) (fun q => affine all (f v q) (fun _ => 0%R) v / b_factor b q)%R = hits v).
  { unfold hits, reached. fold ps. clear -Hz. induction ps as [|q l IH]; [reflexivity|]. cbn [forallb]. rewrite Hz, IH. reflexivity. }
  set (low := fun (_ : label -> R) (L : list (part (newton fd))) => L = []).
  assert (Hres' : forall x, results' 0 (vec all x) = Ok (vec (b_measured b) (fun q => affine all (f v q) (fun _ => 0%R) x), tab (b_measured b) (b_var b v))).
  { intros x. unfold results'. rewrite Hres. f_equal. f_equal. apply vec_ext. intros q _. unfold affine. rewrite dot_zero_l by reflexivity. lra. }
  destruct (do_eval_W ortho calc lstsq all (b_gates b) (b_params b) (b_measured b) (b_tunable b) (b_desired b) (b_tol b) (b_factor b)
              W3 W4 W5 W6 W7 (fun q Hq => proj1 (W8 q Hq)) (f v) (fun _ _ => 0%R) (fun _ => b_var b v) results' 0 Hres' (mk_limits (b_size b) (b_max b)) rest path Hrest n Hn low)
    with (v0 := v) (L := @nil (part (newton fd))) (v := v) (t := t) (s := s) (s' := s') (tr := tr) as [t' [tr' [H2 Hg']]]; try reflexivity; try assumption.
  - intros x L ->. reflexivity.
  - intros x L -> p [].
  - rewrite Hvec. exact Hu.
  - fold ps in H2. rewrite Hrc in H2. rewrite Hvec in Hg'. exists t', tr'. split; [|exact Hg'].
    unfold E, newton_hierarchy. rewrite (iterate_agrees _ _ _ results results' n); [exact H2|]. intros i. reflexivity.
Qed.
Lemma length_one_gate : b_gates b <> [].
Proof. apply Hb. Qed.

(** The estimators know the gradients [a]. *)
Section Known.
Variables (a : label -> label -> R) (p0 : label -> R).
Let ba := with_slopes a b.
Let know := learnt (b_gates b) (b_factor b) (b_eps b) a p0.
Hypothesis Hind : independent (b_gates b) (map a (b_params b)).

Definition standing (v : label -> R) (p : part (newton fd)) : Prop :=
  exists t ests, p = own t (solver ests v) /\ good t v /\ Forall2 know ps ests.

Lemma eval_known v v' p tr : standing v p -> exists p' tr', standing v' p' /\
  iterate E (st 0 false v' (p :: rest) tr) = (st (if hits v' then 1 else 0) (negb (hits v')) v' (p' :: rest) tr', Ok tt).
Proof.
  intros [t [ests [-> [Hg Hl]]]]. pose proof Hb as W. destruct W as [W1 [W2 [W3 [W4 [W5 [W6 [W7 [W8 W9]]]]]]]]. pose proof Hg as G'. destruct G' as [G1 [G2 [G3 G4]]].
  destruct (nw_update_forall ortho calc lstsq all (b_gates b) (b_params b) (b_desired b) (b_tol b) (b_factor b) W2 W3 W6
     know v' (par v') (rvar v') (vec gs v) (vec ps (par v)) ests) as [ests' [Hu Hl2]].
  { apply index_vec. } { apply index_vec. }
  { revert Hl. apply F2_impl. intros q g _ [pts [cov [req ->]]]. eexists. split.
    + apply (update_done calc all (b_gates b) p0 (b_eps b q) W2 (v', par v' q, rvar v' q)).
    + exists pts, cov, req. reflexivity. }
  destruct (eval_curved v' t (solver ests v) (solver ests' v') tr) as [t' [tr' [H2 Hg']]]; try reflexivity; try assumption.
  - rewrite G2. apply index_vec.
  - rewrite G1, index_vec. apply incl_refl.
  - cbn [solver nw_pos]. rewrite index_vec. exact W3.
  - exact (learnt_pos _ _ _ _ _ _ _ Hl).
  - eexists. exists tr'. split; [|exact H2]. exists t', ests'. auto.
Qed.

Lemma step_known v p tr : standing v p -> exists h tr', moves ba (short_of b f v) h /\
  iterates E 2 (st 0 true v (p :: rest) tr) = (st 0 false (moved b h v) (p :: rest) tr', Ok tt).
Proof.
  intros [t [ests [-> [Hg Hl]]]]. pose proof Hb as W. destruct W as [W1 [W2 [W3 [W4 [W5 [W6 [W7 [W8 W9]]]]]]]].
  set (gr := fun q l => (a q l / b_factor b q)%R).
  destruct (Hmin gs (map gr ps) (map (fun q => (b_desired b q - par v q)%R) ps) W1 W2) as [h [H1 [H2 H3]]].
  { intros K. apply map_eq_nil in K. contradiction. }
  { rewrite !map_length. reflexivity. }
  { apply independent_scale; [intros q Hq; apply (proj1 (W8 q Hq))|exact Hind]. }
  set (low := fun (_ : label -> R) (L : list (part (newton fd))) => L = []).
  destruct (next_set_any ortho calc lstsq all (b_gates b) (b_params b) (b_tunable b) Hall W3 W4 results 0 (mk_limits (b_size b) (b_max b)) rest path Hrest n Hn low)
    with (L := @nil (part (newton fd))) (v := v) (t := t) (t' := t) (s := solver ests v) (s' := solver ests v) (v' := moved b h v) (tr := tr) as [tr' Hit].
  - intros x L ->. reflexivity.
  - intros x L -> p [].
  - intros x y L K. discriminate.
  - intros x L -> y q [].
  - reflexivity.
  - exact (proj1 Hg).
  - exact (proj1 Hg).
  - cbn [solver nw_pos]. rewrite index_vec. exact W3.
  - exact (learnt_pos _ _ _ _ _ _ _ Hl).
  - cbn [solver nw_pos]. rewrite index_vec. exact W3.
  - exact (learnt_pos _ _ _ _ _ _ _ Hl).
  - intros tuned Htun. eexists. destruct Hg as [G1 [G2 [G3 G4]]].
    rewrite (next_unlimited O (mk_limits (b_size b) (b_max b)) tuned _ (solver ests v) all v (b_gates b) (fun l => v l + h l)%R); try assumption; try reflexivity.
    + cbn [ts_t ts_s ts_x ts_tr]. f_equal. f_equal. apply vec_ext. intros l _. unfold step_to, moved. destruct (mem l (b_gates b)); lra.
    + apply (suggest_solution ortho calc lstsq (b_gates b) (b_params b) (b_desired b) (b_tol b) (b_factor b) W6 gr ests v (par v) h H1); [|exact Htun].
      exact (learnt_ready ortho (b_gates b) (b_params b) (b_factor b) (b_eps b) W2 a p0 ests Hl).
  - exists h, tr'. split; [|exact Hit].
    assert (Hiff : forall y, changes ba (short_of b f v) y <-> Forall2 (fun r z => dot gs r y = z) (map gr ps) (map (fun q => (b_desired b q - par v q)%R) ps)).
    { intros y. unfold changes. cbn [ba with_slopes b_gates b_params]. fold gs ps. generalize ps. intros l. split.
      - intros H. induction l as [|q l IH]; constructor; [exact (H q (or_introl eq_refl))|apply IH; intros z Hz; apply H; right; exact Hz].
      - intros H q Hq. induction l as [|q' l IH]; [destruct Hq|]. inversion H as [|x y0 l1 l2 Ha Hb0]; subst. destruct Hq as [<-|Hq]; [exact Ha|exact (IH Hb0 Hq)]. }
    split; [apply Hiff; exact H2|]. intros h' Hh'. apply H3, Hiff, Hh'.
Qed.

(** A step and the following evaluation. *)
Lemma round_known v p tr : standing v p -> exists h p' tr', moves ba (short_of b f v) h /\ standing (moved b h v) p' /\
  iterates E 3 (st 0 true v (p :: rest) tr) = (st (if hits (moved b h v) then 1 else 0) (negb (hits (moved b h v))) (moved b h v) (p' :: rest) tr', Ok tt).
Proof.
  intros Hs. destruct (step_known v p tr Hs) as [h [tr1 [Hh H1]]]. destruct (eval_known v (moved b h v) p tr1 Hs) as [p' [tr2 [Hs' H2]]].
  exists h, p', tr2. split; [exact Hh|]. split; [exact Hs'|]. change 3 with (2 + 1). rewrite (iterates_app E 2 1 _ _ H1). apply iterates_one. exact H2.
Qed.

Lemma short_moved v h q : In q ps -> (short_of b f (moved b h v) q = short_of b f v q - change b f h v q)%R.
Proof.
  intros Hq. unfold short_of, change. pose proof Hb as W. destruct W as [_ [_ [_ [_ [_ [_ [_ [W8 _]]]]]]]]. destruct (W8 q Hq) as [Hf _]. field. exact Hf.
Qed.

Definition finished (p1 v : label -> R) (s : sys (world (newton fd))) : Prop :=
  exists p tr, s = st 1 false v (p :: rest) tr /\ hit b f v /\ forall l, In l all -> ~ In l (b_gates b) -> v l = p1 l.

Lemma outside_moved p1 v h : (forall l, In l all -> ~ In l (b_gates b) -> v l = p1 l) -> forall l, In l all -> ~ In l (b_gates b) -> moved b h v l = p1 l.
Proof. intros H l Hl Hin. unfold moved. rewrite (proj2 (SeriesLemmas.mem_false l (b_gates b)) Hin), (H l Hl Hin). lra. Qed.

Section Contract.
Variables (rho r0 : R).
Hypothesis Hrho : (0 <= rho <= 1)%R.
Hypothesis Hfol : follows ba f rho r0.
Lemma rounds M : forall p1 v p tr r, standing v p -> hits v = false -> (forall l, In l all -> ~ In l (b_gates b) -> v l = p1 l) -> (r <= r0)%R ->
  (forall q, In q (b_params b) -> Rabs (short_of b f v q) <= r)%R -> (forall q, In q (b_params b) -> rho ^ M * r < b_tol b q)%R ->
  exists m s v', m <= 3 * M /\ iterates E m (st 0 true v (p :: rest) tr) = (s, Ok tt) /\ finished p1 v' s.
Proof.
  induction M as [|M IH]; intros p1 v p tr r Hs Hh Ho Hr Hsh HM.
  - exfalso. rewrite (proj2 (hits_hit v)) in Hh; [discriminate|]. intros q Hq. pose proof (HM q Hq) as K. cbn in K. pose proof (Hsh q Hq). lra.
  - destruct (round_known v p tr Hs) as [h [p' [tr' [Hm [Hs' Hit]]]]]. set (v' := moved b h v) in *.
    assert (Ho' : forall l, In l all -> ~ In l (b_gates b) -> v' l = p1 l) by (apply outside_moved; exact Ho).
    destruct (hits v') eqn:Hh'; cbn [negb] in Hit.
    + exists 3. eexists. exists v'. split; [lia|]. split; [exact Hit|]. exists p', tr'. split; [reflexivity|]. split; [apply hits_hit, Hh'|exact Ho'].
    + assert (Hsh' : forall q, In q (b_params b) -> (Rabs (short_of b f v' q) <= rho * r)%R).
      { intros q Hq. unfold v'. rewrite short_moved by exact Hq. rewrite <- Rabs_Ropp. replace (- (short_of b f v q - change b f h v q))%R with (change ba f h v q - short_of b f v q)%R by (change (change ba f h v q) with (change b f h v q); lra).
        apply (Hfol v h (short_of b f v) r Hr); [|exact Hsh|exact Hm|exact Hq]. intros q' Hq'. eapply Rle_trans; [apply (Hsh q' Hq')|exact Hr]. }
      assert (Hr0 : (0 <= r)%R).
      { destruct Hb as [_ [_ [_ [_ [_ [W6 _]]]]]]. destruct (cons_of (b_params b) W6) as [q0 [ps' Hps]]. eapply Rle_trans; [apply Rabs_pos|apply (Hsh q0)]. rewrite Hps. left; reflexivity. }
      destruct (IH p1 v' p' tr' (rho * r)%R Hs' Hh' Ho') as [m [s [v2 [Hmm [Hit2 Hfin]]]]].
      { nra. } { exact Hsh'. } { intros q Hq. pose proof (HM q Hq) as K. cbn [pow] in K. replace (rho ^ M * (rho * r))%R with (rho * rho ^ M * r)%R by ring. exact K. }
      exists (3 + m), s, v2. split; [lia|]. split; [rewrite (iterates_app E 3 m _ _ Hit); exact Hit2|exact Hfin].
Qed.
End Contract.

Lemma rounds_end rho p1 v p tr : (0 <= rho < 1)%R -> (forall r0, follows ba f rho r0) -> standing v p -> hits v = false ->
  (forall l, In l all -> ~ In l (b_gates b) -> v l = p1 l) ->
  exists m s v', iterates E m (st 0 true v (p :: rest) tr) = (s, Ok tt) /\ finished p1 v' s.
Proof.
  intros Hrho Hfol Hs Hh Ho. destruct (max_entry (b_params b) (short_of b f v)) as [r [Hr0 Hr]].
  assert (Htol : forall q, In q (b_params b) -> (0 < b_tol b q)%R).
  { intros q Hq. pose proof Hb as K. destruct K as [_ [_ [_ [_ [_ [_ [_ [W8 _]]]]]]]]. apply (proj1 (proj2 (W8 q Hq))). }
  destruct (min_entry (b_params b) (b_tol b) Htol) as [e [He0 He]].
  destruct (pow_lt_1_zero rho ltac:(rewrite Rabs_pos_eq; lra) (e / (r + 1))%R) as [M HM].
  { apply Rdiv_lt_0_compat; lra. }
  destruct (rounds rho r ltac:(lra) (Hfol r) M p1 v p tr r Hs Hh Ho (Rle_refl _) Hr) as [m [s [v' [_ [Hit Hfin]]]]].
  { intros q Hq. apply Rlt_le_trans with e; [|apply He, Hq]. specialize (HM M (le_n _)). rewrite Rabs_pos_eq in HM by (apply pow_le; lra).
    assert (H1 : (rho ^ M * (r + 1) < e)%R).
    { apply Rmult_lt_reg_r with (/ (r + 1))%R; [apply Rinv_0_lt_compat; lra|]. rewrite Rmult_assoc, Rinv_r by lra. unfold Rdiv in HM. lra. }
    pose proof (pow_le rho M (proj1 Hrho)). nra. }
  exists m, s, v'. auto.
Qed.

(** Rounds that do not come closer. *)
Lemma rounds_forever q : b_params b = [q] ->
  (forall v h w, moves ba w h -> (change b f h v q * w q <= 0 \/ 2 * (w q * w q) <= change b f h v q * w q)%R) ->
  forall N v p tr, standing v p -> hits v = false -> exists m s, N <= m /\ iterates E m (st 0 true v (p :: rest) tr) = (s, Ok tt).
Proof.
  intros Hp Hbad. assert (Hq : In q (b_params b)) by (rewrite Hp; left; reflexivity).
  induction N as [|N IH]; intros v p tr Hs Hh; [exists 0; eexists; split; [lia|reflexivity]|].
  destruct (round_known v p tr Hs) as [h [p' [tr' [Hm [Hs' Hit]]]]]. set (v' := moved b h v) in *.
  assert (Hge : (Rabs (short_of b f v q) <= Rabs (short_of b f v' q))%R).
  { unfold v'. rewrite short_moved by exact Hq. apply Rsqr_le_abs_0. unfold Rsqr. destruct (Hbad v h (short_of b f v) Hm) as [K|K]; pose proof (Rle_0_sqr (change b f h v q)) as Q; unfold Rsqr in Q; [nra|].
    assert (Hc : (2 * (short_of b f v q * change b f h v q) <= change b f h v q * change b f h v q)%R); [|nra].
    set (x := short_of b f v q) in *. set (y := change b f h v q) in *.
    destruct (Rle_lt_dec 0 x) as [Hx|Hx]; [destruct (Rle_lt_dec y 0); [nra|]; destruct (Req_dec x 0) as [->|]; [nra|]; assert (2 * x <= y)%R by nra; nra|].
    destruct (Rle_lt_dec 0 y); [nra|]. assert (y <= 2 * x)%R by nra. nra. }
  assert (Hh' : hits v' = false).
  { destruct (hits v') eqn:K; [|reflexivity]. rewrite <- Hh. symmetry. apply hits_hit. intros q' Hq'. rewrite Hp in Hq'. destruct Hq' as [<-|[]].
    eapply Rle_lt_trans; [exact Hge|]. apply (proj1 (hits_hit v') K q Hq). }
  rewrite Hh' in Hit. cbn [negb] in Hit. destruct (IH v' p' tr' Hs' Hh') as [m [s [Hm' Hit']]].
  exists (3 + m), s. split; [lia|]. rewrite (iterates_app E 3 m _ _ Hit). exact Hit'.
Qed.
End Known.

(** The first evaluation of a tuner that was given its gradients. *)
Lemma first_given p0 tr : b_given b = true -> exists p tr', standing (b_slope b) p0 p0 p /\
  iterate E (st 0 false p0 (start p0 b :: rest) tr) = (st (if hits p0 then 1 else 0) (negb (hits p0)) p0 (p :: rest) tr', Ok tt).
Proof.
  intros Hgv. pose proof Hb as W. destruct W as [W1 [W2 [W3 [W4 [W5 [W6 [W7 [W8 W9]]]]]]]]. unfold start. rewrite Hgv.
  set (ests := map _ (b_params b)).
  destruct (nw_update_forall ortho calc lstsq all (b_gates b) (b_params b) (b_desired b) (b_tol b) (b_factor b) W2 W3 W6
     (learnt (b_gates b) (b_factor b) (b_eps b) (b_slope b) p0) p0 (par p0) (rvar p0) (vec gs p0) (tab ps (fun _ => NaN)) ests) as [ests' [Hu Hl]].
  { apply index_vec. } { apply index_tab. }
  { unfold ests. generalize (b_params b). intros l. induction l as [|q l IH]; constructor; [|exact IH].
    destruct (update_first_given calc all (b_gates b) p0 (b_eps b q) W1 W2 W3 (p0, par p0 q, rvar p0 q) (b_known b q) (fun l => b_slope b q l / b_factor b q)%R) as [pts [req Hup]]; [reflexivity|].
    eexists. split; [exact Hup|]. exists pts, None, req. reflexivity. }
  destruct (eval_curved p0 (fresh_tuner (relevant (b_goal b))) (mk_newton tgt ests (vec gs p0) (tab ps (fun _ => NaN))) (solver ests' p0) tr) as [t' [tr' [H2 Hg']]]; try reflexivity.
  - unfold b_goal. rewrite relevant_goal. cbn. unfold index. rewrite map_map. apply map_id.
  - cbn [nw_pos]. rewrite index_vec. exact W3.
  - unfold ests. cbn [nw_ests]. apply Forall_forall. intros g Hin. apply in_map_iff in Hin. destruct Hin as [q [<- _]]. unfold given_fd.
    destruct (b_known b q); cbn; first [apply index_vec|apply index_tab].
  - exact Hu.
  - eexists. exists tr'. split; [|exact H2]. exists t', ests'. auto.
Qed.

(** A tuner that has to measure its gradients. *)
Section Learn.
Hypothesis Hortho : ortho_exact ortho.
Hypothesis Hcalc : calc_exact calc.
Variable p0 : label -> R.
Let rd (q : label) (v : label -> R) : reading := (v, par v q, rvar v q).
Let near (v : label -> R) : Prop := forall l, In l all -> ~ In l (b_gates b) -> v l = p0 l.
Let apart (hist : list (label -> R)) : Prop := independent (b_gates b) (map (fun v l => v l - p0 l)%R hist).
Let crossed (hist : list (label -> R)) : Prop :=
  ForallOrdPairs (fun x y => dot (b_gates b) (fun l => (x l - p0 l) / b_eps b (hd ""%string (b_params b)) l)%R (fun l => y l - p0 l)%R = 0%R) hist.
Definition collecting (hist : list (label -> R)) (q : label) (g : fd) : Prop :=
  exists req, g = fdst (b_gates b) p0 (b_eps b q) (map (rd q) (p0 :: rev hist)) None None req.
Definition fits_points (xs : list (label -> R)) (q : label) (sl : label -> R) : Prop :=
  forall x, In x xs -> dot (b_gates b) sl (fun l => x l - p0 l)%R = (f x q - f p0 q)%R.
Definition has_slope (q : label) (sl : label -> R) (g : fd) : Prop :=
  exists pts cov req, g = fdst (b_gates b) p0 (b_eps b q) pts (Some (vec (b_gates b) (fun l => sl l / b_factor b q)%R)) cov req.
Definition collected (xs : list (label -> R)) (q : label) (g : fd) : Prop := exists sl, fits_points xs q sl /\ has_slope q sl g.

Lemma choose_slopes xs (l : list label) ests : NoDup l -> Forall2 (collected xs) l ests ->
  exists a, (forall q, In q l -> fits_points xs q (a q)) /\ Forall2 (fun q g => has_slope q (a q) g) l ests.
Proof.
  intros Hnd H. induction H as [|q g l ests [sl [H1 H2]] H IH]; [exists (fun _ _ => 0%R); split; [intros q []|constructor]|].
  inversion Hnd as [|x y Hni Hnd']; subst. destruct (IH Hnd') as [a [A B]]. exists (fun q' => if String.eqb q' q then sl else a q'). split.
  - intros q' [<-|Hq']; [rewrite String.eqb_refl; exact H1|]. destruct (String.eqb_spec q' q) as [->|Hne]; [contradiction|apply A, Hq'].
  - constructor; [rewrite String.eqb_refl; exact H2|]. revert B. apply F2_impl. intros q' g' Hq' K. destruct (String.eqb_spec q' q) as [->|Hne]; [contradiction|exact K].
Qed.

Lemma learn_secant q hist v req : In q ps -> S (length hist) = length (b_gates b) -> apart (v :: hist) ->
  exists g', fd_update calc (vec all v) (Fin (par v q)) (rvar v q) (fdst (b_gates b) p0 (b_eps b q) (map (rd q) (p0 :: rev hist)) None None req) = (g', Ok tt) /\ collected (v :: hist) q g'.
Proof.
  intros Hq Hl Hap. pose proof Hb as W. destruct W as [W1 [W2 [W3 [W4 [W5 [W6 [W7 [W8 W9]]]]]]]]. set (pts := map (rd q) (p0 :: rev hist)).
  assert (Hpts : length pts = length (b_gates b)) by (unfold pts; rewrite map_length; cbn; rewrite rev_length; lia).
  pose proof (update_last calc all (b_gates b) p0 (b_eps b q) W2 W3 (rd q v) pts req Hpts) as Hu.
  assert (Hin : forall x, In x (p0 :: v :: hist) -> In (rd q x) (pts ++ [rd q v])).
  { intros x H. apply in_or_app. unfold pts. destruct H as [<-|[<-|H]].
    - left. left. reflexivity.
    - right. left. reflexivity.
    - left. right. apply in_map. apply -> in_rev. exact H. }
  assert (Hspan : forall u, level (b_gates b) u (pts ++ [rd q v]) -> forall l, In l (b_gates b) -> u l = 0%R).
  { intros u Hlev. apply (independent_spans (b_gates b) (map (fun v l => (v l - p0 l)%R) (v :: hist)) u Hap); [rewrite map_length; cbn; exact Hl|].
    intros w Hw. apply in_map_iff in Hw. destruct Hw as [x [<- Hx]]. rewrite dot_sub_r.
    pose proof (Hlev (rd q x) (rd q p0) (Hin x (or_intror Hx)) (Hin p0 (or_introl eq_refl))) as K. cbn in K. lra. }
  destruct (calc_points calc Hcalc (b_gates b) W1 W2 (pts ++ [rd q v])) as [H1 _]; [rewrite app_length, Hpts; cbn [length]; lia|].
  destruct H1 as [g [cov [Hc Hg]]].
  { intros u Hlev [l [Hl1 Hl2]]. apply Hl2, (Hspan u Hlev l Hl1). }
  destruct (W8 q Hq) as [Hf _].
  rewrite Hc in Hu. cbn [rd r_at r_val fst snd] in Hu. rewrite Hu. eexists. split; [reflexivity|]. exists (fun l => b_factor b q * g l)%R. split.
  - intros x Hx. pose proof (Hg (rd q x) (rd q p0) (Hin x (or_intror Hx)) (Hin p0 (or_introl eq_refl))) as K. cbn [rd r_at r_val fst snd] in K.
    rewrite dot_sub_r in K. rewrite dot_comm, dot_scale_r, dot_comm, dot_sub_r. transitivity (b_factor b q * (par x q - par p0 q))%R; [rewrite <- K; ring|]. unfold par. field. exact Hf.
  - exists (pts ++ [rd q v]), (Some cov), req. f_equal. f_equal. unfold array, vec.
    assert (Hgl : forall l, (b_factor b q * g l / b_factor b q)%R = g l) by (intros l; field; exact Hf).
    clear -Hgl. induction (b_gates b) as [|l ls IH]; cbn; [reflexivity|]. rewrite Hgl. f_equal. exact IH.
Qed.

Lemma collecting_pos hist ests : Forall2 (collecting hist) ps ests -> Forall (fun g => index (fd_pos g) = b_gates b) ests.
Proof. apply F2_right. intros q g [req ->]. apply index_vec. Qed.

(** One step of the finite differences phase. *)
Lemma collect_round hist v t ests tr : S (length hist) <= length (b_gates b) -> good t v -> near v -> apart hist -> crossed hist -> Forall2 (collecting hist) ps ests ->
  exists v' t' ests' tr', near v' /\ apart (v' :: hist) /\ crossed (v' :: hist) /\ good t' v' /\
    iterates E 3 (st 0 true v (own t (solver ests v) :: rest) tr) = (st (if hits v' then 1 else 0) (negb (hits v')) v' (own t' (solver ests' v') :: rest) tr', Ok tt) /\
    (S (length hist) < length (b_gates b) -> Forall2 (collecting (v' :: hist)) ps ests') /\ (S (length hist) = length (b_gates b) -> Forall2 (collected (v' :: hist)) ps ests').
Proof.
  intros Hlen Hg Hnv Hap Hcr Hl. pose proof Hb as W. destruct W as [W1 [W2 [W3 [W4 [W5 [W6 [W7 [W8 W9]]]]]]]]. pose proof Hg as G'. destruct G' as [G1 [G2 [G3 G4]]].
  destruct (cons_of ps W6) as [q0 [ps' Hpseq]].
  destruct ests as [|g0 ests0]; [rewrite Hpseq in Hl; inversion Hl|].
  assert (Hl0 : collecting hist q0 g0 /\ Forall2 (collecting hist) ps' ests0) by (rewrite Hpseq in Hl; inversion Hl; auto). destruct Hl0 as [[req0 Hg0] Hl0].
  assert (Hq0 : In q0 ps) by (rewrite Hpseq; left; reflexivity).
  destruct (require_more ortho Hortho all (b_gates b) p0 (b_eps b q0) W1 W2 W3 None (rd q0 p0) (map (rd q0) (rev hist)) req0) as [u [Hu1 [Hu2 Hu3]]].
  { rewrite map_length, rev_length. exact Hlen. }
  cbn zeta in Hu3. set (h := (fun l => p0 l + u l * b_eps b q0 l)%R) in *.
  set (g0' := fdst (b_gates b) p0 (b_eps b q0) (rd q0 p0 :: map (rd q0) (rev hist)) None None (req0 ++ [vec (b_gates b) h])) in *.
  assert (Hl' : Forall2 (collecting hist) ps (g0' :: ests0)).
  { rewrite Hpseq. constructor; [|exact Hl0]. exists (req0 ++ [vec (b_gates b) h]). reflexivity. }
  assert (Hs : forall tuned, (forall q, In q ps -> ~ In q tuned) -> so_suggest O tuned (solver (g0 :: ests0) v) = (solver (g0' :: ests0) v, Ok (vec (b_gates b) h))).
  { intros tuned Htun. apply (suggest_ask ortho calc lstsq (b_gates b) (b_params b) (b_desired b) (b_tol b) (b_factor b) W2 tuned q0 ps'); [exact Hpseq|symmetry; exact (F2_length _ _ _ Hl0)|apply index_vec|exact Htun|].
    rewrite Hg0. exact Hu3. }
  set (v' := (fun l => v l + step_to (b_gates b) h v l)%R).
  assert (Hon : forall l, In l (b_gates b) -> v' l = h l) by (intros l Hin; unfold v', step_to; rewrite (proj2 (SeriesLemmas.mem_In l (b_gates b)) Hin); lra).
  assert (Hnv' : near v') by (intros l H1 H2; unfold v', step_to; rewrite (proj2 (SeriesLemmas.mem_false l (b_gates b)) H2), (Hnv l H1 H2); lra).
  assert (Hap' : apart (v' :: hist)).
  { unfold apart. cbn [map]. apply (independent_cons (b_gates b) _ _ u Hap).
    - intros e He. apply in_map_iff in He. destruct He as [x [<- Hx]]. apply Hu2. unfold steps_from. apply in_map_iff. exists (rd q0 x). split; [reflexivity|].
      apply in_map. apply -> in_rev. exact Hx.
    - assert (Hp : (0 < dot (b_gates b) u (fun l => v' l - p0 l))%R); [|lra].
      apply sum_pos.
      + intros l Hin. rewrite (Hon l Hin). unfold h. pose proof (proj2 (proj2 (W8 q0 Hq0)) l Hin). replace (u l * (p0 l + u l * b_eps b q0 l - p0 l))%R with (u l * u l * b_eps b q0 l)%R by ring.
        apply Rmult_le_pos; [apply Rle_0_sqr|lra].
      + destruct Hu1 as [l [Hin Hne]]. exists l. split; [exact Hin|]. rewrite (Hon l Hin). unfold h. pose proof (proj2 (proj2 (W8 q0 Hq0)) l Hin).
        replace (u l * (p0 l + u l * b_eps b q0 l - p0 l))%R with (u l * u l * b_eps b q0 l)%R by ring. apply Rmult_lt_0_compat; [nra|lra]. }
  assert (Hcr' : crossed (v' :: hist)).
  { constructor; [|exact Hcr]. apply Forall_forall. intros y Hy. replace (hd ""%string (b_params b)) with q0 by (fold ps; rewrite Hpseq; reflexivity).
    rewrite (dot_ext (b_gates b) _ u _ (fun l => y l - p0 l)%R); [|intros l Hin; rewrite (Hon l Hin); unfold h; field; pose proof (proj2 (proj2 (W8 q0 Hq0)) l Hin); lra|reflexivity].
    apply Hu2. unfold steps_from. apply in_map_iff. exists (rd q0 y). split; [reflexivity|]. apply in_map. apply -> in_rev. exact Hy. }
  set (P' := fun q g => (S (length hist) < length (b_gates b) -> collecting (v' :: hist) q g) /\ (S (length hist) = length (b_gates b) -> collected (v' :: hist) q g)).
  set (low := fun (_ : label -> R) (L : list (part (newton fd))) => L = []).
  destruct (next_set_any ortho calc lstsq all (b_gates b) (b_params b) (b_tunable b) Hall W3 W4 results 0 (mk_limits (b_size b) (b_max b)) rest path Hrest n Hn low)
    with (L := @nil (part (newton fd))) (v := v) (t := t) (t' := t) (s := solver (g0 :: ests0) v) (s' := solver (g0' :: ests0) v) (v' := v') (tr := tr) as [tr1 Hit1].
  { intros x L ->. reflexivity. } { intros x L -> p []. } { intros x y L K. discriminate. } { intros x L -> y q []. } { reflexivity. } { exact G1. } { exact G1. }
  { cbn [solver nw_pos]. rewrite index_vec. exact W3. } { exact (collecting_pos _ _ Hl). } { cbn [solver nw_pos]. rewrite index_vec. exact W3. } { exact (collecting_pos _ _ Hl'). }
  { intros tuned Htun. eexists. rewrite (next_unlimited O (mk_limits (b_size b) (b_max b)) tuned _ (solver (g0' :: ests0) v) all v (b_gates b) h); try assumption; try reflexivity.
    apply Hs, Htun. }
  destruct (nw_update_forall ortho calc lstsq all (b_gates b) (b_params b) (b_desired b) (b_tol b) (b_factor b) W2 W3 W6 P' v' (par v') (rvar v') (vec gs v) (vec ps (par v)) (g0' :: ests0)) as [ests' [Hu Hl2]].
  { apply index_vec. } { apply index_vec. }
  { revert Hl'. apply F2_impl. intros q g Hq [req ->]. destruct (Nat.eq_dec (S (length hist)) (length (b_gates b))) as [Heq|Hne].
    - destruct (learn_secant q hist v' req Hq Heq Hap') as [g' [K1 K2]]. exists g'. split; [exact K1|]. split; [lia|intros _; exact K2].
    - eexists. split.
      + apply (update_more calc all (b_gates b) p0 (b_eps b q) W2 W3 (rd q v')). rewrite map_length. cbn. rewrite rev_length. lia.
      + split; [|lia]. intros _. exists req. f_equal. cbn [rev map]. rewrite map_app. reflexivity. }
  destruct (eval_curved v' t (solver (g0' :: ests0) v) (solver ests' v') tr1) as [t' [tr2 [H2 Hg']]]; try reflexivity; try assumption.
  { rewrite G2. apply index_vec. } { rewrite G1, index_vec. apply incl_refl. } { cbn [solver nw_pos]. rewrite index_vec. exact W3. } { exact (collecting_pos _ _ Hl'). }
  exists v', t', ests', tr2. split; [exact Hnv'|]. split; [exact Hap'|]. split; [exact Hcr'|]. split; [exact Hg'|]. split.
  - change 3 with (2 + 1). etransitivity; [exact (iterates_app E 2 1 _ _ Hit1)|]. apply iterates_one. exact H2.
  - split; intros Hc'; revert Hl2; apply F2_impl; intros q g _ [K1 K2]; auto.
Qed.

Variable rho : R.
Hypothesis Hrho : (0 <= rho < 1)%R.
Hypothesis Hsec : forall a, secants all b f p0 a -> independent (b_gates b) (map a (b_params b)) /\ forall r0, follows (with_slopes a b) f rho r0.

Lemma collect_phase k : forall hist v t ests tr, length hist + k = length (b_gates b) -> k <> 0 -> good t v -> near v -> (forall x, In x hist -> near x) -> apart hist -> crossed hist ->
  Forall2 (collecting hist) ps ests -> hits v = false ->
  exists m s v', iterates E m (st 0 true v (own t (solver ests v) :: rest) tr) = (s, Ok tt) /\ finished p0 v' s.
Proof.
  induction k as [|k IH]; intros hist v t ests tr Hlen Hk Hg Hnv Hnh Hap Hcr Hl Hh; [contradiction|].
  destruct (collect_round hist v t ests tr ltac:(lia) Hg Hnv Hap Hcr Hl) as [v' [t' [ests' [tr' [A [B [B2 [C [D [E1 E2]]]]]]]]]].
  destruct (hits v') eqn:Hh'; cbn [negb] in D.
  { exists 3. eexists. exists v'. split; [exact D|]. eexists. exists tr'. split; [reflexivity|]. split; [apply hits_hit, Hh'|exact A]. }
  assert (Hnh' : forall x, In x (v' :: hist) -> near x) by (intros x [<-|Hx]; [exact A|apply Hnh, Hx]).
  assert (Hgo : exists m s v2, iterates E m (st 0 true v' (own t' (solver ests' v') :: rest) tr') = (s, Ok tt) /\ finished p0 v2 s).
  { destruct k as [|k].
    - assert (Hlen' : S (length hist) = length (b_gates b)) by lia.
      assert (Hnd : NoDup ps) by (apply Hb). destruct (choose_slopes (v' :: hist) ps ests' Hnd (E2 Hlen')) as [a [Ha1 Ha2]].
      assert (Hs : secants all b f p0 a).
      { exists (v' :: hist). split; [exact Hlen'|]. split; [exact B|]. split; [exact B2|]. split; [exact Hnh'|]. intros x q Hx Hq. apply (Ha1 q Hq x Hx). }
      destruct (Hsec a Hs) as [Hi Hf]. apply (rounds_end a p0 Hi rho p0 v' (own t' (solver ests' v')) tr' Hrho Hf); [|exact Hh'|exact A].
      exists t', ests'. split; [reflexivity|]. split; [exact C|]. exact Ha2.
    - apply (IH (v' :: hist)); try assumption; [cbn; lia|lia|apply E1; lia]. }
  destruct Hgo as [m [s [v2 [H1 H2]]]]. exists (3 + m), s, v2. split; [rewrite (iterates_app E 3 m _ _ D); exact H1|exact H2].
Qed.

Lemma learn_all : b_given b = false -> exists m s v, iterates E m (fresh path (mk_world (vec all p0) (start p0 b :: rest))) = (s, Ok tt) /\ finished p0 v s.
Proof.
  intros Hgv. pose proof Hb as W. destruct W as [W1 [W2 [W3 [W4 [W5 [W6 [W7 [W8 W9]]]]]]]]. unfold start. rewrite Hgv.
  set (ests := map _ (b_params b)).
  destruct (nw_update_forall ortho calc lstsq all (b_gates b) (b_params b) (b_desired b) (b_tol b) (b_factor b) W2 W3 W6
     (collecting []) p0 (par p0) (rvar p0) (vec gs p0) (tab ps (fun _ => NaN)) ests) as [ests' [Hu Hl]].
  { apply index_vec. } { apply index_tab. }
  { unfold ests. generalize (b_params b). intros l. induction l as [|q l IH]; constructor; [|exact IH].
    eexists. split; [apply (update_first calc all (b_gates b) p0 (b_eps b q) W1 W2 W3 (rd q p0) (b_known b q)); reflexivity|]. exists []. reflexivity. }
  destruct (eval_curved p0 (fresh_tuner (relevant (b_goal b))) (mk_newton tgt ests (vec gs p0) (tab ps (fun _ => NaN))) (solver ests' p0) []) as [t' [tr' [H2 Hg']]]; try reflexivity.
  - unfold b_goal. rewrite relevant_goal. cbn. unfold index. rewrite map_map. apply map_id.
  - cbn [nw_pos]. rewrite index_vec. exact W3.
  - unfold ests. cbn [nw_ests]. apply Forall_forall. intros g Hin. apply in_map_iff in Hin. destruct Hin as [q [<- _]]. unfold new_fd.
    destruct (b_known b q); cbn; first [apply index_vec|apply index_tab].
  - exact Hu.
  - assert (Hn0 : near p0) by (intros l _ _; reflexivity).
    match goal with |- exists m s v, iterates E m ?x = _ /\ _ => change x with (st 0 false p0 (own (fresh_tuner (relevant (b_goal b))) (mk_newton tgt ests (vec gs p0) (tab ps (fun _ => NaN))) :: rest) []) end.
    destruct (hits p0) eqn:Hh; cbn [negb] in H2.
    + exists 1. eexists. exists p0. split; [apply iterates_one; exact H2|]. eexists. exists tr'. split; [reflexivity|]. split; [apply hits_hit, Hh|exact Hn0].
    + destruct (collect_phase (length (b_gates b)) [] p0 t' ests' tr') as [m [s [v [H3 H4]]]]; try assumption.
      * reflexivity.
      * intros K. apply length_zero_iff_nil in K. contradiction.
      * intros x [].
      * apply independent_nil.
      * constructor.
      * exists (1 + m), s, v. split; [rewrite (iterates_app E 1 m _ _ (iterates_one E _ _ H2)); exact H3|exact H4].
Qed.
End Learn.
End Curved.
