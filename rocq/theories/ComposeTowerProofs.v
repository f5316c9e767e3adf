From Verif Require Import PyBase TargetModel TunerModel TunerSpec SeriesLemmas TunerProofs SolverModel SensingDotProofs NewtonModel EstimatorModel NewtonSpec NewtonProofs EstimatorProofs GradientProps AutotunerModel AutotunerProofs ComposeModel KernelR ComposeSpec ComposeProofs ComposeHierarchy ComposeCoupledSpec ComposeCoupledProofs ComposeCurvedSpec ComposeCurvedProofs ComposeTowerSpec.
From Coq Require Import Lra ZArith.
Local Open Scope list_scope.

Section Tower.
Variable ortho : list (list num) -> res (list num).
Variable calc : list measurement -> res (list num * list (list num)).
Variable lstsq : list series -> list num -> res (list num).
Hypothesis Hmin : lstsq_shortest lstsq.
Variable all : list label.
Hypothesis Hall : NoDup all.
Variable results : nat -> series -> res (series * series).
Variables (n : nat) (path : option string).
Let F := fd_ops ortho calc.
Let O := nw_ops F lstsq.
Let E := newton_hierarchy ortho calc lstsq results n.
Let sg := fun s : newton fd => index (nw_pos s).
Let sn := fun s : newton fd => Some (map (fun g => Some (index (fd_pos g))) (nw_ests s)).
Let st (j : nat) (b : bool) (v : label -> R) (parts : list (part (newton fd))) (tr : list event) :=
  mk_sys (mk_at j b None path) (mk_world (vec all v) parts) tr.

(** A tuner that knows its gradients and was evaluated at [v]. *)
Definition stands (s : storey) (v : label -> R) (p : part (newton fd)) : Prop :=
  exists p0, standing all (fst s) (snd s) (b_slope (fst s)) p0 v p.
Lemma stands_last s v p : stands s v p -> t_last (p_tuner p) = Some (vec all v).
Proof. intros [p0 [t [ests [-> [[H _] _]]]]]. exact H. Qed.
Lemma stands_target s v p : stands s v p -> nw_target (p_solver p) = b_goal (fst s).
Proof. intros [p0 [t [ests [-> _]]]]. reflexivity. Qed.
Lemma stands_coherent s v p : well_formed all (fst s) -> stands s v p -> coherent sg sn all p.
Proof.
  intros [_ [_ [Hin [Htg _]]]] [p0 [t [ests [-> [[Hl _] Hk]]]]]. unfold coherent, sg, sn. cbn [p_tuner p_solver p_gates nw_pos nw_ests].
  rewrite Hl, !index_vec. split; [apply incl_refl|]. split; [exact Hin|]. intros e He. apply in_map_iff in He. destruct He as [g [<- Hg]].
  pose proof (learnt_pos _ _ _ _ _ _ _ Hk) as Hp. rewrite Forall_forall in Hp. exists (b_gates (fst s)). rewrite (Hp g Hg). auto.
Qed.

(** One tuner with others below and above it. *)
Section Storey.
Variables (b : block) (f : (label -> R) -> label -> R) (i : nat) (L rest : list (part (newton fd))).
Hypothesis Hb : well_formed all b.
Hypothesis Hun : unlimited b.
Hypothesis Hn : i <> n.
Hypothesis Hres : forall v, results i (vec all v) = Ok (vec (b_measured b) (f v), tab (b_measured b) (b_var b v)).
Hypothesis Hlen : length L = i.
Hypothesis HL : forall p, In p L -> coherent sg sn all p.
Hypothesis Hrest : forall p, In p rest -> coherent sg sn all p.
Let gs := b_gates b.
Let ps := b_params b.
Let tgt := goal ps (b_desired b) (b_tol b) (b_factor b).
Let par (v : label -> R) (q : label) : R := (f v q / b_factor b q)%R.
Let rvar (v : label -> R) (q : label) : num := ndiv (b_var b v q) (Fin (b_factor b q * b_factor b q)).
Let good (t : tuner) (v : label -> R) : Prop := t_last t = Some (vec all v) /\ t_params t = vec ps (par v) /\ t_failed t = false /\ t_queue t = 0%Z.
Let own (t : tuner) (s : newton fd) : part (newton fd) := mk_part t s (mk_limits (b_size b) (b_max b)) (b_tunable b).
Let solver (ests : list fd) (v : label -> R) : newton fd := mk_newton tgt ests (vec gs v) (vec ps (par v)).

Lemma eval_storey v t s s' tr : t_queue t = 0%Z -> index (t_params t) = ps -> nw_target s = tgt -> nw_target s' = tgt ->
  match t_last t with Some x => incl (index x) all | None => True end -> incl (index (nw_pos s)) all -> Forall (fun g => index (fd_pos g) = gs) (nw_ests s) ->
  so_update O (vec all v) (vec ps (par v)) (tab ps (rvar v)) s = (s', Ok tt) ->
  exists t' tr', iterate E (st i false v (L ++ own t s :: rest) tr) = (st (if hits b f v then S i else i) (negb (hits b f v)) v (L ++ own t' s' :: rest) tr', Ok tt) /\ good t' v.
Proof.
  intros Hq Hp Ht Ht' Hl Hpos Hest Hu. pose proof Hb as W. destruct W as [W1 [W2 [W3 [W4 [W5 [W6 [W7 [W8 W9]]]]]]]].
  set (results' := fun i (_ : series) => results i (vec all v)).
  assert (Hz : forall q, affine all (f v q) (fun _ => 0%R) v = f v q) by (intros q; unfold affine; rewrite dot_zero_l by reflexivity; lra).
  assert (Hvec : forall ls (k : label -> R), vec ls (fun q => (affine all (f v q) (fun _ => 0) v / k q)%R) = vec ls (fun q => (f v q / k q)%R)) by (intros ls k; apply vec_ext; intros q _; rewrite Hz; reflexivity).
  assert (Hrc : reached ps (b_desired b) (b_tol b) (fun q => affine all (f v q) (fun _ => 0%R) v / b_factor b q)%R = hits b f v).
  { unfold hits, reached. fold ps. clear -Hz. induction ps as [|q l IH]; [reflexivity|]. cbn [forallb]. rewrite Hz, IH. reflexivity. }
  set (low := fun (_ : label -> R) (L' : list (part (newton fd))) => L' = L).
  assert (Hres' : forall x, results' i (vec all x) = Ok (vec (b_measured b) (fun q => affine all (f v q) (fun _ => 0%R) x), tab (b_measured b) (b_var b v))).
  { intros x. unfold results'. rewrite Hres. f_equal. f_equal. apply vec_ext. intros q _. unfold affine. rewrite dot_zero_l by reflexivity. lra. }
  destruct (do_eval_W ortho calc lstsq all (b_gates b) (b_params b) (b_measured b) (b_tunable b) (b_desired b) (b_tol b) (b_factor b)
              W3 W4 W5 W6 W7 (fun q Hq => proj1 (W8 q Hq)) (f v) (fun _ _ => 0%R) (fun _ => b_var b v) results' i Hres' (mk_limits (b_size b) (b_max b)) rest path Hrest n Hn low)
    with (v0 := v) (L := L) (v := v) (t := t) (s := s) (s' := s') (tr := tr) as [t' [tr' [H2 Hg']]]; try reflexivity; try assumption.
  - intros x L' ->. exact Hlen.
  - intros x L' -> p. apply HL.
  - rewrite Hvec. exact Hu.
  - fold ps in H2. rewrite Hrc in H2. rewrite Hvec in Hg'. exists t', tr'. split; [|exact Hg'].
    unfold E, newton_hierarchy. rewrite (iterate_agrees _ _ _ results results' n); [exact H2|]. intros j. reflexivity.
Qed.

Lemma eval_stands v v' p tr : stands (b, f) v p -> exists p' tr', stands (b, f) v' p' /\
  iterate E (st i false v' (L ++ p :: rest) tr) = (st (if hits b f v' then S i else i) (negb (hits b f v')) v' (L ++ p' :: rest) tr', Ok tt).
Proof.
  intros [p0 [t [ests [-> [Hg Hl]]]]]. cbn [fst snd] in *. pose proof Hb as W. destruct W as [W1 [W2 [W3 [W4 [W5 [W6 [W7 [W8 W9]]]]]]]]. pose proof Hg as G'. destruct G' as [G1 [G2 [G3 G4]]].
  destruct (nw_update_forall ortho calc lstsq all (b_gates b) (b_params b) (b_desired b) (b_tol b) (b_factor b) W2 W3 W6
     (learnt (b_gates b) (b_factor b) (b_eps b) (b_slope b) p0) v' (par v') (rvar v') (vec gs v) (vec ps (par v)) ests) as [ests' [Hu Hl2]].
  { apply index_vec. } { apply index_vec. }
  { revert Hl. apply F2_impl. intros q g _ [pts [cov [req ->]]]. eexists. split.
    + apply (update_done calc all (b_gates b) p0 (b_eps b q) W2 (v', par v' q, rvar v' q)).
    + exists pts, cov, req. reflexivity. }
  destruct (eval_storey v' t (solver ests v) (solver ests' v') tr) as [t' [tr' [H2 Hg']]]; try reflexivity; try assumption.
  - rewrite G2. apply index_vec.
  - rewrite G1, index_vec. apply incl_refl.
  - cbn [solver nw_pos]. rewrite index_vec. exact W3.
  - exact (learnt_pos _ _ _ _ _ _ _ Hl).
  - eexists. exists tr'. split; [|exact H2]. exists p0, t', ests'. auto.
Qed.

Lemma eval_start v tr : b_given b = true -> exists p' tr', stands (b, f) v p' /\
  iterate E (st i false v (L ++ start v b :: rest) tr) = (st (if hits b f v then S i else i) (negb (hits b f v)) v (L ++ p' :: rest) tr', Ok tt).
Proof.
  intros Hgv. pose proof Hb as W. destruct W as [W1 [W2 [W3 [W4 [W5 [W6 [W7 [W8 W9]]]]]]]]. unfold start. rewrite Hgv.
  set (ests := map _ (b_params b)).
  destruct (nw_update_forall ortho calc lstsq all (b_gates b) (b_params b) (b_desired b) (b_tol b) (b_factor b) W2 W3 W6
     (learnt (b_gates b) (b_factor b) (b_eps b) (b_slope b) v) v (par v) (rvar v) (vec gs v) (tab ps (fun _ => NaN)) ests) as [ests' [Hu Hl]].
  { apply index_vec. } { apply index_tab. }
  { unfold ests. generalize (b_params b). intros l. induction l as [|q l IH]; constructor; [|exact IH].
    destruct (update_first_given calc all (b_gates b) v (b_eps b q) W1 W2 W3 (v, par v q, rvar v q) (b_known b q) (fun l => b_slope b q l / b_factor b q)%R) as [pts [req Hup]]; [reflexivity|].
    eexists. split; [exact Hup|]. exists pts, None, req. reflexivity. }
  destruct (eval_storey v (fresh_tuner (relevant (b_goal b))) (mk_newton tgt ests (vec gs v) (tab ps (fun _ => NaN))) (solver ests' v) tr) as [t' [tr' [H2 Hg']]]; try reflexivity.
  - unfold b_goal. rewrite relevant_goal. cbn. unfold index. rewrite map_map. apply map_id.
  - cbn [nw_pos]. rewrite index_vec. exact W3.
  - unfold ests. cbn [nw_ests]. apply Forall_forall. intros g Hin. apply in_map_iff in Hin. destruct Hin as [q [<- _]]. unfold given_fd.
    destruct (b_known b q); cbn; first [apply index_vec|apply index_tab].
  - exact Hu.
  - eexists. exists tr'. split; [|exact H2]. exists v, t', ests'. auto.
Qed.

Lemma step_stands v p tr : (forall x, In x L -> t_last (p_tuner x) = Some (vec all v)) ->
  (forall x q, In x L -> In q ps -> ~ In q (relevant (nw_target (p_solver x)))) -> stands (b, f) v p ->
  exists h tr', moves b (short_of b f v) h /\
    iterates E 2 (st i true v (L ++ p :: rest) tr) = (st 0 false (moved b h v) (L ++ p :: rest) tr', Ok tt).
Proof.
  intros HLl HLn [p0 [t [ests [-> [Hg Hl]]]]]. cbn [fst snd] in *. pose proof Hb as W. destruct W as [W1 [W2 [W3 [W4 [W5 [W6 [W7 [W8 W9]]]]]]]].
  set (gr := fun q l => (b_slope b q l / b_factor b q)%R).
  destruct (Hmin gs (map gr ps) (map (fun q => (b_desired b q - par v q)%R) ps) W1 W2) as [h [H1 [H2 H3]]].
  { intros K. apply map_eq_nil in K. contradiction. }
  { rewrite !map_length. reflexivity. }
  { apply independent_scale; [intros q Hq; apply (proj1 (W8 q Hq))|exact W9]. }
  set (low := fun (x : label -> R) (L' : list (part (newton fd))) => L' = L /\ x = v).
  destruct (next_set_any ortho calc lstsq all (b_gates b) (b_params b) (b_tunable b) Hall W3 W4 results i (mk_limits (b_size b) (b_max b)) rest path Hrest n Hn low)
    with (L := L) (v := v) (t := t) (t' := t) (s := solver ests v) (s' := solver ests v) (v' := moved b h v) (tr := tr) as [tr' Hit].
  - intros x L' [-> _]. exact Hlen.
  - intros x L' [-> _] p. apply HL.
  - intros x y L' [K ->]. apply HLl. rewrite <- K. left; reflexivity.
  - intros x L' [-> _] y q. apply HLn.
  - split; reflexivity.
  - exact (proj1 Hg).
  - exact (proj1 Hg).
  - cbn [solver nw_pos]. rewrite index_vec. exact W3.
  - exact (learnt_pos _ _ _ _ _ _ _ Hl).
  - cbn [solver nw_pos]. rewrite index_vec. exact W3.
  - exact (learnt_pos _ _ _ _ _ _ _ Hl).
  - intros tuned Htun. eexists. destruct Hg as [G1 [G2 [G3 G4]]].
    rewrite (next_unlimited O (mk_limits (b_size b) (b_max b)) tuned _ (solver ests v) all v (b_gates b) (fun l => v l + h l)%R); try assumption; try reflexivity.
    + cbn [ts_t ts_s ts_x ts_tr]. f_equal. f_equal. apply vec_ext. intros l _. unfold step_to, moved. destruct (mem l (b_gates b)); lra.
    + apply (suggest_solution ortho calc lstsq (b_gates b) (b_params b) (b_desired b) (b_tol b) (b_factor b) W6 gr ests v (par v) h H1); [|exact Htun].
      exact (learnt_ready ortho (b_gates b) (b_params b) (b_factor b) (b_eps b) W2 (b_slope b) p0 ests Hl).
  - exists h, tr'. split; [|exact Hit].
    assert (Hiff : forall y, changes b (short_of b f v) y <-> Forall2 (fun r z => dot gs r y = z) (map gr ps) (map (fun q => (b_desired b q - par v q)%R) ps)).
    { intros y. unfold changes. fold gs ps. generalize ps. intros l. split.
      - intros H. induction l as [|q l IH]; constructor; [exact (H q (or_introl eq_refl))|apply IH; intros z Hz; apply H; right; exact Hz].
      - intros H q Hq. induction l as [|q' l IH]; [destruct Hq|]. inversion H as [|x y0 l1 l2 Ha Hb0]; subst. destruct Hq as [<-|Hq]; [exact Ha|exact (IH Hb0 Hq)]. }
    split; [apply Hiff; exact H2|]. intros h' Hh'. apply H3, Hiff, Hh'.
Qed.
End Storey.

(** The whole hierarchy. *)
Variables (tower : list storey) (p0 : label -> R) (rest : list (part (newton fd))).
Hypothesis Hwf : Forall (fun s => well_formed all (fst s) /\ b_given (fst s) = true) tower.
Hypothesis Hst : stacked all tower.
Hypothesis Hn : length tower <= n.
Hypothesis Hmeas : forall j b f, nth_error tower j = Some (b, f) -> forall v, results j (vec all v) = Ok (vec (b_measured b) (f v), tab (b_measured b) (b_var b v)).
Hypothesis Hrest : forall p, In p rest -> coherent sg sn all p.

Let ready (v : label -> R) (s : storey) (p : part (newton fd)) : Prop := stands s v p /\ hit (fst s) (snd s) v.
Lemma wf_in s : In s tower -> well_formed all (fst s) /\ b_given (fst s) = true.
Proof. rewrite Forall_forall in Hwf. apply Hwf. Qed.
Lemma stands_all_coherent v ss L : incl ss tower -> Forall2 (fun s p => stands s v p) ss L -> forall p, In p L -> coherent sg sn all p.
Proof.
  intros Hi H p Hp. destruct (F2_in_r _ _ _ H p Hp) as [s [Hs K]]. apply (stands_coherent s v p); [|exact K]. apply wf_in, Hi, Hs.
Qed.
Lemma ready_stands v ss L : Forall2 (ready v) ss L -> Forall2 (fun s p => stands s v p) ss L.
Proof. apply F2_impl. intros s p _ [H _]. exact H. Qed.
Lemma nth_middle_storey pre s post : tower = pre ++ s :: post -> nth_error tower (length pre) = Some s.
Proof. intros ->. rewrite nth_error_app2 by lia. rewrite Nat.sub_diag. reflexivity. Qed.
Lemma index_bound pre s post : tower = pre ++ s :: post -> length pre <> n.
Proof. intros H. rewrite H, app_length in Hn. cbn in Hn. lia. Qed.

(** All lower tuners are evaluated again and found tuned. *)
Lemma climb_tower v v' P : (forall p, In p P -> coherent sg sn all p) -> forall ss2 ss1 more L1 L2 tr, tower = ss1 ++ ss2 ++ more ->
  Forall2 (ready v') ss1 L1 -> Forall2 (fun s p => stands s v p) ss2 L2 -> (forall s, In s ss2 -> hit (fst s) (snd s) v') ->
  exists L2' tr', Forall2 (ready v') ss2 L2' /\
    iterates E (length ss2) (st (length ss1) false v' (L1 ++ L2 ++ P) tr) = (st (length ss1 + length ss2) false v' (L1 ++ L2' ++ P) tr', Ok tt).
Proof.
  intros HP. induction ss2 as [|[b f] ss2 IH]; intros ss1 more L1 L2 tr Ht H1 H2 Hh.
  - inversion H2; subst. exists [], tr. split; [constructor|]. cbn. rewrite Nat.add_0_r. reflexivity.
  - inversion H2 as [|x p l L2' Hp H2']; subst x l L2. clear H2. cbn [app] in Ht.
    assert (Hin : In (b, f) tower) by (rewrite Ht; apply in_or_app; right; left; reflexivity).
    assert (Hi1 : incl ss1 tower) by (intros y Hy; rewrite Ht; apply in_or_app; left; exact Hy).
    assert (Hi2 : incl ss2 tower) by (intros y Hy; rewrite Ht; apply in_or_app; right; right; apply in_or_app; left; exact Hy).
    destruct (wf_in _ Hin) as [Wb _]. cbn [fst] in Wb.
    destruct (eval_stands b f (length ss1) L1 (L2' ++ P) Wb (index_bound _ _ _ Ht) (Hmeas _ _ _ (nth_middle_storey _ _ _ Ht)) (eq_sym (F2_length _ _ _ H1)) (stands_all_coherent v' ss1 L1 Hi1 (ready_stands _ _ _ H1))) with (v := v) (v' := v') (p := p) (tr := tr) as [p' [tr1 [Hp' Hit]]].
    { intros y Hy. apply in_app_or in Hy. destruct Hy as [Hy|Hy]; [exact (stands_all_coherent v ss2 L2' Hi2 H2' y Hy)|apply HP, Hy]. }
    { exact Hp. }
    rewrite (proj2 (hits_hit b f v')) in Hit by exact (Hh (b, f) (or_introl eq_refl)). cbn [negb] in Hit.
    destruct (IH (ss1 ++ [(b, f)]) more (L1 ++ [p']) L2' tr1) as [L3 [tr2 [H3 Hit2]]].
    { rewrite <- app_assoc. exact Ht. }
    { apply Forall2_app; [exact H1|]. constructor; [|constructor]. split; [exact Hp'|exact (Hh (b, f) (or_introl eq_refl))]. }
    { exact H2'. } { intros y Hy. apply Hh. right; exact Hy. }
    exists (p' :: L3), tr2. split; [constructor; [split; [exact Hp'|exact (Hh (b, f) (or_introl eq_refl))]|exact H3]|].
    cbn [length]. change (S (length ss2)) with (1 + length ss2). etransitivity; [exact (iterates_app E 1 (length ss2) _ _ (iterates_one E _ _ Hit))|].
    rewrite app_length in Hit2. cbn [length] in Hit2. rewrite <- !app_assoc in Hit2. cbn [app] in Hit2.
    replace (S (length ss1)) with (length ss1 + 1) by lia. replace (length ss1 + (1 + length ss2)) with (length ss1 + 1 + length ss2) by lia. exact Hit2.
Qed.

Lemma lower_hit pre b f post v v' : tower = pre ++ (b, f) :: post -> (forall l, In l all -> ~ In l (b_gates b) -> v' l = v l) ->
  forall s, In s pre -> hit (fst s) (snd s) v -> hit (fst s) (snd s) v'.
Proof.
  intros Ht Hv s Hs Hh q Hq. rewrite Ht in Hst. pose proof (pairs_app _ _ _ Hst s (b, f) Hs (or_introl eq_refl)) as [_ [_ K]]. cbn [fst] in K.
  pose proof (Hh q Hq) as Q. unfold short_of in *. rewrite (K v v' Hv q Hq). exact Q.
Qed.

(** One round of a tuner: step, lower tuners, evaluation. *)
Lemma round_tower pre b f post L p P v tr : unlimited b -> tower = pre ++ (b, f) :: post -> (forall x, In x P -> coherent sg sn all x) -> Forall2 (ready v) pre L -> stands (b, f) v p ->
  exists h L' p' tr', moves b (short_of b f v) h /\ Forall2 (ready (moved b h v)) pre L' /\ stands (b, f) (moved b h v) p' /\
    iterates E (length pre + 3) (st (length pre) true v (L ++ p :: P) tr) =
      (st (if hits b f (moved b h v) then S (length pre) else length pre) (negb (hits b f (moved b h v))) (moved b h v) (L' ++ p' :: P) tr', Ok tt).
Proof.
  intros Wu Ht HP HL Hp.
  assert (Hin : In (b, f) tower) by (rewrite Ht; apply in_or_app; right; left; reflexivity).
  assert (Hi1 : incl pre tower) by (intros y Hy; rewrite Ht; apply in_or_app; left; exact Hy).
  destruct (wf_in _ Hin) as [Wb _]. cbn [fst] in Wb.
  assert (HLc : forall x, In x L -> coherent sg sn all x) by (exact (stands_all_coherent v pre L Hi1 (ready_stands _ _ _ HL))).
  assert (HLl : forall x, In x L -> t_last (p_tuner x) = Some (vec all v)).
  { intros x Hx. destruct (F2_in_r _ _ _ HL x Hx) as [s [_ [K _]]]. exact (stands_last s v x K). }
  assert (HLn : forall x q, In x L -> In q (b_params b) -> ~ In q (relevant (nw_target (p_solver x)))).
  { intros x q Hx Hq. destruct (F2_in_r _ _ _ HL x Hx) as [s [Hs [K _]]]. rewrite (stands_target s v x K). unfold b_goal. rewrite relevant_goal.
    rewrite Ht in Hst. pose proof (pairs_app _ _ _ Hst s (b, f) Hs (or_introl eq_refl)) as [_ [K2 _]]. apply K2. exact Hq. }
  destruct (step_stands b f (length pre) L P Wb Wu (index_bound _ _ _ Ht) (Hmeas _ _ _ (nth_middle_storey _ _ _ Ht)) (eq_sym (F2_length _ _ _ HL)) HLc HP v p tr HLl HLn Hp) as [h [tr1 [Hh Hit1]]].
  set (v' := moved b h v) in *.
  assert (Hout : forall l, In l all -> ~ In l (b_gates b) -> v' l = v l) by (intros l Hl Hni; unfold v', moved; rewrite (proj2 (SeriesLemmas.mem_false l (b_gates b)) Hni); lra).
  destruct (climb_tower v v' (p :: P)) with (ss2 := pre) (ss1 := @nil storey) (more := (b, f) :: post) (L1 := @nil (part (newton fd))) (L2 := L) (tr := tr1) as [L' [tr2 [HL' Hit2]]].
  { intros x [<-|Hx]; [apply (stands_coherent (b, f) v p Wb Hp)|apply HP, Hx]. }
  { exact Ht. } { constructor. } { exact (ready_stands _ _ _ HL). }
  { intros s Hs. apply (lower_hit pre b f post v v' Ht Hout s Hs).
    clear -HL Hs. induction HL as [|x y l l' [_ Hxy] HL IH]; [destruct Hs|]. destruct Hs as [<-|Hs]; [exact Hxy|exact (IH Hs)]. }
  cbn [app length] in Hit2. rewrite Nat.add_0_l in Hit2.
  destruct (eval_stands b f (length pre) L' P Wb (index_bound _ _ _ Ht) (Hmeas _ _ _ (nth_middle_storey _ _ _ Ht)) (eq_sym (F2_length _ _ _ HL')) (stands_all_coherent v' pre L' Hi1 (ready_stands _ _ _ HL')) HP v v' p tr2 Hp) as [p' [tr3 [Hp' Hit3]]].
  exists h, L', p', tr3. replace (length pre + 3) with (2 + (length pre + 1)) by lia. split; [exact Hh|]. split; [exact HL'|]. split; [exact Hp'|].
  etransitivity; [exact (iterates_app E 2 _ _ _ Hit1)|]. etransitivity; [exact (iterates_app E (length pre) 1 _ _ Hit2)|]. apply iterates_one. exact Hit3.
Qed.

Lemma rounds_tower pre b f post P rho r0 : unlimited b -> tower = pre ++ (b, f) :: post -> (forall x, In x P -> coherent sg sn all x) -> (0 <= rho <= 1)%R -> follows b f rho r0 ->
  forall M L p v tr r, Forall2 (ready v) pre L -> stands (b, f) v p -> hits b f v = false -> (r <= r0)%R ->
  (forall q, In q (b_params b) -> Rabs (short_of b f v q) <= r)%R -> (forall q, In q (b_params b) -> rho ^ M * r < b_tol b q)%R ->
  exists m v' L' p' tr', m <= M * (length pre + 3) /\ iterates E m (st (length pre) true v (L ++ p :: P) tr) = (st (S (length pre)) false v' (L' ++ p' :: P) tr', Ok tt) /\
    Forall2 (ready v') pre L' /\ ready v' (b, f) p' /\ (forall l, In l all -> ~ In l (b_gates b) -> v' l = v l).
Proof.
  intros Wu Ht HP Hrho Hfol.
  assert (Hin : In (b, f) tower) by (rewrite Ht; apply in_or_app; right; left; reflexivity). destruct (wf_in _ Hin) as [Wb _]. cbn [fst] in Wb.
  induction M as [|M IH]; intros L p v tr r HL Hp Hh Hr0 Hr HM.
  - exfalso. rewrite (proj2 (hits_hit b f v)) in Hh; [discriminate|]. intros q Hq. pose proof (HM q Hq) as K. cbn in K. pose proof (Hr q Hq). lra.
  - destruct (round_tower pre b f post L p P v tr Wu Ht HP HL Hp) as [h [L1 [p1 [tr1 [Hm [HL1 [Hp1 Hit1]]]]]]]. set (v1 := moved b h v) in *.
    assert (Hout : forall l, In l all -> ~ In l (b_gates b) -> v1 l = v l) by (intros l Hl Hni; unfold v1, moved; rewrite (proj2 (SeriesLemmas.mem_false l (b_gates b)) Hni); lra).
    destruct (hits b f v1) eqn:Hh1; cbn [negb] in Hit1.
    + exists (length pre + 3), v1, L1, p1, tr1. split; [lia|]. split; [exact Hit1|]. split; [exact HL1|]. split; [split; [exact Hp1|apply hits_hit, Hh1]|exact Hout].
    + assert (Hr1 : forall q, In q (b_params b) -> (Rabs (short_of b f v1 q) <= rho * r)%R).
      { intros q Hq. unfold v1. rewrite (short_moved all b Wb f v h q Hq). rewrite <- Rabs_Ropp. replace (- (short_of b f v q - change b f h v q))%R with (change b f h v q - short_of b f v q)%R by lra.
        apply (Hfol v h (short_of b f v) r Hr0); try assumption. intros q' Hq'. eapply Rle_trans; [apply Hr, Hq'|exact Hr0]. }
      assert (Hpos : (0 <= r)%R).
      { destruct Wb as [_ [_ [_ [_ [_ [W6 _]]]]]]. destruct (b_params b) as [|q qs]; [congruence|]. eapply Rle_trans; [apply Rabs_pos|exact (Hr q (or_introl eq_refl))]. }
      destruct (IH L1 p1 v1 tr1 (rho * r)%R HL1 Hp1 Hh1 ltac:(nra) Hr1) as [m2 [v2 [L2 [p2 [tr2 [Hm2 [Hit2 [HL2 [Hp2 Ho2]]]]]]]]].
      { intros q Hq. pose proof (HM q Hq) as K. cbn [pow] in K. replace (rho ^ M * (rho * r))%R with (rho * rho ^ M * r)%R by ring. exact K. }
      exists (length pre + 3 + m2), v2, L2, p2, tr2. split; [cbn [Nat.mul]; lia|]. split; [etransitivity; [exact (iterates_app E (length pre + 3) m2 _ _ Hit1)|exact Hit2]|]. split; [exact HL2|]. split; [exact Hp2|].
      intros l Hl Hni. rewrite (Ho2 l Hl Hni). apply Hout; assumption.
Qed.


(** *** Limited steps *)
Lemma reach_climb pre b f post P : tower = pre ++ (b, f) :: post -> (forall x, In x P -> coherent sg sn all x) ->
  forall v v' L p tr, Forall2 (ready v) pre L -> (forall l, In l all -> ~ In l (b_gates b) -> v' l = v l) -> coherent sg sn all p ->
  reach E (fun _ => False) (length pre) (st 0 false v' (L ++ p :: P) tr) (fun s => exists L' tr', Forall2 (ready v') pre L' /\ s = st (length pre) false v' (L' ++ p :: P) tr').
Proof.
  intros Ht HP v v' L p tr HL Hout Hp.
  destruct (climb_tower v v' (p :: P)) with (ss2 := pre) (ss1 := @nil storey) (more := (b, f) :: post) (L1 := @nil (part (newton fd))) (L2 := L) (tr := tr) as [L' [tr2 [HL' Hit2]]].
  { intros x [<-|Hx]; [exact Hp|apply HP, Hx]. }
  { exact Ht. } { constructor. } { exact (ready_stands _ _ _ HL). }
  { intros s Hs. apply (lower_hit pre b f post v v' Ht Hout s Hs).
    clear -HL Hs. induction HL as [|x y l l' [_ Hxy] HL IH]; [destruct Hs|]. destruct Hs as [<-|Hs]; [exact Hxy|exact (IH Hs)]. }
  eapply reach_ok; [exact Hit2|]. exists L', tr2. auto.
Qed.

(** Steps up to the next evaluation, and the evaluation. *)
Lemma limited_round pre b f post m P L p v tr : b_size b = Fin m -> (0 < m)%R -> (1 <= b_max b)%Z -> tower = pre ++ (b, f) :: post -> (forall x, In x P -> coherent sg sn all x) ->
  Forall2 (ready v) pre L -> stands (b, f) v p ->
  exists h k t, moves b (short_of b f v) h /\ 1 <= k /\ ((rnorm (b_gates b) h <= m /\ k = 1%nat /\ t = 1) \/ (m < rnorm (b_gates b) h /\ INR k * m <= rnorm (b_gates b) h /\ t = INR k * m / rnorm (b_gates b) h))%R /\
    reach E (fun _ => False) (k * (length pre + 3)) (st (length pre) true v (L ++ p :: P) tr)
      (fun s => exists v' L' p' tr', (forall l, In l all -> v' l = moved b (fun l => t * h l)%R v l) /\ Forall2 (ready v') pre L' /\ stands (b, f) v' p' /\
         s = st (if hits b f v' then S (length pre) else length pre) (negb (hits b f v')) v' (L' ++ p' :: P) tr').
Proof.
  intros Hsz Hm HN Ht HP HL [pk [t [ests [-> [Hg Hl]]]]]. cbn [fst snd] in *.
  assert (Hin : In (b, f) tower) by (rewrite Ht; apply in_or_app; right; left; reflexivity).
  assert (Hi1 : incl pre tower) by (intros y Hy; rewrite Ht; apply in_or_app; left; exact Hy).
  destruct (wf_in _ Hin) as [Wb _]. cbn [fst] in Wb. pose proof Wb as W. destruct W as [W1 [W2 [W3 [W4 [W5 [W6 [W7 [W8 W9]]]]]]]].
  assert (W8' : forall q, In q (b_params b) -> b_factor b q <> 0%R) by (intros q Hq; apply (W8 q Hq)).
  set (c := fun q => (f v q - dot all (b_slope b q) v)%R).
  assert (Hc : forall q, affine all (c q) (b_slope b q) v = f v q) by (intros q; unfold affine, c; lra).
  assert (Hpar : vec (b_params b) (fun q => affine all (c q) (b_slope b q) v / b_factor b q)%R = vec (b_params b) (fun q => f v q / b_factor b q)%R) by (apply vec_ext; intros q _; rewrite Hc; reflexivity).
  destruct (newton_from_exists lstsq all (b_gates b) (b_params b) (b_desired b) (b_factor b) W1 W2 W6 W8' c (b_slope b) W9 Hmin v) as [h Hh].
  assert (Hmv : moves b (short_of b f v) h).
  { destruct Hh as [_ [H1 H2]]. assert (Hiff : forall y, changes b (short_of b f v) y <-> solves all (b_gates b) (b_params b) (b_desired b) (b_factor b) c (b_slope b) v y).
    { intros y. unfold changes, solves, gradient, short_of. split; intros K q Hq; rewrite (K q Hq), Hc; reflexivity. }
    split; [apply Hiff; exact H1|]. intros y Hy. apply H2, Hiff, Hy. }
  set (low := fun x L0 => Forall2 (ready x) pre L0).
  assert (A1 : forall x L0, low x L0 -> length L0 = length pre) by (intros x L0 K; symmetry; exact (F2_length _ _ _ K)).
  assert (A2 : forall x L0, low x L0 -> forall y, In y L0 -> coherent sg sn all y) by (intros x L0 K; exact (stands_all_coherent x pre L0 Hi1 (ready_stands _ _ _ K))).
  assert (A3 : forall x y L0, low x (y :: L0) -> t_last (p_tuner y) = Some (vec all x)).
  { intros x y L0 K. destruct (F2_in_r _ _ _ K y (or_introl eq_refl)) as [s [_ [K1 _]]]. exact (stands_last s x y K1). }
  assert (A4 : forall x L0, low x L0 -> forall y q, In y L0 -> In q (b_params b) -> ~ In q (relevant (nw_target (p_solver y)))).
  { intros x L0 K y q Hy Hq. destruct (F2_in_r _ _ _ K y Hy) as [s [Hs [K1 _]]]. rewrite (stands_target s x y K1). unfold b_goal. rewrite relevant_goal.
    rewrite Ht in Hst. pose proof (pairs_app _ _ _ Hst s (b, f) Hs (or_introl eq_refl)) as [_ [K2 _]]. apply K2. exact Hq. }
  set (lim := mk_limits (b_size b) (b_max b)).
  set (own := fun t1 (s : newton fd) => mk_part t1 s lim (b_tunable b)).
  set (blind := fun x => mk_newton (goal (b_params b) (b_desired b) (b_tol b) (b_factor b)) ests (vec (b_gates b) x) (vec (b_params b) (fun q => affine all (c q) (b_slope b q) v / b_factor b q)%R)).
  assert (Hev : forall L0 t1 x x' tr0, Forall2 (ready x') pre L0 -> t_last t1 = Some (vec all x) -> t_params t1 = vec (b_params b) (fun q => affine all (c q) (b_slope b q) v / b_factor b q)%R -> t_queue t1 = 0%Z ->
    exists L1 p' tr', Forall2 (ready x') pre L1 /\ stands (b, f) x' p' /\
      iterates E 1 (st (length pre) false x' (L0 ++ own t1 (blind x) :: P) tr0) = (st (if hits b f x' then S (length pre) else length pre) (negb (hits b f x')) x' (L1 ++ p' :: P) tr', Ok tt)).
  { intros L0 t1 x x' tr0 K0 K1 K2 K3.
    destruct (nw_update_forall ortho calc lstsq all (b_gates b) (b_params b) (b_desired b) (b_tol b) (b_factor b) W2 W3 W6
       (learnt (b_gates b) (b_factor b) (b_eps b) (b_slope b) pk) x' (fun q => f x' q / b_factor b q)%R (fun q => ndiv (b_var b x' q) (Fin (b_factor b q * b_factor b q))) (vec (b_gates b) x) (vec (b_params b) (fun q => affine all (c q) (b_slope b q) v / b_factor b q)%R) ests) as [ests' [Hu Hl2]].
    { apply index_vec. } { apply index_vec. }
    { revert Hl. apply F2_impl. intros q g _ [pts [cov [req ->]]]. eexists. split.
      + apply (update_done calc all (b_gates b) pk (b_eps b q) W2 (x', (f x' q / b_factor b q)%R, ndiv (b_var b x' q) (Fin (b_factor b q * b_factor b q)))).
      + exists pts, cov, req. reflexivity. }
    destruct (eval_storey b f (length pre) L0 P Wb (index_bound _ _ _ Ht) (Hmeas _ _ _ (nth_middle_storey _ _ _ Ht)) (eq_sym (F2_length _ _ _ K0)) (A2 _ _ K0) HP x' t1 (blind x)
       (mk_newton (goal (b_params b) (b_desired b) (b_tol b) (b_factor b)) ests' (vec (b_gates b) x') (vec (b_params b) (fun q => f x' q / b_factor b q)%R)) tr0) as [t' [tr' [H2 Hg']]]; try reflexivity; try assumption.
    - rewrite K2. apply index_vec.
    - rewrite K1, index_vec. apply incl_refl.
    - cbn [blind nw_pos]. rewrite index_vec. exact W3.
    - exact (learnt_pos _ _ _ _ _ _ _ Hl).
    - exists L0. eexists. exists tr'. split; [exact K0|]. split; [|apply iterates_one; exact H2]. exists pk. exists t', ests'. split; [reflexivity|]. split; [exact Hg'|exact Hl2]. }
  rewrite <- Hpar in Hg. rewrite <- Hpar.
  pose proof Hg as G'. destruct G' as [G1 [G2 [G3 G4]]].
  destruct (Rle_lt_dec (rnorm (b_gates b) h) m) as [Hshort|Hlong].
  - pose proof (short_move ortho calc lstsq all (b_gates b) (b_params b) (b_tunable b) (b_desired b) (b_tol b) (b_factor b) (b_eps b) Hall W1 W2 W3 W4 W6 c (b_slope b) results (length pre) pk lim P path HP n (index_bound _ _ _ Ht) low A1 A2 A3 A4 (fun _ => False) (reach_climb pre b f post P Ht HP) m Hm Hsz L v t ests h tr) as Hmove.
    destruct (Hmove HL Hg Hl Hh Hshort) as [x' [Hx' H1]]. clear Hmove.
    exists h, 1, 1%R. split; [exact Hmv|]. split; [lia|]. split; [left; auto|].
    replace (1 * (length pre + 3)) with (length pre + 2 + 1) by lia.
    eapply reach_bind; [exact H1|]. intros s [L' [tr' [-> Hlow']]].
    destruct (Hev L' t v x' tr' Hlow' G1 G2 G4) as [L1 [p' [tr2 [K1 [K2 K3]]]]].
    eapply reach_ok; [exact K3|]. exists x', L1, p', tr2. split; [intros l Hl0; rewrite (Hx' l Hl0); unfold moved; destruct (mem l (b_gates b)); lra|]. auto.
  - destruct (trunc_pos m (rnorm (b_gates b) h) Hm Hlong) as [k [Hk1 [Hk2 Hk3]]].
    set (K := Z.min k (b_max b)). assert (HK : (1 <= K)%Z) by (unfold K; lia).
    set (j := Z.to_nat (K - 1)). assert (Hj : Z.of_nat j = (K - 1)%Z) by (unfold j; lia).
    assert (HKm : (INR (S j) * m <= rnorm (b_gates b) h)%R).
    { assert (INR (S j) <= IZR k)%R. { rewrite INR_IZR_INZ. apply IZR_le. unfold K in *. lia. }
      apply Rmult_le_reg_r with (/ m)%R; [apply Rinv_0_lt_compat; exact Hm|]. rewrite Rmult_assoc, Rinv_r by lra. unfold Rdiv in Hk3. lra. }
    assert (Hq : queue_after lim 0 (Fin (rnorm (b_gates b) h)) = Ok (Z.of_nat j)).
    { unfold queue_after. cbn [Z.eqb]. unfold lim. cbn [l_size l_number]. rewrite Hsz, Hk1, Hj. reflexivity. }
    pose proof (limited_move ortho calc lstsq all (b_gates b) (b_params b) (b_tunable b) (b_desired b) (b_tol b) (b_factor b) (b_eps b) Hall W1 W2 W3 W4 W6 c (b_slope b) results (length pre) pk lim P path HP n (index_bound _ _ _ Ht) low A1 A2 A3 A4 (fun _ => False) (reach_climb pre b f post P Ht HP) m Hm Hsz L v v t ests h tr 0%Z (Z.of_nat j)) as Hmove.
    destruct (Hmove HL Hg Hl Hh Hlong Hq) as [x1 [Hx1 H1]]. clear Hmove.
    pose proof (blind_run ortho calc lstsq all (b_gates b) (b_params b) (b_tunable b) (b_desired b) (b_tol b) (b_factor b) (b_eps b) Hall W1 W2 W3 W4 W6 c (b_slope b) results (length pre) pk lim P path HP n (index_bound _ _ _ Ht) low A1 A2 A3 A4 (fun _ => False) (reach_climb pre b f post P Ht HP) m Hm Hsz v h ests Hh Hlong Hl j) as Hblind.
    exists h, (S j), (INR (S j) * m / rnorm (b_gates b) h)%R. split; [exact Hmv|]. split; [lia|]. split; [right; auto|].
    replace (S j * (length pre + 3)) with ((length pre + 2) + (j * (length pre + 3) + 1)) by lia.
    eapply reach_bind; [exact H1|]. intros s1 [L1 [t1 [tr1 [-> [Hlow1 T1]]]]].
    eapply reach_bind; [exact (Hblind L1 v x1 t1 tr1 Hlow1 T1)|]. intros s2 [y [y' [L2 [t2 [tr2 [Hy [-> [Hlow2 [T2 [T3 [T4 T5]]]]]]]]]]].
    destruct (Hev L2 t2 y y' tr2 Hlow2 T2 T3 T5) as [L3 [p' [tr3 [K1 [K2 K3]]]]].
    eapply reach_ok; [exact K3|]. exists y', L3, p', tr3. split; [|auto].
    intros l Hl0. rewrite (Hy l Hl0), (Hx1 l Hl0), S_INR. unfold moved. destruct (mem l (b_gates b)); unfold Rdiv; ring.
Qed.

Lemma measured_ext b f j : In (b, f) tower -> nth_error tower j = Some (b, f) -> forall v v', (forall l, In l all -> v l = v' l) -> forall q, In q (b_params b) -> f v q = f v' q.
Proof.
  intros Hin Hj v v' Hv q Hq. destruct (wf_in _ Hin) as [Wb _]. cbn [fst] in Wb. destruct Wb as [_ [_ [_ [_ [_ [_ [W7 _]]]]]]]. pose proof (W7 q Hq) as Hqm.
  pose proof (Hmeas j b f Hj v) as K. rewrite (vec_ext all v v' Hv), (Hmeas j b f Hj) in K. injection K as K _. symmetry.
  clear -K Hqm. revert K. induction (b_measured b) as [|k ks IH]; [destruct Hqm|]. cbn. intros K. injection K as K1 K2. destruct Hqm as [<-|Hqm]; [exact K1|exact (IH Hqm K2)].
Qed.
Lemma moves_scale b w h t : (0 < t)%R -> moves b w h -> moves b (fun q => t * w q)%R (fun l => t * h l)%R.
Proof.
  intros Ht [H1 H2]. split.
  - intros q Hq. rewrite dot_scale_r, (H1 q Hq). reflexivity.
  - intros y Hy. assert (Hy' : changes b w (fun l => / t * y l)%R) by (intros q Hq; rewrite dot_scale_r, (Hy q Hq); field; lra).
    pose proof (H2 _ Hy') as K. rewrite dot_scale_r, (dot_comm _ (fun l => / t * y l)%R), dot_scale_r in K.
    rewrite dot_scale_r, (dot_comm _ (fun l => t * h l)%R), dot_scale_r. apply Rmult_le_compat_l with (r := (t * t)%R) in K; [|nra].
    replace (t * t * (/ t * (/ t * dot (b_gates b) y y)))%R with (dot (b_gates b) y y) in K by (field; lra). lra.
Qed.

(** [a]: steps of full length that the promised gain pays for; [c]: steps
    without limit. *)
Lemma limited_rounds pre b f post m P rho r0 G : b_size b = Fin m -> (0 < m)%R -> (1 <= b_max b)%Z -> tower = pre ++ (b, f) :: post -> (forall x, In x P -> coherent sg sn all x) ->
  (0 <= rho < 1)%R -> follows b f rho r0 -> (0 < G)%R -> (forall w h r, (forall q, In q (b_params b) -> Rabs (w q) <= r)%R -> moves b w h -> (rnorm (b_gates b) h <= G * r)%R) ->
  forall B a c L p v tr r, a + c <= B -> Forall2 (ready v) pre L -> stands (b, f) v p -> hits b f v = false -> (r <= r0)%R ->
  (forall q, In q (b_params b) -> Rabs (short_of b f v q) <= r)%R -> (forall q, In q (b_params b) -> rho ^ c * r < b_tol b q)%R -> (G * r <= INR a * ((1 - rho) * m))%R ->
  exists k v' L' p' tr', k <= (a + c) * (length pre + 3) /\ iterates E k (st (length pre) true v (L ++ p :: P) tr) = (st (S (length pre)) false v' (L' ++ p' :: P) tr', Ok tt) /\
    Forall2 (ready v') pre L' /\ ready v' (b, f) p' /\ (forall l, In l all -> ~ In l (b_gates b) -> v' l = v l).
Proof.
  intros Hsz Hm HN Ht HP Hrho Hfol HG Hnorm.
  assert (Hin : In (b, f) tower) by (rewrite Ht; apply in_or_app; right; left; reflexivity). destruct (wf_in _ Hin) as [Wb _]. cbn [fst] in Wb.
  induction B as [|B IH]; intros a c L p v tr r HB HL Hp Hh Hr0 Hr Hc Ha.
  - exfalso. assert (c = 0) by lia. subst c. rewrite (proj2 (hits_hit b f v)) in Hh; [discriminate|]. intros q Hq. pose proof (Hc q Hq) as K. cbn in K. pose proof (Hr q Hq). lra.
  - assert (Hpos : (0 <= r)%R).
    { destruct Wb as [_ [_ [_ [_ [_ [W6 _]]]]]]. destruct (b_params b) as [|q qs]; [congruence|]. eapply Rle_trans; [apply Rabs_pos|exact (Hr q (or_introl eq_refl))]. }
    destruct (limited_round pre b f post m P L p v tr Hsz Hm HN Ht HP HL Hp) as [h [k [t [Hmv [Hk [Hcase [k1 [s1 [Hk1 [[Hit1 Hs1]|[_ []]]]]]]]]]]].
    destruct Hs1 as [v1 [L1 [p1 [tr1 [Hv1 [HL1 [Hp1 ->]]]]]]].
    assert (Hpay : exists a' c' r', a' + c' + k = a + c /\ (0 < t)%R /\ (r' <= r)%R /\ ((1 - t) * r + rho * (t * r) <= r')%R /\ (t <= 1)%R /\ (forall q, In q (b_params b) -> rho ^ c' * r' < b_tol b q)%R /\ (G * r' <= INR a' * ((1 - rho) * m))%R).
    { destruct Hcase as [[Hs [-> ->]]|[Hlong [HkN ->]]].
      - destruct c as [|c].
        + exfalso. rewrite (proj2 (hits_hit b f v)) in Hh; [discriminate|]. intros q Hq. pose proof (Hc q Hq) as K. cbn in K. pose proof (Hr q Hq). lra.
        + exists a, c, (rho * r)%R. split; [lia|]. split; [lra|]. split; [nra|]. split; [lra|]. split; [lra|]. split.
          * intros q Hq. pose proof (Hc q Hq) as K. cbn [pow] in K. replace (rho ^ c * (rho * r))%R with (rho * rho ^ c * r)%R by ring. exact K.
          * eapply Rle_trans; [|exact Ha]. apply Rmult_le_compat_l; nra.
      - set (N := rnorm (b_gates b) h) in *. assert (HN0 : (0 < N)%R) by lra. pose proof (Hnorm _ _ _ Hr Hmv) as Hn1. fold N in Hn1.
        assert (Hkp : (0 < INR k)%R) by (apply (lt_INR 0 k); lia).
        set (t := (INR k * m / N)%R). assert (HtN : (t * N = INR k * m)%R) by (unfold t; field; lra).
        assert (Htp : (0 < t)%R) by (unfold t; apply Rdiv_lt_0_compat; [apply Rmult_lt_0_compat; lra|exact HN0]).
        assert (Ht1 : (t <= 1)%R) by (apply Rmult_le_reg_r with N; lra).
        assert (Hka : k <= a).
        { apply INR_le. apply Rmult_le_reg_r with ((1 - rho) * m)%R; [apply Rmult_lt_0_compat; lra|]. eapply Rle_trans; [|exact Ha].
          replace (INR k * ((1 - rho) * m))%R with ((1 - rho) * (INR k * m))%R by ring. assert (INR k * m <= G * r)%R by lra. assert (0 < INR k * m)%R by (apply Rmult_lt_0_compat; lra). nra. }
        exists (a - k), c, (r - (1 - rho) * (t * r))%R. assert (0 <= t * r)%R by nra. split; [lia|]. split; [exact Htp|]. split; [nra|]. split; [lra|]. split; [exact Ht1|]. split.
        + intros q Hq. eapply Rle_lt_trans; [|exact (Hc q Hq)]. apply Rmult_le_compat_l; [apply pow_le; lra|nra].
        + rewrite minus_INR by exact Hka. assert (INR k * m <= t * (G * r))%R by (rewrite <- HtN; apply Rmult_le_compat_l; lra).
          assert ((1 - rho) * (INR k * m) <= (1 - rho) * (t * (G * r)))%R by (apply Rmult_le_compat_l; lra). lra. }
    destruct Hpay as [a' [c' [r' [Hac [Htp [Hrr [Hr' [Ht1 [Hc' Ha']]]]]]]]].
    assert (Hout : forall l, In l all -> ~ In l (b_gates b) -> v1 l = v l) by (intros l Hl Hni; rewrite (Hv1 l Hl); unfold moved; rewrite (proj2 (SeriesLemmas.mem_false l (b_gates b)) Hni); lra).
    destruct (hits b f v1) eqn:Hh1; cbn [negb] in Hit1.
    + exists k1, v1, L1, p1, tr1. split; [nia|]. split; [exact Hit1|]. split; [exact HL1|]. split; [split; [exact Hp1|apply hits_hit, Hh1]|exact Hout].
    + assert (Hr1 : forall q, In q (b_params b) -> (Rabs (short_of b f v1 q) <= r')%R).
      { intros q Hq. replace (short_of b f v1 q) with (short_of b f (moved b (fun l => t * h l)%R v) q).
        2:{ unfold short_of. rewrite (measured_ext b f (length pre) Hin (nth_middle_storey _ _ _ Ht) v1 _ Hv1 q Hq). reflexivity. }
        rewrite (short_moved all b Wb f v _ q Hq).
        assert (K : (Rabs (change b f (fun l => t * h l) v q - t * short_of b f v q) <= rho * (t * r))%R).
        { apply (Hfol v (fun l => t * h l)%R (fun q => t * short_of b f v q)%R (t * r)%R); [nra| | |apply moves_scale; assumption|exact Hq].
          - intros q' Hq'. eapply Rle_trans; [apply Hr, Hq'|exact Hr0].
          - intros q' Hq'. rewrite Rabs_mult, (Rabs_pos_eq t) by lra. apply Rmult_le_compat_l; [lra|apply Hr, Hq']. }
        replace (short_of b f v q - change b f (fun l => t * h l) v q)%R with ((1 - t) * short_of b f v q - (change b f (fun l => t * h l) v q - t * short_of b f v q))%R by ring.
        eapply Rle_trans; [apply Rabs_triang|]. rewrite Rabs_Ropp, Rabs_mult, (Rabs_pos_eq (1 - t)) by lra.
        pose proof (Rmult_le_compat_l (1 - t) _ _ ltac:(lra) (Hr q Hq)). lra. }
      destruct (IH a' c' L1 p1 v1 tr1 r' ltac:(lia) HL1 Hp1 Hh1 ltac:(lra) Hr1 Hc' Ha') as [k2 [v2 [L2 [p2 [tr2 [Hk2 [Hit2 [HL2 [Hp2 Ho2]]]]]]]]].
      exists (k1 + k2), v2, L2, p2, tr2. split; [rewrite <- Hac; nia|]. split; [etransitivity; [exact (iterates_app E k1 k2 _ _ Hit1)|exact Hit2]|]. split; [exact HL2|]. split; [exact Hp2|].
      intros l Hl Hni. rewrite (Ho2 l Hl Hni). apply Hout; assumption.
Qed.

(** [cap i m]: tuner [i] may need [m] calls after its first evaluation, once the
    lower tuners are tuned. *)
Variable cap : nat -> nat -> Prop.
Hypothesis Hcap0 : forall i, cap i 0.
Hypothesis Hcap : forall pre b f post P L p v tr, tower = pre ++ (b, f) :: post -> (forall x, In x P -> coherent sg sn all x) -> Forall2 (ready v) pre L -> stands (b, f) v p -> hits b f v = false ->
  (forall l, In l all -> (forall s, In s pre -> ~ In l (b_gates (fst s))) -> v l = p0 l) ->
  exists m v' L' p' tr', cap (length pre) m /\ iterates E m (st (length pre) true v (L ++ p :: P) tr) = (st (S (length pre)) false v' (L' ++ p' :: P) tr', Ok tt) /\
    Forall2 (ready v') pre L' /\ ready v' (b, f) p' /\ (forall l, In l all -> ~ In l (b_gates b) -> v' l = v l).

Lemma run_tower : forall post pre L v tr, tower = pre ++ post -> Forall2 (ready v) pre L -> (forall l, In l all -> (forall s, In s pre -> ~ In l (b_gates (fst s))) -> v l = p0 l) ->
  exists m ks v' L' tr', iterates E m (st (length pre) false v (L ++ map (fun s => start p0 (fst s)) post ++ rest) tr) = (st (length tower) false v' (L' ++ rest) tr', Ok tt) /\
    length ks = length post /\ (forall j k, nth_error ks j = Some k -> cap (length pre + j) k) /\ m = list_sum (map S ks) /\
    Forall2 (ready v') tower L' /\ (forall l, In l all -> (forall s, In s tower -> ~ In l (b_gates (fst s))) -> v' l = p0 l).
Proof.
  induction post as [|[b f] post IH]; intros pre L v tr Ht HL Hv.
  - rewrite app_nil_r in Ht. subst pre. exists 0, [], v, L, tr. split; [reflexivity|]. split; [reflexivity|]. split; [intros [|j] k Hj; discriminate|]. split; [reflexivity|]. split; [exact HL|exact Hv].
  - assert (Hin : In (b, f) tower) by (rewrite Ht; apply in_or_app; right; left; reflexivity).
    assert (Hi1 : incl pre tower) by (intros y Hy; rewrite Ht; apply in_or_app; left; exact Hy).
    assert (Hi2 : incl post tower) by (intros y Hy; rewrite Ht; apply in_or_app; right; right; exact Hy).
    destruct (wf_in _ Hin) as [Wb Wg]. cbn [fst snd] in Wb, Wg.
    set (P := map (fun s => start p0 (fst s)) post ++ rest).
    assert (HP : forall x, In x P -> coherent sg sn all x).
    { intros x Hx. apply in_app_or in Hx. destruct Hx as [Hx|Hx]; [|apply Hrest, Hx]. apply in_map_iff in Hx. destruct Hx as [s [<- Hs]]. apply start_coherent. apply wf_in, Hi2, Hs. }
    destruct (eval_start b f (length pre) L P Wb (index_bound _ _ _ Ht) (Hmeas _ _ _ (nth_middle_storey _ _ _ Ht)) (eq_sym (F2_length _ _ _ HL)) (stands_all_coherent v pre L Hi1 (ready_stands _ _ _ HL)) HP v tr Wg) as [p [tr1 [Hp Hit1]]].
    rewrite (start_agree b v p0) in Hit1.
    2:{ intros l Hl. apply Hv; [apply Wb, Hl|]. intros s Hs. rewrite Ht in Hst. pose proof (pairs_app _ _ _ Hst s (b, f) Hs (or_introl eq_refl)) as K. apply (proj1 K l Hl). }
    assert (Hgo : exists m1 v1 L1 p1 tr2, cap (length pre) m1 /\ iterates E m1 (st (if hits b f v then S (length pre) else length pre) (negb (hits b f v)) v (L ++ p :: P) tr1) = (st (S (length pre)) false v1 (L1 ++ p1 :: P) tr2, Ok tt) /\
       Forall2 (ready v1) pre L1 /\ ready v1 (b, f) p1 /\ (forall l, In l all -> ~ In l (b_gates b) -> v1 l = v l)).
    { destruct (hits b f v) eqn:Hh; cbn [negb].
      - exists 0, v, L, p, tr1. split; [apply Hcap0|]. split; [reflexivity|]. split; [exact HL|]. split; [split; [exact Hp|apply hits_hit, Hh]|reflexivity].
      - exact (Hcap pre b f post P L p v tr1 Ht HP HL Hp Hh Hv). }
    destruct Hgo as [m1 [v1 [L1 [p1 [tr2 [Hm1 [Hit2 [HL1 [Hp1 Ho1]]]]]]]]].
    destruct (IH (pre ++ [(b, f)]) (L1 ++ [p1]) v1 tr2) as [m2 [ks [v2 [L2 [tr3 [Hit3 [Hks [Hck [Hm2 [HL2 Ho2]]]]]]]]]].
    { rewrite <- app_assoc. exact Ht. }
    { apply Forall2_app; [exact HL1|]. constructor; [exact Hp1|constructor]. }
    { intros l Hl Hni. assert (Hb0 : ~ In l (b_gates b)) by (apply (Hni (b, f)), in_or_app; right; left; reflexivity).
      rewrite (Ho1 l Hl Hb0). apply Hv; [exact Hl|].
      intros s Hs. apply Hni, in_or_app. left; exact Hs. }
    rewrite app_length in Hit3, Hck. cbn [length] in Hit3, Hck. rewrite Nat.add_1_r, <- !app_assoc in Hit3. cbn [app] in Hit3.
    exists (1 + (m1 + m2)), (m1 :: ks), v2, L2, tr3. split; [|split; [|split; [|split; [|split]]]].
    + cbn [map app]. etransitivity; [exact (iterates_app E 1 _ _ _ (iterates_one E _ _ Hit1))|]. etransitivity; [exact (iterates_app E m1 m2 _ _ Hit2)|]. exact Hit3.
    + cbn. rewrite Hks. reflexivity.
    + intros [|j] k Hj; cbn in Hj; [injection Hj as <-; rewrite Nat.add_0_r; exact Hm1|]. replace (length pre + S j) with (length pre + 1 + j) by lia. apply Hck, Hj.
    + cbn [map list_sum fold_right]. unfold list_sum in Hm2. lia.
    + exact HL2.
    + exact Ho2.
Qed.
End Tower.
