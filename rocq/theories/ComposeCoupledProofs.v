From Verif Require Import PyBase TargetModel TunerModel TunerSpec SeriesLemmas TunerProofs SolverModel SensingDotProofs NewtonModel EstimatorModel NewtonSpec NewtonProofs EstimatorProofs GradientProps AutotunerModel AutotunerProofs ComposeModel KernelR ComposeSpec ComposeProofs ComposeHierarchy ComposeCoupledSpec.
From Coq Require Import Lra ZArith.
Local Open Scope list_scope.

Section Coupled.
Variable ortho : list (list num) -> res (list num).
Variable calc : list measurement -> res (list num * list (list num)).
Variable lstsq : list series -> list num -> res (list num).
Hypothesis Hmin : lstsq_shortest lstsq.
Variable all : list label.
Hypothesis Hall : NoDup all.
Variable results : nat -> series -> res (series * series).
Variables (n : nat) (path : option string).
Let E := newton_hierarchy ortho calc lstsq results n.
Let sg := fun s : newton fd => index (nw_pos s).
Let sn := fun s : newton fd => Some (map (fun g => Some (index (fd_pos g))) (nw_ests s)).
Let par (b : block) (v : label -> R) (q : label) : R := (measured all b v q / b_factor b q)%R.
Let measures := measures all results.
Let st (j : nat) (b : bool) (v : label -> R) (parts : list (part (newton fd))) (tr : list event) :=
  mk_sys (mk_at j b None path) (mk_world (vec all v) parts) tr.

(** A tuner with known gradients that was evaluated at the voltages [v]. *)
Definition evaluated_at (b : block) (v : label -> R) (p : part (newton fd)) : Prop :=
  exists p0 t ests, p = mk_part t (mk_newton (b_goal b) ests (vec (b_gates b) v) (vec (b_params b) (par b v))) (mk_limits (b_size b) (b_max b)) (b_tunable b) /\
    (t_last t = Some (vec all v) /\ t_params t = vec (b_params b) (par b v) /\ t_failed t = false /\ t_queue t = 0%Z) /\
    Forall2 (learnt (b_gates b) (b_factor b) (b_eps b) (b_slope b) p0) (b_params b) ests.
Definition tuned_at (b : block) (v : label -> R) : bool := reached (b_params b) (b_desired b) (b_tol b) (par b v).

Lemma tuned_met b v : tuned_at b v = true <-> met all b v.
Proof. apply reached_iff. Qed.
Lemma evaluated_coherent b v p : well_formed all b -> evaluated_at b v p -> coherent sg sn all p.
Proof.
  intros [_ [_ [Hin [Htg _]]]] [p0 [t [ests [-> [[Hl _] Hs]]]]]. unfold coherent, sg, sn. cbn [p_tuner p_solver p_gates nw_pos nw_ests].
  rewrite Hl, !index_vec. split; [apply incl_refl|]. split; [exact Hin|]. intros e He. apply in_map_iff in He. destruct He as [g [<- Hg]].
  pose proof (learnt_pos _ _ _ _ _ _ _ Hs) as Hp. rewrite Forall_forall in Hp. exists (b_gates b). rewrite (Hp g Hg). auto.
Qed.
Lemma evaluated_last b v p : evaluated_at b v p -> t_last (p_tuner p) = Some (vec all v).
Proof. intros [p0 [t [ests [-> [[H _] _]]]]]. exact H. Qed.
Lemma evaluated_target b v p : evaluated_at b v p -> nw_target (p_solver p) = b_goal b.
Proof. intros [p0 [t [ests [-> _]]]]. reflexivity. Qed.

Section One.
Variables (i : nat) (b : block) (pre rest : list (part (newton fd))).
Hypothesis Hb : well_formed all b.
Hypothesis Hm : measures i b.
Hypothesis Hi : i <> n.
Hypothesis Hlen : length pre = i.
Hypothesis Hpre : forall p, In p pre -> coherent sg sn all p.
Hypothesis Hrest : forall p, In p rest -> coherent sg sn all p.

Lemma eval_again v v' p tr : evaluated_at b v p -> exists p' tr', evaluated_at b v' p' /\
  iterate E (st i false v' (pre ++ p :: rest) tr) =
  (st (if tuned_at b v' then S i else i) (negb (tuned_at b v')) v' (pre ++ p' :: rest) tr', Ok tt).
Proof.
  intros [p0 [t [ests [-> [Hg Hl]]]]]. destruct Hb as [W1 [W2 [W3 [W4 [W5 [W6 [W7 [W8 W9]]]]]]]]. destruct Hg as [G1 [G2 [G3 G4]]].
  destruct (nw_update_forall ortho calc lstsq all (b_gates b) (b_params b) (b_desired b) (b_tol b) (b_factor b) W2 W3 W6
     (learnt (b_gates b) (b_factor b) (b_eps b) (b_slope b) p0) v' (par b v') (fun q => ndiv (b_var b v' q) (Fin (b_factor b q * b_factor b q)))
     (vec (b_gates b) v) (vec (b_params b) (par b v)) ests) as [ests' [Hu Hl2]].
  { apply index_vec. } { apply index_vec. }
  { revert Hl. apply F2_impl. intros q g _ [pts [cov [req ->]]]. eexists. split.
    + apply (update_done calc all (b_gates b) p0 (b_eps b q) W2 (v', par b v' q, ndiv (b_var b v' q) (Fin (b_factor b q * b_factor b q)))).
    + exists pts, cov, req. reflexivity. }
  set (low := fun (_ : label -> R) L => L = pre).
  destruct (do_eval_W ortho calc lstsq all (b_gates b) (b_params b) (b_measured b) (b_tunable b) (b_desired b) (b_tol b) (b_factor b)
              W3 W4 W5 W6 W7 (fun q Hq => proj1 (W8 q Hq)) (b_const b) (b_slope b) (b_var b) results i Hm (mk_limits (b_size b) (b_max b)) rest path Hrest n Hi low)
    with (v0 := v) (L := pre) (v := v') (t := t) (s := mk_newton (b_goal b) ests (vec (b_gates b) v) (vec (b_params b) (par b v)))
     (s' := mk_newton (b_goal b) ests' (vec (b_gates b) v') (vec (b_params b) (par b v'))) (tr := tr) as [t' [tr' [H2 Hg']]]; try reflexivity; try assumption.
  - intros x L ->. exact Hlen.
  - intros x L ->. exact Hpre.
  - rewrite G2. apply index_vec.
  - rewrite G1, index_vec. apply incl_refl.
  - cbn [nw_pos]. rewrite index_vec. exact W3.
  - exact (learnt_pos _ _ _ _ _ _ _ Hl).
  - eexists. exists tr'. split; [|exact H2]. exists p0, t', ests'. auto.
Qed.

Lemma eval_first v tr : b_given b = true -> exists p' tr', evaluated_at b v p' /\
  iterate E (st i false v (pre ++ start v b :: rest) tr) =
  (st (if tuned_at b v then S i else i) (negb (tuned_at b v)) v (pre ++ p' :: rest) tr', Ok tt).
Proof.
  intros Hgv. destruct Hb as [W1 [W2 [W3 [W4 [W5 [W6 [W7 [W8 W9]]]]]]]]. set (low := fun (_ : label -> R) L => L = pre).
  destruct (first_eval ortho calc lstsq all (b_gates b) (b_params b) (b_measured b) (b_tunable b) (b_desired b) (b_tol b) (b_factor b) (b_eps b)
              W1 W2 W3 W4 W5 W6 W7 (fun q Hq => proj1 (W8 q Hq)) (b_const b) (b_slope b) (b_var b) results i Hm v (mk_limits (b_size b) (b_max b)) rest path Hrest n Hi low)
    with (given := b_given b) (known := b_known b) (L := pre) (pos := vec (b_gates b) v) (vals := tab (b_params b) (fun _ => NaN)) (t := fresh_tuner (relevant (b_goal b))) (tr := tr)
    as [t' [ests' [tr' [H2 [Hg' Hl]]]]]; try reflexivity.
  - intros x L ->. exact Hlen.
  - intros x L ->. exact Hpre.
  - apply index_vec.
  - apply index_tab.
  - unfold b_goal. rewrite relevant_goal. cbn. unfold index. rewrite map_map. apply map_id.
  - eexists. exists tr'. split; [|exact H2]. rewrite Hgv in Hl. exists v, t', ests'. auto.
Qed.

(** The step of the tuner; its state stays. *)
Lemma step_part v p tr : unlimited b -> evaluated_at b v p ->
  (forall x L, pre = x :: L -> t_last (p_tuner x) = Some (vec all v)) ->
  (forall x q, In x pre -> In q (b_params b) -> ~ In q (relevant (nw_target (p_solver x)))) ->
  exists h tr', moves b (missing all b v) h /\
  iterates E 2 (st i true v (pre ++ p :: rest) tr) =
  (st 0 false (fun l => v l + if mem l (b_gates b) then h l else 0)%R (pre ++ p :: rest) tr', Ok tt).
Proof.
  intros Hun [p0 [t [ests [-> [Hg Hl]]]]] Hlast Hnames. destruct Hb as [W1 [W2 [W3 [W4 [W5 [W6 [W7 [W8 W9]]]]]]]].
  destruct (newton_from_exists lstsq all (b_gates b) (b_params b) (b_desired b) (b_factor b) W1 W2 W6 (fun q Hq => proj1 (W8 q Hq)) (b_const b) (b_slope b) W9 Hmin v) as [h Hh].
  set (low := fun (x : label -> R) L => x = v /\ L = pre). set (s := mk_newton (b_goal b) ests (vec (b_gates b) v) (vec (b_params b) (par b v))).
  destruct (next_set_any ortho calc lstsq all (b_gates b) (b_params b) (b_tunable b) Hall W3 W4 results i (mk_limits (b_size b) (b_max b)) rest path Hrest n Hi low)
    with (L := pre) (v := v) (t := t) (t' := t) (s := s) (s' := s) (v' := fun l => (v l + if mem l (b_gates b) then h l else 0)%R) (tr := tr) as [tr' Hit].
  - intros x L [_ ->]. exact Hlen.
  - intros x L [_ ->]. exact Hpre.
  - intros x y L [-> HL]. exact (Hlast y L (eq_sym HL)).
  - intros x L [_ ->] y q Hy Hq. exact (Hnames y q Hy Hq).
  - split; reflexivity.
  - exact (proj1 Hg).
  - exact (proj1 Hg).
  - cbn [s nw_pos]. rewrite index_vec. exact W3.
  - exact (learnt_pos _ _ _ _ _ _ _ Hl).
  - cbn [s nw_pos]. rewrite index_vec. exact W3.
  - exact (learnt_pos _ _ _ _ _ _ _ Hl).
  - intros tuned Htun. eexists. destruct Hg as [G1 [G2 [G3 G4]]].
    rewrite (next_unlimited (nw_ops (fd_ops ortho calc) lstsq) (mk_limits (b_size b) (b_max b)) tuned _ s all v (b_gates b) (fun l => v l + h l)%R); try assumption; try reflexivity.
    + cbn [ts_t ts_s ts_x ts_tr]. f_equal. f_equal. apply vec_ext. intros l _. unfold step_to. destruct (mem l (b_gates b)); lra.
    + exact (suggested ortho calc lstsq all (b_gates b) (b_params b) (b_desired b) (b_tol b) (b_factor b) (b_eps b) W2 W6 (b_const b) (b_slope b) p0 ests v v h tuned Hh Hl Htun).
  - exists h, tr'. split; [|exact Hit]. destruct Hh as [_ [H1 H2]]. split; [exact H1|exact H2].
Qed.
End One.

(** Parameters after a change of the gates of one tuner. *)
Lemma missing_moved (b x : block) v h q : well_formed all b -> In q (b_params b) -> NoDup (b_gates x) -> incl (b_gates x) all ->
  (missing all b (fun l => v l + if mem l (b_gates x) then h l else 0) q = missing all b v q - dot (b_gates x) (gradient b q) h)%R.
Proof.
  intros Hb Hq Hnd Hin. destruct Hb as [_ [_ [_ [_ [_ [_ [_ [W8 _]]]]]]]]. destruct (W8 q Hq) as [Hf _]. unfold missing, measured, affine.
  set (k := fun l => (if mem l (b_gates x) then h l else 0)%R).
  assert (H1 : (dot all (b_slope b q) (fun l => v l + k l) = dot all (b_slope b q) v + dot all (b_slope b q) k)%R).
  { replace (dot all (b_slope b q) k) with (dot all (b_slope b q) (fun l => (v l + k l) - v l)%R); [rewrite dot_sub_r; lra|]. apply dot_ext; intros; [reflexivity|lra]. }
  assert (H2 : (dot all (b_slope b q) k = dot (b_gates x) (b_slope b q) h)%R).
  { rewrite (dot_restrict label_dec (b_gates x) all) by (try assumption; intros l _ Hl; unfold k; rewrite (proj2 (SeriesLemmas.mem_false l (b_gates x)) Hl); reflexivity).
    apply dot_ext; intros l Hl; [reflexivity|]. unfold k. rewrite (proj2 (SeriesLemmas.mem_In l (b_gates x)) Hl). reflexivity. }
  assert (H3 : (dot (b_gates x) (gradient b q) h = / b_factor b q * dot (b_gates x) (b_slope b q) h)%R).
  { rewrite !(dot_comm (b_gates x) _ h), <- dot_scale_r. apply dot_ext; intros; [reflexivity|]. unfold gradient, Rdiv. lra. }
  change (b_desired b q - (b_const b q + dot all (b_slope b q) (fun l => v l + k l)) / b_factor b q =
          b_desired b q - (b_const b q + dot all (b_slope b q) v) / b_factor b q - dot (b_gates x) (gradient b q) h)%R.
  rewrite H1, H2, H3. field. exact Hf.
Qed.

Section Pair.
Variables (b0 b1 : block) (rest : list (part (newton fd))).
Hypothesis Hb0 : well_formed all b0.
Hypothesis Hb1 : well_formed all b1.
Hypothesis Hu0 : unlimited b0.
Hypothesis Hu1 : unlimited b1.
Hypothesis Hsep : separate b0 b1.
Hypothesis Hn : 2 <= n.
Hypothesis Hm0 : measures 0 b0.
Hypothesis Hm1 : measures 1 b1.
Hypothesis Hrest : forall p, In p rest -> coherent sg sn all p.
Let shift (b : block) (h v : label -> R) (l : label) : R := (v l + if mem l (b_gates b) then h l else 0)%R.

Lemma shift_missing b x v h q : well_formed all b -> well_formed all x -> In q (b_params b) ->
  (missing all b (shift x h v) q = missing all b v q - dot (b_gates x) (gradient b q) h)%R.
Proof. intros Hb Hx Hq. destruct Hx as [X1 [_ [X3 _]]]. apply missing_moved; assumption. Qed.
Lemma shift_own b v h q : well_formed all b -> In q (b_params b) -> moves b (missing all b v) h -> (missing all b (shift b h v) q = 0)%R.
Proof. intros Hb Hq Hh. rewrite shift_missing by assumption. rewrite (proj1 Hh q Hq). lra. Qed.
Lemma exact_tuned b v : well_formed all b -> (forall q, In q (b_params b) -> missing all b v q = 0%R) -> tuned_at b v = true.
Proof.
  intros Hb Hz. apply tuned_met. intros q Hq. fold (missing all b v q). rewrite (Hz q Hq), Rabs_R0.
  destruct Hb as [_ [_ [_ [_ [_ [_ [_ [W8 _]]]]]]]]. apply (proj1 (proj2 (W8 q Hq))).
Qed.

(** The pair is tuned. *)
Definition complete (v : label -> R) (s : sys (world (newton fd))) : Prop :=
  exists pa pb tr, s = st 2 false v (pa :: pb :: rest) tr /\ met all b0 v /\ met all b1 v.
(** The first tuner is tuned, the second one has to be tuned. *)
Definition second (v : label -> R) (s : sys (world (newton fd))) : Prop :=
  exists pa pb tr, s = st 1 true v (pa :: pb :: rest) tr /\ evaluated_at b0 v pa /\ evaluated_at b1 v pb /\ met all b0 v /\ tuned_at b1 v = false.
Definition outside (v v' : label -> R) : Prop := forall l, In l all -> ~ In l (b_gates b0) -> ~ In l (b_gates b1) -> v' l = v l.

Let coh0 v p : evaluated_at b0 v p -> coherent sg sn all p := evaluated_coherent b0 v p Hb0.
Let coh1 v p : evaluated_at b1 v p -> coherent sg sn all p := evaluated_coherent b1 v p Hb1.

Lemma in_one {A} (P : A -> Prop) x : P x -> forall y, In y [x] -> P y.
Proof. intros H y [<-|[]]. exact H. Qed.
Lemma in_cons_rest {A} (P : A -> Prop) x l : P x -> (forall y, In y l -> P y) -> forall y, In y (x :: l) -> P y.
Proof. intros H Hl y [<-|Hy]; auto. Qed.

(** The second tuner is evaluated. *)
Lemma eval_second v v1 pa pb tr : evaluated_at b0 v pa -> evaluated_at b1 v1 pb -> met all b0 v ->
  exists s', iterates E 1 (st 1 false v (pa :: pb :: rest) tr) = (s', Ok tt) /\ if tuned_at b1 v then complete v s' else second v s'.
Proof.
  intros Ha Hb Hmet.
  destruct (eval_again 1 b1 [pa] rest Hb1 Hm1 ltac:(lia) eq_refl (in_one _ pa (coh0 v pa Ha)) Hrest v1 v pb tr Hb) as [pb' [tr' [Hb' Hi]]].
  cbn [app] in Hi. eexists. split; [apply iterates_one; exact Hi|].
  destruct (tuned_at b1 v) eqn:Ht; cbn [negb].
  - exists pa, pb', tr'. split; [reflexivity|]. split; [exact Hmet|apply tuned_met, Ht].
  - exists pa, pb', tr'. auto.
Qed.

(** The first tuner is evaluated and, if necessary, makes a step. *)
Lemma tune_first v v0 v1 pa pb tr : evaluated_at b0 v0 pa -> evaluated_at b1 v1 pb ->
  exists k s' pa' tr', s' = st 1 false (if tuned_at b0 v then v else k) (pa' :: pb :: rest) tr' /\
    iterates E (if tuned_at b0 v then 1 else 4) (st 0 false v (pa :: pb :: rest) tr) = (s', Ok tt) /\
    evaluated_at b0 (if tuned_at b0 v then v else k) pa' /\ met all b0 (if tuned_at b0 v then v else k) /\
    exists h, k = shift b0 h v /\ (tuned_at b0 v = false -> moves b0 (missing all b0 v) h).
Proof.
  intros Ha Hb.
  assert (Hr : forall p, In p (pb :: rest) -> coherent sg sn all p) by (apply in_cons_rest; [exact (coh1 v1 pb Hb)|exact Hrest]).
  assert (Hnil : forall p, In p (@nil (part (newton fd))) -> coherent sg sn all p) by (intros p []).
  destruct (eval_again 0 b0 [] (pb :: rest) Hb0 Hm0 ltac:(lia) eq_refl Hnil Hr v0 v pa tr Ha) as [pa' [tr' [Ha' Hi]]]. cbn [app] in Hi.
  destruct (tuned_at b0 v) eqn:Ht; cbn [negb] in Hi.
  - exists (shift b0 v v). eexists. exists pa', tr'. split; [reflexivity|]. split; [apply iterates_one; exact Hi|]. split; [exact Ha'|]. split; [apply tuned_met, Ht|].
    exists v. split; [reflexivity|discriminate].
  - destruct (step_part 0 b0 [] (pb :: rest) Hb0 ltac:(lia) eq_refl Hnil Hr v pa' tr' Hu0 Ha') as [h [tr2 [Hh H2]]].
    { discriminate. } { intros x q []. }
    cbn [app] in H2. fold (shift b0 h v) in H2.
    destruct (eval_again 0 b0 [] (pb :: rest) Hb0 Hm0 ltac:(lia) eq_refl Hnil Hr v (shift b0 h v) pa' tr2 Ha') as [pa2 [tr3 [Ha2 H3]]]. cbn [app] in H3.
    rewrite (exact_tuned b0 (shift b0 h v) Hb0 (fun q Hq => shift_own b0 v h q Hb0 Hq Hh)) in H3. cbn [negb] in H3.
    exists (shift b0 h v). eexists. exists pa2, tr3. split; [reflexivity|]. split; [|split; [exact Ha2|split; [|exists h; auto]]].
    + change 4 with (1 + (2 + 1)). rewrite (iterates_app E 1 (2 + 1) _ _ (iterates_one E _ _ Hi)). rewrite (iterates_app E 2 1 _ _ H2). apply iterates_one. exact H3.
    + apply tuned_met, exact_tuned; [exact Hb0|]. intros q Hq. apply shift_own; assumption.
Qed.

(** One turn: a step of the second tuner, then the first one again. *)
Lemma turn v s : second v s -> exists h1 s' m, 0 < m <= 7 /\ moves b1 (missing all b1 v) h1 /\ iterates E m s = (s', Ok tt) /\
  let v1 := shift b1 h1 v in
  if tuned_at b0 v1 then complete v1 s'
  else exists h0, moves b0 (missing all b0 v1) h0 /\ let v2 := shift b0 h0 v1 in if tuned_at b1 v2 then complete v2 s' else second v2 s'.
Proof.
  intros [pa [pb [tr [-> [Ha [Hb [Hmet _]]]]]]].
  destruct (step_part 1 b1 [pa] rest Hb1 ltac:(lia) eq_refl (in_one _ pa (coh0 v pa Ha)) Hrest v pb tr Hu1 Hb) as [h1 [tr1 [Hh1 H1]]].
  { intros x L [= <- _]. exact (evaluated_last b0 v pa Ha). }
  { intros x q [<-|[]] Hq. rewrite (evaluated_target b0 v pa Ha). unfold b_goal. rewrite relevant_goal. intros Hc. exact (proj2 Hsep q Hc Hq). }
  cbn [app] in H1. fold (shift b1 h1 v) in H1. set (v1 := shift b1 h1 v) in *.
  destruct (tune_first v1 v v pa pb tr1 Ha Hb) as [v2 [s2 [pa2 [tr2 [-> [H2 [Ha2 [Hmet2 [h0 [Hv2 Hh0]]]]]]]]]].
  assert (Hex : tuned_at b1 v1 = true) by (apply exact_tuned; [exact Hb1|]; intros q Hq; apply shift_own; assumption).
  destruct (tuned_at b0 v1) eqn:Ht.
  - destruct (eval_second v1 v pa2 pb tr2 Ha2 Hb Hmet2) as [s3 [H3 H4]]. rewrite Hex in H4.
    exists h1, s3, (2 + (1 + 1)). split; [lia|]. split; [exact Hh1|]. split.
    + rewrite (iterates_app E 2 _ _ _ H1), (iterates_app E 1 _ _ _ H2). exact H3.
    + cbn zeta. fold v1. rewrite Ht. exact H4.
  - destruct (eval_second v2 v pa2 pb tr2 Ha2 Hb Hmet2) as [s3 [H3 H4]].
    exists h1, s3, (2 + (4 + 1)). split; [lia|]. split; [exact Hh1|]. split.
    + rewrite (iterates_app E 2 _ _ _ H1), (iterates_app E 4 _ _ _ H2). exact H3.
    + cbn zeta. fold v1. rewrite Ht. exists h0. split; [apply Hh0; reflexivity|]. rewrite <- Hv2. exact H4.
Qed.

(** From the start to the second tuner. *)
Lemma pair_start p0 : b_given b0 = true -> b_given b1 = true ->
  exists v m s', m <= 5 /\ iterates E m (fresh path (mk_world (vec all p0) (start p0 b0 :: start p0 b1 :: rest))) = (s', Ok tt) /\
    (if tuned_at b1 v then complete v s' else second v s') /\
    (if tuned_at b0 p0 then m = 2 /\ v = p0 else exists h, v = shift b0 h p0 /\ moves b0 (missing all b0 p0) h).
Proof.
  intros G0 G1.
  assert (Hs1 : coherent sg sn all (start p0 b1)) by (apply start_coherent; exact Hb1).
  assert (Hr : forall p, In p (start p0 b1 :: rest) -> coherent sg sn all p) by (apply in_cons_rest; [exact Hs1|exact Hrest]).
  assert (Hnil : forall p, In p (@nil (part (newton fd))) -> coherent sg sn all p) by (intros p []).
  assert (Hfirst : forall v pa tr, (forall l, In l (b_gates b1) -> v l = p0 l) -> evaluated_at b0 v pa -> met all b0 v ->
    exists s', iterates E 1 (st 1 false v (pa :: start p0 b1 :: rest) tr) = (s', Ok tt) /\ if tuned_at b1 v then complete v s' else second v s').
  { intros v pa tr Hv Ha Hmet. rewrite (start_agree b1 p0 v) by (intros l Hl; symmetry; apply Hv, Hl).
    destruct (eval_first 1 b1 [pa] rest Hb1 Hm1 ltac:(lia) eq_refl (in_one _ pa (coh0 v pa Ha)) Hrest v tr G1) as [pb [tr' [Hb Hi]]].
    cbn [app] in Hi. eexists. split; [apply iterates_one; exact Hi|]. destruct (tuned_at b1 v) eqn:Ht; cbn [negb].
    - exists pa, pb, tr'. split; [reflexivity|]. split; [exact Hmet|apply tuned_met, Ht].
    - exists pa, pb, tr'. auto. }
  destruct (eval_first 0 b0 [] (start p0 b1 :: rest) Hb0 Hm0 ltac:(lia) eq_refl Hnil Hr p0 [] G0) as [pa [tr [Ha Hi]]]. cbn [app] in Hi.
  change (fresh path (mk_world (vec all p0) (start p0 b0 :: start p0 b1 :: rest))) with (st 0 false p0 (start p0 b0 :: start p0 b1 :: rest) []).
  destruct (tuned_at b0 p0) eqn:Ht; cbn [negb] in Hi.
  - destruct (Hfirst p0 pa tr (fun l _ => eq_refl) Ha (proj1 (tuned_met b0 p0) Ht)) as [s' [H2 H3]].
    exists p0, (1 + 1), s'. split; [lia|]. split; [rewrite (iterates_app E 1 1 _ _ (iterates_one E _ _ Hi)); exact H2|]. auto.
  - destruct (step_part 0 b0 [] (start p0 b1 :: rest) Hb0 ltac:(lia) eq_refl Hnil Hr p0 pa tr Hu0 Ha) as [h [tr2 [Hh H2]]].
    { discriminate. } { intros x q []. }
    cbn [app] in H2. fold (shift b0 h p0) in H2.
    destruct (eval_again 0 b0 [] (start p0 b1 :: rest) Hb0 Hm0 ltac:(lia) eq_refl Hnil Hr p0 (shift b0 h p0) pa tr2 Ha) as [pa2 [tr3 [Ha2 H3]]]. cbn [app] in H3.
    assert (Hex : tuned_at b0 (shift b0 h p0) = true) by (apply exact_tuned; [exact Hb0|]; intros q Hq; apply shift_own; assumption).
    rewrite Hex in H3. cbn [negb] in H3.
    destruct (Hfirst (shift b0 h p0) pa2 tr3) as [s' [H4 H5]].
    { intros l Hl. unfold shift. rewrite (proj2 (SeriesLemmas.mem_false l (b_gates b0))) by (intros Hc; exact (proj1 Hsep l Hc Hl)). lra. }
    { exact Ha2. } { apply tuned_met, Hex. }
    exists (shift b0 h p0), (1 + (2 + (1 + 1))), s'. split; [lia|]. split; [|split; [exact H5|exists h; auto]].
    rewrite (iterates_app E 1 _ _ _ (iterates_one E _ _ Hi)), (iterates_app E 2 _ _ _ H2), (iterates_app E 1 _ _ _ (iterates_one E _ _ H3)). exact H4.
Qed.

(** With feedback below one. *)
Variable rho : R.
Hypothesis Hrho0 : (0 <= rho)%R.
Hypothesis Hfb : feedback b0 b1 rho.

Lemma turn_error v h1 h0 r : (forall q, In q (b_params b0) -> missing all b0 v q = 0%R) -> (forall q, In q (b_params b1) -> Rabs (missing all b1 v q) <= r)%R ->
  moves b1 (missing all b1 v) h1 -> moves b0 (missing all b0 (shift b1 h1 v)) h0 ->
  let v2 := shift b0 h0 (shift b1 h1 v) in
  (forall q, In q (b_params b0) -> missing all b0 v2 q = 0%R) /\ (forall q, In q (b_params b1) -> Rabs (missing all b1 v2 q) <= rho * r)%R.
Proof.
  intros Hz Hr Hh1 Hh0 v2. split; [intros q Hq; apply shift_own; assumption|].
  intros q Hq. unfold v2. rewrite shift_missing by assumption. rewrite (shift_own b1 v h1 q Hb1 Hq Hh1).
  replace (0 - dot (b_gates b0) (gradient b1 q) h0)%R with (- dot (b_gates b0) (gradient b1 q) h0)%R by lra. rewrite Rabs_Ropp.
  apply (Hfb (missing all b1 v) h1 h0 r Hh1); [|exact Hr|exact Hq].
  assert (Heq : forall q', In q' (b_params b0) -> (missing all b0 (shift b1 h1 v) q' = - dot (b_gates b1) (gradient b0 q') h1)%R).
  { intros q' Hq'. rewrite shift_missing by assumption. rewrite (Hz q' Hq'). lra. }
  destruct Hh0 as [A B]. split.
  - intros q' Hq'. rewrite <- (Heq q' Hq'). apply A, Hq'.
  - intros h' Hh'. apply B. intros q' Hq'. rewrite (Heq q' Hq'). apply Hh', Hq'.
Qed.
Lemma turns M : forall v s r, second v s -> (forall q, In q (b_params b0) -> missing all b0 v q = 0%R) -> (forall q, In q (b_params b1) -> Rabs (missing all b1 v q) <= r)%R ->
  (forall q, In q (b_params b1) -> rho ^ M * r < b_tol b1 q)%R -> exists m s' v', m <= 7 * M /\ iterates E m s = (s', Ok tt) /\ complete v' s' /\ outside v v'.
Proof.
  induction M as [|M IH]; intros v s r Hs Hz Hr HM.
  - exfalso. destruct Hs as [pa [pb [tr [_ [_ [_ [_ Hf]]]]]]]. rewrite (proj2 (tuned_met b1 v)) in Hf; [discriminate|].
    intros q Hq. pose proof (HM q Hq) as K. cbn in K. pose proof (Hr q Hq) as K'. unfold missing in K'. lra.
  - destruct (turn v s Hs) as [h1 [s1 [m [Hm [Hh1 [Hit Hcase]]]]]]. cbn zeta in Hcase. set (v1 := shift b1 h1 v) in *.
    assert (Ho1 : outside v v1) by (intros l _ _ H1; unfold v1, shift; rewrite (proj2 (SeriesLemmas.mem_false l (b_gates b1)) H1); lra).
    destruct (tuned_at b0 v1); [exists m, s1, v1; split; [lia|]; auto|].
    destruct Hcase as [h0 [Hh0 Hcase]]. set (v2 := shift b0 h0 v1) in *.
    assert (Ho2 : outside v v2) by (intros l Hl H0 H1; rewrite <- (Ho1 l Hl H0 H1); unfold v2, shift; rewrite (proj2 (SeriesLemmas.mem_false l (b_gates b0)) H0); lra).
    destruct (turn_error v h1 h0 r Hz Hr Hh1 Hh0) as [Hz2 Hr2]. fold v1 in Hz2, Hr2. fold v2 in Hz2, Hr2.
    destruct (tuned_at b1 v2) eqn:Ht; [exists m, s1, v2; split; [lia|]; auto|].
    destruct (IH v2 s1 (rho * r)%R Hcase Hz2 Hr2) as [m' [s' [v' [Hm' [Hit' [Hc Ho]]]]]].
    { intros q Hq. pose proof (HM q Hq) as K. cbn [pow] in K. replace (rho ^ M * (rho * r))%R with (rho * rho ^ M * r)%R by ring. exact K. }
    exists (m + m'), s', v'. split; [lia|]. split; [rewrite (iterates_app E m m' _ _ Hit); exact Hit'|]. split; [exact Hc|].
    intros l Hl H0 H1. rewrite (Ho l Hl H0 H1). apply (Ho2 l Hl H0 H1).
Qed.
Lemma max_entry (ls : list label) (x : label -> R) : exists r, (0 <= r)%R /\ forall q, In q ls -> (Rabs (x q) <= r)%R.
Proof.
  induction ls as [|l ls [r [Hr IH]]]; [exists 0%R; split; [lra|intros q []]|]. exists (Rmax (Rabs (x l)) r). split; [eapply Rle_trans; [exact Hr|apply Rmax_r]|].
  intros q [<-|Hq]; [apply Rmax_l|]. eapply Rle_trans; [apply IH, Hq|apply Rmax_r].
Qed.
Lemma min_entry (ls : list label) (x : label -> R) : (forall q, In q ls -> 0 < x q)%R -> exists r, (0 < r)%R /\ forall q, In q ls -> (r <= x q)%R.
Proof.
  induction ls as [|l ls IH]; intros H; [exists 1%R; split; [lra|intros q []]|]. destruct IH as [r [Hr IH]]; [intros q Hq; apply H; right; exact Hq|].
  exists (Rmin (x l) r). split; [apply Rmin_glb_lt; [apply H; left; reflexivity|exact Hr]|].
  intros q [<-|Hq]; [apply Rmin_l|]. eapply Rle_trans; [apply Rmin_r|apply IH, Hq].
Qed.
Hypothesis Hrho1 : (rho < 1)%R.
Lemma turns_end v s : second v s -> (forall q, In q (b_params b0) -> missing all b0 v q = 0%R) ->
  exists m s' v', iterates E m s = (s', Ok tt) /\ complete v' s' /\ outside v v'.
Proof.
  intros Hs Hz. destruct (max_entry (b_params b1) (missing all b1 v)) as [r [Hr0 Hr]].
  assert (Htol : forall q, In q (b_params b1) -> (0 < b_tol b1 q)%R).
  { intros q Hq. pose proof Hb1 as K. destruct K as [_ [_ [_ [_ [_ [_ [_ [W8 _]]]]]]]]. apply (proj1 (proj2 (W8 q Hq))). }
  destruct (min_entry (b_params b1) (b_tol b1) Htol) as [e [He0 He]].
  destruct (pow_lt_1_zero rho ltac:(rewrite Rabs_pos_eq; lra) (e / (r + 1))%R) as [M HM].
  { apply Rdiv_lt_0_compat; lra. }
  destruct (turns M v s r Hs Hz Hr) as [m [s' [v' [_ [Hit [Hc Ho]]]]]].
  { intros q Hq. apply Rlt_le_trans with e; [|apply He, Hq]. specialize (HM M (le_n _)). rewrite Rabs_pos_eq in HM by (apply pow_le; exact Hrho0).
    assert (H1 : (rho ^ M * (r + 1) < e)%R).
    { apply Rmult_lt_reg_r with (/ (r + 1))%R; [apply Rinv_0_lt_compat; lra|]. rewrite Rmult_assoc, Rinv_r by lra. unfold Rdiv in HM. lra. }
    pose proof (pow_le rho M Hrho0). nra. }
  exists m, s', v'. auto.
Qed.
End Pair.

(** One gate and one parameter each. *)
Section Runaway.
Variables (b0 b1 : block) (l0 l1 q0 q1 : label).
Hypothesis Hb0 : well_formed all b0.
Hypothesis Hb1 : well_formed all b1.
Hypothesis Hu0 : unlimited b0.
Hypothesis Hu1 : unlimited b1.
Hypothesis Hsep : separate b0 b1.
Hypothesis Hn : n = 2.
Hypothesis Hm0 : measures 0 b0.
Hypothesis Hm1 : measures 1 b1.
Hypothesis Hg0 : b_gates b0 = [l0].
Hypothesis Hg1 : b_gates b1 = [l1].
Hypothesis Hp0 : b_params b0 = [q0].
Hypothesis Hp1 : b_params b1 = [q1].
Let shift (b : block) (h v : label -> R) (l : label) : R := (v l + if mem l (b_gates b) then h l else 0)%R.
Variable e : R.
Hypothesis He1 : (b_tol b1 q1 <= e)%R.
Hypothesis He0 : (b_tol b0 q0 * Rabs (gradient b1 q1 l1) <= Rabs (gradient b0 q0 l1) * e)%R.
Hypothesis Hk : (Rabs (gradient b0 q0 l0 * gradient b1 q1 l1) <= Rabs (gradient b0 q0 l1 * gradient b1 q1 l0))%R.

Lemma one_dot l (x y : label -> R) : dot [l] x y = (x l * y l)%R.
Proof. unfold dot. cbn. lra. Qed.
Lemma runaway_turn v s : second b0 b1 [] v s -> missing all b0 v q0 = 0%R -> (e <= Rabs (missing all b1 v q1))%R ->
  exists v' s' m, 0 < m /\ iterates E m s = (s', Ok tt) /\ second b0 b1 [] v' s' /\ missing all b0 v' q0 = 0%R /\ (e <= Rabs (missing all b1 v' q1))%R.
Proof.
  intros Hs Hz He.
  assert (Ht1 : (0 < b_tol b1 q1)%R) by (destruct Hb1 as [_ [_ [_ [_ [_ [_ [_ [W8 _]]]]]]]]; apply (W8 q1); rewrite Hp1; left; reflexivity).
  assert (Ht0 : (0 < b_tol b0 q0)%R) by (destruct Hb0 as [_ [_ [_ [_ [_ [_ [_ [W8 _]]]]]]]]; apply (W8 q0); rewrite Hp0; left; reflexivity).
  assert (Hi0 : In q0 (b_params b0)) by (rewrite Hp0; left; reflexivity).
  assert (Hi1 : In q1 (b_params b1)) by (rewrite Hp1; left; reflexivity).
  destruct (turn b0 b1 [] Hb0 Hb1 Hu0 Hu1 Hsep ltac:(lia) Hm0 Hm1 ltac:(intros p []) v s Hs) as [h1 [s1 [m [Hm [Hh1 [Hit Hcase]]]]]].
  cbn zeta in Hcase. fold (shift b1 h1 v) in Hcase. set (v1 := shift b1 h1 v) in *.
  set (m1 := missing all b1 v q1) in *.
  assert (A1 : (gradient b1 q1 l1 * h1 l1 = m1)%R) by (pose proof (proj1 Hh1 q1 Hi1) as K; rewrite Hg1, one_dot in K; exact K).
  assert (A0 : (missing all b0 v1 q0 = - (gradient b0 q0 l1 * h1 l1))%R).
  { unfold v1, shift. rewrite (shift_missing b0 b1 v h1 q0 Hb0 Hb1 Hi0), Hz, Hg1, one_dot. lra. }
  assert (N1 : gradient b1 q1 l1 <> 0%R) by (intros K; rewrite K, Rmult_0_l in A1; rewrite <- A1, Rabs_R0 in He; lra).
  assert (B0 : (b_tol b0 q0 <= Rabs (missing all b0 v1 q0))%R).
  { rewrite A0, Rabs_Ropp, Rabs_mult. pose proof (Rabs_pos_lt _ N1) as P1. apply Rmult_le_reg_r with (Rabs (gradient b1 q1 l1)); [exact P1|].
    eapply Rle_trans; [exact He0|]. rewrite Rmult_assoc. apply Rmult_le_compat_l; [apply Rabs_pos|]. rewrite <- Rabs_mult, Rmult_comm, A1. exact He. }
  assert (Hf : tuned_at b0 v1 = false).
  { destruct (tuned_at b0 v1) eqn:Ht; [|reflexivity]. pose proof (proj1 (tuned_met b0 v1) Ht q0 Hi0) as K. fold (missing all b0 v1 q0) in K. lra. }
  rewrite Hf in Hcase. destruct Hcase as [h0 [Hh0 Hcase]]. fold (shift b0 h0 v1) in Hcase. set (v2 := shift b0 h0 v1) in *.
  assert (C0 : (gradient b0 q0 l0 * h0 l0 = missing all b0 v1 q0)%R) by (pose proof (proj1 Hh0 q0 Hi0) as K; rewrite Hg0, one_dot in K; exact K).
  assert (N0 : gradient b0 q0 l0 <> 0%R) by (intros K; rewrite K, Rmult_0_l in C0; rewrite <- C0, Rabs_R0 in B0; lra).
  assert (C1 : (missing all b1 v2 q1 = - (gradient b1 q1 l0 * h0 l0))%R).
  { unfold v2, shift. rewrite (shift_missing b1 b0 v1 h0 q1 Hb1 Hb0 Hi1), Hg0, one_dot.
    unfold v1, shift. rewrite (shift_own b1 v h1 q1 Hb1 Hi1 Hh1). lra. }
  assert (B1 : (e <= Rabs (missing all b1 v2 q1))%R).
  { rewrite C1, Rabs_Ropp. eapply Rle_trans; [exact He|].
    apply Rmult_le_reg_l with (Rabs (gradient b0 q0 l0 * gradient b1 q1 l1)); [apply Rabs_pos_lt, Rmult_integral_contrapositive_currified; assumption|].
    replace (Rabs (gradient b0 q0 l0 * gradient b1 q1 l1) * Rabs (gradient b1 q1 l0 * h0 l0))%R with (Rabs (gradient b0 q0 l1 * gradient b1 q1 l0) * Rabs m1)%R.
    - apply Rmult_le_compat_r; [apply Rabs_pos|exact Hk].
    - rewrite <- !Rabs_mult. rewrite <- A1. rewrite <- Rabs_Ropp. f_equal.
      replace (gradient b0 q0 l0 * gradient b1 q1 l1 * (gradient b1 q1 l0 * h0 l0))%R with (gradient b1 q1 l1 * gradient b1 q1 l0 * (gradient b0 q0 l0 * h0 l0))%R by ring.
      rewrite C0, A0. ring. }
  assert (Hf1 : tuned_at b1 v2 = false).
  { destruct (tuned_at b1 v2) eqn:Ht; [|reflexivity]. pose proof (proj1 (tuned_met b1 v2) Ht q1 Hi1) as K. fold (missing all b1 v2 q1) in K. lra. }
  rewrite Hf1 in Hcase. exists v2, s1, m. split; [lia|]. split; [exact Hit|]. split; [exact Hcase|]. split; [|exact B1].
  unfold v2, shift. apply shift_own; assumption.
Qed.
Lemma runaway_long N : forall v s, second b0 b1 [] v s -> missing all b0 v q0 = 0%R -> (e <= Rabs (missing all b1 v q1))%R ->
  exists m s', N <= m /\ iterates E m s = (s', Ok tt).
Proof.
  induction N as [|N IH]; intros v s Hs Hz He; [exists 0, s; split; [lia|reflexivity]|].
  destruct (runaway_turn v s Hs Hz He) as [v' [s' [m [Hm [Hit [Hs' [Hz' He']]]]]]].
  destruct (IH v' s' Hs' Hz' He') as [m' [s2 [Hm' Hit']]]. exists (m + m'), s2. split; [lia|]. rewrite (iterates_app E m m' _ _ Hit). exact Hit'.
Qed.
Lemma iterates_prefix m : forall k s s', iterates E (m + k) s = (s', Ok tt) -> exists s1, iterates E m s = (s1, Ok tt) /\ iterates E k s1 = (s', Ok tt).
Proof.
  induction m as [|m IH]; intros k s s' H; [exists s; split; [reflexivity|exact H]|]. cbn [Nat.add iterates] in *.
  destruct (iterate E s) as [s1 [u|ex]]; [exact (IH k s1 s' H)|discriminate].
Qed.
Lemma complete_stops s s' : iterate E s = (s', Ok tt) -> is_tuning_complete E (s_at s) = false.
Proof.
  intros H. destruct (is_tuning_complete E (s_at s)) eqn:Hc; [|reflexivity]. exfalso.
  destruct (proj1 (complete_raises E s Hc)) as [ex Hx]. rewrite H in Hx. discriminate.
Qed.
End Runaway.
End Coupled.
