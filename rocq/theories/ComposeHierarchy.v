From Verif Require Import PyBase TargetModel TunerModel TunerSpec SeriesLemmas TunerProofs SolverModel SensingDotProofs NewtonModel EstimatorModel NewtonSpec NewtonProofs EstimatorProofs GradientProps AutotunerModel ComposeModel KernelR ComposeSpec ComposeProofs.
From Coq Require Import Lra ZArith.
Local Open Scope list_scope.

Lemma vec_agree ls x y : (forall l, In l ls -> x l = y l) -> vec ls x = vec ls y.
Proof. intros H. apply vec_ext. exact H. Qed.

Section Hierarchy.
Variable ortho : list (list num) -> res (list num).
Variable calc : list measurement -> res (list num * list (list num)).
Variable lstsq : list series -> list num -> res (list num).
Hypothesis Hortho : ortho_exact ortho.
Hypothesis Hcalc : calc_exact calc.
Hypothesis Hlstsq : lstsq_exact lstsq.
Variable all : list label.
Hypothesis Hall : NoDup all.
Variable results : nat -> series -> res (series * series).
Variables (n : nat) (path : option string).
Let E := newton_hierarchy ortho calc lstsq results n.
Let sg := fun s : newton fd => index (nw_pos s).
Let sn := fun s : newton fd => Some (map (fun g => Some (index (fd_pos g))) (nw_ests s)).
Let par (b : block) (v : label -> R) (q : label) : R := (measured all b v q / b_factor b q)%R.

Definition measures (i : nat) (b : block) : Prop :=
  forall v, results i (vec all v) = Ok (vec (b_measured b) (measured all b v), tab (b_measured b) (b_var b v)).

(** A tuner whose target is met at the voltages [v]. *)
Definition settled (b : block) (v : label -> R) (p : part (newton fd)) : Prop :=
  exists p0 t ests, p = mk_part t (mk_newton (b_goal b) ests (vec (b_gates b) v) (vec (b_params b) (par b v))) (mk_limits (b_size b) (b_max b)) (b_tunable b) /\
    (t_last t = Some (vec all v) /\ t_params t = vec (b_params b) (par b v) /\ t_failed t = false /\ t_queue t = 0%Z) /\
    reached (b_params b) (b_desired b) (b_tol b) (par b v) = true /\
    settled_ests all (b_gates b) (b_params b) (b_factor b) (b_eps b) (b_const b) (b_slope b) (b_var b) p0 v ests /\
    (b_given b = true -> Forall2 (learnt (b_gates b) (b_factor b) (b_eps b) (b_slope b) p0) (b_params b) ests).

Lemma settled_last b v p : settled b v p -> t_last (p_tuner p) = Some (vec all v).
Proof. intros [p0 [t [ests [-> [[H _] _]]]]]. exact H. Qed.
Lemma settled_target b v p : settled b v p -> nw_target (p_solver p) = b_goal b.
Proof. intros [p0 [t [ests [-> _]]]]. reflexivity. Qed.
Lemma settled_met b v p : settled b v p -> met all b v.
Proof. intros [p0 [t [ests [_ [_ [H _]]]]]]. exact (proj1 (reached_iff _ _ _ _) H). Qed.
Lemma settled_coherent b v p : well_formed all b -> settled b v p -> coherent sg sn all p.
Proof.
  intros [_ [_ [Hin [Htg _]]]] [p0 [t [ests [-> [[Hl _] [_ [Hs _]]]]]]]. unfold coherent, sg, sn. cbn [p_tuner p_solver p_gates nw_pos nw_ests].
  rewrite Hl, !index_vec. split; [apply incl_refl|]. split; [exact Hin|]. intros e He. apply in_map_iff in He. destruct He as [g [<- Hg]].
  assert (Hp : Forall (fun g => index (fd_pos g) = b_gates b) ests).
  { destruct Hs as [Hs|[hist [_ [Hs _]]]]; [exact (learnt_pos _ _ _ _ _ _ _ Hs)|]. eapply learning_pos. exact Hs. }
  rewrite Forall_forall in Hp. exists (b_gates b). rewrite (Hp g Hg). auto.
Qed.
Lemma start_coherent b v : well_formed all b -> coherent sg sn all (start v b).
Proof.
  intros [_ [_ [Hin [Htg _]]]]. unfold coherent, start, sg, sn. cbn [p_tuner p_solver p_gates nw_pos nw_ests fresh_tuner t_last].
  rewrite index_vec. split; [exact I|]. split; [exact Hin|]. intros e He. apply in_map_iff in He. destruct He as [g [<- Hg]].
  apply in_map_iff in Hg. destruct Hg as [q [<- _]]. exists (b_gates b). split; [f_equal|auto]. unfold given_fd, new_fd.
  destruct (b_given b), (b_known b q); cbn; first [apply index_vec|apply index_tab].
Qed.
Lemma start_agree b v v' : (forall l, In l (b_gates b) -> v l = v' l) -> start v b = start v' b.
Proof.
  intros H. unfold start, given_fd, new_fd. rewrite (vec_agree _ v v' H). reflexivity.
Qed.

(** Voltages that differ on gates without influence. *)
Lemma measured_agree b v v' gs q : (forall l, In l gs -> b_slope b q l = 0%R) -> (forall l, In l all -> ~ In l gs -> v' l = v l) ->
  measured all b v' q = measured all b v q.
Proof.
  intros Hz Hv. unfold measured, affine. f_equal. apply sum_ext. intros l Hl. destruct (in_dec label_dec l gs) as [Hin|Hin]; [rewrite (Hz l Hin); lra|rewrite (Hv l Hl Hin); reflexivity].
Qed.

Let at_ (j : nat) (v : label -> R) (parts : list (part (newton fd))) (tr : list event) := mk_sys (mk_at j false None path) (mk_world (vec all v) parts) tr.

Lemma climb (bad : sys (world (newton fd)) -> Prop) gs v v' rest : (forall p, In p rest -> coherent sg sn all p) -> (forall l, In l all -> ~ In l gs -> v' l = v l) ->
  forall pre2 pre1 L1 L2 tr,
  Forall (well_formed all) (pre1 ++ pre2) -> length pre1 + length pre2 <= n ->
  (forall j b, nth_error pre2 j = Some b -> measures (length pre1 + j) b) ->
  (forall b, In b pre2 -> forall l, In l gs -> ~ In l (b_gates b) /\ forall q, In q (b_params b) -> b_slope b q l = 0%R) ->
  (forall j b t tr, nth_error pre2 j = Some b -> b_given b = false -> met all b v' -> bad (at_ (length pre1 + j) v' t tr)) ->
  Forall2 (fun b p => settled b v' p) pre1 L1 -> Forall2 (fun b p => settled b v p) pre2 L2 ->
  reach E bad (length pre2) (at_ (length pre1) v' (L1 ++ L2 ++ rest) tr)
    (fun s => exists L2' tr', Forall2 (fun b p => settled b v' p) pre2 L2' /\ s = at_ (length pre1 + length pre2) v' (L1 ++ L2' ++ rest) tr').
Proof.
  intros HR Hv. induction pre2 as [|b pre2 IH]; intros pre1 L1 L2 tr Hwf Hlen Hmeas Hfree Hbad H1 H2.
  - inversion H2; subst. apply reach_here. exists [], tr. split; [constructor|]. cbn. rewrite Nat.add_0_r. reflexivity.
  - inversion H2 as [|b' p pre2' L2' Hp H2']; subst. cbn [length] in Hlen.
    pose proof (proj1 (Forall_app _ _ _) Hwf) as [Hwf1 Hwf2]. inversion Hwf2 as [|b' pre2' Hb Hwf3]; subst.
    pose proof Hb as Hb0. destruct Hb0 as [W1 [W2 [W3 [W4 [W5 [W6 [W7 [W8 W9]]]]]]]].
    pose proof Hp as Hp0. destruct Hp0 as [p0 [t [ests [-> [Hg [Hr [Hs Hgiven]]]]]]].
    set (low := fun (x : label -> R) L => Forall2 (fun b p => settled b x p) pre1 L).
    assert (Hlow_len : forall x L, low x L -> length L = length pre1) by (intros x L HL; symmetry; exact (F2_length _ _ _ HL)).
    assert (Hcoh2 : forall pre L x, Forall (well_formed all) pre -> Forall2 (fun b p => settled b x p) pre L -> forall p, In p L -> coherent sg sn all p).
    { clear. intros pre L x Hwf HL. induction HL as [|b p pre L Hp HL IHL]; intros y [].
      - subst. inversion Hwf; subst. eapply settled_coherent; eassumption.
      - inversion Hwf; subst. apply IHL; assumption. }
    assert (Hlow_coh : forall x L, low x L -> forall p, In p L -> coherent sg sn all p) by (intros x L HL; apply (Hcoh2 pre1 L x Hwf1 HL)).
    assert (Hpar : forall q, In q (b_params b) -> par b v' q = par b v q).
    { intros q Hq. unfold par. rewrite (measured_agree b v v' gs q); [reflexivity| |exact Hv]. intros l Hl. apply (proj2 (Hfree b (or_introl eq_refl) l Hl)), Hq. }
    assert (Hsame : forall l, In l (b_gates b) -> v' l = v l).
    { intros l Hl. apply Hv; [apply W3, Hl|]. intros Hgl. exact (proj1 (Hfree b (or_introl eq_refl) l Hgl) Hl). }
    assert (Hm0 : measures (length pre1) b) by (rewrite <- (Nat.add_0_r (length pre1)); apply (Hmeas 0 b); reflexivity).
    destruct (settle_again ortho calc lstsq Hcalc all (b_gates b) (b_params b) (b_measured b) (b_tunable b) (b_desired b) (b_tol b) (b_factor b) (b_eps b)
                W1 W2 W3 W4 W5 W6 W7 (fun q Hq => proj1 (W8 q Hq)) (b_const b) (b_slope b) (b_var b) results (length pre1) Hm0 p0 (mk_limits (b_size b) (b_max b)) (L2' ++ rest) path)
      with (n := n) (low := low) (L := L1) (v := v) (v' := v') (t := t) (ests := ests) (tr := tr) as [Hok|Hfail]; try assumption.
    + intros x Hx. apply in_app_or in Hx. destruct Hx as [Hx|Hx]; [apply (Hcoh2 pre2 L2' v Hwf3 H2' x Hx)|apply HR, Hx].
    + lia.
    + destruct Hok as [t' [ests' [tr' [Hi [Hg' [Hs' Hl']]]]]].
      change (length (b :: pre2)) with (1 + length pre2). eapply reach_after; [apply iterates_one; exact Hi|].
      set (p' := mk_part t' (mk_newton (b_goal b) ests' (vec (b_gates b) v') (vec (b_params b) (par b v'))) (mk_limits (b_size b) (b_max b)) (b_tunable b)).
      assert (Hp' : settled b v' p').
      { exists p0, t', ests'. split; [reflexivity|]. split; [exact Hg'|]. split; [|split; [exact Hs'|auto]].
        apply reached_iff. intros q Hq. rewrite (Hpar q Hq). exact (proj1 (reached_iff _ _ _ _) Hr q Hq). }
      specialize (IH (pre1 ++ [b]) (L1 ++ [p']) L2' tr'). rewrite !app_length in IH. cbn [length] in IH. rewrite <- app_assoc in IH.
      assert (Hreach : reach E bad (length pre2) (at_ (length pre1 + 1) v' ((L1 ++ [p']) ++ L2' ++ rest) tr')
        (fun s => exists L2'0 tr'0, Forall2 (fun b p => settled b v' p) pre2 L2'0 /\ s = at_ (length pre1 + 1 + length pre2) v' ((L1 ++ [p']) ++ L2'0 ++ rest) tr'0)).
      { apply IH; [exact Hwf|lia| | | |apply Forall2_app; [exact H1|constructor; [exact Hp'|constructor]]|exact H2'].
        - intros j b0 Hj. rewrite <- Nat.add_assoc. apply (Hmeas (1 + j) b0). exact Hj.
        - intros b0 Hb0. apply Hfree. right; exact Hb0.
        - intros j b0 t0 tr0 Hj. rewrite <- Nat.add_assoc. apply (Hbad (1 + j) b0). exact Hj. }
      rewrite <- app_assoc in Hreach. cbn [app] in Hreach. rewrite Nat.add_1_r in Hreach. revert Hreach. apply reach_mono; [lia|].
      intros s' [L3 [tr3 [K1 K2]]]. exists (p' :: L3), tr3. split; [constructor; assumption|]. rewrite K2. rewrite <- app_assoc. cbn [app length]. unfold at_. f_equal. f_equal. lia.
    + destruct Hfail as [Hnl [t' [s' [tr' Hi]]]]. exists 1. eexists. split; [cbn [length]; lia|]. right. split; [apply iterates_raise; exact Hi|].
      specialize (Hbad 0 b). rewrite Nat.add_0_r in Hbad. apply Hbad; [reflexivity| |].
      * destruct (b_given b) eqn:Hgb; [|reflexivity]. exfalso. apply Hnl, Hgiven. reflexivity.
      * intros q Hq. assert (Hme := settled_met b v _ Hp q Hq). change (measured all b v' q / b_factor b q)%R with (par b v' q). rewrite (Hpar q Hq). exact Hme.
Qed.

(** The tuner at which an evaluation fails is not the last one, its target is
    met, and its estimators had no gradient at the start. *)
Definition fails (bs : list block) (s : sys (world (newton fd))) : Prop :=
  exists j b v, nth_error bs j = Some b /\ S j < length bs /\ b_given b = false /\ s_at s = mk_at j false None path /\ w_gates (s_w s) = vec all v /\ met all b v.

Lemma pairs_app {A} (R : A -> A -> Prop) (l1 l2 : list A) : ForallOrdPairs R (l1 ++ l2) -> forall x y, In x l1 -> In y l2 -> R x y.
Proof.
  induction l1 as [|z l1 IH]; intros H x y Hx Hy; [destruct Hx|]. inversion H as [|z' l' Hz Hl]; subst. destruct Hx as [<-|Hx].
  - rewrite Forall_forall in Hz. apply Hz, in_or_app. right; exact Hy.
  - apply IH; assumption.
Qed.
Lemma pairs_right {A} (R : A -> A -> Prop) (l1 l2 : list A) : ForallOrdPairs R (l1 ++ l2) -> ForallOrdPairs R l2.
Proof. induction l1 as [|z l1 IH]; intros H; [exact H|]. inversion H; subst. auto. Qed.
Lemma F2_in_r {A B} (P : A -> B -> Prop) l l' : Forall2 P l l' -> forall y, In y l' -> exists x, In x l /\ P x y.
Proof.
  intros H. induction H as [|a b l l' Hp H IH]; intros y Hy; [destruct Hy|]. destruct Hy as [<-|Hy]; [exists a; cbn; auto|].
  destruct (IH y Hy) as [x [H1 H2]]. exists x. cbn; auto.
Qed.

Section Blocks.
Variables (bs : list block) (p0 : label -> R) (rest : list (part (newton fd))).
Hypothesis Hwf : Forall (well_formed all) bs.
Hypothesis Hsteps : Forall (fun b => unlimited b \/ limited b /\ lstsq_shortest lstsq) bs.
Hypothesis Htri : triangular bs.
Hypothesis Hn : length bs <= n.
Hypothesis Hmeas : forall j b, nth_error bs j = Some b -> measures j b.
Hypothesis Hrest : forall p, In p rest -> coherent sg sn all p.

Lemma run_blocks : forall post pre L v tr, bs = pre ++ post -> Forall2 (fun b p => settled b v p) pre L ->
  (forall b, In b post -> forall l, In l (b_gates b) -> v l = p0 l) ->
  (forall l, In l all -> (forall b, In b bs -> ~ In l (b_gates b)) -> v l = p0 l) ->
  exists m, (Forall unlimited post -> m <= iterations (length pre) post) /\
  reach E (fails bs) m (at_ (length pre) v (L ++ map (start p0) post ++ rest) tr)
    (fun s => exists L' v' tr', s = at_ (length bs) v' (L' ++ rest) tr' /\ Forall2 (fun b p => settled b v' p) bs L' /\
       forall l, In l all -> (forall b, In b bs -> ~ In l (b_gates b)) -> v' l = p0 l).
Proof.
  induction post as [|b post IH]; intros pre L v tr Hbs HL Hpost Hout.
  - exists 0. split; [lia|]. apply reach_here. rewrite app_nil_r in Hbs. subst pre. exists L, v, tr. auto.
  - assert (Hb : well_formed all b) by (rewrite Forall_forall in Hwf; apply Hwf; rewrite Hbs; apply in_or_app; right; left; reflexivity).
    assert (Hwfp : forall x, In x pre -> well_formed all x) by (intros x Hx; rewrite Forall_forall in Hwf; apply Hwf; rewrite Hbs; apply in_or_app; auto).
    assert (Hwfq : forall x, In x post -> well_formed all x) by (intros x Hx; rewrite Forall_forall in Hwf; apply Hwf; rewrite Hbs; apply in_or_app; right; right; exact Hx).
    assert (Hlt : S (length pre) <= length bs) by (rewrite Hbs, app_length; cbn [length]; lia).
    assert (Hm : measures (length pre) b) by (apply Hmeas; rewrite Hbs; apply nth_error_at; reflexivity).
    pose proof Hb as Hb0. destruct Hb0 as [W1 [W2 [W3 [W4 [W5 [W6 [W7 [W8 W9]]]]]]]].
    cbn [map iterations]. rewrite (start_agree b p0 v) by (intros l Hl; symmetry; apply (Hpost b (or_introl eq_refl) l Hl)).
    set (low := fun (x : label -> R) K => Forall2 (fun b p => settled b x p) pre K).
    set (rest' := map (start p0) post ++ rest).
    assert (Hrest' : forall p, In p rest' -> coherent sg sn all p).
    { intros p Hp. apply in_app_or in Hp. destruct Hp as [Hp|Hp]; [|apply Hrest, Hp]. apply in_map_iff in Hp. destruct Hp as [x [<- Hx]]. apply start_coherent, Hwfq, Hx. }
    assert (Hlow_coh : forall x K, low x K -> forall p, In p K -> coherent sg sn all p).
    { intros x K HK p Hp. destruct (F2_in_r _ _ _ HK p Hp) as [y [Hy1 Hy2]]. apply (settled_coherent y x); [apply Hwfp, Hy1|exact Hy2]. }
    assert (Htri' : forall x, In x pre -> (forall l, In l (b_gates b) -> ~ In l (b_gates x) /\ forall q, In q (b_params x) -> b_slope x q l = 0%R) /\
                              (forall q, In q (b_params b) -> ~ In q (b_params x))).
    { intros x Hx. unfold triangular in Htri. rewrite Hbs in Htri. apply (pairs_app _ pre (b :: post) Htri x b Hx). left; reflexivity. }
    assert (Htri2 : forall y, In y post -> forall l, In l (b_gates y) -> ~ In l (b_gates b)).
    { intros y Hy l Hl. unfold triangular in Htri. rewrite Hbs in Htri. apply pairs_right in Htri. inversion Htri as [|z l' Hz _]; subst.
      rewrite Forall_forall in Hz. apply (proj1 (proj1 (Hz y Hy) l Hl)). }
    assert (Hlow_len : forall x K, low x K -> length K = length pre) by (intros x K HK; symmetry; exact (F2_length _ _ _ HK)).
    assert (Hlow_log : forall x p K, low x (p :: K) -> t_last (p_tuner p) = Some (vec all x)) by (intros x p K HK; inversion HK; subst; eapply settled_last; eassumption).
    assert (Hlow_names : forall x K, low x K -> forall p q, In p K -> In q (b_params b) -> ~ In q (relevant (nw_target (p_solver p)))).
    { intros x K HK p q Hp Hq. destruct (F2_in_r _ _ _ HK p Hp) as [y [Hy1 Hy2]]. rewrite (settled_target y x p Hy2). unfold b_goal. rewrite relevant_goal.
      apply (proj2 (Htri' y Hy1) q Hq). }
    assert (Hclimb : forall x x' K p tr0, low x K -> (forall l, In l all -> ~ In l (b_gates b) -> x' l = x l) -> coherent sg sn all p ->
      reach E (fails bs) (length pre) (at_ 0 x' (K ++ p :: rest') tr0)
        (fun s => exists K' tr', low x' K' /\ s = at_ (length pre) x' (K' ++ p :: rest') tr')).
    { intros x x' K p tr0 HK Hx Hp.
      pose proof (climb (fails bs) (b_gates b) x x' (p :: rest')) as Hc. specialize (Hc ltac:(intros z [<-|Hz]; [exact Hp|apply Hrest', Hz]) Hx pre [] [] K tr0).
      cbn [app length Nat.add] in Hc. apply Hc.
      + apply Forall_forall. exact Hwfp.
      + lia.
      + intros j y Hj. apply Hmeas. rewrite Hbs. rewrite nth_error_app1; [exact Hj|]. apply nth_error_Some. rewrite Hj. discriminate.
      + intros y Hy. apply (proj1 (Htri' y Hy)).
      + intros j y t0 tr1 Hj Hgv Hmt. assert (Hj' : j < length pre) by (apply nth_error_Some; rewrite Hj; discriminate).
        exists j, y, x'. split; [rewrite Hbs, nth_error_app1; [exact Hj|exact Hj']|]. split; [lia|]. auto.
      + constructor.
      + exact HK. }
    assert (Hpn : length pre <> n) by lia.
    assert (Hidx : index (t_params (fresh_tuner (relevant (b_goal b)))) = b_params b) by (unfold b_goal; rewrite relevant_goal; cbn; unfold index; rewrite map_map; apply map_id).
    assert (Hfirst : exists m, (unlimited b -> m <= 1 + (length pre + 3) * (length (b_gates b) + 1)) /\
      reach E (fails bs) m (at_ (length pre) v (L ++ start v b :: rest') tr)
        (fun s => exists L' v' t' ests' tr', s = at_ (S (length pre)) v' (L' ++ mk_part t' (mk_newton (b_goal b) ests' (vec (b_gates b) v') (vec (b_params b) (par b v'))) (mk_limits (b_size b) (b_max b)) (b_tunable b) :: rest') tr' /\
           low v' L' /\ (forall l, In l all -> ~ In l (b_gates b) -> v' l = v l) /\
           (t_last t' = Some (vec all v') /\ t_params t' = vec (b_params b) (par b v') /\ t_failed t' = false /\ t_queue t' = 0%Z) /\
           reached (b_params b) (b_desired b) (b_tol b) (par b v') = true /\
           settled_ests all (b_gates b) (b_params b) (b_factor b) (b_eps b) (b_const b) (b_slope b) (b_var b) v v' ests' /\
           (b_given b = true -> Forall2 (learnt (b_gates b) (b_factor b) (b_eps b) (b_slope b) v) (b_params b) ests'))).
    { assert (Hst : unlimited b \/ limited b /\ lstsq_shortest lstsq) by (rewrite Forall_forall in Hsteps; apply Hsteps; rewrite Hbs; apply in_or_app; right; left; reflexivity).
      destruct Hst as [Hun|[[Hgv [HN [m [Hsz Hm0]]]] Hmin]].
      - exists (1 + (length pre + 3) * (length (b_gates b) + 1)). split; [lia|].
        apply (from_start ortho calc lstsq Hortho Hcalc Hlstsq all (b_gates b) (b_params b) (b_measured b) (b_tunable b) (b_desired b) (b_tol b) (b_factor b) (b_eps b)
               Hall W1 W2 W3 W4 W5 W6 W7 (fun q Hq => proj1 (W8 q Hq)) (fun q Hq => proj1 (proj2 (W8 q Hq))) (fun q l Hq Hl => proj2 (proj2 (W8 q Hq)) l Hl)
               (b_const b) (b_slope b) (b_var b) results (length pre) Hm W9 v (mk_limits (b_size b) (b_max b)) rest' path Hrest' n Hpn
               low Hlow_len Hlow_coh Hlow_log Hlow_names (fails bs) Hclimb (b_given b) (b_known b) L (vec (b_gates b) v) (tab (b_params b) (fun _ => NaN)) (fresh_tuner (relevant (b_goal b))) tr Hun);
          try assumption; first [apply index_vec|apply index_tab|reflexivity].
      - destruct (newton_from_exists lstsq all (b_gates b) (b_params b) (b_desired b) (b_factor b) W1 W2 W6 (fun q Hq => proj1 (W8 q Hq)) (b_const b) (b_slope b) W9 Hmin v) as [h0 Hh0].
        destruct (archimed (rnorm (b_gates b) h0 / m)) as [Hup _]. set (M := Z.to_nat (up (rnorm (b_gates b) h0 / m))).
        assert (HM : (rnorm (b_gates b) h0 <= INR M * m)%R).
        { assert (Hq0 : (0 <= rnorm (b_gates b) h0 / m)%R) by (apply Rmult_le_pos; [apply rnorm_nonneg|left; apply Rinv_0_lt_compat; exact Hm0]).
          assert (HI : INR M = IZR (up (rnorm (b_gates b) h0 / m))).
          { unfold M. rewrite INR_IZR_INZ, Z2Nat.id; [reflexivity|]. apply le_IZR. lra. }
          rewrite HI. apply Rmult_le_reg_r with (/ m)%R; [apply Rinv_0_lt_compat; exact Hm0|]. rewrite Rmult_assoc, Rinv_r by lra. unfold Rdiv in Hup. lra. }
        exists (1 + M * (length pre + 3)). split; [unfold unlimited; rewrite Hsz; discriminate|].
        pose proof (limited_from_start ortho calc lstsq all (b_gates b) (b_params b) (b_measured b) (b_tunable b) (b_desired b) (b_tol b) (b_factor b) (b_eps b)
               Hall W1 W2 W3 W4 W5 W6 W7 (fun q Hq => proj1 (W8 q Hq)) (fun q Hq => proj1 (proj2 (W8 q Hq)))
               (b_const b) (b_slope b) (b_var b) results (length pre) Hm W9 v (mk_limits (b_size b) (b_max b)) rest' path Hrest' n Hpn
               low Hlow_len Hlow_coh Hlow_log Hlow_names (fails bs) Hclimb Hmin m Hm0 Hsz HN h0 Hh0 (b_known b) L (vec (b_gates b) v) (tab (b_params b) (fun _ => NaN)) (fresh_tuner (relevant (b_goal b))) tr M
               HL (index_vec _ _) (index_tab _ _) eq_refl Hidx eq_refl HM) as Hrun.
        unfold start. rewrite Hgv. revert Hrun. apply reach_mono; [lia|].
        intros s' [r [L' [v' [t' [ests' [tr' [_ [Hon [-> [Hlow' [Hg [Hre Hlr]]]]]]]]]]]]. exists L', v', t', ests', tr'.
        split; [reflexivity|]. split; [exact Hlow'|]. split; [exact (segment_near all (b_gates b) v h0 r v' Hon)|]. split; [exact Hg|]. split; [exact Hre|].
        split; [left; exact Hlr|intros _; exact Hlr]. }
    destruct Hfirst as [m1 [Hm1 [m' [s1 [Hm' [[Hit Hd]|[Hit Hd]]]]]]].
    2:{ exists m1. split; [intros Hun; inversion Hun; subst; specialize (Hm1 ltac:(assumption)); cbn [iterations]; lia|]. exists m', s1. split; [exact Hm'|]. right. auto. }
    destruct Hd as [L' [v' [t' [ests' [tr' [-> [Hlow' [Hnear [Hg [Hr [Hset Hgiven]]]]]]]]]]].
    match type of Hit with context [L' ++ ?own :: _] => set (p := own) in Hit end.
    assert (Hp : settled b v' p) by (exists v, t', ests'; auto).
    specialize (IH (pre ++ [b]) (L' ++ [p]) v' tr'). rewrite app_length in IH. cbn [length] in IH. rewrite Nat.add_1_r in IH.
    rewrite <- !app_assoc in IH. cbn [app] in IH. destruct IH as [m2 [Hm2 Hr2]].
    + exact Hbs.
    + apply Forall2_app; [exact Hlow'|constructor; [exact Hp|constructor]].
    + intros y Hy l Hl. rewrite <- (Hpost y (or_intror Hy) l Hl). apply Hnear; [destruct (Hwfq y Hy) as [_ [_ [Hin _]]]; apply Hin, Hl|]. apply (Htri2 y Hy l Hl).
    + intros l Hl Hf. rewrite <- (Hout l Hl Hf). apply Hnear; [exact Hl|]. apply Hf. rewrite Hbs. apply in_or_app. right; left; reflexivity.
    + exists (m' + m2). split.
      * intros Hun. inversion Hun; subst. cbn [iterations]. specialize (Hm1 ltac:(assumption)). specialize (Hm2 ltac:(assumption)). lia.
      * eapply reach_after; [exact Hit|exact Hr2].
Qed.
End Blocks.
End Hierarchy.
