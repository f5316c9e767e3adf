(** Property: a tuner on a device that is not affine. *)
From Verif Require Import PyBase TargetModel TunerModel TunerSpec SeriesLemmas NewtonModel EstimatorModel AutotunerModel AutotunerProofs ComposeModel KernelR ComposeSpec ComposeProofs ComposeHierarchy ComposeNumerics ComposeCoupledSpec ComposeCoupledProofs ComposeCurvedSpec ComposeCurvedProofs.
From Coq Require Import Lra ZArith.
Local Open Scope list_scope.
Local Open Scope string_scope.

(** C147.  The first tuner of a hierarchy was given gradients that the device
    follows up to the fraction [rho].  If every target is missed by at most [r]
    at the start and rho^M r is below the tolerances, the tuner is tuned after
    at most 3M+1 iterations. *)
Theorem curved_tuner_completes :
  forall ortho calc lstsq, lstsq_shortest lstsq ->
  forall (all : list label) (b : block) f results (p0 : label -> R) (rest : list (part (newton fd))) path n rho r M,
  NoDup all -> well_formed all b -> unlimited b -> b_given b = true -> 1 <= n ->
  (forall v, results 0 (vec all v) = Ok (vec (b_measured b) (f v), tab (b_measured b) (b_var b v))) ->
  (forall p, In p rest -> coherent (fun s => index (nw_pos s)) (fun s => Some (map (fun g => Some (index (fd_pos g))) (nw_ests s))) all p) ->
  (0 <= rho <= 1)%R -> follows b f rho r ->
  (forall q, In q (b_params b) -> Rabs (short_of b f p0 q) <= r)%R -> (forall q, In q (b_params b) -> rho ^ M * r < b_tol b q)%R ->
  let E := newton_hierarchy ortho calc lstsq results n in
  exists m s v, m <= 3 * M + 1 /\ iterates E m (fresh path (mk_world (vec all p0) (start p0 b :: rest))) = (s, Ok tt) /\
    s_at s = mk_at 1 false None path /\ w_gates (s_w s) = vec all v /\ hit b f v /\ (forall l, In l all -> ~ In l (b_gates b) -> v l = p0 l).
Proof.
  intros ortho calc lstsq Hmin all b f results p0 rest path n rho r M Hall Hb Hu Hgv Hn Hm Hrest Hrho Hfol Hr HM E.
  assert (Hn0 : 0 <> n) by lia. assert (Hind : independent (b_gates b) (map (b_slope b) (b_params b))) by apply Hb.
  destruct (first_given ortho calc lstsq all results n path Hn0 b Hb rest Hrest f Hm p0 [] Hgv) as [p [tr [Hs H1]]]. fold E in H1.
  destruct (hits b f p0) eqn:Hh; cbn [negb] in H1.
  - exists 1. eexists. exists p0. split; [lia|]. split; [apply iterates_one; exact H1|]. cbn [s_at s_w w_gates]. split; [reflexivity|]. split; [reflexivity|].
    split; [apply hits_hit; exact Hh|reflexivity].
  - assert (Hfol' : follows (with_slopes (b_slope b) b) f rho r) by (destruct b; exact Hfol).
    destruct (rounds ortho calc lstsq Hmin all Hall results n path Hn0 b Hb Hu rest Hrest f Hm (b_slope b) p0 Hind rho r Hrho Hfol' M p0 p0 p tr r Hs Hh) as [m [s [v [Hmm [H2 [p' [tr' [-> [H3 H4]]]]]]]]];
      [reflexivity|apply Rle_refl|exact Hr|exact HM|].
    exists (1 + m). eexists. exists v. split; [lia|]. split; [etransitivity; [exact (iterates_app E 1 m _ _ (iterates_one E _ _ H1))|exact H2]|].
    cbn [s_at s_w w_gates]. auto.
Qed.

(** C147.  One parameter whose changes are opposite to the promised ones or at
    least twice as large: the run does not end. *)
Theorem misled_tuner_runs_forever :
  forall ortho calc lstsq, lstsq_shortest lstsq ->
  forall (all : list label) (b : block) f results (p0 : label -> R) (rest : list (part (newton fd))) path n q,
  NoDup all -> well_formed all b -> unlimited b -> b_given b = true -> 1 <= n -> b_params b = [q] ->
  (forall v, results 0 (vec all v) = Ok (vec (b_measured b) (f v), tab (b_measured b) (b_var b v))) ->
  (forall p, In p rest -> coherent (fun s => index (nw_pos s)) (fun s => Some (map (fun g => Some (index (fd_pos g))) (nw_ests s))) all p) ->
  (forall v h w, moves b w h -> change b f h v q * w q <= 0 \/ 2 * (w q * w q) <= change b f h v q * w q)%R ->
  ~ hit b f p0 ->
  let E := newton_hierarchy ortho calc lstsq results n in
  forall m, exists s, iterates E m (fresh path (mk_world (vec all p0) (start p0 b :: rest))) = (s, Ok tt) /\ is_tuning_complete E (s_at s) = false.
Proof.
  intros ortho calc lstsq Hmin all b f results p0 rest path n q Hall Hb Hu Hgv Hn Hp Hm Hrest Hbad Hnot E m.
  assert (Hn0 : 0 <> n) by lia. assert (Hind : independent (b_gates b) (map (b_slope b) (b_params b))) by apply Hb.
  destruct (first_given ortho calc lstsq all results n path Hn0 b Hb rest Hrest f Hm p0 [] Hgv) as [p [tr [Hs H1]]]. fold E in H1.
  assert (Hh : hits b f p0 = false) by (destruct (hits b f p0) eqn:K; [destruct Hnot; apply hits_hit; exact K|reflexivity]).
  rewrite Hh in H1. cbn [negb] in H1.
  assert (Hbad' : forall v h w, moves (with_slopes (b_slope b) b) w h -> (change b f h v q * w q <= 0 \/ 2 * (w q * w q) <= change b f h v q * w q)%R) by (destruct b; exact Hbad).
  destruct (rounds_forever ortho calc lstsq Hmin all Hall results n path Hn0 b Hb Hu rest Hrest f Hm (b_slope b) p0 Hind q Hp Hbad' (m + 1) p0 p tr Hs Hh) as [k [s [Hk Hit]]].
  assert (Hrun : iterates E (m + (1 + (k - m))) (fresh path (mk_world (vec all p0) (start p0 b :: rest))) = (s, Ok tt)).
  { replace (m + (1 + (k - m))) with (1 + k) by lia. etransitivity; [exact (iterates_app E 1 k _ _ (iterates_one E _ _ H1))|exact Hit]. }
  destruct (iterates_prefix ortho calc lstsq results n m _ _ _ Hrun) as [s2 [H2 H3]].
  destruct (iterates_prefix ortho calc lstsq results n 1 _ _ _ H3) as [s3 [H4 _]].
  exists s2. split; [exact H2|]. cbn [iterates] in H4. fold E in H4. destruct (iterate E s2) as [s4 [[]|ex]] eqn:Hi; [|discriminate].
  exact (complete_stops ortho calc lstsq results n s2 s4 Hi).
Qed.

(** C147.  A tuner without gradients measures them by finite differences.  If
    the device follows all its secants up to the fraction rho < 1, the tuner is
    tuned after finitely many iterations. *)
Theorem curved_tuner_learns :
  forall ortho calc lstsq, ortho_exact ortho -> calc_exact calc -> lstsq_shortest lstsq ->
  forall (all : list label) (b : block) f results (p0 : label -> R) (rest : list (part (newton fd))) path n rho,
  NoDup all -> well_formed all b -> unlimited b -> b_given b = false -> 1 <= n ->
  (forall v, results 0 (vec all v) = Ok (vec (b_measured b) (f v), tab (b_measured b) (b_var b v))) ->
  (forall p, In p rest -> coherent (fun s => index (nw_pos s)) (fun s => Some (map (fun g => Some (index (fd_pos g))) (nw_ests s))) all p) ->
  (0 <= rho < 1)%R ->
  (forall a, secants all b f p0 a -> independent (b_gates b) (map a (b_params b)) /\ forall r, follows (with_slopes a b) f rho r) ->
  let E := newton_hierarchy ortho calc lstsq results n in
  exists m s v, iterates E m (fresh path (mk_world (vec all p0) (start p0 b :: rest))) = (s, Ok tt) /\
    s_at s = mk_at 1 false None path /\ w_gates (s_w s) = vec all v /\ hit b f v /\ (forall l, In l all -> ~ In l (b_gates b) -> v l = p0 l).
Proof.
  intros ortho calc lstsq Hortho Hcalc Hmin all b f results p0 rest path n rho Hall Hb Hu Hgv Hn Hm Hrest Hrho Hsec E.
  destruct (learn_all ortho calc lstsq Hmin all Hall results n path ltac:(lia) b Hb Hu rest Hrest f Hm Hortho Hcalc p0 rho Hrho Hsec Hgv) as [m [s [v [H1 [p [tr [-> [H2 H3]]]]]]]].
  exists m. eexists. exists v. split; [exact H1|]. cbn [s_at s_w w_gates]. auto.
Qed.

Lemma mem_one k l : mem k [l] = String.eqb k l.
Proof. unfold mem. cbn. rewrite orb_false_r. first [reflexivity | apply String.eqb_sym]. Qed.

(** C147.  One gate and one parameter: any two difference quotients of the
    device differ by at most the fraction rho < 1, and the tuner is tuned from
    scratch. *)
Theorem steady_device_is_tuned :
  forall ortho calc lstsq, ortho_exact ortho -> calc_exact calc -> lstsq_shortest lstsq ->
  forall (all : list label) (b : block) f results (p0 : label -> R) (rest : list (part (newton fd))) path n rho l q,
  NoDup all -> well_formed all b -> unlimited b -> b_given b = false -> 1 <= n -> b_gates b = [l] -> b_params b = [q] ->
  (forall v, results 0 (vec all v) = Ok (vec (b_measured b) (f v), tab (b_measured b) (b_var b v))) ->
  (forall p, In p rest -> coherent (fun s => index (nw_pos s)) (fun s => Some (map (fun g => Some (index (fd_pos g))) (nw_ests s))) all p) ->
  (0 <= rho < 1)%R ->
  (forall v v' x x', x <> 0 -> x' <> 0 -> quotient f q l v x <> 0 /\ Rabs (quotient f q l v' x' - quotient f q l v x) <= rho * Rabs (quotient f q l v x))%R ->
  let E := newton_hierarchy ortho calc lstsq results n in
  exists m s v, iterates E m (fresh path (mk_world (vec all p0) (start p0 b :: rest))) = (s, Ok tt) /\
    s_at s = mk_at 1 false None path /\ w_gates (s_w s) = vec all v /\ hit b f v /\ (forall k, In k all -> ~ In k (b_gates b) -> v k = p0 k).
Proof.
  intros ortho calc lstsq Hortho Hcalc Hmin all b f results p0 rest path n rho l q Hall Hb Hu Hgv Hn Hg Hp Hm Hrest Hrho Hst E.
  assert (Hq : In q (b_params b)) by (rewrite Hp; left; reflexivity).
  assert (Hf : b_factor b q <> 0%R) by (destruct Hb as [_ [_ [_ [_ [_ [_ [_ [W8 _]]]]]]]]; apply (W8 q Hq)).
  assert (Hqm : In q (b_measured b)) by (destruct Hb as [_ [_ [_ [_ [_ [_ [W7 _]]]]]]]; apply W7, Hq).
  assert (Hext : forall v v', (forall k, In k all -> v k = v' k) -> f v q = f v' q).
  { intros v v' Hv. pose proof (Hm v) as K. rewrite (vec_ext all v v' Hv), Hm in K. injection K as K _. symmetry.
    clear -K Hqm. revert K. induction (b_measured b) as [|k ks IH]; [destruct Hqm|]. cbn. intros K. injection K as K1 K2. destruct Hqm as [<-|Hqm]; [exact K1|exact (IH Hqm K2)]. }
  apply (curved_tuner_learns ortho calc lstsq Hortho Hcalc Hmin all b f results p0 rest path n rho Hall Hb Hu Hgv Hn Hm Hrest Hrho).
  intros a [xs [Hlen [Hind [_ [Hout Hfit]]]]]. rewrite Hg in Hlen. destruct xs as [|x [|]]; try discriminate.
  assert (Hx : (x l - p0 l <> 0)%R).
  { intros K. rewrite Hg in Hind. assert (R1 : 1%R = 0%R); [|exact (R1_neq_R0 R1)]. apply (Hind [1%R] eq_refl); [|left; reflexivity]. intros k [<-|[]]. cbn. rewrite K. lra. }
  set (d := (x l - p0 l)%R) in *.
  assert (Ha : a q l = quotient f q l p0 d).
  { pose proof (Hfit x q (or_introl eq_refl) Hq) as K. rewrite Hg, one_dot in K. fold d in K. unfold quotient.
    rewrite (Hext (fun k => if String.eqb k l then (p0 k + d)%R else p0 k) x).
    - rewrite <- K. field. exact Hx.
    - intros k Hk. destruct (String.eqb_spec k l) as [->|Hne]; [unfold d; lra|]. symmetry. apply (Hout x (or_introl eq_refl) k Hk). rewrite Hg. intros [K'|[]]. congruence. }
  assert (Hne : a q l <> 0%R) by (rewrite Ha; apply (proj1 (Hst p0 p0 d d Hx Hx))).
  split.
  - rewrite Hg, Hp. cbn [map]. intros [|c [|]] Hl Hz; try discriminate. pose proof (Hz l (or_introl eq_refl)) as K. cbn in K. intros y [<-|[]].
    apply Rmult_eq_reg_r with (a q l); [lra|exact Hne].
  - intros r v h w r' Hr' _ Hw [Hc _] q' Hq'. cbn [with_slopes b_params] in *. rewrite Hp in Hq'. destruct Hq' as [<-|[]].
    pose proof (Hc q Hq) as K. unfold gradient in K. cbn [with_slopes b_gates b_slope b_factor] in K. rewrite Hg, one_dot in K.
    assert (Hch : change (with_slopes a b) f h v q = (if Req_EM_T (h l) 0 then 0 else quotient f q l v (h l) * h l / b_factor b q)%R).
    { unfold change, moved. cbn [with_slopes b_gates b_factor]. destruct (Req_EM_T (h l) 0) as [Hz|Hz].
      - rewrite (Hext _ v); [field; exact Hf|]. intros k _. rewrite Hg, mem_one. destruct (String.eqb_spec k l) as [->|]; lra.
      - unfold quotient. rewrite (Hext (fun k => v k + (if mem k (b_gates b) then h k else 0))%R (fun k => if String.eqb k l then (v k + h l)%R else v k)); [field; auto|].
        intros k _. rewrite Hg, mem_one. destruct (String.eqb_spec k l) as [->|]; lra. }
    eapply Rle_trans; [|apply Rmult_le_compat_l; [apply Hrho|exact (Hw q Hq)]]. rewrite Hch, <- K. destruct (Req_EM_T (h l) 0) as [Hz|Hz].
    + rewrite Hz, Rmult_0_r, Rminus_0_r, Rabs_R0. lra.
    + replace (quotient f q l v (h l) * h l / b_factor b q - a q l / b_factor b q * h l)%R with ((quotient f q l v (h l) - a q l) * (h l / b_factor b q))%R by (field; exact Hf).
      replace (a q l / b_factor b q * h l)%R with (a q l * (h l / b_factor b q))%R by (field; exact Hf). rewrite !Rabs_mult, <- Rmult_assoc.
      apply Rmult_le_compat_r; [apply Rabs_pos|]. rewrite Ha. apply (proj2 (Hst p0 v d (h l) Hx Hz)).
Qed.

(** *** Examples *)
Lemma abs_range x r : (Rabs x <= r)%R -> (- r <= x <= r)%R.
Proof. unfold Rabs. destruct (Rcase_abs x); lra. Qed.
(** A kink at zero changes a parameter by at most the step. *)
Lemma kink v h : (- Rabs h <= Rabs (v + h) - Rabs v <= Rabs h)%R.
Proof. unfold Rabs. destruct (Rcase_abs (v + h)), (Rcase_abs v), (Rcase_abs h); lra. Qed.

Definition cv_all := ["A"; "B"; "C"].
Definition cv_device (f : (label -> R) -> label -> R) (ps : list label) (i : nat) (v : series) : res (series * series) :=
  Ok (vec ps (f (fun l => match get l v with Fin r => r | _ => 0%R end)), tab ps (fun _ => Fin 0)).
Definition cv_env f ps := newton_hierarchy ref_ortho ref_calc ref_lstsq (cv_device f ps) 1.
Definition cv_start (b : block) := fresh None (mk_world (vec cv_all (fun _ => 0%R)) [start (fun _ => 0%R) b]).
Lemma cv_nodup : NoDup cv_all.
Proof. repeat (constructor; [cbn; intuition congruence|]). constructor. Qed.
Ltac cv_wf b := unfold well_formed, b; cbn [b_gates b_tunable b_params b_measured b_factor b_tol b_eps b_slope];
  split; [repeat (constructor; [cbn; intuition congruence|]); constructor|]; split; [discriminate|];
  split; [intros ? Hin; cbn in Hin |- *; intuition|]; split; [apply incl_refl|];
  split; [repeat (constructor; [cbn; intuition congruence|]); constructor|]; split; [discriminate|];
  split; [intros ? Hin; cbn in Hin |- *; intuition|]; split; [intros; split; [lra|]; split; [lra|intros; lra]|].

(** p = A + B + |A| / 8 with the gradient (1, 1) and the factor 2. *)
Definition cv_sum (v : label -> R) (_ : label) : R := (v "A" + v "B" + Rabs (v "A") / 8)%R.
Definition cv_pair : block :=
  mk_block ["A"; "B"] ["A"; "B"] ["p"] ["p"; "q"] (fun _ => 10%R) (fun _ => 0.1%R) (fun _ => 2%R) (fun _ => 0%R) (fun _ _ => 1%R)
    (fun _ _ => Fin 0) (fun _ _ => 0.01%R) (fun _ => false) true NaN 3.
Example curved_tuner_completes_ex :
  exists m s v, m <= 7 /\ iterates (cv_env cv_sum ["p"; "q"]) m (cv_start cv_pair) = (s, Ok tt) /\ is_tuning_complete (cv_env cv_sum ["p"; "q"]) (s_at s) = true /\
    w_gates (s_w s) = vec cv_all v /\ (19.8 < v "A" + v "B" + Rabs (v "A") / 8 < 20.2)%R /\ v "C" = 0%R.
Proof.
  destruct (curved_tuner_completes ref_ortho ref_calc ref_lstsq ref_lstsq_shortest cv_all cv_pair cv_sum (cv_device cv_sum ["p"; "q"]) (fun _ => 0%R) [] None 1 (1/16)%R 10%R 2)
    as [m [s [v [Hm [H1 [H2 [H3 [H4 H5]]]]]]]]; try reflexivity.
  - exact cv_nodup.
  - cv_wf cv_pair. intros [|x [|y cs]] Hl Hz; try discriminate. pose proof (Hz "A" (or_introl eq_refl)) as K. cbn in K. intros r [<-|[]]; lra.
  - intros p [].
  - lra.
  - intros v h w r _ _ Hw [Hc Hs] q [<-|[]]. pose proof (Hw "p" (or_introl eq_refl)) as W. pose proof (Hc "p" (or_introl eq_refl)) as K. unfold gradient, dot in K. cbn in K.
    assert (Hw2 : changes cv_pair w (fun _ => w "p")) by (intros q [<-|[]]; unfold gradient, dot; cbn; field).
    pose proof (Hs _ Hw2) as M. unfold dot in M. cbn in M.
    assert (HA : h "A" = w "p").
    { assert ((h "A" - w "p") * (h "A" - w "p") <= 0)%R; [|nra]. replace (h "B") with (2 * w "p" - h "A")%R in M by lra. lra. }
    unfold change, cv_sum, moved. cbn. pose proof (kink (v "A") (h "A")) as Q. rewrite HA in Q |- *. apply Rabs_le. apply abs_range in W.
    assert (Rabs (w "p") <= r)%R by (apply Rabs_le; lra). lra.
  - intros q _. unfold short_of, cv_sum. cbn. rewrite Rabs_R0. apply Rabs_le. lra.
  - intros q _. cbn. lra.
  - exists m, s, v. split; [lia|]. split; [exact H1|]. split; [rewrite H2; reflexivity|]. split; [exact H3|].
    split; [|apply H5; cbn; intuition congruence]. pose proof (H4 "p" (or_introl eq_refl)) as K. apply Rabs_def2 in K. unfold short_of, cv_sum in K. cbn in K. lra.
Qed.

(** p = 3 A + |A| / 2 with the gradient 1. *)
Definition cv_steep (v : label -> R) (_ : label) : R := (3 * v "A" + Rabs (v "A") / 2)%R.
Definition cv_one (given : bool) : block :=
  mk_block ["A"] ["A"] ["p"] ["p"] (fun _ => 10%R) (fun _ => 0.1%R) (fun _ => 1%R) (fun _ => 0%R) (fun _ _ => 1%R)
    (fun _ _ => Fin 0) (fun _ _ => 0.01%R) (fun _ => false) given NaN 3.
Lemma cv_one_wf g : well_formed cv_all (cv_one g).
Proof. cv_wf cv_one. intros [|x [|y cs]] Hl Hz; try discriminate. pose proof (Hz "A" (or_introl eq_refl)) as K. cbn in K. intros r [<-|[]]; lra. Qed.
Example misled_tuner_runs_forever_ex : forall m, exists s,
  iterates (cv_env cv_steep ["p"]) m (cv_start (cv_one true)) = (s, Ok tt) /\ is_tuning_complete (cv_env cv_steep ["p"]) (s_at s) = false.
Proof.
  apply (misled_tuner_runs_forever ref_ortho ref_calc ref_lstsq ref_lstsq_shortest cv_all (cv_one true) cv_steep (cv_device cv_steep ["p"]) (fun _ => 0%R) [] None 1 "p"); try reflexivity.
  - exact cv_nodup.
  - apply cv_one_wf.
  - intros p [].
  - intros v h w [Hc _]. right. pose proof (Hc "p" (or_introl eq_refl)) as K. unfold gradient, dot in K. cbn in K.
    unfold change, cv_steep, moved. cbn. pose proof (kink (v "A") (h "A")) as Q. replace (w "p") with (h "A") by lra.
    set (d := (Rabs (v "A" + h "A") - Rabs (v "A"))%R) in *.
    replace ((3 * (v "A" + h "A") + Rabs (v "A" + h "A") / 2 - (3 * v "A" + Rabs (v "A") / 2)) / 1 * h "A")%R with (3 * (h "A" * h "A") + d * h "A" / 2)%R by (unfold d; field).
    assert (- (h "A" * h "A") <= d * h "A")%R; [|nra]. revert Q. unfold Rabs. destruct (Rcase_abs (h "A")); intros; nra.
  - intros H. pose proof (H "p" (or_introl eq_refl)) as K. apply Rabs_def2 in K. unfold short_of, cv_steep in K. cbn in K. rewrite Rabs_R0 in K. lra.
Qed.

(** p = A + |A| / 8 and q = B + |B| / 8; the gradients are measured. *)
Definition cv_bent (v : label -> R) (q : label) : R := if String.eqb q "p" then (v "A" + Rabs (v "A") / 8)%R else (v "B" + Rabs (v "B") / 8)%R.
Definition cv_two : block :=
  mk_block ["A"; "B"] ["A"; "B"] ["p"; "q"] ["p"; "q"] (fun _ => 10%R) (fun _ => 0.1%R) (fun _ => 1%R) (fun _ => 0%R)
    (fun q l => if String.eqb q "p" then (if String.eqb l "A" then 1 else 0) else if String.eqb l "A" then 0 else 1)%R
    (fun _ _ => Fin 0) (fun _ _ => 0.01%R) (fun _ => false) false NaN 3.
(** The errors of a gradient measured with two orthogonal steps. *)
Lemma abs_sq x : (Rabs x * Rabs x = x * x)%R.
Proof. unfold Rabs. destruct (Rcase_abs x); ring. Qed.
Lemma bent_error x1 x2 y1 y2 a1 a2 : (0 < x1 * x1 + x2 * x2)%R -> (0 < y1 * y1 + y2 * y2)%R -> (x1 * y1 + x2 * y2 = 0)%R ->
  (a1 * x1 + a2 * x2 = Rabs x1 / 8)%R -> (a1 * y1 + a2 * y2 = Rabs y1 / 8)%R -> (Rabs a1 <= 1/8 /\ Rabs a2 <= 1/8)%R.
Proof.
  intros N1 N2 Ho H1 H2.
  assert (O1 : (x1 * (x1 * y1 + x2 * y2) = 0)%R) by (rewrite Ho; ring). assert (O2 : (x2 * (x1 * y1 + x2 * y2) = 0)%R) by (rewrite Ho; ring).
  set (N := (x1 * x1 + x2 * x2)%R) in *. set (t := ((x1 * y2 - x2 * y1) / N)%R).
  assert (Y1 : y1 = (- t * x2)%R). { unfold t. apply Rmult_eq_reg_r with N; [|lra]. replace (- ((x1 * y2 - x2 * y1) / N) * x2 * N)%R with (- (x1 * y2 - x2 * y1) * x2)%R by (field; lra). unfold N. lra. }
  assert (Y2 : y2 = (t * x1)%R). { unfold t. apply Rmult_eq_reg_r with N; [|lra]. replace ((x1 * y2 - x2 * y1) / N * x1 * N)%R with ((x1 * y2 - x2 * y1) * x1)%R by (field; lra). unfold N. lra. }
  assert (Ht : t <> 0%R) by (intros K; rewrite Y1, Y2, K in N2; lra).
  assert (H2' : exists s, (s = 1 \/ s = -1)%R /\ (a2 * x1 - a1 * x2 = s * Rabs x2 / 8)%R).
  { rewrite Y1, Y2 in H2. rewrite Rabs_mult, Rabs_Ropp in H2. destruct (Rcase_abs t) as [K|K].
    - exists (-1)%R. split; [auto|]. rewrite (Rabs_left t K) in H2. apply Rmult_eq_reg_r with t; [|exact Ht]. lra.
    - exists 1%R. split; [auto|]. rewrite (Rabs_right t K) in H2. apply Rmult_eq_reg_r with t; [|exact Ht]. lra. }
  destruct H2' as [s [Hs H3]].
  assert (P1 : ((a1 * x1 + a2 * x2) * x1 = Rabs x1 / 8 * x1)%R) by (rewrite H1; ring). assert (P2 : ((a1 * x1 + a2 * x2) * x2 = Rabs x1 / 8 * x2)%R) by (rewrite H1; ring).
  assert (P3 : ((a2 * x1 - a1 * x2) * x1 = s * Rabs x2 / 8 * x1)%R) by (rewrite H3; ring). assert (P4 : ((a2 * x1 - a1 * x2) * x2 = s * Rabs x2 / 8 * x2)%R) by (rewrite H3; ring).
  assert (E1 : (N * a1 = (x1 * Rabs x1 - s * (x2 * Rabs x2)) / 8)%R) by (unfold N; lra).
  assert (E2 : (N * a2 = (x2 * Rabs x1 + s * (x1 * Rabs x2)) / 8)%R) by (unfold N; lra).
  pose proof (Rle_0_sqr (x1 - x2)) as S1. pose proof (Rle_0_sqr (x1 + x2)) as S2. pose proof (Rle_0_sqr x1) as S3. pose proof (Rle_0_sqr x2) as S4. unfold Rsqr in S1, S2, S3, S4.
  assert (B1 : (- N <= x1 * Rabs x1 - s * (x2 * Rabs x2) <= N)%R) by (unfold N, Rabs; clear - S1 S2 S3 S4 Hs; destruct Hs as [->| ->], (Rcase_abs x1), (Rcase_abs x2); lra).
  assert (B2 : (- N <= x2 * Rabs x1 + s * (x1 * Rabs x2) <= N)%R) by (unfold N, Rabs; clear - S1 S2 S3 S4 Hs; destruct Hs as [->| ->], (Rcase_abs x1), (Rcase_abs x2); lra).
  split; apply Rabs_le; split; apply Rmult_le_reg_l with N; try exact N1; lra.
Qed.
Lemma eighth a h : (Rabs a <= 1/8)%R -> (Rabs (a * h) <= Rabs h / 8)%R.
Proof. intros H. rewrite Rabs_mult. pose proof (Rmult_le_compat_r _ _ _ (Rabs_pos h) H). lra. Qed.
Example curved_tuner_learns_ex :
  exists m s v, iterates (cv_env cv_bent ["p"; "q"]) m (cv_start cv_two) = (s, Ok tt) /\ is_tuning_complete (cv_env cv_bent ["p"; "q"]) (s_at s) = true /\
    w_gates (s_w s) = vec cv_all v /\ (9.9 < v "A" + Rabs (v "A") / 8 < 10.1 /\ 9.9 < v "B" + Rabs (v "B") / 8 < 10.1)%R.
Proof.
  destruct (curved_tuner_learns ref_ortho ref_calc ref_lstsq ref_ortho_exact ref_calc_exact ref_lstsq_shortest cv_all cv_two cv_bent (cv_device cv_bent ["p"; "q"]) (fun _ => 0%R) [] None 1 (1/2)%R)
    as [m [s [v [H1 [H2 [H3 [H4 H5]]]]]]]; try reflexivity.
  - exact cv_nodup.
  - cv_wf cv_two. intros [|x [|y [|z cs]]] Hl Hz; try discriminate. pose proof (Hz "A" (or_introl eq_refl)) as K1. pose proof (Hz "B" (or_intror (or_introl eq_refl))) as K2. cbn in K1, K2. intros r [<-|[<-|[]]]; lra.
  - intros p [].
  - lra.
  - intros a [xs [Hlen [Hind [Hor [_ Hfit]]]]]. destruct xs as [|x [|y [|z xs]]]; try discriminate.
    inversion Hor as [|? ? Ho _]; subst. inversion Ho as [|? ? Ho' _]; subst. clear Hor Ho. unfold dot in Ho'. cbn in Ho'.
    pose proof (Hfit x "p" (or_introl eq_refl) (or_introl eq_refl)) as F1. pose proof (Hfit y "p" (or_intror (or_introl eq_refl)) (or_introl eq_refl)) as F2.
    pose proof (Hfit x "q" (or_introl eq_refl) (or_intror (or_introl eq_refl))) as F3. pose proof (Hfit y "q" (or_intror (or_introl eq_refl)) (or_intror (or_introl eq_refl))) as F4.
    clear Hfit. unfold dot, cv_bent in F1, F2, F3, F4. cbn in F1, F2, F3, F4. rewrite Rabs_R0 in F1, F2, F3, F4.
    assert (NX : (0 < x "A" * x "A" + x "B" * x "B")%R).
    { destruct (Rlt_le_dec 0 (x "A" * x "A" + x "B" * x "B")) as [|K]; [assumption|exfalso].
      assert (x "A" = 0%R) by nra. assert (x "B" = 0%R) by nra.
      assert (R1 : 1%R = 0%R); [|exact (R1_neq_R0 R1)]. apply (Hind [1%R; 0%R] eq_refl); [|left; reflexivity]. intros k [<-|[<-|[]]]; cbn; lra. }
    assert (NY : (0 < y "A" * y "A" + y "B" * y "B")%R).
    { destruct (Rlt_le_dec 0 (y "A" * y "A" + y "B" * y "B")) as [|K]; [assumption|exfalso].
      assert (y "A" = 0%R) by nra. assert (y "B" = 0%R) by nra.
      assert (R1 : 1%R = 0%R); [|exact (R1_neq_R0 R1)]. apply (Hind [0%R; 1%R] eq_refl); [|right; left; reflexivity]. intros k [<-|[<-|[]]]; cbn; lra. }
    clear Hind. assert (Ho : (x "A" * y "A" + x "B" * y "B" = 0)%R) by lra.
    destruct (bent_error (x "A") (x "B") (y "A") (y "B") (a "p" "A" - 1)%R (a "p" "B") NX NY Ho) as [A1 A2]; [lra|lra|].
    destruct (bent_error (x "B") (x "A") (y "B") (y "A") (a "q" "B" - 1)%R (a "q" "A")) as [B1 B2]; [lra|lra|lra|lra|lra|].
    clear F1 F2 F3 F4 Ho Ho' NX NY. split.
    + intros [|c1 [|c2 [|c3 cs]]] Hl Hz; try discriminate. pose proof (Hz "A" (or_introl eq_refl)) as K1. pose proof (Hz "B" (or_intror (or_introl eq_refl))) as K2. cbn in K1, K2.
      pose proof (abs_range _ _ (eighth _ c1 A1)) as Q1. pose proof (abs_range _ _ (eighth _ c1 A2)) as Q2. pose proof (abs_range _ _ (eighth _ c2 B1)) as Q3. pose proof (abs_range _ _ (eighth _ c2 B2)) as Q4.
      assert (c1 = 0 /\ c2 = 0)%R as [-> ->]; [|intros r [<-|[<-|[]]]; reflexivity].
      revert Q1 Q2 Q3 Q4. unfold Rabs. destruct (Rcase_abs c1), (Rcase_abs c2); intros; split; lra.
    + intros r v h w r' _ _ Hw [Hc _]. pose proof (Hc "p" (or_introl eq_refl)) as K1. pose proof (Hc "q" (or_intror (or_introl eq_refl))) as K2. clear Hc.
      pose proof (abs_range _ _ (Hw "p" (or_introl eq_refl))) as W1. pose proof (abs_range _ _ (Hw "q" (or_intror (or_introl eq_refl)))) as W2.
      unfold gradient, dot in K1, K2. cbn in K1, K2.
      pose proof (abs_range _ _ (eighth _ (h "A") A1)) as Q1. pose proof (abs_range _ _ (eighth _ (h "B") A2)) as Q2.
      pose proof (abs_range _ _ (eighth _ (h "B") B1)) as Q3. pose proof (abs_range _ _ (eighth _ (h "A") B2)) as Q4.
      assert (HH : (Rabs (h "A") <= 4/3 * r' /\ Rabs (h "B") <= 4/3 * r')%R).
      { revert Q1 Q2 Q3 Q4. unfold Rabs. destruct (Rcase_abs (h "A")), (Rcase_abs (h "B")); intros; split; lra. }
      pose proof (kink (v "A") (h "A")) as J1. pose proof (kink (v "B") (h "B")) as J2.
      intros q [<-|[<-|[]]]; unfold change, cv_bent, moved; cbn; apply Rabs_le; lra.
  - exists m, s, v. split; [exact H1|]. split; [rewrite H2; reflexivity|]. split; [exact H3|].
    pose proof (H4 "p" (or_introl eq_refl)) as K1. pose proof (H4 "q" (or_intror (or_introl eq_refl))) as K2. apply Rabs_def2 in K1. apply Rabs_def2 in K2. unfold short_of, cv_bent in K1, K2. cbn in K1, K2. lra.
Qed.

(** p = A + |A| / 4. *)
Definition cv_steady (v : label -> R) (_ : label) : R := (v "A" + Rabs (v "A") / 4)%R.
Example steady_device_is_tuned_ex :
  exists m s v, iterates (cv_env cv_steady ["p"]) m (cv_start (cv_one false)) = (s, Ok tt) /\ is_tuning_complete (cv_env cv_steady ["p"]) (s_at s) = true /\
    w_gates (s_w s) = vec cv_all v /\ (9.9 < v "A" + Rabs (v "A") / 4 < 10.1)%R /\ v "B" = 0%R.
Proof.
  destruct (steady_device_is_tuned ref_ortho ref_calc ref_lstsq ref_ortho_exact ref_calc_exact ref_lstsq_shortest cv_all (cv_one false) cv_steady (cv_device cv_steady ["p"]) (fun _ => 0%R) [] None 1 (2/3)%R "A" "p")
    as [m [s [v [H1 [H2 [H3 [H4 H5]]]]]]]; try reflexivity.
  - exact cv_nodup.
  - apply cv_one_wf.
  - intros p [].
  - lra.
  - assert (Hq : forall v x, x <> 0%R -> (3/4 <= quotient cv_steady "p" "A" v x <= 5/4)%R).
    { intros v x Hx. unfold quotient, cv_steady. cbn. pose proof (kink (v "A") x) as Q. set (d := (Rabs (v "A" + x) - Rabs (v "A"))%R) in *.
      replace ((v "A" + x + Rabs (v "A" + x) / 4 - (v "A" + Rabs (v "A") / 4)) / x)%R with (1 + d / x / 4)%R by (unfold d; field; exact Hx).
      assert (- 1 <= d / x <= 1)%R; [|lra]. clearbody d. destruct (Rcase_abs x) as [K|K]; [rewrite (Rabs_left x K) in Q|rewrite (Rabs_right x K) in Q].
      - assert (/ x < 0)%R by (apply Rinv_lt_0_compat; exact K). assert (x * / x = 1)%R by (field; exact Hx). unfold Rdiv. nra.
      - assert (0 < / x)%R by (apply Rinv_0_lt_compat; lra). assert (x * / x = 1)%R by (field; exact Hx). unfold Rdiv. nra. }
    intros v v' x x' Hx Hx'. pose proof (Hq v x Hx) as Q1. pose proof (Hq v' x' Hx') as Q2. split; [lra|]. rewrite (Rabs_pos_eq (quotient cv_steady "p" "A" v x)) by lra. apply Rabs_le. lra.
  - exists m, s, v. split; [exact H1|]. split; [rewrite H2; reflexivity|]. split; [exact H3|].
    split; [|apply H5; cbn; intuition congruence]. pose proof (H4 "p" (or_introl eq_refl)) as K. apply Rabs_def2 in K. unfold short_of, cv_steady in K. cbn in K. lra.
Qed.
Print Assumptions curved_tuner_completes.
Print Assumptions misled_tuner_runs_forever.
Print Assumptions curved_tuner_learns.
Print Assumptions steady_device_is_tuned.
