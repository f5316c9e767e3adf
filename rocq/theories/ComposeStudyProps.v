(** Property: hierarchies of tuners that measure their gradients on devices that
    are not affine. *)
From Verif Require Import PyBase TargetModel TunerModel TunerSpec SeriesLemmas NewtonModel EstimatorModel GradientProps AutotunerModel AutotunerProofs ComposeModel KernelR ComposeSpec ComposeProofs ComposeHierarchy ComposeNumerics ComposeCoupledSpec ComposeCoupledProofs ComposeCurvedSpec ComposeCurvedProofs ComposeCurvedProps ComposeTowerSpec ComposeTowerProofs ComposeTowerProps ComposePaceSpec ComposePaceProofs ComposePaceProps ComposeStudySpec ComposeStudyProofs.
From Coq Require Import Lra ZArith.
Local Open Scope list_scope.
Local Open Scope string_scope.

(** C151.  Some tuners have gradients, with or without a limit to their steps.
    Others measure them with finite differences when the lower tuners are tuned.
    If the devices follow the given and the measured gradients, all tuners end
    at their targets together. *)
Theorem studied_tower_completes :
  forall ortho calc lstsq, ortho_exact ortho -> ortho_unit ortho -> calc_exact calc -> lstsq_shortest lstsq ->
  forall (all : list label) (tower : list storey) results (p0 : label -> R) (rest : list (part (newton fd))) path n,
  NoDup all -> Forall (fun s => well_formed all (fst s)) tower -> stacked all tower -> teachable all p0 tower -> length tower <= n ->
  (forall j b f, nth_error tower j = Some (b, f) -> forall v, results j (vec all v) = Ok (vec (b_measured b) (f v), tab (b_measured b) (b_var b v))) ->
  (forall p, In p rest -> coherent (fun s => index (nw_pos s)) (fun s => Some (map (fun g => Some (index (fd_pos g))) (nw_ests s))) all p) ->
  let E := newton_hierarchy ortho calc lstsq results n in
  exists m s v, iterates E m (fresh path (mk_world (vec all p0) (map (fun s => start p0 (fst s)) tower ++ rest))) = (s, Ok tt) /\
    s_at s = mk_at (length tower) false None path /\ w_gates (s_w s) = vec all v /\ (forall b f, In (b, f) tower -> hit b f v) /\
    (forall l, In l all -> (forall b f, In (b, f) tower -> ~ In l (b_gates b)) -> v l = p0 l).
Proof.
  intros ortho calc lstsq Ho Hu Hc Hmin all tower results p0 rest path n Hall Hwf Hst Ht Hn Hm Hrest E.
  destruct (run_study ortho calc lstsq all results n path tower p0 rest Hwf Hst Hn Hm Hrest (fun _ _ => True)) with (post := tower) (pre := @nil storey) (pre' := @nil storey) (L := @nil (part (newton fd))) (v := p0) (tr := @nil event)
    as [m [ks [v [L [tr [H1 [_ [_ [_ [H2 H3]]]]]]]]]]; [|reflexivity|constructor|constructor|reflexivity|].
  - intros pre b f post pre' P L v tr Heq Hk HP Hpre Hst' Hm' HL Hv.
    assert (Wb : well_formed all b) by (rewrite Forall_forall in Hwf; apply (Hwf (b, f)); rewrite Heq; apply in_or_app; right; left; reflexivity).
    assert (Hlp : length pre = length pre') by exact (F2_length _ _ _ Hk).
    assert (Hl : S (length pre') <= n) by (rewrite Heq, app_length in Hn; cbn in Hn; lia).
    destruct (Ht pre b f post Heq) as [[Hgv [Hlim [rho [Hrho Hfol]]]]|[Hgv [Hun Hte]]].
    + destruct (max_entry (b_params b) (short_of b f v)) as [r [Hr0 Hr]]. destruct (enough_exists lstsq all b rho r Hmin Wb Hlim Hrho ltac:(lra)) as [M HM].
      destruct (given_level ortho calc lstsq Hmin all Hall results n path pre' b f P Hpre Wb Hst' Hl Hm' HP rho r M v L tr Hgv (Hfol r) HM Hr HL) as [m [v' [L' [p' [tr' [_ [K1 [K2 [K3 K4]]]]]]]]].
      exists m, (b_slope b), v', L', p', tr'. split; [exact I|]. split; [apply Wb|]. split; [exact K1|]. split; [exact K2|]. rewrite taught_self by exact Hgv. split; [exact K3|exact K4].
    + destruct (Hte v Hv) as [Hfar Hsec].
      destruct (learn_level ortho calc lstsq Hmin Ho Hu Hc all Hall results n path pre' b f P Hpre Wb Hst' Hl Hm' HP v L tr Hgv Hun Hfar Hsec HL) as [m [a [v' [L' [p' [tr' K]]]]]].
      exists m, a, v', L', p', tr'. split; [exact I|exact K].
  - exists m. eexists. exists v. split; [exact H1|]. cbn [s_at s_w w_gates]. split; [reflexivity|]. split; [reflexivity|]. split; [exact H2|exact H3].
Qed.

Lemma caps_sum (cap : nat -> nat) : forall ks i, (forall j k, nth_error ks j = Some k -> k <= cap (i + j)) -> list_sum ks <= list_sum (map cap (seq i (length ks))).
Proof.
  induction ks as [|k ks IH]; intros i H; cbn [length seq map list_sum fold_right]; [lia|].
  pose proof (H 0 k eq_refl) as K. rewrite Nat.add_0_r in K.
  assert (list_sum ks <= list_sum (map cap (seq (S i) (length ks)))) by (apply IH; intros j k' Hj; replace (S i + j) with (i + S j) by lia; exact (H (S j) k' Hj)).
  unfold list_sum in *. lia.
Qed.

(** C151.  Bound on the number of iterations: a tuner measures as many points
    as it has gates, and every round of tuner number j, those of the measurement
    too, costs j+3 iterations. *)
Theorem studied_tower_rate :
  forall ortho calc lstsq, ortho_exact ortho -> ortho_unit ortho -> calc_exact calc -> lstsq_shortest lstsq ->
  forall (all : list label) (tower : list storey) results (p0 : label -> R) (rest : list (part (newton fd))) path n M,
  NoDup all -> Forall (fun s => well_formed all (fst s)) tower -> stacked all tower -> teachable_in all p0 M tower -> length tower <= n ->
  (forall j b f, nth_error tower j = Some (b, f) -> forall v, results j (vec all v) = Ok (vec (b_measured b) (f v), tab (b_measured b) (b_var b v))) ->
  (forall p, In p rest -> coherent (fun s => index (nw_pos s)) (fun s => Some (map (fun g => Some (index (fd_pos g))) (nw_ests s))) all p) ->
  let E := newton_hierarchy ortho calc lstsq results n in
  exists m s v, m <= list_sum (map (fun j => 1 + M j * (j + 3)) (seq 0 (length tower))) /\
    iterates E m (fresh path (mk_world (vec all p0) (map (fun s => start p0 (fst s)) tower ++ rest))) = (s, Ok tt) /\
    s_at s = mk_at (length tower) false None path /\ w_gates (s_w s) = vec all v /\ (forall b f, In (b, f) tower -> hit b f v) /\
    (forall l, In l all -> (forall b f, In (b, f) tower -> ~ In l (b_gates b)) -> v l = p0 l).
Proof.
  intros ortho calc lstsq Ho Hu Hc Hmin all tower results p0 rest path n M Hall Hwf Hst Ht Hn Hm Hrest E.
  destruct (run_study ortho calc lstsq all results n path tower p0 rest Hwf Hst Hn Hm Hrest (fun j k => k <= 1 + M j * (j + 3))) with (post := tower) (pre := @nil storey) (pre' := @nil storey) (L := @nil (part (newton fd))) (v := p0) (tr := @nil event)
    as [m [ks [v [L [tr [H1 [Hk [Hck [Hs [H2 H3]]]]]]]]]]; [|reflexivity|constructor|constructor|reflexivity|].
  - intros pre b f post pre' P L v tr Heq Hk HP Hpre Hst' Hm' HL Hv.
    assert (Wb : well_formed all b) by (rewrite Forall_forall in Hwf; apply (Hwf (b, f)); rewrite Heq; apply in_or_app; right; left; reflexivity).
    assert (Hlp : length pre = length pre') by exact (F2_length _ _ _ Hk).
    assert (Hl : S (length pre') <= n) by (rewrite Heq, app_length in Hn; cbn in Hn; lia).
    destruct (Ht pre b f post Heq) as [[Hgv [rho [r [Hfol [Hen Hr]]]]]|[Hgv [Hun [k [Hk0 Hte]]]]].
    + destruct (given_level ortho calc lstsq Hmin all Hall results n path pre' b f P Hpre Wb Hst' Hl Hm' HP rho r (M (length pre)) v L tr Hgv Hfol Hen (Hr v Hv) HL) as [m [v' [L' [p' [tr' [K0 [K1 [K2 [K3 K4]]]]]]]]].
      exists m, (b_slope b), v', L', p', tr'. split; [rewrite <- Hlp in K0; exact K0|]. split; [apply Wb|]. split; [exact K1|]. split; [exact K2|]. rewrite taught_self by exact Hgv. split; [exact K3|exact K4].
    + destruct (learn_level_in ortho calc lstsq Hmin Ho Hu Hc all Hall results n path pre' b f P Hpre Wb Hst' Hl Hm' HP k v L tr Hgv Hun (Hte v Hv) HL) as [m [a [v' [L' [p' [tr' [K0 K]]]]]]].
      exists m, a, v', L', p', tr'. split; [|exact K]. rewrite <- Hlp in K0. eapply Nat.le_trans; [exact K0|]. apply le_n_S, Nat.mul_le_mono_r, Hk0.
  - exists m. eexists. exists v. split; [|split; [exact H1|]].
    { rewrite <- Hk, Hs. apply (caps_sum (fun j => 1 + M j * (j + 3))). exact Hck. }
    cbn [s_at s_w w_gates]. split; [reflexivity|]. split; [reflexivity|]. split; [exact H2|exact H3].
Qed.

(** *** Example *)
(** Reference kernel vectors, normalised. *)
Definition val (x : num) : R := match x with Fin r => r | _ => 0%R end.
Definition len (u : list num) : R := sqrt (sum u (fun x => val x * val x)%R).
Definition unit_ortho (rows : list (list num)) : res (list num) :=
  match ref_ortho rows with Ok u => Ok (map (fun x => Fin (val x / len u)) u) | Raise e => Raise e end.
Lemma sum_squares u : (0 <= sum u (fun x => val x * val x))%R /\ forall x, In x u -> (val x * val x <= sum u (fun x => val x * val x))%R.
Proof.
  induction u as [|y u [IH1 IH2]]; [split; [cbn; lra|intros x []]|]. pose proof (Rle_0_sqr (val y)) as K. unfold Rsqr in K. cbn [sum].
  split; [cbn; lra|]. intros x [<-|Hx]; [cbn; lra|]. pose proof (IH2 x Hx). cbn. lra.
Qed.
Lemma val_len u x : In x u -> (Rabs (val x) <= len u)%R.
Proof. intros H. rewrite <- sqrt_Rsqr_abs. apply sqrt_le_1_alt. apply (proj2 (sum_squares u) x H). Qed.
Lemma unit_ortho_unit : ortho_unit unit_ortho.
Proof.
  intros ls us u H l Hl. unfold unit_ortho in H. destruct (ref_ortho _) as [w|e]; [|discriminate]. injection H as H.
  assert (K : In (Fin (u l)) (array ls u)) by (unfold array; apply in_map_iff; exists l; auto). rewrite <- H in K. apply in_map_iff in K. destruct K as [x [Hx Hin]]. injection Hx as <-.
  pose proof (val_len w x Hin) as K. pose proof (sqrt_pos (sum w (fun x => val x * val x)%R)) as S0. fold (len w) in S0.
  destruct (Req_dec (len w) 0) as [Z|Z].
  - rewrite Z in K. assert (val x = 0%R) by (revert K; unfold Rabs; destruct (Rcase_abs (val x)); lra). rewrite H0. unfold Rdiv. rewrite Rmult_0_l, Rabs_R0. lra.
  - unfold Rdiv. rewrite Rabs_mult, (Rabs_pos_eq (/ len w)) by (apply Rlt_le, Rinv_0_lt_compat; lra). apply Rmult_le_reg_r with (len w); [lra|]. rewrite Rmult_assoc, Rinv_l by exact Z. lra.
Qed.
Lemma dot_over {A} (ls : list A) u v s : dot ls (fun l => u l / s)%R v = (dot ls u v / s)%R.
Proof. unfold dot. induction ls as [|l ls IH]; cbn; [unfold Rdiv; ring|]. rewrite IH. unfold Rdiv. ring. Qed.
Lemma unit_ortho_exact : ortho_exact unit_ortho.
Proof.
  intros ls us Hn Hne Hus. destruct (ref_ortho_exact ls us Hn Hne Hus) as [K1 K2]. unfold unit_ortho. split.
  - intros Hx. destruct (K1 Hx) as [u [Hu [[l [Hl Hnz]] Ho]]]. rewrite Hu. set (s := len (array ls u)). exists (fun l => u l / s)%R. split.
    + f_equal. unfold array. rewrite map_map. reflexivity.
    + assert (Hs : (0 < s)%R). { eapply Rlt_le_trans; [|apply (val_len (array ls u) (Fin (u l)))]; [cbn; apply Rabs_pos_lt, Hnz|unfold array; apply in_map_iff; exists l; auto]. }
      split; [exists l; split; [exact Hl|]|].
      * intros K. apply Hnz. apply Rmult_eq_reg_r with (/ s)%R; [|apply Rinv_neq_0_compat; lra]. unfold Rdiv in K. lra.
      * intros v Hv. rewrite dot_over, (Ho v Hv). unfold Rdiv. ring.
  - intros Hx. rewrite (K2 Hx). reflexivity.
Qed.

(** The two tuners of the hierarchy without limits measure their gradients.  A
    third one has its gradient and steps of at most 4: r = C + B. *)
Definition sd_second : block :=
  mk_block ["B"] ["B"] ["q"] ["q"] (fun _ => 7%R) (fun _ => 0.1%R) (fun _ => 2%R) (fun _ => 0%R) (fun _ _ => 1%R)
    (fun _ _ => Fin 0) (fun _ _ => 0.01%R) (fun _ => false) false NaN 3.
Definition sd_third : block :=
  mk_block ["C"] ["C"] ["r"] ["r"] (fun _ => 5%R) (fun _ => 0.1%R) (fun _ => 1%R) (fun _ => 0%R) (fun _ _ => 1%R)
    (fun _ _ => Fin 0) (fun _ _ => 0.01%R) (fun _ => false) true (Fin 4) 2.
Definition sd_top (v : label -> R) (_ : label) : R := (v "C" + v "B")%R.
Definition sd_tower : list storey := [(cv_one false, tw_low); (sd_second, tw_high); (sd_third, sd_top)].
Definition sd_device (i : nat) (v : series) : res (series * series) :=
  match i with 0 => cv_device tw_low ["p"] i v | 1 => cv_device tw_high ["q"] i v | _ => cv_device sd_top ["r"] i v end.
Definition sd_env := newton_hierarchy unit_ortho ref_calc ref_lstsq sd_device 3.
Definition sd_start := fresh None (mk_world (vec cv_all (fun _ => 0%R)) (map (fun s => start (fun _ => 0%R) (fst s)) sd_tower)).
Lemma sd_wf : Forall (fun s => well_formed cv_all (fst s)) sd_tower.
Proof.
  constructor; [apply cv_one_wf|]. constructor; [|constructor; [|constructor]]; cbn [fst].
  - cv_wf sd_second. intros [|x [|y cs]] Hl Hz; try discriminate. pose proof (Hz "B" (or_introl eq_refl)) as K. cbn in K. intros r [<-|[]]; lra.
  - cv_wf sd_third. intros [|x [|y cs]] Hl Hz; try discriminate. pose proof (Hz "C" (or_introl eq_refl)) as K. cbn in K. intros r [<-|[]]; lra.
Qed.
Lemma sd_stacked : stacked cv_all sd_tower.
Proof.
  repeat constructor; cbn.
  all: try (intros l [<-|[]] [K|[]]; discriminate).
  - intros v v' Hv q _. unfold tw_low. rewrite (Hv "A"); [reflexivity|left; reflexivity|]. intros [K|[]]. discriminate.
  - intros v v' Hv q _. unfold tw_low. rewrite (Hv "A"); [reflexivity|left; reflexivity|]. intros [K|[]]. discriminate.
  - intros v v' Hv q _. unfold tw_high. rewrite (Hv "A"), (Hv "B"); [reflexivity|cbn; auto|intros [K|[]]; discriminate|cbn; auto|intros [K|[]]; discriminate].
Qed.
Lemma sd_measured : forall j b f, nth_error sd_tower j = Some (b, f) -> forall v, sd_device j (vec cv_all v) = Ok (vec (b_measured b) (f v), tab (b_measured b) (b_var b v)).
Proof. intros [|[|[|j]]] b f Hj v; cbn in Hj; [| | |destruct j; discriminate]; injection Hj as <- <-; reflexivity. Qed.
Lemma one_secant all b f v a l q : b_gates b = [l] -> In q (b_params b) -> secants all b f v a ->
  exists x, (x l - v l <> 0)%R /\ (forall k, In k all -> k <> l -> x k = v k) /\ (a q l * (x l - v l) = f x q - f v q)%R.
Proof.
  intros Hg Hq [xs [Hlen [Hind [_ [Hout Hfit]]]]]. rewrite Hg in *. destruct xs as [|x [|y xs]]; try discriminate. exists x. split; [|split].
  - intros K. assert (R1 : 1%R = 0%R); [|exact (R1_neq_R0 R1)]. apply (Hind [1%R] eq_refl); [|left; reflexivity]. intros k [<-|[]]. cbn. lra.
  - intros k Hk Hkl. apply Hout; [left; reflexivity|exact Hk|]. intros [E|[]]. congruence.
  - pose proof (Hfit x q (or_introl eq_refl) Hq) as K. unfold dot in K. cbn in K. lra.
Qed.
(** A slope that is measured on x + |x| c is at most c away from 1. *)
Lemma kink_slope c u d s : (0 <= c)%R -> d <> 0%R -> (s * d = d + (Rabs (u + d) - Rabs u) * c)%R -> (1 - c <= s <= 1 + c)%R.
Proof.
  intros Hc Hd H. pose proof (kink u d) as Q. set (e := (Rabs (u + d) - Rabs u)%R) in *. clearbody e.
  destruct (Rcase_abs d) as [K|K]; [rewrite (Rabs_left d K) in Q|rewrite (Rabs_right d K) in Q].
  - assert (P1 : ((s - 1) * (- d) = - e * c)%R) by lra. assert (P2 : (- e * c <= - d * c)%R) by (apply Rmult_le_compat_r; lra). assert (P3 : (d * c <= - e * c)%R) by (apply Rmult_le_compat_r; lra).
    split; [apply Rmult_le_reg_r with (- d)%R|apply Rmult_le_reg_r with (- d)%R]; lra.
  - assert (0 < d)%R by (destruct K; [lra|subst; contradiction]). assert (P1 : ((s - 1) * d = e * c)%R) by lra. assert (P2 : (e * c <= d * c)%R) by (apply Rmult_le_compat_r; lra). assert (P3 : (- d * c <= e * c)%R) by (apply Rmult_le_compat_r; lra).
    split; apply Rmult_le_reg_r with d; lra.
Qed.
Lemma sd_first_slope v a : secants cv_all (cv_one false) tw_low v a -> (7/8 <= a "p" "A" <= 9/8)%R.
Proof.
  intros H. destruct (one_secant cv_all (cv_one false) tw_low v a "A" "p" eq_refl (or_introl eq_refl) H) as [x [H1 [_ H2]]]. unfold tw_low in H2.
  pose proof (kink_slope (1/8) (v "A") (x "A" - v "A") (a "p" "A") ltac:(lra) H1) as K. replace (v "A" + (x "A" - v "A"))%R with (x "A") in K by ring. lra.
Qed.
Lemma sd_second_slope v a : secants cv_all sd_second tw_high v a -> (3/4 <= a "q" "B" <= 5/4)%R.
Proof.
  intros H. destruct (one_secant cv_all sd_second tw_high v a "B" "q" eq_refl (or_introl eq_refl) H) as [x [H1 [H0 H2]]]. unfold tw_high in H2. rewrite (H0 "A") in H2 by (cbn; auto; discriminate).
  pose proof (kink_slope (1/4) (v "B") (x "B" - v "B") (a "q" "B") ltac:(lra) H1) as K. replace (v "B" + (x "B" - v "B"))%R with (x "B") in K by ring. lra.
Qed.
Lemma single l (s : label -> label -> R) q : (0 < s q l)%R -> independent [l] (map s [q]).
Proof. intros H [|x [|y cs]] Hl Hz; try discriminate. pose proof (Hz l (or_introl eq_refl)) as K. cbn in K. intros r [<-|[]]. assert (x * s q l = 0)%R by lra. apply Rmult_integral in H0. destruct H0; lra. Qed.
Lemma sd_first_follows a r0 : (7/8 <= a "p" "A" <= 9/8)%R -> follows (with_slopes a (cv_one false)) tw_low (2/7)%R r0.
Proof.
  intros Ha v h w r _ _ Hw [Hc _] q [<-|[]]. pose proof (Hw "p" (or_introl eq_refl)) as W. pose proof (Hc "p" (or_introl eq_refl)) as K. unfold gradient, dot in K. cbn in K.
  unfold change, tw_low, moved. cbn. pose proof (kink (v "A") (h "A")) as Q. set (s := a "p" "A") in *. clearbody s.
  assert (Hh : (7/8 * Rabs (h "A") <= Rabs (w "p"))%R). { replace (w "p") with (s * h "A")%R by lra. rewrite Rabs_mult, (Rabs_pos_eq s) by lra. apply Rmult_le_compat_r; [apply Rabs_pos|lra]. }
  assert (Hd : (Rabs (h "A" - w "p") <= 1/8 * Rabs (h "A"))%R). { replace (h "A" - w "p")%R with ((1 - s) * h "A")%R by lra. rewrite Rabs_mult. apply Rmult_le_compat_r; [apply Rabs_pos|apply Rabs_le; lra]. }
  pose proof (abs_range _ _ Hd). apply Rabs_le. lra.
Qed.
Lemma sd_second_follows a r0 : (3/4 <= a "q" "B" <= 5/4)%R -> follows (with_slopes a sd_second) tw_high (2/3)%R r0.
Proof.
  intros Ha v h w r _ _ Hw [Hc _] q [<-|[]]. pose proof (Hw "q" (or_introl eq_refl)) as W. pose proof (Hc "q" (or_introl eq_refl)) as K. unfold gradient, dot in K. cbn in K.
  unfold change, tw_high, moved. cbn. pose proof (kink (v "B") (h "B")) as Q. set (s := a "q" "B") in *. clearbody s.
  assert (Kw : (2 * w "q" = s * h "B")%R) by lra.
  assert (Hh : (3/4 * Rabs (h "B") <= 2 * Rabs (w "q"))%R). { rewrite <- (Rabs_pos_eq 2) by lra. rewrite <- Rabs_mult, Kw, Rabs_mult, (Rabs_pos_eq s) by lra. apply Rmult_le_compat_r; [apply Rabs_pos|lra]. }
  assert (Hd : (Rabs (h "B" - 2 * w "q") <= 1/4 * Rabs (h "B"))%R). { replace (h "B" - 2 * w "q")%R with ((1 - s) * h "B")%R by lra. rewrite Rabs_mult. apply Rmult_le_compat_r; [apply Rabs_pos|apply Rabs_le; lra]. }
  pose proof (abs_range _ _ Hd). apply Rabs_le. lra.
Qed.
Lemma sd_third_follows r0 : follows sd_third sd_top 0%R r0.
Proof.
  intros v h w r _ _ Hw [Hc _] q [<-|[]]. pose proof (Hc "r" (or_introl eq_refl)) as K. unfold gradient, dot in K. cbn in K.
  unfold change, sd_top, moved. cbn. apply Rabs_le. lra.
Qed.
(** The first gate once the first tuner is tuned, and the second one. *)
Lemma sd_A v : hit (cv_one false) tw_low v -> (8.7 <= v "A" <= 9)%R.
Proof. intros H. pose proof (H "p" (or_introl eq_refl)) as K. apply Rabs_def2 in K. unfold short_of, tw_low in K. cbn in K. revert K; unfold Rabs; destruct (Rcase_abs (v "A")); lra. Qed.
Lemma sd_B v : hit (cv_one false) tw_low v -> hit sd_second tw_high v -> (-90 <= v "B" <= 0)%R.
Proof.
  intros H1 H. pose proof (sd_A v H1) as HA. pose proof (H "q" (or_introl eq_refl)) as K. apply Rabs_def2 in K. unfold short_of, tw_high in K. cbn in K.
  assert (75 <= v "A" * v "A" <= 81)%R by nra. revert K; unfold Rabs; destruct (Rcase_abs (v "B")); lra.
Qed.
Lemma sd_lessons : teachable_in cv_all (fun _ => 0%R) (fun j => match j with 0 => 5 | 1 => 16 | _ => 25 end) sd_tower.
Proof.
  intros [|s1 [|s2 [|s3 lower]]] b f higher Ht; [| | |destruct lower; discriminate Ht].
  - injection Ht as <- <- _. right. split; [reflexivity|]. split; [reflexivity|]. exists 4. split; [cbn; lia|]. intros v [_ Hv].
    assert (Hx : forall x, beside cv_all (cv_one false) v x -> (-0.01 <= x "A" <= 0.01)%R).
    { intros x [_ K]. pose proof (abs_range _ _ (K "A" (or_introl eq_refl))) as Q. rewrite (Hv "A") in Q by (cbn; auto). cbn in Q. lra. }
    assert (Hs : forall x, beside cv_all (cv_one false) v x -> (9.9 <= short_of (cv_one false) tw_low x "p" <= 10.02)%R).
    { intros x K. pose proof (Hx x K) as Q. unfold short_of, tw_low. cbn. unfold Rabs. destruct (Rcase_abs (x "A")); lra. }
    split.
    + intros x K Hh. pose proof (Hs x K) as Q. pose proof (Hh "p" (or_introl eq_refl)) as J. apply Rabs_def2 in J. cbn [b_tol cv_one] in J. lra.
    + intros a Ha. pose proof (sd_first_slope v a Ha) as Q. split; [apply single; lra|]. exists (2/7)%R, (10.02)%R. split; [lra|]. split; [apply sd_first_follows, Q|].
      split; [intros q _; cbn; lra|]. intros x K q [<-|[]]. pose proof (Hs x K). apply Rabs_le. lra.
  - injection Ht as <- <- <- _. right. split; [reflexivity|]. split; [reflexivity|]. exists 15. split; [cbn; lia|]. intros v [Hlow Hv].
    pose proof (sd_A v (Hlow _ _ (or_introl eq_refl))) as HA.
    assert (Hs : forall x, beside cv_all sd_second v x -> (-34 <= short_of sd_second tw_high x "q" <= -30)%R).
    { intros x [K0 K]. pose proof (abs_range _ _ (K "B" (or_introl eq_refl))) as Q. rewrite (Hv "B") in Q; [|cbn; auto|intros b' f' [E|[]]; injection E as <- <-; cbn; intuition discriminate]. cbn in Q.
      assert (HA' : x "A" = v "A") by (apply K0; cbn; intuition discriminate). unfold short_of, tw_high. cbn. rewrite HA'. assert (75 <= v "A" * v "A" <= 81)%R by nra.
      unfold Rabs. destruct (Rcase_abs (x "B")); lra. }
    split.
    + intros x K Hh. pose proof (Hs x K) as Q. pose proof (Hh "q" (or_introl eq_refl)) as J. apply Rabs_def2 in J. cbn [b_tol sd_second] in J. lra.
    + intros a Ha. pose proof (sd_second_slope v a Ha) as Q. split; [apply single; lra|]. exists (2/3)%R, 34%R. split; [lra|]. split; [apply sd_second_follows, Q|].
      split; [intros q _; cbn; lra|]. intros x K q [<-|[]]. pose proof (Hs x K). apply Rabs_le. lra.
  - injection Ht as <- <- <- <- _. left. split; [reflexivity|]. exists 0%R, 95%R. split; [apply sd_third_follows|]. split.
    + right. split; [split; [reflexivity|split; [cbn; lia|exists 4%R; split; [reflexivity|lra]]]|]. split; [lra|]. exists 4%R, 1%R, 24, 1. split; [reflexivity|]. split.
      { split; [lra|]. intros w h r Hw [Hc _]. pose proof (Hc "r" (or_introl eq_refl)) as K. unfold gradient, dot in K. cbn in K. pose proof (Hw "r" (or_introl eq_refl)) as W.
        rewrite rnorm_dot. unfold dot. cbn. replace (h "C" * h "C" + 0)%R with (Rsqr (h "C")) by (unfold Rsqr; ring). rewrite sqrt_Rsqr_abs. replace (h "C") with (w "r") by lra. lra. }
      split; [cbn; lia|]. split; [cbn; lra|]. intros q _. cbn. lra.
    + intros v [Hlow Hv] q [<-|[]]. pose proof (sd_B v (Hlow _ _ (or_introl eq_refl)) (Hlow _ _ (or_intror (or_introl eq_refl)))) as HB. unfold short_of, sd_top. cbn.
      rewrite (Hv "C"); [|cbn; auto|intros b' f' [E|[E|[]]]; injection E as <- <-; cbn; intuition discriminate]. apply Rabs_le. lra.
Qed.
Example studied_tower_rate_ex :
  exists m s v, m <= 207 /\ iterates sd_env m sd_start = (s, Ok tt) /\ is_tuning_complete sd_env (s_at s) = true /\ w_gates (s_w s) = vec cv_all v /\
    (9.9 < v "A" + Rabs (v "A") / 8 < 10.1 /\ 13.8 < v "B" + Rabs (v "B") / 4 + v "A" * v "A" < 14.2 /\ 4.9 < v "C" + v "B" < 5.1)%R.
Proof.
  destruct (studied_tower_rate unit_ortho ref_calc ref_lstsq unit_ortho_exact unit_ortho_unit ref_calc_exact ref_lstsq_shortest cv_all sd_tower sd_device (fun _ => 0%R) [] None 3
    (fun j => match j with 0 => 5 | 1 => 16 | _ => 25 end) cv_nodup sd_wf sd_stacked sd_lessons (le_n _) sd_measured) as [m [s [v [H0 [H1 [H2 [H3 [H4 _]]]]]]]]; [intros p []|].
  exists m, s, v. split; [exact H0|]. split; [exact H1|]. split; [rewrite H2; reflexivity|]. split; [exact H3|].
  pose proof (H4 _ _ (or_introl eq_refl) "p" (or_introl eq_refl)) as K1. pose proof (H4 _ _ (or_intror (or_introl eq_refl)) "q" (or_introl eq_refl)) as K2.
  pose proof (H4 _ _ (or_intror (or_intror (or_introl eq_refl))) "r" (or_introl eq_refl)) as K3.
  apply Rabs_def2 in K1. apply Rabs_def2 in K2. apply Rabs_def2 in K3. unfold short_of, tw_low, tw_high, sd_top in K1, K2, K3. cbn in K1, K2, K3. repeat split; lra.
Qed.
Example studied_tower_completes_ex : teachable cv_all (fun _ => 0%R) sd_tower /\
  exists m s v, iterates sd_env m sd_start = (s, Ok tt) /\ is_tuning_complete sd_env (s_at s) = true /\ w_gates (s_w s) = vec cv_all v /\ (9.9 < v "A" + Rabs (v "A") / 8 < 10.1)%R.
Proof.
  assert (Ht : teachable cv_all (fun _ => 0%R) sd_tower).
  { intros lower b f higher Ht. destruct (sd_lessons lower b f higher Ht) as [[H1 _]|[H1 [H2 [k [_ H3]]]]].
    - left. split; [exact H1|]. destruct lower as [|s1 [|s2 [|s3 lower]]]; [injection Ht as <- <- _; discriminate|injection Ht as _ <- <- _; discriminate| |destruct lower; discriminate Ht].
      injection Ht as _ _ <- <- _. split; [right; split; [reflexivity|split; [cbn; lia|exists 4%R; split; [reflexivity|lra]]]|]. exists 0%R. split; [lra|]. apply sd_third_follows.
    - right. split; [exact H1|]. split; [exact H2|]. intros v Hv. destruct (H3 v Hv) as [H4 H5]. split; [exact H4|]. intros a Ha. destruct (H5 a Ha) as [H6 _]. split; [exact H6|].
      destruct lower as [|s1 [|s2 [|s3 lower]]]; [injection Ht as <- <- _|injection Ht as _ <- <- _|injection Ht as _ _ <- <- _; discriminate|destruct lower; discriminate Ht].
      + exists (2/7)%R. split; [lra|]. intros r. apply sd_first_follows, (sd_first_slope v a Ha).
      + exists (2/3)%R. split; [lra|]. intros r. apply sd_second_follows, (sd_second_slope v a Ha). }
  split; [exact Ht|].
  destruct (studied_tower_completes unit_ortho ref_calc ref_lstsq unit_ortho_exact unit_ortho_unit ref_calc_exact ref_lstsq_shortest cv_all sd_tower sd_device (fun _ => 0%R) [] None 3
    cv_nodup sd_wf sd_stacked Ht (le_n _) sd_measured) as [m [s [v [H1 [H2 [H3 [H4 _]]]]]]]; [intros p []|].
  exists m, s, v. split; [exact H1|]. split; [rewrite H2; reflexivity|]. split; [exact H3|].
  pose proof (H4 _ _ (or_introl eq_refl) "p" (or_introl eq_refl)) as K1. apply Rabs_def2 in K1. unfold short_of, tw_low in K1. cbn in K1. lra.
Qed.
Print Assumptions studied_tower_completes.
Print Assumptions studied_tower_rate.
