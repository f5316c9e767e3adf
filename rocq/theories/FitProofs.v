From Coq Require Import Reals List Bool Arith ZArith Lia Lra Psatz.
From Verif Require Import PyExn PyBase UtilModel EvaluatorModel FitModel FitSpec.
Import ListNotations.
Local Open Scope R_scope.

(** *** Sums of squares *)
Lemma chi2_nonneg f sigma : forall xs ys, 0 <= chi2 f sigma xs ys.
Proof.
  induction sigma as [|d sigma IH]; intros xs ys; cbn; [lra|].
  destruct xs as [|x xs]; [lra|]. destruct ys as [|y ys]; [lra|].
  specialize (IH xs ys). pose proof (Rle_0_sqr ((y - f x) / d)) as H. unfold Rsqr in H. lra.
Qed.

Lemma chi2_self f sigma : forall xs, chi2 f sigma xs (map f xs) = 0.
Proof.
  induction sigma as [|d sigma IH]; intros xs; cbn; [reflexivity|].
  destruct xs as [|x xs]; cbn; [reflexivity|]. rewrite IH.
  replace (f x - f x) with 0 by ring. unfold Rdiv. ring.
Qed.

Lemma chi2_zero f ys : forall xs, length ys = length xs -> chi2 f (even_sigma xs) xs ys <= 0 -> ys = map f xs.
Proof.
  induction ys as [|y ys IH]; intros [|x xs] Hl H; cbn in *; try discriminate; [reflexivity|].
  pose proof (chi2_nonneg f (even_sigma xs) xs ys) as H0. fold (even_sigma xs) in H.
  pose proof (Rle_0_sqr ((y - f x) / 1)) as H1. unfold Rsqr in H1.
  assert (Hsq : (y - f x) / 1 * ((y - f x) / 1) = 0) by lra.
  apply Rmult_integral in Hsq. f_equal; [destruct Hsq as [Hsq|Hsq]; lra|].
  apply IH; [lia|lra].
Qed.

(** *** The load time *)
Lemma load_lim o h c x : derivable_pt_lim (load_fun (o, h, c)) x (- h / c * exp (-1 * x / c)).
Proof.
  unfold load_fun.
  replace (- h / c * exp (-1 * x / c)) with (0 + (0 * exp (-1 * x / c) + h * (exp (-1 * x / c) * (-1 / c)))) by (unfold Rdiv; ring).
  apply (derivable_pt_lim_plus (fun _ => o) (fun x => h * exp (-1 * x / c))); [apply derivable_pt_lim_const|].
  apply (derivable_pt_lim_mult (fun _ => h) (fun x => exp (-1 * x / c))); [apply derivable_pt_lim_const|].
  apply (derivable_pt_lim_comp (fun x => -1 * x / c) exp); [|apply derivable_pt_lim_exp].
  replace (-1 / c) with (((0 * id x + -1 * 1) * / c) + (-1 * id x) * 0) by (unfold Rdiv, id; ring).
  apply (derivable_pt_lim_mult (fun x => -1 * x) (fun _ => / c)); [|apply derivable_pt_lim_const].
  apply (derivable_pt_lim_mult (fun _ => -1) id); [apply derivable_pt_lim_const|apply derivable_pt_lim_id].
Qed.

Lemma diff_lim q q' x d d' : derivable_pt_lim (load_fun q) x d -> derivable_pt_lim (load_fun q') x d' ->
  derivable_pt_lim (fun x => load_fun q x - load_fun q' x) x (d - d').
Proof. apply derivable_pt_lim_minus. Qed.

(** Between two points where two curves meet their slopes agree. *)
Lemma rolle o h c o' h' c' a b :
  a < b -> load_fun (o, h, c) a = load_fun (o', h', c') a -> load_fun (o, h, c) b = load_fun (o', h', c') b ->
  exists y, a < y < b /\ h / c * exp (-1 * y / c) = h' / c' * exp (-1 * y / c').
Proof.
  intros Hab Ha Hb.
  destruct (MVT_cor2 (fun x => load_fun (o, h, c) x - load_fun (o', h', c') x)
              (fun x => - h / c * exp (-1 * x / c) - - h' / c' * exp (-1 * x / c')) a b Hab) as [y [Hy Hin]].
  { intros x _. apply diff_lim; apply load_lim. }
  exists y. split; [exact Hin|]. rewrite Ha, Hb in Hy.
  assert (H0 : (- h / c * exp (-1 * y / c) - - h' / c' * exp (-1 * y / c')) * (b - a) = 0) by lra.
  apply Rmult_integral in H0. destruct H0 as [H0|H0]; [|lra].
  assert (E1 : - h / c = - (h / c)) by (unfold Rdiv; ring). assert (E2 : - h' / c' = - (h' / c')) by (unfold Rdiv; ring).
  rewrite E1, E2 in H0. lra.
Qed.

Lemma load_determined o h c o' h' c' x1 x2 x3 :
  h <> 0 -> 0 < c -> 0 < c' -> x1 < x2 < x3 ->
  (forall x, In x [x1; x2; x3] -> load_fun (o, h, c) x = load_fun (o', h', c') x) ->
  (o', h', c') = (o, h, c).
Proof.
  intros Hh Hc Hc' [H12 H23] Hall.
  assert (H1 := Hall x1 ltac:(cbn; auto)). assert (H2 := Hall x2 ltac:(cbn; auto)). assert (H3 := Hall x3 ltac:(cbn; auto)).
  destruct (rolle _ _ _ _ _ _ _ _ H12 H1 H2) as [y [Hy Ey]].
  destruct (rolle _ _ _ _ _ _ _ _ H23 H2 H3) as [z [Hz Ez]].
  assert (Hhc : h / c <> 0) by (unfold Rdiv; apply Rmult_integral_contrapositive_currified; [exact Hh|apply Rinv_neq_0_compat; lra]).
  set (k := h / c) in *. set (k' := h' / c') in *.
  assert (Hexp : exp (-1 * y / c + - (-1 * y / c')) = exp (-1 * z / c + - (-1 * z / c'))).
  { rewrite !exp_plus, !exp_Ropp.
    pose proof (exp_pos (-1 * y / c')) as P1. pose proof (exp_pos (-1 * z / c')) as P2.
    apply (Rmult_eq_reg_l k); [|exact Hhc].
    replace (k * (exp (-1 * y / c) * / exp (-1 * y / c'))) with (k * exp (-1 * y / c) * / exp (-1 * y / c')) by ring.
    replace (k * (exp (-1 * z / c) * / exp (-1 * z / c'))) with (k * exp (-1 * z / c) * / exp (-1 * z / c')) by ring.
    rewrite Ey, Ez. field. lra. }
  apply exp_inv in Hexp.
  assert (Hcc : c = c').
  { assert (H0 : (y - z) * (/ c' - / c) = 0) by (unfold Rdiv in Hexp; lra).
    apply Rmult_integral in H0. destruct H0 as [H0|H0]; [lra|].
    assert (Hi : / c = / c') by lra. rewrite <- (Rinv_inv c), <- (Rinv_inv c'), Hi. reflexivity. }
  subst c'.
  assert (Hkk : k = k').
  { apply (Rmult_eq_reg_r (exp (-1 * y / c))); [exact Ey|]. pose proof (exp_pos (-1 * y / c)). lra. }
  assert (Hh' : h' = h).
  { unfold k, k', Rdiv in Hkk. apply (Rmult_eq_reg_r (/ c)); [lra|]. apply Rinv_neq_0_compat. lra. }
  subst h'. cbn in H1. assert (o' = o) by lra. subst. reflexivity.
Qed.

Lemma flat_determined o o' h' c' a b :
  0 < c' -> a < b -> load_fun (o', h', c') a = o -> load_fun (o', h', c') b = o -> o' = o /\ h' = 0.
Proof.
  intros Hc Hab Ha Hb. cbn in Ha, Hb.
  assert (Hlt : exp (-1 * b / c') < exp (-1 * a / c')).
  { apply exp_increasing. unfold Rdiv. apply Rmult_lt_compat_r; [apply Rinv_0_lt_compat; exact Hc|lra]. }
  assert (H0 : h' * (exp (-1 * a / c') - exp (-1 * b / c')) = 0) by lra.
  apply Rmult_integral in H0. destruct H0 as [H0|H0]; [|lra]. subst h'. split; [lra|reflexivity].
Qed.

Lemma total_zero l : (forall x, In x l -> x = 0) -> total l = 0.
Proof.
  unfold total. assert (H : forall l a, (forall x, In x l -> x = 0) -> fold_left Rplus l a = a).
  { clear l. induction l as [|x l IH]; intros a H; cbn; [reflexivity|].
    rewrite IH; [rewrite (H x (or_introl eq_refl)); ring|intros; apply H; right; assumption]. }
  apply H.
Qed.

Lemma combine_map {A B} (f : A -> B) l : combine l (map f l) = map (fun x => (x, f x)) l.
Proof. induction l as [|a l IH]; cbn; [reflexivity|f_equal; exact IH]. Qed.

(** What the evaluator does with a fit that keeps its bounds. *)
Lemma load_process_cases fit initial stored xs ys q r :
  bounded_load_fit fit -> load_process fit initial stored xs ys = Ok (q, r) ->
  (exists p0, fit 2 300 p0 xs ys = Ok q) /\
  r = nmul (ndiv (mean_of (map (fun r => r * r) (map (fun p => snd p - load_fun q (fst p)) (combine xs ys)))) (Fin (snd (fst q) * snd (fst q)))) (Fin 1500).
Proof.
  intros HB. unfold load_process. destruct (fold_best Rmin ys) as [low|e]; [|discriminate].
  set (p0 := (low, nth 0 ys 0 - last ys 0, initial)).
  destruct (fit 2 300 p0 xs ys) as [q1|e] eqn:Hf; [|discriminate].
  pose proof (HB _ _ _ _ _ _ Hf) as Hb. unfold Rltb. destruct (Rlt_dec (snd q1) 0) as [Hn|Hn]; [lra|].
  intros H. inversion H; subst. split; [exists p0; exact Hf|reflexivity].
Qed.

Lemma exact_bounded fit : exact_load_fit fit -> bounded_load_fit fit.
Proof. intros H lo hi st xs ys q Hq. exact (proj1 (H lo hi st xs ys q Hq)). Qed.

Lemma fitted_curve fit q0 p0 xs q : exact_load_fit fit -> 2 <= snd q0 <= 300 ->
  fit 2 300 p0 xs (map (load_fun q0) xs) = Ok q ->
  2 <= snd q <= 300 /\ forall x, In x xs -> load_fun q0 x = load_fun q x.
Proof.
  intros HF Hb Hq. destruct (HF _ _ _ _ _ _ Hq) as [Hq1 Hq2]. split; [exact Hq1|].
  specialize (Hq2 q0 Hb). rewrite chi2_self in Hq2. apply chi2_zero in Hq2; [|apply map_length].
  intros x Hx.
  apply In_nth_error in Hx. destruct Hx as [k Hk].
  assert (H1 := map_nth_error (load_fun q0) k xs Hk). assert (H2 := map_nth_error (load_fun q) k xs Hk).
  rewrite Hq2 in H1. congruence.
Qed.

Lemma residual_zero f (xs : list R) : xs <> [] -> mean_of (map (fun r => r * r) (map (fun p : R * R => snd p - f (fst p)) (combine xs (map f xs)))) = Fin 0.
Proof.
  intros Hx. rewrite combine_map, !map_map. cbn. unfold mean_of.
  rewrite total_zero, map_length.
  - unfold ndiv, Reqb. destruct (Req_EM_T (INR (length xs)) 0) as [H|H].
    + apply (INR_eq _ 0) in H. destruct xs; [contradiction|discriminate].
    + f_equal. unfold Rdiv. ring.
  - intros y Hy. apply in_map_iff in Hy. destruct Hy as [x [<- _]]. ring.
Qed.

Lemma load_time_found fit o h c initial stored xs q r :
  exact_load_fit fit -> h <> 0 -> 2 <= c <= 300 -> three_points xs ->
  load_process fit initial stored xs (map (load_fun (o, h, c)) xs) = Ok (q, r) -> q = (o, h, c) /\ r = Fin 0.
Proof.
  intros HF Hh Hc [x1 [x2 [x3 [I1 [I2 [I3 H123]]]]]] H.
  apply load_process_cases in H; [|apply exact_bounded; exact HF]. destruct H as [[p0 Hp] Hr].
  apply (fitted_curve fit (o, h, c)) in Hp; [|exact HF|exact Hc]. destruct Hp as [Hb Hall].
  destruct q as [[o' h'] c']. cbn in Hb.
  assert (Hq : (o', h', c') = (o, h, c)).
  { apply (load_determined o h c o' h' c' x1 x2 x3 Hh); [lra|lra|exact H123|].
    intros x [<-|[<-|[<-|[]]]]; apply Hall; assumption. }
  split; [exact Hq|]. rewrite Hr, Hq. rewrite residual_zero; [|destruct xs; [destruct I1|discriminate]].
  cbn. unfold ndiv, Reqb. destruct (Req_EM_T (h * h) 0) as [H0|H0].
  - apply Rmult_integral in H0. destruct H0; contradiction.
  - cbn. f_equal. unfold Rdiv. ring.
Qed.

Lemma load_time_flat fit o initial stored xs q r :
  exact_load_fit fit -> three_points xs ->
  load_process fit initial stored xs (map (fun _ => o) xs) = Ok (q, r) ->
  exists c, q = (o, 0, c) /\ 2 <= c <= 300 /\ r = NaN.
Proof.
  intros HF [x1 [x2 [x3 [I1 [I2 [I3 H123]]]]]] H.
  apply load_process_cases in H; [|apply exact_bounded; exact HF]. destruct H as [[p0 Hp] Hr].
  assert (Hflat : forall x, load_fun (o, 0, 2) x = o) by (intros x; cbn; ring).
  assert (Hmap : map (fun _ => o) xs = map (load_fun (o, 0, 2)) xs) by (apply map_ext; intros; symmetry; apply Hflat).
  rewrite Hmap in Hp, Hr.
  apply (fitted_curve fit (o, 0, 2)) in Hp; [|exact HF|cbn; lra]. destruct Hp as [Hb Hall].
  destruct q as [[o' h'] c']. cbn in Hb.
  destruct (flat_determined o o' h' c' x1 x2) as [-> ->]; [lra|lra| | |].
  - rewrite <- (Hall x1 I1). apply Hflat.
  - rewrite <- (Hall x2 I2). apply Hflat.
  - exists c'. split; [reflexivity|]. split; [exact Hb|]. rewrite Hr.
    assert (Hm : map (load_fun (o, 0, 2)) xs = map (load_fun (o, 0, c')) xs) by (apply map_ext; intros; cbn; ring).
    rewrite Hm, residual_zero; [|destruct xs; [destruct I1|discriminate]].
    cbn. unfold ndiv, Reqb. destruct (Req_EM_T (0 * 0) 0) as [H0|H0]; [|lra].
    unfold inf_of_sign, Rltb. destruct (Rlt_dec 0 0); [lra|]. reflexivity.
Qed.

Lemma simulation_three v1 v2 : three_points (fst (load_simulation v1 v2)).
Proof.
  exists (5 * INR 0), (5 * INR 1), (5 * INR 2). unfold load_simulation; cbn [fst].
  assert (H : forall k, (k < 100)%nat -> In (5 * INR k) (map (fun k => 5 * INR k) (seq 0 100))).
  { intros k Hk. apply (in_map (fun k => 5 * INR k)). apply in_seq. lia. }
  repeat split; try (apply H; lia); cbn; lra.
Qed.

Lemma simulation_curve v1 v2 :
  snd (load_simulation v1 v2) = map (load_fun (0, 1, 15 + exp (- v1 - v2))) (fst (load_simulation v1 v2)).
Proof.
  unfold load_simulation; cbn [fst snd]. apply map_ext. intros x. unfold load_fun.
  replace (-1 * x / (15 + exp (- v1 - v2))) with (x * -1 / (15 + exp (- v1 - v2))) by (unfold Rdiv; ring). ring.
Qed.

(** *** The tunnel coupling *)
Lemma tanh_odd x : tanh (- x) = - tanh x.
Proof. unfold tanh, sinh, cosh. rewrite Ropp_involutive. pose proof (exp_pos x). pose proof (exp_pos (- x)). field. lra. Qed.

Lemma mirrored_same q x : tc_fun (mirrored q) x = tc_fun q x.
Proof.
  destruct q as [[[[o s] h] p] w]. cbn.
  replace ((x - p) / - w) with (- ((x - p) / w)) by (unfold Rdiv; rewrite Rinv_opp; ring).
  rewrite tanh_odd. field.
Qed.

Lemma chi2_ext f g sigma : (forall x, f x = g x) -> forall xs ys, chi2 f sigma xs ys = chi2 g sigma xs ys.
Proof.
  intros H. induction sigma as [|d sigma IH]; intros [|x xs] [|y ys]; cbn; try reflexivity. rewrite H, IH. reflexivity.
Qed.

Definition mirror_fit (fit : option (list R) -> p5 -> list R -> list R -> res p5) : option (list R) -> p5 -> list R -> list R -> res p5 :=
  fun sigma start xs ys =>
    match sigma with
    | None => fit sigma start xs ys
    | Some _ => match fit sigma start xs ys with Ok q => Ok (mirrored q) | Raise e => Raise e end
    end.

Lemma mirror_exact fit : exact_tc_fit fit -> exact_tc_fit (mirror_fit fit).
Proof.
  intros H sigma start xs ys q Hq d q'. unfold mirror_fit in Hq. destruct sigma as [sg|].
  - destruct (fit (Some sg) start xs ys) as [q0|e] eqn:Hf; [|discriminate]. inversion Hq; subst.
    rewrite (chi2_ext _ _ d (mirrored_same q0)). exact (H _ _ _ _ _ Hf q').
  - exact (H _ _ _ _ _ Hq q').
Qed.

Lemma mirror_process fit guess xs ys q r :
  tc_process fit guess xs ys = Ok (q, r) -> tc_process (mirror_fit fit) guess xs ys = Ok (mirrored q, r).
Proof.
  unfold tc_process, mirror_fit. destruct (fit None guess xs ys) as [[[[[o s] h] p] w]|e]; [|discriminate].
  destruct (fold_best Rmax xs) as [top|e]; [|destruct (fold_best Rmin xs); discriminate].
  destruct (fold_best Rmin xs) as [bottom|e]; [|discriminate].
  destruct (fit _ _ xs ys) as [[[[[o' s'] h'] p'] w']|e]; [|discriminate].
  intros H. inversion H; subst. cbn [mirrored]. f_equal. f_equal.
  replace (- h' * - h') with (h' * h') by ring. do 4 f_equal.
  apply map_ext. intros y. f_equal. apply (mirrored_same (o', s', h', p', w')).
Qed.

(** *** Pieces that meet *)
Lemma pieces_meet f g k b d :
  0 < d -> (forall x, b - d < x < b -> f x = g x) -> (forall x, b <= x < b + d -> f x = k x) ->
  continuity_pt g b -> continuity_pt k b -> (continuity_pt f b <-> g b = k b).
Proof.
  intros Hd Hl Hr Hg Hk. assert (Hfb : f b = k b) by (apply Hr; lra). split.
  - intros Hf. destruct (Req_EM_T (g b) (k b)) as [|Hne]; [assumption|exfalso].
    set (e := Rabs (g b - k b) / 2).
    assert (He : 0 < e) by (unfold e; pose proof (Rabs_pos_lt (g b - k b) ltac:(lra)); lra).
    destruct (Hf e He) as [a1 [Ha1 H1]]. destruct (Hg e He) as [a2 [Ha2 H2]].
    set (m := Rmin d (Rmin a1 a2)).
    assert (Hm : 0 < m) by (unfold m; repeat apply Rmin_pos; assumption).
    assert (Hm1 : m <= d) by apply Rmin_l.
    assert (Hm2 : m <= a1) by (eapply Rle_trans; [apply Rmin_r|apply Rmin_l]).
    assert (Hm3 : m <= a2) by (eapply Rle_trans; [apply Rmin_r|apply Rmin_r]).
    set (x := b - m / 2).
    assert (HD : D_x no_cond b x) by (split; [exact I|unfold x; lra]).
    assert (Hab : Rabs (x - b) = m / 2) by (unfold x; replace (b - m / 2 - b) with (- (m / 2)) by ring; rewrite Rabs_Ropp, Rabs_right; lra).
    assert (B1 : Rabs (f x - f b) < e) by (apply (H1 x); split; [exact HD|cbn; unfold R_dist; rewrite Hab; lra]).
    assert (B2 : Rabs (g x - g b) < e) by (apply (H2 x); split; [exact HD|cbn; unfold R_dist; rewrite Hab; lra]).
    rewrite (Hl x ltac:(unfold x; lra)), Hfb in B1.
    assert (B3 : Rabs (g b - k b) <= Rabs (g x - k b) + Rabs (g x - g b)).
    { replace (g b - k b) with ((g x - k b) + - (g x - g b)) by ring. rewrite <- (Rabs_Ropp (g x - g b)). apply Rabs_triang. }
    unfold e in B1, B2. lra.
  - intros Heq e He. destruct (Hk e He) as [a1 [Ha1 H1]]. destruct (Hg e He) as [a2 [Ha2 H2]].
    exists (Rmin d (Rmin a1 a2)). split; [repeat apply Rmin_pos; assumption|].
    intros x [HD Hx]. cbn in Hx |- *. unfold R_dist in Hx |- *.
    assert (Hx1 : Rabs (x - b) < d) by (eapply Rlt_le_trans; [exact Hx|apply Rmin_l]).
    assert (Hx2 : Rabs (x - b) < a1) by (eapply Rlt_le_trans; [exact Hx|eapply Rle_trans; [apply Rmin_r|apply Rmin_l]]).
    assert (Hx3 : Rabs (x - b) < a2) by (eapply Rlt_le_trans; [exact Hx|eapply Rle_trans; [apply Rmin_r|apply Rmin_r]]).
    apply Rabs_def2 in Hx1. rewrite Hfb. destruct (Rlt_dec x b) as [Hlt|Hge].
    + rewrite (Hl x ltac:(lra)), <- Heq. apply (H2 x). split; [exact HD|exact Hx3].
    + rewrite (Hr x ltac:(lra)). apply (H1 x). split; [exact HD|exact Hx2].
Qed.

(** The exponential pieces. *)
Definition piece (o h c s a m t x : R) : R := o + /2 * h * (c - exp (/2 * (a - 2 * (x + m)) / t)) / s.

Lemma piece_continuous o h c s a m t x : continuity_pt (piece o h c s a m t) x.
Proof.
  apply derivable_continuous_pt. unfold piece. reg.
Qed.

Lemma cosh_minus_exp x : cosh x - exp x = - sinh x.
Proof. unfold cosh, sinh. lra. Qed.
Lemma cosh_minus_exp_neg x : cosh x - exp (- x) = sinh x.
Proof. unfold cosh, sinh. lra. Qed.
Lemma sinh_nonzero x : x <> 0 -> sinh x <> 0.
Proof.
  intros Hx. unfold sinh. intros H. assert (He : exp x = exp (- x)) by lra. apply exp_inv in He. lra.
Qed.
Lemma half_pos : 0 < half_time. Proof. unfold half_time. lra. Qed.
Lemma scaled_nonzero t : t <> 0 -> / 2 * half_time / t <> 0.
Proof.
  intros Ht. unfold Rdiv. pose proof half_pos. apply Rmult_integral_contrapositive_currified; [lra|apply Rinv_neq_0_compat; exact Ht].
Qed.

Lemma piece_eq o h s c t e e' : h <> 0 -> s <> 0 -> t <> 0 ->
  (o + /2 * h * (c - exp (/2 * e / t)) / s = o + /2 * h * (c - exp (/2 * e' / t)) / s <-> e = e').
Proof.
  intros Hh Hs Ht. split; [|intros ->; reflexivity]. intros H.
  assert (H1 : /2 * h * (c - exp (/2 * e / t)) = /2 * h * (c - exp (/2 * e' / t))).
  { apply (Rmult_eq_reg_r (/ s)); [unfold Rdiv in H; lra|apply Rinv_neq_0_compat; exact Hs]. }
  assert (H2 : exp (/2 * e / t) = exp (/2 * e' / t)).
  { apply (Rmult_eq_reg_l (/2 * h)); [lra|]. lra. }
  apply exp_inv in H2. apply (Rmult_eq_reg_r (/ t)); [unfold Rdiv in H2; lra|apply Rinv_neq_0_compat; exact Ht].
Qed.

(** A rise or fall over one half period. *)
Lemma piece_start o h t : t <> 0 ->
  o + /2 * h * (cosh (/2 * half_time / t) - exp (/2 * half_time / t)) / sinh (/2 * half_time / t) = o - h / 2.
Proof. intros Ht. rewrite cosh_minus_exp. pose proof (sinh_nonzero _ (scaled_nonzero t Ht)). field. assumption. Qed.
Lemma piece_end o h t : t <> 0 ->
  o + /2 * h * (cosh (/2 * half_time / t) - exp (/2 * (- half_time) / t)) / sinh (/2 * half_time / t) = o + h / 2.
Proof.
  intros Ht. replace (/2 * - half_time / t) with (- (/2 * half_time / t)) by (unfold Rdiv; ring).
  rewrite cosh_minus_exp_neg. pose proof (sinh_nonzero _ (scaled_nonzero t Ht)). field. assumption.
Qed.

Section V1.
Variables (h tf tr br bf o xl : R).
Hypotheses (Hf : tf <> 0) (Hr : tr <> 0) (Hbf : br < bf).
Let y := lead_v1 h tf tr br bf o xl.

Lemma v1_start : y br = o - h / 2.
Proof.
  unfold y, lead_v1. destruct (Rlt_dec br br); [lra|]. destruct (Rlt_dec br bf); [|lra].
  replace (half_time - 2 * (br - br)) with half_time by ring. apply piece_start. exact Hr.
Qed.
Lemma v1_top : y bf = o + h / 2.
Proof.
  unfold y, lead_v1. destruct (Rlt_dec bf br); [lra|]. destruct (Rlt_dec bf bf); [lra|].
  replace (3 * half_time - 2 * (bf - (bf - half_time))) with half_time by ring.
  rewrite piece_start; [lra|exact Hf].
Qed.
Lemma v1_end : y (bf + half_time) = o - h / 2.
Proof.
  pose proof half_pos. unfold y, lead_v1. destruct (Rlt_dec (bf + half_time) br); [lra|]. destruct (Rlt_dec (bf + half_time) bf); [lra|].
  replace (3 * half_time - 2 * (bf + half_time - (bf - half_time))) with (- half_time) by ring.
  rewrite piece_end; [lra|exact Hf].
Qed.

Lemma v1_jump_fall : h <> 0 -> (continuity_pt y bf <-> bf - br = half_time).
Proof.
  intros Hh. pose proof half_pos.
  set (g := piece o h (cosh (/2 * half_time / tr)) (sinh (/2 * half_time / tr)) half_time (- br) tr).
  set (k := piece o (-1 * h) (cosh (/2 * half_time / tf)) (sinh (/2 * half_time / tf)) (3 * half_time) (- (bf - half_time)) tf).
  rewrite (pieces_meet y g k bf (bf - br)); [|lra| | |apply piece_continuous|apply piece_continuous].
  - replace (k bf) with (o + h / 2).
    2:{ symmetry. unfold k, piece. replace (3 * half_time - 2 * (bf + - (bf - half_time))) with half_time by ring.
        rewrite piece_start; [lra|exact Hf]. }
    rewrite <- (piece_end o h tr Hr). unfold g, piece.
    rewrite (piece_eq o h); [split; intros; lra|exact Hh|apply sinh_nonzero; apply scaled_nonzero; exact Hr|exact Hr].
  - intros x Hx. unfold y, lead_v1, g, piece. destruct (Rlt_dec x br); [lra|]. destruct (Rlt_dec x bf); [|lra].
    reflexivity.
  - intros x Hx. unfold y, lead_v1, k, piece. destruct (Rlt_dec x br); [lra|]. destruct (Rlt_dec x bf); [lra|]. reflexivity.
Qed.

Lemma v1_jump_rise : h <> 0 -> (continuity_pt y br <-> xl = (bf - br) + half_time).
Proof.
  intros Hh. pose proof half_pos.
  set (g := piece o (-1 * h) (cosh (/2 * half_time / tf)) (sinh (/2 * half_time / tf)) (3 * half_time) (xl - (bf - half_time)) tf).
  set (k := piece o h (cosh (/2 * half_time / tr)) (sinh (/2 * half_time / tr)) half_time (- br) tr).
  rewrite (pieces_meet y g k br (bf - br)); [|lra| | |apply piece_continuous|apply piece_continuous].
  - replace (k br) with (o - h / 2).
    2:{ symmetry. unfold k, piece. replace (half_time - 2 * (br + - br)) with half_time by ring.
        rewrite piece_start; [lra|exact Hr]. }
    replace (o - h / 2) with (o + (-1 * h) / 2) by lra.
    rewrite <- (piece_end o (-1 * h) tf Hf). unfold g, piece.
    rewrite (piece_eq o (-1 * h)); [split; intros; lra|lra|apply sinh_nonzero; apply scaled_nonzero; exact Hf|exact Hf].
  - intros x Hx. unfold y, lead_v1, g, piece. destruct (Rlt_dec x br); [|lra].
    do 7 f_equal. ring.
  - intros x Hx. unfold y, lead_v1, k, piece. destruct (Rlt_dec x br); [lra|]. destruct (Rlt_dec x bf); [|lra]. reflexivity.
Qed.
End V1.

(** *** The weights *)
Lemma Int_part_unique z x : IZR z <= x < IZR z + 1 -> Int_part x = z.
Proof.
  intros [H1 H2]. destruct (base_Int_part x) as [B1 B2].
  assert (L1 : (Int_part x < z + 1)%Z) by (apply lt_IZR; rewrite plus_IZR; lra).
  assert (L2 : (z < Int_part x + 1)%Z) by (apply lt_IZR; rewrite plus_IZR; lra). lia.
Qed.
Lemma py_int_unique z x : (0 <= z)%Z -> IZR z <= x < IZR z + 1 -> py_int x = z.
Proof.
  intros Hz Hx. unfold py_int. destruct (Rlt_dec x 0) as [Hn|Hn]; [|apply Int_part_unique; exact Hx].
  apply IZR_le in Hz. lra.
Qed.

Lemma py_int_truncated x : truncated x (py_int x).
Proof.
  unfold truncated, py_int. destruct (Rlt_dec x 0) as [H|H].
  - right. split; [exact H|]. rewrite opp_IZR. destruct (base_Int_part (- x)). lra.
  - left. split; [lra|]. destruct (base_Int_part x). lra.
Qed.
Lemma truncated_unique x z z' : truncated x z -> truncated x z' -> z = z'.
Proof.
  intros [[H1 H2]|[H1 H2]] [[G1 G2]|[G1 G2]]; try lra.
  - assert ((z < z' + 1)%Z) by (apply lt_IZR; rewrite plus_IZR; lra). assert ((z' < z + 1)%Z) by (apply lt_IZR; rewrite plus_IZR; lra). lia.
  - assert ((z < z' + 1)%Z) by (apply lt_IZR; rewrite plus_IZR; lra). assert ((z' < z + 1)%Z) by (apply lt_IZR; rewrite plus_IZR; lra). lia.
Qed.

Lemma slice_assign_length lo hi v l : length (slice_assign lo hi v l) = length l.
Proof. unfold slice_assign. rewrite map_length, combine_length, seq_length. lia. Qed.

Lemma combine_seq_nth (l : list R) : forall a k, (k < length l)%nat ->
  nth_error (combine (seq a (length l)) l) k = Some ((a + k)%nat, nth k l 0).
Proof.
  induction l as [|x l IH]; intros a k Hk; cbn in Hk; [lia|]. destruct k as [|k]; cbn.
  - rewrite Nat.add_0_r. reflexivity.
  - rewrite IH; [|lia]. f_equal. f_equal. lia.
Qed.

Lemma slice_assign_nth lo hi v l k : (k < length l)%nat ->
  nth k (slice_assign lo hi v l) 0 =
  if (slice_bound (length l) lo <=? k)%nat && (k <? slice_bound (length l) hi)%nat then v else nth k l 0.
Proof.
  intros Hk. unfold slice_assign. apply nth_error_nth.
  erewrite map_nth_error; [|apply combine_seq_nth; exact Hk]. cbn. reflexivity.
Qed.

Lemma slice_bound_in n b : (0 <= b <= Z.of_nat n)%Z -> slice_bound n b = Z.to_nat b.
Proof. intros H. unfold slice_bound. destruct (Z.ltb_spec b 0); lia. Qed.

Lemma nth_ones k n : (k < n)%nat -> nth k (repeat 1 n) 0 = 1.
Proof.
  intros H. rewrite (nth_indep _ 0 1); [apply nth_repeat|rewrite repeat_length; exact H].
Qed.

Lemma tc_sigma_length pp n : length (tc_sigma pp n) = n.
Proof. unfold tc_sigma. rewrite !slice_assign_length, repeat_length. reflexivity. Qed.

Lemma tc_sigma_inside pp n k : (15 <= pp <= Z.of_nat n - 6)%Z -> (k < n)%nat ->
  nth k (tc_sigma pp n) 0 =
  if ((pp - 4 <=? Z.of_nat k) && (Z.of_nat k <=? pp + 4))%Z%bool then 1/10
  else if ((pp - 15 <=? Z.of_nat k) && (Z.of_nat k <? pp - 5))%Z%bool then 10 else 1.
Proof.
  intros Hp Hk. unfold tc_sigma.
  rewrite slice_assign_nth; [|rewrite slice_assign_length, repeat_length; exact Hk].
  rewrite slice_assign_length, repeat_length.
  rewrite slice_assign_nth; [|rewrite repeat_length; exact Hk]. rewrite repeat_length.
  rewrite (slice_bound_in n (Z.max 0 (pp - 4))), (slice_bound_in n (Z.min (pp + 5) _)),
          (slice_bound_in n (Z.max 0 (pp - 15))), (slice_bound_in n (Z.min (pp - 5) _)) by lia.
  rewrite (nth_ones k n Hk).
  destruct (Z.leb_spec (pp - 4) (Z.of_nat k)); destruct (Z.leb_spec (Z.of_nat k) (pp + 4));
  destruct (Nat.leb_spec (Z.to_nat (Z.max 0 (pp - 4))) k); destruct (Nat.ltb_spec k (Z.to_nat (Z.min (pp + 5) (Z.of_nat n - 1))));
  try lia; cbn [andb]; try reflexivity;
  destruct (Z.leb_spec (pp - 15) (Z.of_nat k)); destruct (Z.ltb_spec (Z.of_nat k) (pp - 5));
  destruct (Nat.leb_spec (Z.to_nat (Z.max 0 (pp - 15))) k); destruct (Nat.ltb_spec k (Z.to_nat (Z.min (pp - 5) (Z.of_nat n - 1))));
  try lia; reflexivity.
Qed.

Lemma tc_sigma_edge pp n k : (0 <= pp < 5)%Z -> (10 < n)%nat -> (k < n)%nat ->
  nth k (tc_sigma pp n) 0 =
  if (Z.of_nat k <? pp + 5)%Z then 1/10
  else if (Z.of_nat k <? Z.of_nat n + pp - 5)%Z then 10 else 1.
Proof.
  intros Hp Hn Hk. unfold tc_sigma.
  rewrite slice_assign_nth; [|rewrite slice_assign_length, repeat_length; exact Hk].
  rewrite slice_assign_length, repeat_length.
  rewrite slice_assign_nth; [|rewrite repeat_length; exact Hk]. rewrite repeat_length.
  rewrite (slice_bound_in n (Z.max 0 (pp - 4))), (slice_bound_in n (Z.min (pp + 5) _)),
          (slice_bound_in n (Z.max 0 (pp - 15))) by lia.
  assert (Hb : slice_bound n (Z.min (pp - 5) (Z.of_nat n - 1)) = Z.to_nat (Z.of_nat n + pp - 5)).
  { unfold slice_bound. destruct (Z.ltb_spec (Z.min (pp - 5) (Z.of_nat n - 1)) 0); lia. }
  rewrite Hb, (nth_ones k n Hk).
  destruct (Z.ltb_spec (Z.of_nat k) (pp + 5));
  destruct (Nat.leb_spec (Z.to_nat (Z.max 0 (pp - 4))) k); destruct (Nat.ltb_spec k (Z.to_nat (Z.min (pp + 5) (Z.of_nat n - 1))));
  try lia; cbn [andb]; try reflexivity;
  destruct (Z.ltb_spec (Z.of_nat k) (Z.of_nat n + pp - 5));
  destruct (Nat.leb_spec (Z.to_nat (Z.max 0 (pp - 15))) k); destruct (Nat.ltb_spec k (Z.to_nat (Z.of_nat n + pp - 5)));
  try lia; reflexivity.
Qed.

Lemma position_shift c r p n : r <> 0 ->
  (p + 2 * r) / 2 / (2 * r) * INR n = (p - c + r) / (2 * r) * INR n + (2 * c - p) / (4 * r) * INR n.
Proof. intros Hr. field. exact Hr. Qed.

Lemma lead_start b : 0 <= b < 4/1000000 -> py_int (b / (4/1000000) + 3) = 3%Z.
Proof.
  intros Hb. apply py_int_unique; [lia|].
  assert (H0 : b / (4/1000000) = b * 250000) by field. rewrite H0. lra.
Qed.

Lemma lead_sigma_values br bf n k : 0 <= br < 4/1000000 -> 0 <= bf < 4/1000000 -> (10 <= n)%nat -> (k < n)%nat ->
  nth k (lead_sigma br bf n) 0 = if ((3 <=? k)%nat && (Z.of_nat k <? 3 + py_int (35/100 * INR n))%Z)%bool then 1/10 else 1.
Proof.
  intros Hr Hf Hn Hk. unfold lead_sigma. rewrite (lead_start br Hr), (lead_start bf Hf).
  assert (HI : 10 <= INR n) by (replace 10 with (INR 10) by (cbn; lra); apply le_INR; exact Hn).
  assert (Hlen : (0 <= py_int (35/100 * INR n))%Z /\ (3 + py_int (35/100 * INR n) <= Z.of_nat n)%Z).
  { assert (Hp : py_int (35/100 * INR n) = Int_part (35/100 * INR n)).
    { unfold py_int. destruct (Rlt_dec (35/100 * INR n) 0); [lra|reflexivity]. }
    rewrite Hp. destruct (base_Int_part (35/100 * INR n)) as [B1 B2]. split.
    - assert ((-1 < Int_part (35/100 * INR n))%Z) by (apply lt_IZR; lra). lia.
    - apply le_IZR. rewrite plus_IZR, <- INR_IZR_INZ. lra. }
  set (len := py_int (35/100 * INR n)) in *.
  rewrite slice_assign_nth; [|rewrite slice_assign_length, repeat_length; exact Hk].
  rewrite slice_assign_length, repeat_length.
  rewrite slice_assign_nth; [|rewrite repeat_length; exact Hk]. rewrite repeat_length.
  rewrite (slice_bound_in n 3), (slice_bound_in n (3 + len)) by lia. rewrite (nth_ones k n Hk).
  change (Z.to_nat 3) with 3%nat.
  destruct (Nat.leb_spec 3 k); destruct (Nat.ltb_spec k (Z.to_nat (3 + len))); destruct (Z.ltb_spec (Z.of_nat k) (3 + len));
  cbn [andb]; try lia; reflexivity.
Qed.

(** *** The second version of the lead curve *)
Lemma v2_end h tf tr br bf o sl ol lf sl1 ol1 lr xl :
  h <> 0 -> tf <> 0 -> tr <> 0 -> br <= bf -> lf <= half_time -> br + lr <= bf ->
  (lead_v2 h tf tr br bf o sl ol lf sl1 ol1 lr xl (bf + half_time) = o - h / 2 <-> tf = tr).
Proof.
  intros Hh Hf Hr Hb Hlf Hlr. pose proof half_pos as Hp.
  assert (Hy : lead_v2 h tf tr br bf o sl ol lf sl1 ol1 lr xl (bf + half_time) =
               o + /2 * (-1 * h) * (cosh (/2 * half_time / tr) - exp (- (/2 * half_time / tf))) / sinh (/2 * half_time / tr)).
  { unfold lead_v2, Rleb, Rltb.
    destruct (Rle_dec (bf + half_time) bf); [lra|]. rewrite andb_false_r.
    destruct (Rle_dec (bf + half_time) br); [lra|].
    destruct (Rlt_dec (bf + half_time) (bf + lf)); [lra|]. rewrite andb_false_r.
    destruct (Rlt_dec (bf + half_time) (br + lr)); [lra|]. rewrite andb_false_r.
    replace (/2 * (half_time + 2 * bf - 2 * (bf + half_time)) / tf) with (- (/2 * half_time / tf)) by (unfold Rdiv; ring).
    reflexivity. }
  rewrite Hy. split; intros H.
  - replace (o - h / 2) with (o + -1 * h / 2) in H by lra.
    rewrite <- (piece_end o (-1 * h) tr Hr) in H.
    replace (- (/ 2 * half_time / tf)) with (/2 * (- half_time * (tr / tf)) / tr) in H by (field; split; assumption).
    rewrite (piece_eq o (-1 * h)) in H; [|lra|apply sinh_nonzero; apply scaled_nonzero; exact Hr|exact Hr].
    assert (Hq : tr / tf = 1) by (apply (Rmult_eq_reg_l (- half_time)); lra).
    apply (f_equal (fun z => z * tf)) in Hq. unfold Rdiv in Hq. rewrite Rmult_assoc, Rinv_l in Hq by exact Hf. lra.
  - subst tf. replace (- (/ 2 * half_time / tr)) with (/2 * (- half_time) / tr) by (unfold Rdiv; ring).
    rewrite (piece_end o (-1 * h) tr Hr). lra.
Qed.

Lemma v2_start h tf tr br bf o sl ol lf sl1 ol1 lr xl :
  h <> 0 -> tr <> 0 -> br + lr <= bf ->
  (lead_v2 h tf tr br bf o sl ol lf sl1 ol1 lr xl (br + lr) = o - h / 2 <-> bf - (br + lr) = half_time + (br + lr)).
Proof.
  intros Hh Hr Hb.
  assert (Hy : lead_v2 h tf tr br bf o sl ol lf sl1 ol1 lr xl (br + lr) =
               o + /2 * h * (cosh (/2 * half_time / tr) - exp (/2 * (bf - 2 * (br + lr)) / tr)) / sinh (/2 * half_time / tr)).
  { unfold lead_v2, Rleb. destruct (Rle_dec (br + lr) (br + lr)); [|lra]. destruct (Rle_dec (br + lr) bf); [reflexivity|lra]. }
  rewrite Hy, <- (piece_start o h tr Hr).
  rewrite (piece_eq o h); [split; intros; lra|exact Hh|apply sinh_nonzero; apply scaled_nonzero; exact Hr|exact Hr].
Qed.

(** *** The wrapped piece of the second version *)
Lemma v2_wrap h tf tr br bf o sl ol lf sl1 ol1 lr xl x :
  h <> 0 -> tf <> 0 -> tr <> 0 -> br < bf -> 0 <= lf -> 0 < lr -> br + lr <= bf ->
  x <= br -> bf < x + xl -> bf + lf <= x + xl ->
  let y := lead_v2 h tf tr br bf o sl ol lf sl1 ol1 lr xl in
  (y x = y (x + xl) <-> bf + half_time = 0) /\
  (forall z, bf < z -> bf + lf <= z -> (y x = y z <-> z = x + xl + (bf + half_time) / 2)).
Proof.
  intros Hh Hf Hr Hb Hlf Hlr Hlb Hx Hz1 Hz2 y.
  assert (Hyx : y x = o + /2 * (-1 * h) * (cosh (/2 * half_time / tr) - exp (/2 * (1 * bf - 2 * (x + xl)) / tf)) / sinh (/2 * half_time / tr)).
  { unfold y, lead_v2, Rleb, Rltb. destruct (Rle_dec (br + lr) x); [lra|]. cbn [andb]. destruct (Rle_dec x br); [reflexivity|lra]. }
  assert (Hyz : forall z, bf < z -> bf + lf <= z -> y z = o + /2 * (-1 * h) * (cosh (/2 * half_time / tr) - exp (/2 * (half_time + 2 * bf - 2 * z) / tf)) / sinh (/2 * half_time / tr)).
  { intros z G1 G2. unfold y, lead_v2, Rleb, Rltb. destruct (Rle_dec z bf); [lra|]. rewrite andb_false_r. destruct (Rle_dec z br); [lra|].
    destruct (Rlt_dec z (bf + lf)); [lra|]. rewrite andb_false_r. destruct (Rlt_dec z (br + lr)); [lra|]. rewrite andb_false_r. reflexivity. }
  assert (HS : sinh (/2 * half_time / tr) <> 0) by (apply sinh_nonzero, scaled_nonzero; exact Hr).
  split.
  - rewrite Hyx, Hyz by assumption. rewrite (piece_eq o (-1 * h)) by (assumption || lra). split; intros; lra.
  - intros z G1 G2. rewrite Hyx, Hyz by assumption. rewrite (piece_eq o (-1 * h)) by (assumption || lra). split; intros; lra.
Qed.
