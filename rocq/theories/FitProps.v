(** C101-C104. *)
From Coq Require Import Reals List Bool Arith ZArith Lia Lra Psatz String.
From Verif Require Import PyExn PyBase UtilModel EvaluatorModel FitModel FitSpec FitProofs.
Import ListNotations.
Local Open Scope R_scope.

(** Lists with a least element with respect to an order. *)
Lemma fold_best_least (f : R -> R -> R) (le : R -> R -> Prop) :
  (forall a b, f a b = a \/ f a b = b) -> (forall a b, le (f a b) a /\ le (f a b) b) -> (forall a b, le a b -> le b a -> a = b) ->
  forall l a m, In m (a :: l) -> (forall b, In b (a :: l) -> le m b) -> fold_left f l a = m.
Proof.
  intros Hf Hfl Has. induction l as [|b l IH]; intros a m Hm Hall; cbn [fold_left].
  - destruct Hm as [Hm|[]]. exact Hm.
  - apply IH.
    + destruct (Hf a b) as [E|E]; rewrite E.
      * destruct Hm as [Hm|[Hm|Hm]]; [left; exact Hm| |right; exact Hm]. left. subst b. apply Has; [rewrite <- E; apply Hfl|apply Hall; left; reflexivity].
      * destruct Hm as [Hm|[Hm|Hm]]; [|left; exact Hm|right; exact Hm]. left. subst a. apply Has; [rewrite <- E; apply Hfl|apply Hall; right; left; reflexivity].
    + intros c [<-|Hc]; [|apply Hall; right; right; exact Hc]. destruct (Hf a b) as [-> | ->]; apply Hall; [left|right; left]; reflexivity.
Qed.
Lemma fold_best_min l m : In m l -> (forall b, In b l -> m <= b) -> fold_best Rmin l = Ok m.
Proof.
  intros Hm Hl. destruct l as [|a l]; [destruct Hm|]. cbn [fold_best]. f_equal. apply (fold_best_least Rmin Rle); try assumption.
  - intros x y. unfold Rmin. destruct (Rle_dec x y); auto.
  - intros x y. split; [apply Rmin_l|apply Rmin_r].
  - intros x y. apply Rle_antisym.
Qed.
Lemma fold_best_max l m : In m l -> (forall b, In b l -> b <= m) -> fold_best Rmax l = Ok m.
Proof.
  intros Hm Hl. destruct l as [|a l]; [destruct Hm|]. cbn [fold_best]. f_equal. apply (fold_best_least Rmax Rge); try assumption.
  - intros x y. unfold Rmax. destruct (Rle_dec x y); auto.
  - intros x y. split; apply Rle_ge; [apply Rmax_l|apply Rmax_r].
  - intros x y. apply Rge_antisym.
  - intros b Hb. apply Rle_ge, Hl, Hb.
Qed.

(** ** C101: load time *)
Definition load_report (v e : num) : res (series * series) :=
  Ok ([("parameter_time_load"%string, v)], [("parameter_time_load"%string, e)]).

(** A least squares fit of data that follow the curve, at three points or more,
    reports the time constant of the curve and no error. *)
Theorem load_time_exact : forall fit o h c initial stored xs n out,
  exact_load_fit fit -> h <> 0 -> 2 <= c <= 300 -> three_points xs ->
  load_fitted fit initial stored xs (map (load_fun (o, h, c)) xs) = Ok out ->
  load_evaluate (Ok n) (load_fitted fit initial stored xs (map (load_fun (o, h, c)) xs)) = load_report (Fin c) (Fin 0).
Proof.
  intros fit o h c initial stored xs n out HF Hh Hc Hx. unfold load_fitted.
  destruct (load_process fit initial stored xs (map (load_fun (o, h, c)) xs)) as [[q r]|e] eqn:HP; [|discriminate].
  intros _. apply (load_time_found fit o h c) in HP; [|assumption..]. destruct HP as [-> ->]. reflexivity.
Qed.

(** A fit that keeps its bounds: the time lies between 2 and 300, whatever the
    data, and the stored starting value of the second attempt has no influence. *)
Theorem load_time_bounded : forall fit initial stored stored' xs ys,
  bounded_load_fit fit ->
  load_fitted fit initial stored xs ys = load_fitted fit initial stored' xs ys /\
  (forall v e, load_fitted fit initial stored xs ys = Ok (v, e) -> exists c, v = Fin c /\ 2 <= c <= 300).
Proof.
  intros fit initial stored stored' xs ys HB. split.
  - unfold load_fitted, load_process. destruct (fold_best Rmin ys) as [low|e]; [|reflexivity].
    destruct (fit 2 300 _ xs ys) as [q1|e] eqn:Hf; [|reflexivity].
    pose proof (HB _ _ _ _ _ _ Hf) as Hb. unfold Rltb. destruct (Rlt_dec (snd q1) 0); [lra|reflexivity].
  - intros v e. unfold load_fitted. destruct (load_process fit initial stored xs ys) as [[q r]|e'] eqn:HP; [|discriminate].
    intros H. inversion H; subst. apply load_process_cases in HP; [|exact HB]. destruct HP as [[p0 Hp] _].
    exists (snd q). split; [reflexivity|]. exact (HB _ _ _ _ _ _ Hp).
Qed.

(** A fit that does not keep its bounds and ends at a negative time is repeated
    from twenty times the stored one; the second result counts, whatever it is. *)
Theorem load_time_retry : forall fit initial stored xs ys low q1,
  In low ys -> (forall y, In y ys -> low <= y) ->
  let start c := (low, nth 0 ys 0 - last ys 0, c) in
  fit 2 300 (start initial) xs ys = Ok q1 -> snd q1 < 0 ->
  (forall e, fit 2 300 (start (stored * 20)) xs ys = Raise e -> load_fitted fit initial stored xs ys = Raise e) /\
  (forall q2, fit 2 300 (start (stored * 20)) xs ys = Ok q2 -> exists r, load_fitted fit initial stored xs ys = Ok (Fin (snd q2), r)).
Proof.
  intros fit initial stored xs ys low q1 Hin Hle start H1 Hneg.
  pose proof (fold_best_min ys low Hin Hle) as HL.
  unfold load_fitted, load_process. rewrite HL. cbn zeta. unfold start in *. rewrite H1. unfold Rltb. destruct (Rlt_dec (snd q1) 0); [|lra]. split.
  - intros e ->. reflexivity.
  - intros q2 ->. eexists. reflexivity.
Qed.

(** A fit that knows one curve. *)
Definition known_load (q : p3) : R -> R -> p3 -> list R -> list R -> res p3 := fun lo hi _ xs ys =>
  if list_eq_dec Req_EM_T ys (map (load_fun q) xs) then
    if Rle_dec lo (snd q) then if Rle_dec (snd q) hi then Ok q else Raise RuntimeError else Raise RuntimeError
  else Raise RuntimeError.
Lemma known_load_exact q : exact_load_fit (known_load q).
Proof.
  intros lo hi start xs ys q'. unfold known_load. destruct (list_eq_dec Req_EM_T ys (map (load_fun q) xs)) as [->|]; [|discriminate].
  destruct (Rle_dec lo (snd q)); [|discriminate]. destruct (Rle_dec (snd q) hi); [|discriminate].
  intros H. inversion H; subst. split; [lra|]. intros q0 _. rewrite chi2_self. apply chi2_nonneg.
Qed.
Lemma known_load_runs q initial stored xs : xs <> [] -> 2 <= snd q <= 300 ->
  exists r, load_process (known_load q) initial stored xs (map (load_fun q) xs) = Ok (q, r).
Proof.
  intros Hx Hq. unfold load_process. destruct xs as [|x xs]; [contradiction|]. cbn [map fold_best].
  unfold known_load at 1. destruct (list_eq_dec Req_EM_T _ _) as [_|Hn]; [|contradiction Hn; reflexivity].
  destruct (Rle_dec 2 (snd q)); [|lra]. destruct (Rle_dec (snd q) 300); [|lra].
  unfold Rltb. destruct (Rlt_dec (snd q) 0); [lra|]. eexists. reflexivity.
Qed.

Example load_time_exact_ex :
  let xs := [0; 5; 10; 15] in
  load_evaluate (Ok 4%nat) (load_fitted (known_load (1, 2, 20)) 30 10 xs (map (load_fun (1, 2, 20)) xs)) = load_report (Fin 20) (Fin 0).
Proof.
  cbn zeta. destruct (known_load_runs (1, 2, 20) 30 10 [0; 5; 10; 15]) as [r Hr]; [discriminate|cbn; lra|].
  apply (load_time_exact _ _ _ _ _ _ _ _ (Fin 20, r)); [apply known_load_exact|lra|lra| |].
  - exists 0, 5, 10. cbn. intuition lra.
  - unfold load_fitted. rewrite Hr. reflexivity.
Qed.
Example load_time_bounded_ex : bounded_load_fit (known_load (1, 2, 20)).
Proof. apply exact_bounded, known_load_exact. Qed.

Example load_time_retry_ex : exists r,
  load_fitted (fun lo hi p0 _ _ => if Rlt_dec (snd p0) 100 then Ok (1, 1, -1) else Ok (1, 1, 400)) 30 10 [0; 5] [3; 2] = Ok (Fin 400, r).
Proof.
  refine (proj2 (load_time_retry _ 30 10 [0; 5] [3; 2] 2 (1, 1, -1) _ _ _ _) (1, 1, 400) _); cbn.
  - auto.
  - intros y [<-|[<-|[]]]; lra.
  - destruct (Rlt_dec 30 100); [reflexivity|lra].
  - lra.
  - destruct (Rlt_dec (10 * 20) 100); [lra|reflexivity].
Qed.

(** A signal without any decay still gives a finite time: every value between 2
    and 300 is reported by some least squares fit.  Only the error is NaN. *)
Theorem load_time_flat_refuted : forall o initial stored xs n, three_points xs ->
  (forall fit out, exact_load_fit fit -> load_fitted fit initial stored xs (map (fun _ => o) xs) = Ok out ->
     exists c, 2 <= c <= 300 /\ out = (Fin c, NaN)) /\
  (forall c, 2 <= c <= 300 -> exists fit, exact_load_fit fit /\
     load_evaluate (Ok n) (load_fitted fit initial stored xs (map (fun _ => o) xs)) = load_report (Fin c) NaN).
Proof.
  intros o initial stored xs n Hx.
  assert (HA : forall fit out, exact_load_fit fit -> load_fitted fit initial stored xs (map (fun _ => o) xs) = Ok out ->
     exists c, 2 <= c <= 300 /\ out = (Fin c, NaN)).
  { intros fit out HF. unfold load_fitted.
    destruct (load_process fit initial stored xs (map (fun _ => o) xs)) as [[q r]|e] eqn:HP; [|discriminate].
    intros H. inversion H; subst. apply (load_time_flat fit o) in HP; [|assumption..]. destruct HP as [c [-> [Hc ->]]].
    exists c. split; [exact Hc|reflexivity]. }
  split; [exact HA|]. intros c Hc. exists (known_load (o, 0, c)). split; [apply known_load_exact|].
  assert (Hm : map (fun _ => o) xs = map (load_fun (o, 0, c)) xs) by (apply map_ext; intros; cbn; ring).
  destruct (known_load_runs (o, 0, c) initial stored xs) as [r Hr]; [|exact Hc|].
  - destruct Hx as [a [b [d [Ha _]]]]. destruct xs; [destruct Ha|discriminate].
  - rewrite <- Hm in Hr.
    assert (HL : load_fitted (known_load (o, 0, c)) initial stored xs (map (fun _ => o) xs) = Ok (Fin c, r)) by (unfold load_fitted; rewrite Hr; reflexivity).
    destruct (HA _ _ (known_load_exact _) HL) as [c' [_ H]]. rewrite HL, H. inversion H; subst. reflexivity.
Qed.
Example load_time_flat_ex : three_points [0; 5; 10].
Proof. exists 0, 5, 10. cbn. intuition lra. Qed.

(** The simulated device: the evaluator reports the time constant that the
    simulation uses, as long as it is at most 300. *)
Theorem load_simulation_exact : forall fit v1 v2 initial stored n out,
  exact_load_fit fit -> exp (- v1 - v2) <= 285 ->
  let data := load_simulation v1 v2 in
  load_fitted fit initial stored (fst data) (snd data) = Ok out ->
  load_evaluate (Ok n) (load_fitted fit initial stored (fst data) (snd data)) = load_report (Fin (15 + exp (- v1 - v2))) (Fin 0).
Proof.
  intros fit v1 v2 initial stored n out HF Hv data. unfold data. rewrite simulation_curve. intros H.
  pose proof (exp_pos (- v1 - v2)).
  apply (load_time_exact fit 0 1 (15 + exp (- v1 - v2)) initial stored _ n out); [exact HF|lra|lra|apply simulation_three|exact H].
Qed.
Example load_simulation_ex :
  load_evaluate (Ok 100%nat) (load_fitted (known_load (0, 1, 16)) 30 10 (fst (load_simulation 1 (-1))) (snd (load_simulation 1 (-1)))) = load_report (Fin 16) (Fin 0).
Proof.
  assert (He : exp (- (1) - -1) = 1) by (replace (- (1) - -1) with 0 by ring; apply exp_0).
  replace (Fin 16) with (Fin (15 + exp (- (1) - -1))) by (f_equal; lra).
  destruct (known_load_runs (0, 1, 16) 30 10 (fst (load_simulation 1 (-1)))) as [r Hr]; [discriminate|cbn; lra|].
  apply (load_simulation_exact _ _ _ _ _ _ (Fin 16, r)); [apply known_load_exact|lra|].
  rewrite simulation_curve, He. replace (15 + 1) with 16 by ring. unfold load_fitted. rewrite Hr. reflexivity.
Qed.

(** ** C102: the lead curves *)
(** One period of the first version: from the low level up to the high level
    and, half a period after the fall begins, down to the low level. *)
Theorem lead_v1_levels : forall h tf tr br bf o xl,
  tf <> 0 -> tr <> 0 -> br < bf ->
  lead_v1 h tf tr br bf o xl br = o - h / 2 /\
  lead_v1 h tf tr br bf o xl bf = o + h / 2 /\
  lead_v1 h tf tr br bf o xl (bf + half_time) = o - h / 2.
Proof.
  intros h tf tr br bf o xl Hf Hr Hb. split; [apply v1_start; assumption|]. split; [apply v1_top; assumption|apply v1_end; assumption].
Qed.

(** The pieces meet where the fall begins exactly when rise and fall are half a
    period apart, and where the rise begins exactly when the last point of the
    axis lies half a period after that distance. *)
Theorem lead_v1_continuous : forall h tf tr br bf o xl,
  h <> 0 -> tf <> 0 -> tr <> 0 -> br < bf ->
  (continuity_pt (lead_v1 h tf tr br bf o xl) bf <-> bf - br = half_time) /\
  (continuity_pt (lead_v1 h tf tr br bf o xl) br <-> xl = (bf - br) + half_time).
Proof.
  intros h tf tr br bf o xl Hh Hf Hr Hb. split; [apply v1_jump_fall; assumption|apply v1_jump_rise; assumption].
Qed.

(** On the axis of the evaluator over one full period the curve jumps where the
    rise begins, for every choice of the remaining parameters: the wrapped
    piece is shifted by the last point and not by the period. *)
Theorem lead_v1_wrap_refuted : forall h tf tr br o rate n,
  h <> 0 -> tf <> 0 -> tr <> 0 -> (0 < n)%nat -> 0 < rate -> INR n / rate = 2 * half_time ->
  ~ continuity_pt (lead_v1 h tf tr br (br + half_time) o (last (time_axis rate n) 0)) br.
Proof.
  intros h tf tr br o rate n Hh Hf Hr Hn Hrate HT Hc. pose proof half_pos as Hp.
  apply (v1_jump_rise h tf tr br (br + half_time) o) in Hc; [|assumption|assumption|lra|assumption].
  assert (Hl : last (time_axis rate n) 0 = (INR n - 1) / rate).
  { unfold time_axis. destruct n as [|n]; [lia|]. rewrite seq_S, map_app. cbn [map]. rewrite last_last.
    replace (0 + n)%nat with n by lia. rewrite S_INR. f_equal. ring. }
  rewrite Hl in Hc. unfold Rdiv in Hc, HT. pose proof (Rinv_0_lt_compat rate Hrate). lra.
Qed.
Example lead_v1_ex :
  continuity_pt (lead_v1 1 (1/10000000) (1/20000000) (1/10000000) (1/10000000 + half_time) 0 (2 * half_time)) (1/10000000 + half_time) /\
  INR 4 / 1000000 = 2 * half_time.
Proof.
  split; [|unfold half_time; cbn; lra]. pose proof half_pos.
  apply lead_v1_continuous; lra.
Qed.

(** Second version: the fall ends on the low level only if both times agree,
    and the rise starts on the low level only if the fall begins half a period
    after twice the begin of the rise. *)
Theorem lead_v2_levels : forall h tf tr br bf o slope ol lf slope1 ol1 lr xl,
  h <> 0 -> tf <> 0 -> tr <> 0 -> br <= bf -> br + lr <= bf -> lf <= half_time ->
  let y := lead_v2 h tf tr br bf o slope ol lf slope1 ol1 lr xl in
  (y (bf + half_time) = o - h / 2 <-> tf = tr) /\
  (y (br + lr) = o - h / 2 <-> bf - (br + lr) = half_time + (br + lr)).
Proof.
  intros. split; [apply v2_end; assumption|apply v2_start; assumption].
Qed.
(** The default starting values: a rise after 70 ns and a fall half a period
    later; the rise does not start on the low level. *)
Example lead_v2_ex : forall tf tr, tf <> 0 -> tr <> 0 -> tf <> tr ->
  let y := lead_v2 1 tf tr (70/1000000000) (2070/1000000000) 0 0 0 0 0 0 0 (399/100000000) in
  y (2070/1000000000 + half_time) <> - (1 / 2) /\ y (70/1000000000) <> - (1 / 2).
Proof.
  intros tf tr Hf Hr Hne y.
  destruct (lead_v2_levels 1 tf tr (70/1000000000) (2070/1000000000) 0 0 0 0 0 0 0 (399/100000000)) as [H1 H2];
    [lra|assumption|assumption|lra|lra|unfold half_time; lra|]. fold y in H1, H2. split; intros H.
  - apply Hne, H1. rewrite H. lra.
  - rewrite Rplus_0_r in H2. assert (H0 : y (70/1000000000) = 0 - 1 / 2) by lra. apply H2 in H0. unfold half_time in H0. lra.
Qed.

(** Before the rise the curve should repeat the fall of the period before; it
    is ahead of it by half the begin of the fall plus half of half a period, so
    it agrees with the fall only if the fall begins half a period before the
    scan.  Between the pieces the two straight lines are used. *)
Theorem lead_v2_wrap_refuted : forall h tf tr br bf o slope ol lf slope1 ol1 lr xl x,
  h <> 0 -> tf <> 0 -> tr <> 0 -> br < bf -> 0 <= lf -> 0 < lr -> br + lr <= bf ->
  let y := lead_v2 h tf tr br bf o slope ol lf slope1 ol1 lr xl in
  (x <= br -> bf < x + xl -> bf + lf <= x + xl ->
   (y x = y (x + xl) <-> bf + half_time = 0) /\
   (forall z, bf < z -> bf + lf <= z -> (y x = y z <-> z = x + xl + (bf + half_time) / 2))) /\
  (bf < x < bf + lf -> y x = ol + slope * x) /\
  (br < x < br + lr -> y x = ol1 + slope1 * x).
Proof.
  intros h tf tr br bf o slope ol lf slope1 ol1 lr xl x Hh Hf Hr Hb Hlf Hlr Hlb y. split; [|split].
  - intros. apply v2_wrap; assumption.
  - intros Hx. unfold y, lead_v2, Rleb, Rltb. destruct (Rle_dec x bf); [lra|]. rewrite andb_false_r. destruct (Rle_dec x br); [lra|].
    destruct (Rlt_dec bf x); [|lra]. destruct (Rlt_dec x (bf + lf)); [|lra]. cbn [andb]. lra.
  - intros Hx. unfold y, lead_v2, Rleb, Rltb. destruct (Rle_dec (br + lr) x); [lra|]. cbn [andb]. destruct (Rle_dec x br); [lra|].
    destruct (Rlt_dec bf x); [lra|]. cbn [andb]. destruct (Rlt_dec br x); [|lra]. destruct (Rlt_dec x (br + lr)); [|lra]. cbn [andb]. lra.
Qed.
Example lead_v2_wrap_ex :
  let y := lead_v2 1 (50/1000000000) (50/1000000000) (70/1000000000) (2070/1000000000) 0 0 0 (20/1000000000) 3 1 (20/1000000000) (399/100000000) in
  y 0 <> y (399/100000000) /\ y (80/1000000000) = 1 + 3 * (80/1000000000).
Proof.
  cbn zeta. destruct (lead_v2_wrap_refuted 1 (50/1000000000) (50/1000000000) (70/1000000000) (2070/1000000000) 0 0 0 (20/1000000000) 3 1 (20/1000000000) (399/100000000) 0) as [H _]; try lra.
  destruct (lead_v2_wrap_refuted 1 (50/1000000000) (50/1000000000) (70/1000000000) (2070/1000000000) 0 0 0 (20/1000000000) 3 1 (20/1000000000) (399/100000000) (80/1000000000)) as [_ [_ G]]; try lra.
  split; [|apply G; lra]. destruct H as [H _]; [lra..|]. rewrite Rplus_0_l in H. rewrite H. unfold half_time. lra.
Qed.

(** ** C103: weights of the second fits *)
(** Inside the scan: small deviations on nine points around [position_point],
    large ones on ten points before them. *)
Theorem tc_weights : forall pp n k, (k < n)%nat ->
  length (tc_sigma pp n) = n /\
  ((15 <= pp <= Z.of_nat n - 6)%Z ->
   nth k (tc_sigma pp n) 0 =
   if ((pp - 4 <=? Z.of_nat k) && (Z.of_nat k <=? pp + 4))%Z%bool then 1/10
   else if ((pp - 15 <=? Z.of_nat k) && (Z.of_nat k <? pp - 5))%Z%bool then 10 else 1).
Proof. intros pp n k Hk. split; [apply tc_sigma_length|intros Hp; apply tc_sigma_inside; assumption]. Qed.

(** Near the start of the scan the end of the second range is negative and
    counts from the other end: nearly all points get the large deviation. *)
Theorem tc_weights_edge_refuted : forall pp n k, (0 <= pp < 5)%Z -> (10 < n)%nat -> (k < n)%nat ->
  nth k (tc_sigma pp n) 0 =
  if (Z.of_nat k <? pp + 5)%Z then 1/10
  else if (Z.of_nat k <? Z.of_nat n + pp - 5)%Z then 10 else 1.
Proof. exact tc_sigma_edge. Qed.

(** The point taken for the transition differs from its place on the axis by
    [n (2 centre - position) / (4 range)] points. *)
Theorem tc_position_shift : forall centre range position n,
  0 < range ->
  let place := (position - (centre - range)) / (2 * range) * INR n in
  truncated (place + (2 * centre - position) / (4 * range) * INR n) (position_point position ((centre + range) - (centre - range)) n) /\
  ((2 * centre - position) / (4 * range) * INR n = 0 <-> n = 0%nat \/ position = 2 * centre).
Proof.
  intros c r p n Hr place. split.
  - unfold position_point, place.
    replace (c + r - (c - r)) with (2 * r) by ring.
    rewrite (position_shift c r p n) by lra. replace (2 * c - p) with (c + c - p) by ring. unfold truncated.
    match goal with |- context [py_int ?x] => destruct (py_int_truncated x) as [K|K]; [left|right]; revert K end.
    all: intros K; lra.
  - split.
    + intros H. apply Rmult_integral in H. destruct H as [H|H]; [|left; apply (INR_eq n 0); exact H].
      right. unfold Rdiv in H. apply Rmult_integral in H. destruct H as [H|H]; [lra|].
      exfalso. apply (Rinv_neq_0_compat (4 * r)); lra.
    + intros [->| ->]; [cbn; ring|]. replace (2 * c - 2 * c) with 0 by ring. unfold Rdiv. ring.
Qed.

(** The default measurement (centre 0, range 2 mV, 100 points) with a transition
    at 1 mV, at point 75 of the axis: the weighted points are 58 to 66. *)
Example tc_weights_refuted_ex :
  position_point (1/1000) (2/1000 - - (2/1000)) 100 = 62%Z /\
  (1/1000 - (0 - 2/1000)) / (2 * (2/1000)) * 100 = 75 /\
  nth 62 (tc_sigma 62 100) 0 = 1/10 /\ nth 75 (tc_sigma 62 100) 0 = 1 /\ nth 50 (tc_sigma 62 100) 0 = 10.
Proof.
  assert (HI : INR 100 = 100) by (rewrite INR_IZR_INZ; reflexivity).
  split; [|split; [lra|split; [|split]]].
  - unfold position_point. rewrite HI. apply py_int_unique; [lia|].
    replace ((1 / 1000 + (2 / 1000 - - (2 / 1000))) / 2 / (2 / 1000 - - (2 / 1000)) * 100) with (625 / 10) by field. lra.
  - rewrite tc_sigma_inside by lia. reflexivity.
  - rewrite tc_sigma_inside by lia. reflexivity.
  - rewrite tc_sigma_inside by lia. reflexivity.
Qed.
Example tc_weights_edge_ex : nth 50 (tc_sigma 4 100) 0 = 10 /\ nth 3 (tc_sigma 4 100) 0 = 1/10 /\ nth 99 (tc_sigma 4 100) 0 = 1.
Proof. split; [|split]; rewrite tc_sigma_edge by lia; reflexivity. Qed.

(** Lead scans: the fitted begin times are seconds, so within the 4 microseconds
    of the pulse the weights do not depend on them and both ranges coincide. *)
Theorem lead_weights_refuted : forall br bf n k z,
  0 <= br < 4/1000000 -> 0 <= bf < 4/1000000 -> (10 <= n)%nat -> (k < n)%nat -> truncated (35/100 * INR n) z ->
  nth k (lead_sigma br bf n) 0 =
  if ((3 <=? k)%nat && (Z.of_nat k <? 3 + z)%Z)%bool then 1/10 else 1.
Proof. intros br bf n k z Hr Hf Hn Hk Hz. rewrite <- (truncated_unique _ _ _ (py_int_truncated _) Hz). apply lead_sigma_values; assumption. Qed.
(** The default fall begins at point 207 of 400; the weight ends at point 142. *)
Example lead_weights_ex :
  nth 207 (lead_sigma (70/1000000000) (2070/1000000000) 400) 0 = 1 /\ nth 10 (lead_sigma (70/1000000000) (2070/1000000000) 400) 0 = 1/10.
Proof.
  assert (HI : INR 400 = 400) by (rewrite INR_IZR_INZ; reflexivity).
  assert (HP : py_int (35/100 * INR 400) = 140%Z) by (apply py_int_unique; [lia|]; rewrite HI; lra).
  split; rewrite (lead_weights_refuted _ _ _ _ (py_int (35/100 * INR 400))) by (lra || lia || apply py_int_truncated); rewrite HP; reflexivity.
Qed.

(** ** C104: the tunnel coupling *)
(** The second fit starts from the result of the first, except for the width,
    with the weights around its position; its width is reported, with the mean
    square of the deviations over the last seven tenths of the points, relative
    to the height, times 20000. *)
Theorem tc_two_fits : forall fit guess xs ys o s h p w top bottom o2 s2 height p2 width pp k,
  fit None guess xs ys = Ok (o, s, h, p, w) ->
  In top xs -> In bottom xs -> (forall x, In x xs -> bottom <= x <= top) ->
  truncated ((p + (top - bottom)) / 2 / (top - bottom) * INR (length xs)) pp ->
  length ys = length xs -> INR k <= 3/10 * INR (length xs) < INR k + 1 ->
  let q2 := (o2, s2, height, p2, width) in
  let off x y := y - (o2 + s2 * x + height / 2 * (1 + tanh ((x - p2) / width))) in
  fit (Some (tc_sigma pp (length xs))) (o, s, h, p, 130/1000000) xs ys = Ok q2 -> height <> 0 ->
  tc_fitted fit guess xs ys =
  Ok (Fin width, Fin (20000 * (total (map (fun p => off (fst p) (snd p) * off (fst p) (snd p)) (skipn k (combine xs ys))) / INR (length xs - k)) / (height * height))).
Proof.
  intros fit guess xs ys o s h p w top bottom o2 s2 height p2 width pp k H1 Ht Hb Hle Hpp Hl Hk q2 off H2 Hh.
  unfold tc_fitted, tc_process. rewrite H1, (fold_best_max xs top Ht), (fold_best_min xs bottom Hb) by (intros x Hx; apply Hle, Hx). cbn zeta. unfold position_point.
  rewrite (truncated_unique _ _ _ (py_int_truncated _) Hpp), H2. unfold q2.
  assert (HK : Z.to_nat (py_int (3/10 * INR (length xs))) = k).
  { rewrite (py_int_unique (Z.of_nat k)) by (try lia; rewrite <- INR_IZR_INZ; exact Hk). apply Nat2Z.id. }
  assert (Hk' : (k < length xs)%nat).
  { apply INR_lt. assert (0 < INR (length xs)); [|lra]. apply lt_0_INR. destruct xs; [destruct Ht|cbn; lia]. }
  rewrite HK. f_equal. f_equal. unfold mean_of. rewrite !map_length, skipn_length, combine_length, Hl, Nat.min_id, !map_map.
  assert (HN : INR (length xs - k) <> 0) by (apply not_0_INR; lia).
  unfold ndiv, Reqb. destruct (Req_EM_T (INR (length xs - k)) 0); [contradiction|]. destruct (Req_EM_T (height * height) 0) as [K|_]; [apply Rmult_integral in K; destruct K; contradiction|].
  cbn [nmul]. f_equal.
  rewrite (map_ext _ (fun p => off (fst p) (snd p) * off (fst p) (snd p))) by (intros [x y]; unfold off; cbn [fst snd tc_fun]; unfold Rdiv; ring).
  field. split; assumption.
Qed.
(** Two parameter sets with opposite widths give the same curve, and for every
    least squares fit there is one that reports the opposite coupling with the
    same residual. *)
Theorem tc_sign_refuted : forall fit guess xs ys v e,
  exact_tc_fit fit -> tc_fitted fit guess xs ys = Ok (Fin v, e) ->
  (forall q x, tc_fun (mirrored q) x = tc_fun q x) /\
  exists fit', exact_tc_fit fit' /\ tc_fitted fit' guess xs ys = Ok (Fin (- v), e).
Proof.
  intros fit guess xs ys v e HF H. split; [exact mirrored_same|].
  exists (mirror_fit fit). split; [apply mirror_exact; exact HF|].
  unfold tc_fitted in H |- *. destruct (tc_process fit guess xs ys) as [[q r]|e'] eqn:HP; [|discriminate].
  inversion H; subst. rewrite (mirror_process _ _ _ _ _ _ HP). destruct q as [[[[o s] h] p] w]. reflexivity.
Qed.

Definition known_tc (q : p5) : option (list R) -> p5 -> list R -> list R -> res p5 := fun _ _ xs ys =>
  if list_eq_dec Req_EM_T ys (map (tc_fun q) xs) then Ok q else Raise RuntimeError.
Lemma known_tc_exact q : exact_tc_fit (known_tc q).
Proof.
  intros sigma start xs ys q'. unfold known_tc. destruct (list_eq_dec Req_EM_T ys (map (tc_fun q) xs)) as [->|]; [|discriminate].
  intros H. inversion H; subst. intros q0. rewrite chi2_self. apply chi2_nonneg.
Qed.
(** Ten points, with a constant 1 added to the curve in the last one. *)
Example tc_two_fits_ex :
  tc_fitted (fun sigma p0 _ _ => match sigma with None => Ok (0, 1, 2, 0, 1) | Some _ => Ok (let '(o, s, h, p, _) := p0 in (o, s, h, p, 3)) end) (0, 0, 1, 0, 1)
    (map INR (seq 0 10)) (map (fun k => tc_fun (0, 1, 2, 0, 3) (INR k) + (if (k =? 9)%nat then 1 else 0)) (seq 0 10)) = Ok (Fin 3, Fin (20000 * (1 / 7) / 4)).
Proof.
  rewrite (tc_two_fits _ (0, 0, 1, 0, 1) _ _ 0 1 2 0 1 9 0 0 1 2 0 3 5 3); [f_equal; f_equal|reflexivity| | | | |reflexivity| |reflexivity|lra].
  - f_equal. cbn [seq map combine skipn fst snd Nat.eqb length Nat.sub]. unfold total. cbn [fold_left]. unfold tc_fun.
    replace (INR 7) with 7 by (cbn; lra).
    match goal with |- 20000 * (?a / 7) / _ = _ => replace a with 1; [field|] end.
    unfold Rdiv. ring_simplify. reflexivity.
  - apply in_map_iff. exists 9%nat. split; [cbn; lra|cbn; lia].
  - apply in_map_iff. exists 0%nat. split; [reflexivity|cbn; lia].
  - intros x Hx. apply in_map_iff in Hx as [k [<- Hk]]. apply in_seq in Hk. replace 9 with (INR 9) by (cbn; lra). split; [apply pos_INR|apply le_INR; lia].
  - rewrite map_length, seq_length. left. replace (INR 10) with 10 by (cbn; lra). lra.
  - rewrite map_length, seq_length. replace (INR 10) with 10 by (cbn; lra). replace (INR 3) with 3 by (cbn; lra). lra.
Qed.
Example tc_sign_ex : exists fit e, exact_tc_fit fit /\
  tc_fitted fit (0, 0, 1, 0, 1) [-1; 0; 1; 2] (map (tc_fun (0, 1, 2, 0, 3)) [-1; 0; 1; 2]) = Ok (Fin (- (3)), e).
Proof.
  assert (H : exists e, tc_fitted (known_tc (0, 1, 2, 0, 3)) (0, 0, 1, 0, 1) [-1; 0; 1; 2] (map (tc_fun (0, 1, 2, 0, 3)) [-1; 0; 1; 2]) = Ok (Fin 3, e)).
  { unfold tc_fitted, tc_process, known_tc. destruct (list_eq_dec Req_EM_T _ _) as [_|Hn]; [|contradiction Hn; reflexivity].
    cbn [fold_best]. eexists. reflexivity. }
  destruct H as [e H]. destruct (tc_sign_refuted _ _ _ _ _ _ (known_tc_exact _) H) as [_ [fit' [H1 H2]]].
  exists fit', e. split; assumption.
Qed.

Print Assumptions load_time_exact.
Print Assumptions load_time_bounded.
Print Assumptions load_time_retry.
Print Assumptions load_time_flat_refuted.
Print Assumptions load_simulation_exact.
Print Assumptions lead_v1_levels.
Print Assumptions lead_v1_continuous.
Print Assumptions lead_v1_wrap_refuted.
Print Assumptions lead_v2_levels.
Print Assumptions lead_v2_wrap_refuted.
Print Assumptions tc_weights.
Print Assumptions tc_weights_edge_refuted.
Print Assumptions tc_position_shift.
Print Assumptions lead_weights_refuted.
Print Assumptions tc_two_fits.
Print Assumptions tc_sign_refuted.
