(** Starting values of the fits (FitStartModel.v): when they can be read off
    the data, whether they respect the bounds, and whether a fit can be repeated
    from the stored data. *)
From Coq Require Import Reals List Bool Arith ZArith FinFun Lia Lra Psatz.
From Verif Require Import PyExn PyBase UtilModel UtilSpec UtilProps EvaluatorModel FitModel FitSpec FitProofs FitStartModel FitStartProofs.
Import ListNotations.
Local Open Scope R_scope.

(** ** C108: starting values of the lead scans *)
(** With its default arguments [LeadTunnelTimeByLeadScan] raises for every scan
    of fewer than 322 points, whatever the data and the optimiser.  From 322
    points on the optimiser gets starting values inside the bounds: the height is
    the difference of the data after a quarter and three quarters of the scan, the
    times are the arguments, the offset is the mean, and the line of the fall goes
    through the data at the points 207 and 209, that of the rise at 7 and 9. *)
Theorem scan_start_default : forall opt rate ys, 0 < rate ->
  ((length ys < 210)%nat -> scan_fit opt default_times rate ys = Raise IndexError) /\
  ((210 <= length ys < 322)%nat -> scan_fit opt default_times rate ys = Raise ValueError) /\
  ((322 <= length ys)%nat -> exists p0, length p0 = 12%nat /\ all_inside (scan_bounds rate (length ys)) p0 = true /\
     (exists i j, Rabs (INR i - 1/4 * INR (length ys)) <= 1/2 /\ Rabs (INR j - 3/4 * INR (length ys)) <= 1/2 /\ nth 0 p0 0 = nth i ys 0 - nth j ys 0) /\
     firstn 4 (skipn 1 p0) = [50/1000000000; 50/1000000000; 70/1000000000; 2070/1000000000] /\ nth 5 p0 0 * INR (length ys) = fold_right Rplus 0 ys /\
     (forall k, k = 207%nat \/ k = 209%nat -> nth 7 p0 0 + INR k / rate * nth 6 p0 0 = nth k ys 0) /\
     (forall k, k = 7%nat \/ k = 9%nat -> nth 10 p0 0 + INR k / rate * nth 9 p0 0 = nth k ys 0) /\ nth 8 p0 0 = 2 / rate /\ nth 11 p0 0 = 2 / rate /\
     scan_fit opt default_times rate ys = opt (scan_bounds rate (length ys)) None p0 (time_axis rate (length ys)) ys).
Proof.
  intros opt rate ys Hr.
  destruct (scan_runs opt default_times rate ys 207 7 Hr) as [H1 [_ [H2 H3]]]; unfold default_times; cbn [t_fall t_rise begin_fall begin_rise]; try lra.
  - apply round_cases. cbn. lra.
  - apply round_cases. cbn. lra.
  - split; [|split].
    + intros H. apply H1. left. lia.
    + intros H. apply H2; lia.
    + intros H. destruct (H3 ltac:(lia) ltac:(lia) H) as [p0 [L [I [Es [E1 [E2 E]]]]]]. exists p0. split; [exact L|]. split; [exact I|].
      destruct (scan_values default_times rate ys 207 7 p0) as [[i [j [_ [_ [V1 [V2 V3]]]]]] [V4 [V5 [V6 [V7 V8]]]]]; try exact Es; try lia; try lra.
      * unfold default_times; cbn [begin_fall]. apply round_cases. cbn. lra.
      * unfold default_times; cbn [begin_rise]. apply round_cases. cbn. lra.
      * split; [exists i, j; auto|]. split; [exact V4|]. split; [exact V5|]. split; [intros k [->| ->]; [exact E1|exact E2]|]. split; [exact V6|]. split; [exact V7|]. split; [exact V8|exact E].
Qed.

(** No arguments help: with times that are not negative the optimiser is
    never reached for fewer than 322 points. *)
Theorem scan_needs_points : forall opt args rate ys, 0 < rate -> 0 <= t_fall args -> 0 <= t_rise args -> 0 <= begin_rise args -> 0 <= begin_fall args ->
  (length ys < 322)%nat -> scan_fit opt args rate ys = Raise ValueError \/ scan_fit opt args rate ys = Raise IndexError.
Proof.
  intros opt args rate ys Hr H1 H2 H3 H4 Hn.
  assert (P : forall t, 0 <= t -> exists b, py_round (t / (10/1000000000)) = Z.of_nat b).
  { intros t Ht. exists (Z.to_nat (py_round (t / (10/1000000000)))). rewrite Z2Nat.id; [reflexivity|].
    pose proof (round_near (t / (10/1000000000))) as A. destruct (Z_lt_le_dec (py_round (t / (10/1000000000))) 0) as [K|K]; [|exact K].
    assert (L : (py_round (t / (10/1000000000)) <= -1)%Z) by lia. apply IZR_le in L. lra. }
  destruct (P _ H4) as [b Hb]. destruct (P _ H3) as [b1 Hb1]. destruct (scan_runs opt args rate ys b b1 Hr H1 H2 Hb Hb1) as [K1 [K2 _]].
  destruct (le_lt_dec (length ys) (b + 2)); [right; apply K1; left; assumption|]. destruct (le_lt_dec (length ys) (b1 + 2)); [right; apply K1; right; assumption|].
  apply K2; assumption.
Qed.

(** The line of the fall is read off at the begin of the fall only for the
    default sampling rate. *)
Theorem scan_rate_refuted : forall rate n, 0 < rate -> (210 <= n)%nat ->
  item (time_axis rate n) (py_round (begin_fall default_times / (10/1000000000))) = Ok (207 / rate) /\
  (207 / rate = begin_fall default_times <-> rate = 100000000).
Proof.
  intros rate n Hr Hn. cbn [begin_fall default_times]. rewrite (round_cases 207) by (cbn; lra). split.
  - rewrite item_in by (rewrite axis_length; lia). rewrite axis_nth by lia. rewrite INR_IZR_INZ. reflexivity.
  - split; intros H.
    + assert (E : 207 = 2070 / 1000000000 * rate) by (rewrite <- H; field; lra). lra.
    + subst. field.
Qed.

(** [LeadTunnelTimePrefitVersion] needs three points.  With an optimiser that
    returns and keeps the bounds, any number of evaluations succeed, although
    every evaluation starts with the results of the last one. *)
Theorem prefit_start : forall (opt : optimiser) args rate yss,
  (forall bs sigma p0 xs ys, all_inside bs p0 = true -> exists q, opt bs sigma p0 xs ys = Ok q /\ length q = length p0 /\ all_inside bs q = true) ->
  0 <= t_fall args -> 0 <= t_rise args ->
  Forall2 (fun ys r => if (length ys <? 3)%nat then r = Raise IndexError else exists a, r = Ok a /\ 0 <= t_fall a /\ 0 <= t_rise a) yss (prefits opt args rate yss).
Proof.
  intros opt args rate yss Hopt. revert args. induction yss as [|ys yss IH]; intros args H1 H2; cbn [prefits]; [constructor|].
  destruct (Nat.ltb_spec (length ys) 3) as [K|K].
  - assert (E : prefit opt args rate ys = Raise IndexError) by (unfold prefit; rewrite height_few by exact K; reflexivity).
    constructor; [rewrite (proj2 (Nat.ltb_lt (length ys) 3) K); exact E|]. rewrite E. apply IH; assumption.
  - assert (E : exists a, prefit opt args rate ys = Ok a /\ 0 <= t_fall a /\ 0 <= t_rise a).
    { destruct (height_ok ys K) as [u [v [_ [_ Hh]]]]. unfold prefit. rewrite Hh. unfold curve_fit. rewrite prefit_start_inside by assumption.
      destruct (Hopt prefit_bounds None [u - v; t_fall args; t_rise args; begin_rise args; begin_fall args; mean_r ys] (time_axis rate (length ys)) ys (prefit_start_inside _ _ _ H1 H2)) as [q [E [L I]]].
      rewrite E, I.
      destruct (Hopt prefit_bounds (Some (lead_sigma (nth 3 q 0) (nth 4 q 0) (length ys))) q (time_axis rate (length ys)) ys I) as [q' [E' [L' I']]]. rewrite E'.
      eexists; split; [reflexivity|]. cbn [t_fall t_rise]. cbn [length] in L. rewrite L in L'.
      destruct q' as [|q1 [|q2 [|q3 [|q4 [|q5 [|q6 [|]]]]]]]; try discriminate. unfold prefit_bounds, free, positive in I'. cbn [all_inside] in I'. unfold inside in I'. cbn [andb] in I'.
      rewrite !andb_true_r in I'. apply andb_prop in I' as [I1 I2]. apply Rleb_le in I1. apply Rleb_le in I2. cbn [nth]. auto. }
    destruct E as [a [E [A1 A2]]]. constructor; [rewrite (proj2 (Nat.ltb_ge (length ys) 3) K); eauto|]. rewrite E. apply IH; assumption.
Qed.

(** ** C109: starting values of the load time and of the tunnel coupling *)
(** [NewLoadTime]: an [initial_curvature] outside 2..300 makes every evaluation
    raise ValueError; inside, the optimiser runs, and only its RuntimeError
    becomes NaN. *)
Theorem load_start : forall opt initial xs ys,
  (initial < 2 \/ 300 < initial -> load_evaluate opt initial xs ys = Raise ValueError) /\
  (2 <= initial <= 300 -> ys <> [] -> exists low, In low ys /\ (forall y, In y ys -> low <= y) /\
     let r := opt [free; free; (Some 2, Some 300)] None [low; nth 0 ys 0 - last ys 0; initial] xs ys in
     load_fit opt initial xs ys = r /\
     (r = Raise RuntimeError -> load_evaluate opt initial xs ys = Ok NaN) /\
     (r = Raise ValueError -> load_evaluate opt initial xs ys = Raise ValueError)).
Proof.
  intros opt initial xs ys. split.
  - intros H. unfold load_evaluate, load_fit. destruct ys as [|y ys]; [reflexivity|].
    destruct (best_min (y :: ys) ltac:(discriminate)) as [low [E _]]. rewrite E. unfold curve_fit, free. cbn [all_inside]. unfold inside. cbn [andb].
    destruct H as [H|H]; [rewrite (Rleb_false 2 initial) by exact H|rewrite (Rleb_false initial 300), andb_false_r by exact H]; reflexivity.
  - intros H Hy. destruct (best_min ys Hy) as [low [E [I L]]]. exists low. split; [exact I|]. split; [exact L|]. intros r.
    assert (F : load_fit opt initial xs ys = r).
    { unfold load_fit, curve_fit. rewrite E. unfold r, free. cbn [all_inside]. unfold inside. rewrite !Rleb_true by lra. reflexivity. }
    split; [exact F|]. unfold load_evaluate. rewrite F. split; intros ->; reflexivity.
Qed.

(** Line scan over a step in a straight line: offset, slope and height of the
    starting values are exact, the width is an eighth of the scan, and the
    position is half the window before the step.  Both sides have more than a
    quarter of the points. *)
Theorem tc_guess_exact : forall pf o s h xa xb, polyfit_exact pf -> h <> 0 -> NoDup (xa ++ xb) ->
  let n := length (xa ++ xb) in (12 <= n)%nat -> (n + 2 <= 4 * length xa)%nat -> (n + 2 <= 4 * length xb)%nat ->
  exists j r x a b, tc_guess pf (xa ++ xb) (map (fun x => o + s * x) xa ++ map (fun x => o + h + s * x) xb) = Ok (o, s, h, x, (b - a) / 8) /\
    nth_error (xa ++ xb) j = Some x /\ even_rounding (n / 12) r /\ (j = length xa - n / 12 + r)%nat /\
    In a (xa ++ xb) /\ In b (xa ++ xb) /\ forall y, In y (xa ++ xb) -> a <= y <= b.
Proof. exact guess_step. Qed.

(** With one or two points the starting values cannot be read off; with three
    to eleven the position is the first point, whatever the data. *)
Theorem tc_guess_few_refuted : forall pf xs ys, polyfit_exact pf -> length ys = length xs ->
  ((length xs <= 2)%nat -> tc_guess pf xs ys = Raise TypeError) /\
  ((3 <= length xs < 12)%nat -> forall o s h x w, tc_guess pf xs ys = Ok (o, s, h, x, w) -> x = nth 0 xs 0).
Proof.
  intros pf xs ys [Hp _] Hl. split.
  - intros Hn. unfold tc_guess. assert (E : py_round (1/4 * INR (length xs)) = 0%Z).
    { destruct xs as [|a [|b [|c xs]]]; cbn in Hn |- *; try lia; try (apply round_cases; lra). replace (1/4 * (1 + 1)) with (IZR 0 + 1/2) by lra. apply half_even. reflexivity. }
    rewrite E. cbn [Z.to_nat firstn]. rewrite Hp. reflexivity.
  - intros Hn o s h x w. unfold tc_guess. cbn zeta. destruct (pf (firstn _ _) _) as [[s0 o0]|]; [|intros K; discriminate K]. destruct (pf (from_end _ _) _) as [[s1 o1]|]; [|intros K; discriminate K].
    rewrite (Nat.div_small (length xs) 12) by lia. rewrite (proj2 transition_index_refuted) by (rewrite map_length, combine_length; lia).
    destruct (nth_error xs 0) as [x0|] eqn:E; [|discriminate]. destruct (fold_best Rmax xs); [|discriminate]. destruct (fold_best Rmin xs); [|discriminate].
    intros K. injection K as _ _ _ <- _. symmetry. apply nth_error_nth, E.
Qed.

(** ** C110: recalculation from the stored data *)
(** [process_raw_data()] without argument never works for the two lead scan
    evaluators: after any measurements made by an evaluator that started
    without data it raises. *)
Theorem lead_recalculation_refuted : forall (measured : list (res value)) s,
  (exists e, prefit_raw None (fold_left (fun s m => prefit_measure m s) measured (mk_stored VNone VNone)) = Raise e /\ (e = TypeError \/ e = IndexError)) /\
  scan_raw None s = Raise TypeError.
Proof.
  intros measured s. split; [|reflexivity].
  assert (H : forall s, (raw_x s = VNone \/ raw_x s = VList [] \/ exists l, raw_x s = VLine l) ->
    (let s' := fold_left (fun s m => prefit_measure m s) measured s in raw_x s' = VNone \/ raw_x s' = VList [] \/ exists l, raw_x s' = VLine l)).
  { clear s. induction measured as [|m measured IH]; intros s Hs; [exact Hs|]. cbn [fold_left]. apply IH. unfold prefit_measure.
    destruct m as [v|e]; [|right; left; reflexivity]. destruct (prefit_raw (Some v) _) as [[ys s']|e] eqn:E; [|right; left; reflexivity].
    unfold prefit_raw in E. destruct (difference v); [|discriminate]. injection E as _ <-. right; right. eexists; reflexivity. }
  destruct (H (mk_stored VNone VNone) (or_introl eq_refl)) as [E|[E|[l E]]]; unfold prefit_raw, difference; rewrite E; eexists; (split; [reflexivity|]); auto.
Qed.

(** From a measurement with two rows both use and store, point by point, the
    second row minus the first. *)
Theorem lead_data : forall first second (more : list (list R)) s k,
  length second = length first -> (k < length first)%nat ->
  exists ys s', prefit_raw (Some (VRows (first :: second :: more))) s = Ok (ys, s') /\ scan_raw (Some (VRows (first :: second :: more))) s = Ok (ys, s') /\
    length ys = length first /\ nth k ys 0 = nth k second 0 - nth k first 0 /\
    raw_y s' = VLine ys /\ exists xs, raw_x s' = VLine xs /\ length xs = length first /\ nth k xs 0 = INR k.
Proof.
  intros first second more s k Hl Hk. set (ys := map (fun p => fst p - snd p) (combine second first)).
  assert (L : length ys = length first) by (unfold ys; rewrite map_length, combine_length; lia).
  exists ys. eexists. split; [reflexivity|]. split; [reflexivity|]. split; [exact L|]. split.
  - unfold ys. rewrite (nth_indep _ 0 ((fun p : R * R => fst p - snd p) (0, 0))) by (fold ys; lia). rewrite (map_nth (fun p : R * R => fst p - snd p)), combine_nth by exact Hl. reflexivity.
  - split; [reflexivity|]. eexists. split; [reflexivity|]. fold ys. split; [rewrite map_length, seq_length; exact L|].
    rewrite (nth_indep _ 0 (INR 0)) by (rewrite map_length, seq_length; lia). rewrite map_nth, seq_nth by lia. reflexivity.
Qed.

(** [NewLoadTime]: the stored pair is rejected; put together as an array it is
    accepted with axis and values exchanged. *)
Theorem load_recalculation_refuted : forall y x s, load_measure (VRows [y; x]) = Ok s ->
  load_raw (VRows [y; x]) = Ok (x, y) /\ load_raw (raw_data s) = Raise TypeError /\
  exists x' y', raw_data s = VTuple [VLine x'; VLine y'] /\ load_raw (VRows [x'; y']) = Ok (y, x).
Proof. intros y x s H. injection H as <-. split; [reflexivity|]. split; [reflexivity|]. exists x, y. split; reflexivity. Qed.

(** [InterDotTCByLineScan]: the stored data give the axis and the values of the
    measurement again, over the whole range in equal steps. *)
Theorem tc_recalculation : forall center range ys, (2 <= length ys)%nat ->
  exists xs, tc_raw (tc_measure center range ys) = Ok (xs, ys) /\ length xs = length ys /\
    nth 0 xs 0 = center - range /\ last xs 0 = center + range /\
    forall k, (S k < length ys)%nat -> nth (S k) xs 0 - nth k xs 0 = 2 * range / INR (length ys - 1).
Proof.
  intros center range ys Hn. exists (linspace (center - range) (center + range) (length ys)). split; [reflexivity|].
  assert (N : forall k, (k < length ys)%nat -> nth k (linspace (center - range) (center + range) (length ys)) 0 = center - range + INR k * (2 * range / INR (length ys - 1))).
  { intros k Hk. unfold linspace. rewrite (nth_indep _ 0 ((fun i => if (length ys =? 1)%nat then center - range else center - range + INR i * ((center + range - (center - range)) / INR (length ys - 1))) 0%nat)) by (rewrite map_length, seq_length; exact Hk).
    rewrite (map_nth (fun i => if (length ys =? 1)%nat then _ else _)), seq_nth by exact Hk. rewrite (proj2 (Nat.eqb_neq (length ys) 1)) by lia. cbn [Nat.add].
    replace (center + range - (center - range)) with (2 * range) by ring. reflexivity. }
  assert (L : length (linspace (center - range) (center + range) (length ys)) = length ys) by (unfold linspace; rewrite map_length; apply seq_length).
  assert (P : INR (length ys - 1) <> 0) by (apply not_0_INR; lia).
  split; [exact L|]. split; [rewrite N by lia; cbn; ring|]. split.
  - rewrite (last_nth _ 0). rewrite L, N by lia. field. exact P.
  - intros k Hk. rewrite !N by lia. rewrite S_INR. ring.
Qed.

(** ** Instances *)
Example lead_data_ex : exists ys s, scan_raw (Some (VRows [[1; 2; 3]; [5; 4; 3]])) (mk_stored VNone VNone) = Ok (ys, s) /\ nth 0 ys 0 = 4.
Proof. destruct (lead_data [1; 2; 3] [5; 4; 3] [] (mk_stored VNone VNone) 0) as [ys [s [_ [H [_ [K _]]]]]]; [reflexivity|cbn; lia|]. exists ys, s. split; [exact H|]. rewrite K. cbn. lra. Qed.
(** An optimiser that returns its starting values. *)
Definition lazy : optimiser := fun _ _ p0 _ _ => Ok p0.
Lemma lazy_inside bs sigma p0 xs ys : all_inside bs p0 = true -> exists q, lazy bs sigma p0 xs ys = Ok q /\ length q = length p0 /\ all_inside bs q = true.
Proof. intros H. exists p0. auto. Qed.

(** 400 points are one pulse of 4 microseconds at the default rate; 300 points
    of the same signal are too few. *)
Example scan_start_default_ex :
  (exists q, scan_fit lazy default_times 100000000 (map INR (seq 0 400)) = Ok q /\ nth 8 q 0 = 2 / 100000000) /\
  scan_fit lazy default_times 100000000 (map INR (seq 0 300)) = Raise ValueError /\
  scan_fit lazy default_times 100000000 (map INR (seq 0 200)) = Raise IndexError.
Proof.
  split; [|split].
  - destruct (scan_runs lazy default_times 100000000 (map INR (seq 0 400)) 207 7) as [_ [_ [_ H]]]; unfold default_times; cbn [t_fall t_rise begin_fall begin_rise]; try lra.
    + apply round_cases. cbn. lra.
    + apply round_cases. cbn. lra.
    + destruct H as [p0 [_ [_ [E [_ [_ F]]]]]]; rewrite ?map_length, ?seq_length; try lia. exists p0. split; [exact F|].
      unfold scan_start in E. destruct (start_height _); [|discriminate]. cbn [begin_fall begin_rise] in E.
      rewrite (line_in 100000000 (map INR (seq 0 400)) 207), (line_in 100000000 (map INR (seq 0 400)) 7) in E;
        try (apply round_cases; cbn; lra); try (rewrite map_length, seq_length; lia); try lra. injection E as <-. reflexivity.
  - apply scan_start_default; [lra|]. rewrite map_length, seq_length. lia.
  - apply scan_start_default; [lra|]. rewrite map_length, seq_length. lia.
Qed.
Example scan_needs_points_ex : exists e, scan_fit lazy (mk_times 1 1 0 0) 100000000 (repeat 1 321) = Raise e.
Proof. destruct (scan_needs_points lazy (mk_times 1 1 0 0) 100000000 (repeat 1 321)) as [H|H]; cbn [t_fall t_rise begin_fall begin_rise]; try lra; [rewrite repeat_length; lia|eauto..]. Qed.
(** Twice the sampling rate: the line is taken at 1.035 microseconds. *)
Example scan_rate_refuted_ex : item (time_axis 200000000 400) (py_round (begin_fall default_times / (10/1000000000))) = Ok (1035 / 1000000000).
Proof. destruct (scan_rate_refuted 200000000 400) as [H _]; [lra|lia|]. rewrite H. f_equal. field. Qed.
Example prefit_start_ex : Forall2 (fun ys r => if (length ys <? 3)%nat then r = Raise IndexError else exists a, r = Ok a /\ 0 <= t_fall a /\ 0 <= t_rise a)
  [[1; 2; 3; 4]; [1; 2]; [4; 3; 2; 1]] (prefits lazy default_times 100000000 [[1; 2; 3; 4]; [1; 2]; [4; 3; 2; 1]]).
Proof. apply prefit_start; [exact lazy_inside|cbn; lra..]. Qed.
Example load_start_ex : load_evaluate lazy 1 [0; 1; 2] [3; 2; 1] = Raise ValueError /\ load_evaluate (fun _ _ _ _ _ => Raise RuntimeError) 30 [0; 1; 2] [3; 2; 1] = Ok NaN.
Proof.
  split; [apply load_start; lra|].
  destruct (proj2 (load_start (fun _ _ _ _ _ => Raise RuntimeError) 30 [0; 1; 2] [3; 2; 1])) as [low [_ [_ [_ [H _]]]]]; [lra|discriminate|]. apply H. reflexivity.
Qed.

(** An exact polyfit: the line through the first and the first different point. *)
Fixpoint other (x0 : R) (xs ys : list R) : option (R * R) :=
  match xs, ys with
  | x :: xs', y :: ys' => if Req_EM_T x x0 then other x0 xs' ys' else Some (x, y)
  | _, _ => None
  end.
Definition two_point_fit (xs ys : list R) : res (R * R) :=
  match xs, ys with
  | x0 :: _, y0 :: _ => match other x0 xs ys with
                        | Some (x, y) => let s := (y - y0) / (x - x0) in Ok (s, y0 - s * x0)
                        | None => Ok (0, y0)
                        end
  | _, _ => Raise TypeError
  end.
Lemma two_point_fit_exact : polyfit_exact two_point_fit.
Proof.
  split; [reflexivity|]. intros xs s o [a [b [Ha [Hb Hab]]]]. destruct xs as [|x0 xs]; [destruct Ha|]. unfold two_point_fit.
  assert (H : exists x, x <> x0 /\ other x0 (x0 :: xs) (map (fun x => o + s * x) (x0 :: xs)) = Some (x, o + s * x)).
  { assert (Hc : exists c, In c (x0 :: xs) /\ c <> x0) by (destruct (Req_EM_T a x0) as [->|]; [exists b; auto|exists a; auto]).
    destruct Hc as [c [Hc Hn]]. clear -Hc Hn. induction (x0 :: xs) as [|y l IH]; [destruct Hc|]. cbn [map other]. destruct (Req_EM_T y x0) as [E|E].
    - apply IH. destruct Hc as [<-|Hc]; [contradiction|exact Hc].
    - exists y. auto. }
  destruct H as [x [Hx H]]. rewrite H. cbn [map]. f_equal. f_equal; field; lra.
Qed.
(** A step of height 3 at the tenth of 20 points. *)
Example tc_guess_exact_ex : exists x a b,
  tc_guess two_point_fit (map INR (seq 0 20)) (map (fun x => 1 + 2 * x) (map INR (seq 0 10)) ++ map (fun x => 1 + 3 + 2 * x) (map INR (seq 10 10))) = Ok (1, 2, 3, x, (b - a) / 8) /\
  x = 9 /\ a = 0 /\ b = 19.
Proof.
  destruct (tc_guess_exact two_point_fit 1 2 3 (map INR (seq 0 10)) (map INR (seq 10 10)) two_point_fit_exact) as [j [r [x [a [b [E [Hj [Hr [-> [Ia [Ib Hle]]]]]]]]]]].
  - lra.
  - rewrite <- map_app. apply Injective_map_NoDup; [intros u v; apply INR_eq|apply (seq_NoDup 20 0)].
  - cbn. lia.
  - cbn. lia.
  - cbn. lia.
  - exists x, a, b. rewrite <- map_app in E, Hj, Ia, Ib, Hle. change (seq 0 10 ++ seq 10 10) with (seq 0 20) in *. split; [exact E|].
    change (even_rounding 1 r) in Hr. change (nth_error (map INR (seq 0 20)) (9 + r) = Some x) in Hj.
    assert (Hr0 : r = 0%nat) by (destruct Hr as [K|[[K [m M]]|[K _]]]; lia). subst r. split.
    + cbn [Nat.add] in Hj. rewrite (map_nth_error INR 9 (seq 0 20) (d := 9%nat)) in Hj by reflexivity. injection Hj as <-. cbn. lra.
    + apply in_map_iff in Ia as [u [<- Hu]]. apply in_map_iff in Ib as [v [<- Hv]]. apply in_seq in Hu. apply in_seq in Hv.
      pose proof (Hle (INR 0) (in_map INR _ _ (proj2 (in_seq 20 0 0) ltac:(lia)))) as K0. pose proof (Hle (INR 19) (in_map INR _ _ (proj2 (in_seq 20 0 19) ltac:(lia)))) as K1.
      split; [|apply Rle_antisym]; [cbn [INR] in K0; pose proof (pos_INR u); lra| |].
      * assert (Hv2 : (v <= 19)%nat) by lia. apply le_INR in Hv2. rewrite (INR_IZR_INZ 19) in Hv2. exact Hv2.
      * destruct K1 as [_ K1]. rewrite (INR_IZR_INZ 19) in K1. exact K1.
Qed.
Example tc_guess_few_ex : tc_guess two_point_fit [0; 1] [0; 5] = Raise TypeError.
Proof. apply (tc_guess_few_refuted two_point_fit [0; 1] [0; 5] two_point_fit_exact eq_refl). cbn. lia. Qed.
Example lead_recalculation_ex : exists e,
  prefit_raw None (fold_left (fun s m => prefit_measure m s) [Ok (VRows [[0; 0; 0]; [1; 2; 3]]); Raise (OtherError 0)] (mk_stored VNone VNone)) = Raise e.
Proof. destruct (lead_recalculation_refuted [Ok (VRows [[0; 0; 0]; [1; 2; 3]]); Raise (OtherError 0)] (mk_stored VNone VNone)) as [[e [H _]] _]. eauto. Qed.
Example load_recalculation_ex : exists s, load_measure (VRows [[3; 2; 1]; [0; 5; 10]]) = Ok s /\ load_raw (raw_data s) = Raise TypeError.
Proof. eexists. split; [reflexivity|]. apply (load_recalculation_refuted [3; 2; 1] [0; 5; 10]). reflexivity. Qed.
Example tc_recalculation_ex : exists xs, tc_raw (tc_measure 0 (2/1000) [1; 2; 3]) = Ok (xs, [1; 2; 3]) /\ last xs 0 = 2/1000.
Proof. destruct (tc_recalculation 0 (2/1000) [1; 2; 3]) as [xs [H [_ [_ [L _]]]]]; [cbn; lia|]. exists xs. split; [exact H|]. rewrite L. lra. Qed.
Print Assumptions scan_start_default.
Print Assumptions scan_needs_points.
Print Assumptions scan_rate_refuted.
Print Assumptions prefit_start.
Print Assumptions load_start.
Print Assumptions tc_guess_exact.
Print Assumptions tc_guess_few_refuted.
Print Assumptions lead_recalculation_refuted.
Print Assumptions lead_data.
Print Assumptions load_recalculation_refuted.
Print Assumptions tc_recalculation.
