From Coq Require Import Reals List Bool Arith ZArith Lia Lra Psatz.
From Verif Require Import PyExn PyBase UtilModel UtilSpec UtilProps EvaluatorModel FitModel FitSpec FitProofs FitStartModel.
Import ListNotations.
Local Open Scope R_scope.

(** *** Rounding and indices *)
Lemma round_cases z x : IZR z - 1/2 < x < IZR z + 1/2 -> py_round x = z.
Proof.
  intros H. unfold py_round. destruct (Rlt_dec x (IZR z)) as [Hl|Hl].
  - rewrite (Int_part_unique (z - 1) x) by (rewrite minus_IZR; lra). rewrite minus_IZR.
    destruct (Rlt_dec (x - (IZR z - 1)) (1/2)); [lra|]. destruct (Rlt_dec (1/2) (x - (IZR z - 1))); [lia|lra].
  - rewrite (Int_part_unique z x) by lra. destruct (Rlt_dec (x - IZR z) (1/2)); [reflexivity|lra].
Qed.
Lemma round_near x : IZR (py_round x) - 1/2 <= x <= IZR (py_round x) + 1/2.
Proof.
  unfold py_round. pose proof (base_Int_part x) as [H1 H2].
  destruct (Rlt_dec (x - IZR (Int_part x)) (1/2)); [lra|]. destruct (Rlt_dec (1/2) (x - IZR (Int_part x))); [rewrite plus_IZR; lra|].
  destruct (Z.even (Int_part x)); [lra|rewrite plus_IZR; lra].
Qed.
Lemma item_in l i : (0 <= i < Z.of_nat (length l))%Z -> item l i = Ok (nth (Z.to_nat i) l 0).
Proof.
  intros H. unfold item. rewrite (proj2 (Z.ltb_ge i 0)) by lia. rewrite (proj2 (Z.ltb_ge i 0)) by lia.
  rewrite (nth_error_nth' l 0) by lia. reflexivity.
Qed.
Lemma item_out l i : (Z.of_nat (length l) <= i)%Z -> item l i = Raise IndexError.
Proof.
  intros H. unfold item. rewrite (proj2 (Z.ltb_ge i 0)) by lia. rewrite (proj2 (Z.ltb_ge i 0)) by lia.
  rewrite (proj2 (nth_error_None l (Z.to_nat i))) by lia. reflexivity.
Qed.
Lemma axis_length rate n : length (time_axis rate n) = n.
Proof. unfold time_axis. rewrite map_length. apply seq_length. Qed.
Lemma axis_nth rate n k : (k < n)%nat -> nth k (time_axis rate n) 0 = INR k / rate.
Proof.
  intros H. unfold time_axis. rewrite (nth_indep _ 0 ((fun k => INR k / rate) 0%nat)) by (rewrite map_length, seq_length; exact H).
  rewrite (map_nth (fun k => INR k / rate)), seq_nth by exact H. reflexivity.
Qed.

Lemma quarter_in n : (3 <= n)%nat -> (0 <= py_round (1/4 * INR n) < Z.of_nat n)%Z /\ (0 <= py_round (3/4 * INR n) < Z.of_nat n)%Z.
Proof.
  intros H. assert (HN : 3 <= INR n) by (apply (le_INR 3) in H; cbn in H; lra).
  pose proof (round_near (1/4 * INR n)) as A. pose proof (round_near (3/4 * INR n)) as B. rewrite INR_IZR_INZ in *.
  split; split.
  - apply le_IZR. apply Rnot_lt_le. intros K. apply lt_IZR in K. assert (L : (py_round (1/4 * IZR (Z.of_nat n)) <= -1)%Z) by lia. apply IZR_le in L. lra.
  - apply lt_IZR. lra.
  - apply le_IZR. apply Rnot_lt_le. intros K. apply lt_IZR in K. assert (L : (py_round (3/4 * IZR (Z.of_nat n)) <= -1)%Z) by lia. apply IZR_le in L. lra.
  - apply lt_IZR. lra.
Qed.
Lemma height_ok ys : (3 <= length ys)%nat -> exists a b, In a ys /\ In b ys /\ start_height ys = Ok (a - b).
Proof.
  intros H. destruct (quarter_in _ H) as [A B]. unfold start_height. rewrite (item_in ys _ A), (item_in ys _ B).
  eexists _, _. split; [|split; [|reflexivity]]; apply nth_In; lia.
Qed.
Lemma half_even k : Z.even k = true -> py_round (IZR k + 1/2) = k.
Proof.
  intros H. unfold py_round. rewrite (Int_part_unique k) by lra. destruct (Rlt_dec (IZR k + 1/2 - IZR k) (1/2)); [lra|].
  destruct (Rlt_dec (1/2) (IZR k + 1/2 - IZR k)); [lra|]. rewrite H. reflexivity.
Qed.
Lemma half_odd k : Z.even k = false -> py_round (IZR k + 1/2) = (k + 1)%Z.
Proof.
  intros H. unfold py_round. rewrite (Int_part_unique k) by lra. destruct (Rlt_dec (IZR k + 1/2 - IZR k) (1/2)); [lra|].
  destruct (Rlt_dec (1/2) (IZR k + 1/2 - IZR k)); [lra|]. rewrite H. reflexivity.
Qed.
Lemma height_few ys : (length ys < 3)%nat -> start_height ys = Raise IndexError.
Proof.
  intros H. unfold start_height. destruct ys as [|a [|b [|c ys]]]; [| | |cbn in H; lia].
  - cbn [length INR]. rewrite Rmult_0_r. replace (py_round 0) with 0%Z by (symmetry; apply round_cases; lra). reflexivity.
  - cbn [length INR]. replace (py_round (1 / 4 * 1)) with 0%Z by (symmetry; apply round_cases; lra).
    replace (py_round (3 / 4 * 1)) with 1%Z by (symmetry; apply round_cases; lra). reflexivity.
  - cbn [length INR]. replace (1 / 4 * (1 + 1)) with (IZR 0 + 1/2) by lra. rewrite half_even by reflexivity.
    replace (3 / 4 * (1 + 1)) with (IZR 1 + 1/2) by lra. rewrite half_odd by reflexivity. reflexivity.
Qed.

(** *** Lead scans *)
Lemma line_in rate ys b begin : rate <> 0 -> py_round (begin / (10/1000000000)) = Z.of_nat b -> (b + 2 < length ys)%nat ->
  let slope := (nth (b + 2) ys 0 - nth b ys 0) / (2 / rate) in
  line_at (time_axis rate (length ys)) ys begin = Ok (slope, nth b ys 0 - INR b / rate * slope, 2 / rate).
Proof.
  intros Hr Hb Hl. unfold line_at. rewrite Hb. replace (Z.of_nat b + 2)%Z with (Z.of_nat (b + 2)) by lia.
  rewrite !item_in by (rewrite ?axis_length; lia). rewrite !Nat2Z.id, !axis_nth by lia.
  replace (INR (b + 2) / rate - INR b / rate) with (2 / rate) by (rewrite plus_INR; cbn; field; exact Hr). reflexivity.
Qed.
Lemma line_out xs ys begin : (Z.of_nat (length ys) <= py_round (begin / (10/1000000000)) + 2)%Z -> line_at xs ys begin = Raise IndexError.
Proof. intros H. unfold line_at. rewrite item_out by exact H. reflexivity. Qed.

Lemma Rleb_true a b : a <= b -> Rleb a b = true.
Proof. unfold Rleb. destruct (Rle_dec a b); tauto. Qed.
Lemma Rleb_false a b : b < a -> Rleb a b = false.
Proof. unfold Rleb. destruct (Rle_dec a b); [lra|reflexivity]. Qed.

Lemma short_inside rate n : 0 < rate -> (Rleb (2 / rate) (INR n / 161 / rate) = true <-> (322 <= n)%nat).
Proof.
  intros Hr. split.
  - intros H. destruct (le_lt_dec 322 n) as [K|K]; [exact K|]. exfalso. rewrite Rleb_false in H; [discriminate|].
    unfold Rdiv. apply Rmult_lt_compat_r; [apply Rinv_0_lt_compat; exact Hr|]. apply lt_INR in K. rewrite (INR_IZR_INZ 322) in K. cbn in K. lra.
  - intros K. apply Rleb_true. unfold Rdiv. apply Rmult_le_compat_r; [left; apply Rinv_0_lt_compat; exact Hr|]. apply le_INR in K. rewrite (INR_IZR_INZ 322) in K. cbn in K. lra.
Qed.
Lemma scan_inside rate n h tf tr br bf o s1 o1 s2 o2 : 0 < rate -> 0 <= tf -> 0 <= tr ->
  all_inside (scan_bounds rate n) [h; tf; tr; br; bf; o; s1; o1; 2 / rate; s2; o2; 2 / rate] = (322 <=? n)%nat.
Proof.
  intros Hr Hf Ht. unfold scan_bounds, free, positive. cbn [all_inside inside fst snd]. unfold inside.
  rewrite !Rleb_true by (try assumption; left; apply Rdiv_lt_0_compat; lra). cbn [andb].
  destruct (Nat.leb_spec 322 n) as [K|K].
  - rewrite (proj2 (short_inside rate n Hr) K). reflexivity.
  - destruct (Rleb (2 / rate) (INR n / 161 / rate)) eqn:E; [apply (short_inside rate n Hr) in E; lia|reflexivity].
Qed.

Lemma scan_runs opt args rate ys b b1 : 0 < rate -> 0 <= t_fall args -> 0 <= t_rise args ->
  py_round (begin_fall args / (10/1000000000)) = Z.of_nat b -> py_round (begin_rise args / (10/1000000000)) = Z.of_nat b1 ->
  ((length ys <= b + 2)%nat \/ (length ys <= b1 + 2)%nat -> scan_fit opt args rate ys = Raise IndexError) /\
  ((b + 2 < length ys)%nat -> (b1 + 2 < length ys)%nat -> (length ys < 322)%nat -> scan_fit opt args rate ys = Raise ValueError \/ scan_fit opt args rate ys = Raise IndexError) /\
  ((b + 2 < length ys)%nat -> (b1 + 2 < length ys)%nat -> (3 <= length ys < 322)%nat -> scan_fit opt args rate ys = Raise ValueError) /\
  ((b + 2 < length ys)%nat -> (b1 + 2 < length ys)%nat -> (322 <= length ys)%nat -> exists p0, length p0 = 12%nat /\ all_inside (scan_bounds rate (length ys)) p0 = true /\
     scan_start args rate ys = Ok p0 /\
     nth 7 p0 0 + INR b / rate * nth 6 p0 0 = nth b ys 0 /\ nth 7 p0 0 + INR (b + 2) / rate * nth 6 p0 0 = nth (b + 2) ys 0 /\
     scan_fit opt args rate ys = opt (scan_bounds rate (length ys)) None p0 (time_axis rate (length ys)) ys).
Proof.
  intros Hr Hf Ht Hb Hb1. assert (Hr0 : rate <> 0) by lra.
  assert (Hfew : (length ys < 3)%nat -> scan_fit opt args rate ys = Raise IndexError) by (intros H; unfold scan_fit, scan_start; rewrite height_few by exact H; reflexivity).
  assert (Hmain : (b + 2 < length ys)%nat -> (b1 + 2 < length ys)%nat -> (3 <= length ys)%nat -> exists p0, length p0 = 12%nat /\ all_inside (scan_bounds rate (length ys)) p0 = (322 <=? length ys)%nat /\ scan_start args rate ys = Ok p0 /\
     nth 7 p0 0 + INR b / rate * nth 6 p0 0 = nth b ys 0 /\ nth 7 p0 0 + INR (b + 2) / rate * nth 6 p0 0 = nth (b + 2) ys 0).
  { intros H1 H2 H3. destruct (height_ok ys H3) as [u [v [_ [_ Hh]]]]. unfold scan_start. rewrite Hh.
    rewrite (line_in rate ys b _ Hr0 Hb H1), (line_in rate ys b1 _ Hr0 Hb1 H2). eexists; split; [|split; [|split; [reflexivity|]]]; [reflexivity|apply scan_inside; assumption|].
    cbn [nth]. rewrite plus_INR. cbn [INR]. split; field; exact Hr0. }
  split; [|split; [|split]].
  - intros Hout. destruct (le_lt_dec 3 (length ys)) as [H3|H3]; [|exact (Hfew H3)].
    destruct (height_ok ys H3) as [u [v [_ [_ Hh]]]]. unfold scan_fit, scan_start. rewrite Hh.
    destruct (le_lt_dec (length ys) (b + 2)) as [K|K]; [rewrite (line_out _ ys (begin_fall args)) by (rewrite Hb; lia); reflexivity|].
    destruct Hout as [Hout|Hout]; [lia|]. rewrite (line_in rate ys b _ Hr0 Hb K), (line_out _ ys (begin_rise args)) by (rewrite Hb1; lia). reflexivity.
  - intros H1 H2 H4. destruct (le_lt_dec 3 (length ys)) as [H3|H3]; [left|right; exact (Hfew H3)].
    destruct (Hmain H1 H2 H3) as [p0 [_ [Hi [Hs _]]]]. unfold scan_fit, curve_fit. rewrite Hs, Hi, (proj2 (Nat.leb_gt 322 (length ys))) by lia. reflexivity.
  - intros H1 H2 [H3 H4]. destruct (Hmain H1 H2 H3) as [p0 [_ [Hi [Hs _]]]]. unfold scan_fit, curve_fit. rewrite Hs, Hi, (proj2 (Nat.leb_gt 322 (length ys))) by lia. reflexivity.
  - intros H1 H2 H4. destruct (Hmain H1 H2 ltac:(lia)) as [p0 [Hl [Hi [Hs Hline]]]]. rewrite (proj2 (Nat.leb_le 322 (length ys))) in Hi by exact H4. exists p0.
    split; [exact Hl|]. split; [exact Hi|]. split; [exact Hs|]. split; [apply Hline|]. split; [apply Hline|]. unfold scan_fit, curve_fit. rewrite Hs, Hi. reflexivity.
Qed.

Lemma total_sum l : total l = fold_right Rplus 0 l.
Proof. unfold total. rewrite fold_symmetric; [reflexivity|intros; ring|intros; ring]. Qed.
(** All twelve starting values. *)
Lemma scan_values args rate ys b b1 p0 : rate <> 0 ->
  py_round (begin_fall args / (10/1000000000)) = Z.of_nat b -> py_round (begin_rise args / (10/1000000000)) = Z.of_nat b1 ->
  (b + 2 < length ys)%nat -> (b1 + 2 < length ys)%nat -> (3 <= length ys)%nat -> scan_start args rate ys = Ok p0 ->
  (exists i j, (i < length ys)%nat /\ (j < length ys)%nat /\ Rabs (INR i - 1/4 * INR (length ys)) <= 1/2 /\ Rabs (INR j - 3/4 * INR (length ys)) <= 1/2 /\
     nth 0 p0 0 = nth i ys 0 - nth j ys 0) /\
  firstn 4 (skipn 1 p0) = [t_fall args; t_rise args; begin_rise args; begin_fall args] /\ nth 5 p0 0 * INR (length ys) = fold_right Rplus 0 ys /\
  (forall k, k = b1 \/ k = (b1 + 2)%nat -> nth 10 p0 0 + INR k / rate * nth 9 p0 0 = nth k ys 0) /\
  nth 8 p0 0 = 2 / rate /\ nth 11 p0 0 = 2 / rate.
Proof.
  intros Hr Hb Hb1 H1 H2 H3 E. destruct (quarter_in _ H3) as [A B]. unfold scan_start, start_height in E. rewrite (item_in ys _ A), (item_in ys _ B) in E.
  rewrite (line_in rate ys b _ Hr Hb H1), (line_in rate ys b1 _ Hr Hb1 H2) in E. apply (f_equal (fun r => match r with Ok a => a | Raise _ => [] end)) in E. cbn beta iota in E. subst p0.
  split; [|split; [reflexivity|split; [|split; [|split; reflexivity]]]].
  - exists (Z.to_nat (py_round (1/4 * INR (length ys)))), (Z.to_nat (py_round (3/4 * INR (length ys)))).
    split; [lia|]. split; [lia|].
    assert (Q : forall z, (0 <= z)%Z -> INR (Z.to_nat z) = IZR z) by (intros z Hz; rewrite INR_IZR_INZ, Z2Nat.id by exact Hz; reflexivity).
    rewrite !Q by lia.
    pose proof (round_near (1/4 * INR (length ys))). pose proof (round_near (3/4 * INR (length ys))).
    split; [apply Rabs_le; lra|]. split; [apply Rabs_le; lra|]. reflexivity.
  - cbn [nth]. unfold mean_r. assert (INR (length ys) <> 0) by (apply not_0_INR; lia). rewrite total_sum. field. assumption.
  - intros k [->| ->]; cbn [nth]; rewrite ?plus_INR; cbn [INR]; field; exact Hr.
Qed.

(** *** Prefit *)
Lemma prefit_start_inside h args o : 0 <= t_fall args -> 0 <= t_rise args ->
  all_inside prefit_bounds [h; t_fall args; t_rise args; begin_rise args; begin_fall args; o] = true.
Proof. intros H1 H2. unfold prefit_bounds, free, positive. cbn [all_inside]. unfold inside. rewrite !Rleb_true by assumption. reflexivity. Qed.
Lemma Rleb_le a b : Rleb a b = true -> a <= b.
Proof. unfold Rleb. destruct (Rle_dec a b); [auto|discriminate]. Qed.

(** *** Starting values of the line scan *)
Lemma last_nth (l : list R) d : last l d = nth (length l - 1) l d.
Proof.
  induction l as [|a l IH]; [reflexivity|]. destruct l as [|b l]; [reflexivity|]. transitivity (last (b :: l) d); [reflexivity|]. rewrite IH.
  cbn [length]. rewrite !Nat.sub_succ, !Nat.sub_0_r. reflexivity.
Qed.
Lemma map_firstn {A B} (f : A -> B) k l : map f (firstn k l) = firstn k (map f l).
Proof. revert k. induction l as [|a l IH]; intros [|k]; cbn; [reflexivity..|]. rewrite IH. reflexivity. Qed.
Lemma map_skipn {A B} (f : A -> B) k l : map f (skipn k l) = skipn k (map f l).
Proof. revert k. induction l as [|a l IH]; intros [|k]; cbn; [reflexivity..|]. apply IH. Qed.
Lemma firstn_prefix {A} k (l l' : list A) : (k <= length l)%nat -> firstn k (l ++ l') = firstn k l.
Proof. intros H. rewrite firstn_app. replace (k - length l)%nat with 0%nat by lia. apply app_nil_r. Qed.
Lemma skipn_suffix {A} k (l l' : list A) : (length l <= k)%nat -> skipn k (l ++ l') = skipn (k - length l) l'.
Proof. intros H. rewrite skipn_app, skipn_all2 by exact H. reflexivity. Qed.
Lemma best_max l : l <> [] -> exists b, fold_best Rmax l = Ok b /\ In b l /\ forall y, In y l -> y <= b.
Proof.
  intros H. destruct l as [|a l]; [contradiction|]. clear H. cbn [fold_best]. revert a.
  induction l as [|c l IH]; intros a; cbn [fold_left].
  - exists a. split; [reflexivity|]. split; [left; reflexivity|]. intros y [<-|[]]. lra.
  - destruct (IH (Rmax a c)) as [b [E [Hin Hle]]]. exists b. split; [exact E|]. split.
    + destruct Hin as [<-|Hin]; [|right; right; exact Hin]. unfold Rmax. destruct (Rle_dec a c); [right; left; reflexivity|left; reflexivity].
    + intros y [<-|[<-|Hy]]; [|pose proof (Hle _ (or_introl eq_refl)); pose proof (Rmax_r a c); lra|apply Hle; right; exact Hy].
      pose proof (Hle _ (or_introl eq_refl)). pose proof (Rmax_l a c). lra.
Qed.
Lemma best_min l : l <> [] -> exists b, fold_best Rmin l = Ok b /\ In b l /\ forall y, In y l -> b <= y.
Proof.
  intros H. destruct l as [|a l]; [contradiction|]. clear H. cbn [fold_best]. revert a.
  induction l as [|c l IH]; intros a; cbn [fold_left].
  - exists a. split; [reflexivity|]. split; [left; reflexivity|]. intros y [<-|[]]. lra.
  - destruct (IH (Rmin a c)) as [b [E [Hin Hle]]]. exists b. split; [exact E|]. split.
    + destruct Hin as [<-|Hin]; [|right; right; exact Hin]. unfold Rmin. destruct (Rle_dec a c); [left; reflexivity|right; left; reflexivity].
    + intros y [<-|[<-|Hy]]; [|pose proof (Hle _ (or_introl eq_refl)); pose proof (Rmin_r a c); lra|apply Hle; right; exact Hy].
      pose proof (Hle _ (or_introl eq_refl)). pose proof (Rmin_l a c). lra.
Qed.
Lemma combine_app {A B} (a a' : list A) (b b' : list B) : length a = length b -> combine (a ++ a') (b ++ b') = combine a b ++ combine a' b'.
Proof. revert b. induction a as [|x a IH]; intros [|y b] H; cbn in *; try discriminate; [reflexivity|]. rewrite IH by lia. reflexivity. Qed.
Lemma flattened (f : R -> R) c o1 s1 l : (forall x, f x - o1 - s1 * x = c) ->
  map (fun p : R * R => snd p - o1 - s1 * fst p) (combine l (map f l)) = repeat c (length l).
Proof. intros H. induction l as [|x l IH]; cbn; [reflexivity|]. rewrite H, IH. reflexivity. Qed.

Lemma quarter_bounds n : (4 * Z.to_nat (py_round (1/4 * INR n)) <= n + 2)%nat /\ (n <= 4 * Z.to_nat (py_round (1/4 * INR n)) + 2)%nat.
Proof.
  pose proof (round_near (1/4 * INR n)) as A. pose proof (pos_INR n) as P. rewrite INR_IZR_INZ in *. set (k := py_round (1/4 * IZR (Z.of_nat n))) in *.
  assert (K0 : (0 <= k)%Z) by (destruct (Z_lt_le_dec k 0) as [K|K]; [assert (L : (k <= -1)%Z) by lia; apply IZR_le in L; lra|exact K]).
  assert (A1 : (4 * k <= Z.of_nat n + 2)%Z) by (apply le_IZR; rewrite mult_IZR, plus_IZR; lra).
  assert (A2 : (Z.of_nat n <= 4 * k + 2)%Z) by (apply le_IZR; rewrite plus_IZR, mult_IZR; lra).
  lia.
Qed.

Lemma nodup_parts {A} (l l' : list A) : NoDup (l ++ l') -> NoDup l /\ NoDup l'.
Proof.
  induction l as [|a l IH]; cbn; intros H; [split; [constructor|exact H]|]. inversion H as [|? ? Ha Hl]; subst. destruct (IH Hl) as [H1 H2].
  split; [constructor; [intros K; apply Ha, in_or_app; left; exact K|exact H1]|exact H2].
Qed.
Lemma guess_step pf o s h xa xb : polyfit_exact pf -> h <> 0 -> NoDup (xa ++ xb) ->
  let n := length (xa ++ xb) in (12 <= n)%nat -> (n + 2 <= 4 * length xa)%nat -> (n + 2 <= 4 * length xb)%nat ->
  exists j r x a b, tc_guess pf (xa ++ xb) (map (fun x => o + s * x) xa ++ map (fun x => o + h + s * x) xb) = Ok (o, s, h, x, (b - a) / 8) /\
    nth_error (xa ++ xb) j = Some x /\ even_rounding (n / 12) r /\ (j = length xa - n / 12 + r)%nat /\
    In a (xa ++ xb) /\ In b (xa ++ xb) /\ forall y, In y (xa ++ xb) -> a <= y <= b.
Proof.
  intros [_ Hpf] Hh Hnd n Hn Ha Hb. unfold tc_guess. fold n. destruct (quarter_bounds n) as [Q1 Q2]. set (k := Z.to_nat (py_round (1/4 * INR n))) in *.
  assert (Hlen : n = (length xa + length xb)%nat) by apply app_length.
  assert (Htwo : forall l : list R, NoDup l -> (2 <= length l)%nat -> two_points l).
  { intros l Hl H2. destruct l as [|u [|v l]]; cbn in H2; try lia. exists u, v. split; [left; reflexivity|]. split; [right; left; reflexivity|]. inversion Hl as [|? ? Hu _]; subst. intros ->. apply Hu. left; reflexivity. }
  destruct (nodup_parts _ _ Hnd) as [Hna Hnb].
  rewrite !(firstn_prefix k) by (rewrite ?map_length; lia). rewrite <- map_firstn.
  rewrite Hpf.
  2:{ apply Htwo; [|rewrite firstn_length; lia]. rewrite <- (firstn_skipn k xa) in Hna. apply (nodup_parts _ _ Hna). }
  unfold from_end. rewrite (proj2 (Nat.eqb_neq k 0)) by lia. rewrite !app_length, !map_length. rewrite !(skipn_suffix (length xa + length xb - k)) by (rewrite ?map_length; lia).
  rewrite map_length, <- map_skipn. rewrite Hpf.
  2:{ apply Htwo; [|rewrite skipn_length; lia]. rewrite <- (firstn_skipn (length xa + length xb - k - length xa) xb) in Hnb. apply (nodup_parts _ _ Hnb). }
  rewrite combine_app by (rewrite map_length; reflexivity). rewrite map_app.
  rewrite (flattened (fun x => o + s * x) (- h)) by (intros x; ring). rewrite (flattened (fun x => o + h + s * x) 0) by (intros x; ring).
  clearbody k.
  assert (Hw : (1 <= n / 12)%nat) by (apply Nat.div_le_lower_bound; lia). assert (Hw2 : (12 * (n / 12) <= n)%nat) by (apply Nat.mul_div_le; lia).
  destruct (transition_index_step (- h) 0 (length xa) (length xb) (n / 12)) as [j [r [Hj [Hr Hk]]]]; [lra|lia|lia|lia|].
  rewrite Hj. assert (Hjn : (j < n)%nat).
  { destruct (proj1 (transition_index_max (repeat (- h) (length xa) ++ repeat 0 (length xb)) (n / 12))) as [j' [r' [E [_ [_ Hlt]]]]]; rewrite app_length, !repeat_length in *; [lia|].
    rewrite E in Hj. injection Hj as <-. lia. }
  destruct (nth_error (xa ++ xb) j) as [x|] eqn:Hx; [|apply nth_error_None in Hx; fold n in Hx; lia].
  assert (Hne : xa ++ xb <> []) by (intros K; apply (f_equal (@length R)) in K; cbn in K; fold n in K; lia).
  destruct (best_max (xa ++ xb) Hne) as [b [Eb [Ib Lb]]]. destruct (best_min (xa ++ xb) Hne) as [a [Ea [Ia La]]]. rewrite Eb, Ea.
  exists j, r, x, a, b. split; [f_equal; f_equal; f_equal; f_equal; ring|].
  split; [exact Hx|]. split; [exact Hr|]. split; [exact Hk|]. auto.
Qed.
