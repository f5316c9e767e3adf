(** Lemmas about the filters. *)
From Coq Require Import Reals List Bool Arith Lia Lra.
From Verif Require Import PyExn PyBase UtilModel UtilSpec.
Import ListNotations.
Local Open Scope R_scope.

Lemma upd_length i v l : length (upd i v l) = length l.
Proof. revert i. induction l as [|a l IH]; intros [|i]; cbn; auto. Qed.
Lemma upd_same i v l d : (i < length l)%nat -> nth i (upd i v l) d = v.
Proof. revert i. induction l as [|a l IH]; intros [|i] H; cbn in *; try lia; auto. apply IH. lia. Qed.
Lemma upd_other i j v l d : i <> j -> nth j (upd i v l) d = nth j l d.
Proof.
  revert i j. induction l as [|a l IH]; intros [|i] [|j] H; cbn; auto; congruence.
Qed.

(** A loop that overwrites the entries 0 .. m-1 one after the other, reading
    only the present and later ones. *)
Lemma forward_loop (g : R -> R -> R) w data m : (m <= length data)%nat -> (m + w <= length data)%nat ->
  let out := fold_left (fun d i => upd i (g (nth i d 0) (nth (i + w) d 0)) d) (seq 0 m) data in
  length out = length data /\
  forall i, nth i out 0 = if i <? m then g (nth i data 0) (nth (i + w) data 0) else nth i data 0.
Proof.
  intros H1 H2. cbn zeta. induction m as [|m IH]; [split; [reflexivity|intros i; now destruct i]|].
  rewrite seq_S, fold_left_app. cbn [fold_left Nat.add]. destruct IH as [L N]; [lia..|].
  set (d := fold_left _ (seq 0 m) data) in *. rewrite upd_length. split; [assumption|]. intros i.
  destruct (Nat.eq_dec m i) as [<-|Hi].
  - rewrite upd_same by lia. rewrite !N. destruct (Nat.ltb_spec m m); [lia|]. destruct (Nat.ltb_spec (m + w) m); [lia|].
    destruct (Nat.ltb_spec m (S m)); [reflexivity|lia].
  - rewrite upd_other by assumption. rewrite N. destruct (Nat.ltb_spec i m), (Nat.ltb_spec i (S m)); try lia; reflexivity.
Qed.
Lemma diff_length w data : length (diff_in_place w data) = length data.
Proof.
  destruct (le_lt_dec (w + 1) (length data)).
  - apply (forward_loop Rminus w data); lia.
  - unfold diff_in_place. replace (length data - w - 1)%nat with O by lia. reflexivity.
Qed.
Lemma diff_nth w data i : nth i (diff_in_place w data) 0 =
  if i <? length data - w - 1 then nth i data 0 - nth (i + w) data 0 else nth i data 0.
Proof.
  destruct (le_lt_dec (w + 1) (length data)).
  - apply (forward_loop Rminus w data); lia.
  - unfold diff_in_place. replace (length data - w - 1)%nat with O by lia. reflexivity.
Qed.

Lemma arg_from_first l : forall p best, (best < length p)%nat ->
  first_max (fun i => nth i p 0) (length p) best ->
  first_max (fun i => nth i (p ++ l) 0) (length (p ++ l)) (arg_from (fun a b => Rltb b a) best (nth best p 0) (length p) l).
Proof.
  induction l as [|a l IH]; intros p best Hb H; cbn [arg_from].
  - rewrite app_nil_r. exact H.
  - replace (p ++ a :: l) with ((p ++ [a]) ++ l) by now rewrite <- app_assoc.
    replace (S (length p)) with (length (p ++ [a])) by (rewrite app_length; cbn; lia).
    destruct H as (H1 & H2 & H3).
    destruct (Rltb a (nth best p 0)) eqn:E0.
    + unfold Rltb in E0. destruct (Rlt_dec a (nth best p 0)) as [E|]; [|discriminate].
      replace (Rltb (nth best p 0) a) with false by (symmetry; unfold Rltb; destruct (Rlt_dec _ _); auto; lra).
      replace (nth best p 0) with (nth best (p ++ [a]) 0) by (apply app_nth1; lia).
      apply IH; [rewrite app_length; cbn; lia|]. split; [rewrite app_length; cbn; lia|]. split.
      * intros i Hi. rewrite (app_nth1 p [a] 0 (n := best)) by lia. rewrite app_length in Hi; cbn in Hi.
        destruct (Nat.eq_dec i (length p)) as [->|Hne]; [rewrite app_nth2, Nat.sub_diag by lia; cbn; lra|].
        rewrite app_nth1 by lia. apply H2. lia.
      * intros i Hi. rewrite !app_nth1 by lia. apply H3. lia.
    + unfold Rltb in E0. destruct (Rlt_dec a (nth best p 0)) as [|E]; [discriminate|].
      destruct (Rltb (nth best p 0) a) eqn:E1.
      * unfold Rltb in E1. destruct (Rlt_dec (nth best p 0) a) as [E2|]; [|discriminate].
        replace a with (nth (length p) (p ++ [a]) 0) at 2 by (rewrite app_nth2, Nat.sub_diag by lia; reflexivity).
        apply IH; [rewrite app_length; cbn; lia|]. split; [rewrite app_length; cbn; lia|].
        rewrite (app_nth2 p [a] 0 (n := length p)), Nat.sub_diag by lia. cbn [nth].
        split.
        -- intros i Hi. rewrite app_length in Hi; cbn in Hi.
           destruct (Nat.eq_dec i (length p)) as [->|Hne]; [rewrite app_nth2, Nat.sub_diag by lia; cbn; lra|].
           rewrite app_nth1 by lia. specialize (H2 i ltac:(lia)). lra.
        -- intros i Hi. rewrite app_nth1 by lia. specialize (H2 i ltac:(lia)). lra.
      * unfold Rltb in E1. destruct (Rlt_dec (nth best p 0) a) as [|E2]; [discriminate|].
        replace (nth best p 0) with (nth best (p ++ [a]) 0) by (apply app_nth1; lia).
        apply IH; [rewrite app_length; cbn; lia|]. split; [rewrite app_length; cbn; lia|]. split.
        -- intros i Hi. rewrite (app_nth1 p [a] 0 (n := best)) by lia. rewrite app_length in Hi; cbn in Hi.
           destruct (Nat.eq_dec i (length p)) as [->|Hne]; [rewrite app_nth2, Nat.sub_diag by lia; cbn; lra|].
           rewrite app_nth1 by lia. apply H2. lia.
        -- intros i Hi. rewrite !app_nth1 by lia. apply H3. lia.
Qed.
Lemma argmax_first l : l <> [] -> exists j, argmax l = Ok j /\ first_max (fun i => nth i l 0) (length l) j.
Proof.
  destruct l as [|a l]; [congruence|]. intros _. eexists; split; [reflexivity|].
  apply (arg_from_first l [a] 0%nat); cbn; [lia|]. split; [lia|]. split; [|lia].
  intros i Hi. replace i with O by lia. lra.
Qed.
Lemma arg_from_bound b l : forall i best v, (best < i)%nat -> (arg_from b best v i l < i + length l)%nat.
Proof.
  induction l as [|a l IH]; intros i best v H; cbn; [lia|].
  destruct (b a v).
  - specialize (IH (S i) i a). lia.
  - specialize (IH (S i) best v). lia.
Qed.
Lemma argmin_bound l j : argmin l = Ok j -> (j < length l)%nat.
Proof.
  destruct l as [|a l]; [discriminate|]. intros E. cbn in E. inversion E. apply (arg_from_bound _ l 1 0%nat a). lia.
Qed.
Lemma argmin_some l : l <> [] -> exists j, argmin l = Ok j.
Proof. destruct l; [congruence|]. intros _. eexists. reflexivity. Qed.
Lemma first_max_ext f g m j : (forall i, (i < m)%nat -> f i = g i) -> first_max f m j -> first_max g m j.
Proof.
  intros E (H1 & H2 & H3). split; [assumption|]. split.
  - intros i Hi. rewrite <- !E by lia. auto.
  - intros i Hi. rewrite <- !E by lia. auto.
Qed.

Lemma round_half_even w : even_rounding w (round_half w).
Proof.
  unfold even_rounding, round_half. destruct (Nat.even w) eqn:E.
  - apply Nat.even_spec in E. destruct E as [k ->]. rewrite Nat.div2_double. left. reflexivity.
  - assert (O : Nat.odd w = true) by (unfold Nat.odd; now rewrite E). apply Nat.odd_spec in O. destruct O as [k ->].
    replace (Nat.div2 (2 * k + 1)) with k.
    + right. destruct (Nat.even k) eqn:Ek.
      * right. split; [lia|now apply Nat.even_spec].
      * left. split; [lia|]. apply Nat.Even_succ. apply Nat.odd_spec. unfold Nat.odd. now rewrite Ek.
    + replace (2 * k + 1)%nat with (S (2 * k)) by lia. rewrite Nat.div2_succ_double. reflexivity.
Qed.
Lemma round_half_le w : (2 * round_half w <= w + 1)%nat.
Proof. destruct (round_half_even w) as [H|[[H _]|[H _]]]; lia. Qed.

(** Sums. *)
Lemma fold_plus l : forall a, fold_left Rplus l a = a + fold_left Rplus l 0.
Proof.
  induction l as [|x l IH]; intros a; cbn; [ring|]. rewrite IH, (IH (0 + x)). ring.
Qed.
Lemma sum_range_shift f a n : sum_range f (S a) n = sum_range (fun k => f (S k)) a n.
Proof. revert a. induction n as [|n IH]; intros a; cbn; [reflexivity|]. now rewrite IH. Qed.
Lemma total_slice n : forall a data, (a + n <= length data)%nat ->
  total (firstn n (skipn a data)) = sum_range (fun k => nth k data 0) a n.
Proof.
  unfold total. induction n as [|n IH]; intros a data H; [reflexivity|].
  destruct (skipn a data) as [|x l] eqn:E.
  - assert (length (skipn a data) = O) by now rewrite E. rewrite skipn_length in H0. lia.
  - cbn [firstn fold_left sum_range]. rewrite fold_plus.
    replace l with (skipn (S a) data).
    + rewrite IH by lia. rewrite Rplus_0_l. f_equal.
      rewrite <- (firstn_skipn a data) at 1. rewrite E. rewrite app_nth2; rewrite firstn_length, Nat.min_l by lia; [|lia].
      now rewrite Nat.sub_diag.
    + clear -E. revert data E. induction a as [|a IHa]; intros data E; [cbn in E; now subst|].
      destruct data as [|y data]; [discriminate|]. cbn in E. apply IHa in E. exact E.
Qed.
Lemma sum_range_const c n : forall a f, (forall k, (a <= k < a + n)%nat -> f k = c) -> sum_range f a n = INR n * c.
Proof.
  induction n as [|n IH]; intros a f H; cbn [sum_range]; [cbn; ring|].
  rewrite (H a) by lia. rewrite (IH (S a)) by (intros; apply H; lia). rewrite S_INR. ring.
Qed.
Lemma sum_range_bounds lo hi n : forall a f, (forall k, (a <= k < a + n)%nat -> lo <= f k <= hi) ->
  INR n * lo <= sum_range f a n <= INR n * hi.
Proof.
  induction n as [|n IH]; intros a f H; cbn [sum_range]; [cbn; lra|].
  assert (lo <= f a <= hi) by (apply H; lia). assert (INR n * lo <= sum_range f (S a) n <= INR n * hi) by (apply IH; intros; apply H; lia).
  rewrite S_INR. lra.
Qed.

(** The two loops of the moving average. *)
Lemma store_loop (v : nat -> R) m : forall a l, (a + m <= length l)%nat ->
  exists out, fold_left (fun acc i => store i (v i) acc) (seq a m) (Ok l) = Ok out /\ length out = length l /\
    forall i, nth i out 0 = if (a <=? i) && (i <? a + m) then v i else nth i l 0.
Proof.
  induction m as [|m IH]; intros a l H.
  - exists l. split; [reflexivity|]. split; [reflexivity|]. intros i.
    destruct (Nat.leb_spec a i), (Nat.ltb_spec i (a + 0)); cbn; auto; lia.
  - cbn [seq fold_left]. cbn [store]. destruct (Nat.ltb_spec a (length l)); [|lia].
    destruct (IH (S a) (upd a (v a) l)) as (out & E & L & N); [rewrite upd_length; lia|].
    exists out. split; [exact E|]. rewrite upd_length in L. split; [assumption|]. intros i. rewrite N.
    destruct (Nat.eq_dec i a) as [->|Hne].
    + destruct (Nat.leb_spec (S a) a), (Nat.leb_spec a a), (Nat.ltb_spec a (a + S m)); try lia. cbn.
      apply upd_same. lia.
    + rewrite upd_other by congruence.
      destruct (Nat.leb_spec (S a) i), (Nat.leb_spec a i), (Nat.ltb_spec i (S a + m)), (Nat.ltb_spec i (a + S m)); try lia; reflexivity.
Qed.
Lemma store_raise (v : nat -> R) e l : fold_left (fun acc i => store i (v i) acc) l (Raise e) = Raise e.
Proof. induction l; cbn; auto. Qed.
Lemma store_overflow (v : nat -> R) m : forall a l, (a <= length l < a + m)%nat ->
  fold_left (fun acc i => store i (v i) acc) (seq a m) (Ok l) = Raise IndexError.
Proof.
  induction m as [|m IH]; intros a l H; [lia|]. cbn [seq fold_left]. cbn [store]. destruct (Nat.ltb_spec a (length l)).
  - apply IH. rewrite upd_length. lia.
  - apply store_raise.
Qed.
Lemma moving_average_shape data width : (0 < width)%nat ->
  moving_average data width =
  fold_left (fun acc i => store i (if i <? width then total (slice 0 (i + 1) data) * (1 / INR (i + 1))
                                   else total (slice (i + 1 - width) (i + 1) data) * (1 / INR width)) acc)
    (seq 0 width ++ seq width (length data - width)) (Ok (repeat 0 (length data))).
Proof.
  intros Hw. unfold moving_average. rewrite fold_left_app.
  assert (E1 : forall l s, (forall i, In i l -> (i < width)%nat) ->
    fold_left (fun acc i => store i (total (slice 0 (i + 1) data) * (1 / INR (i + 1))) acc) l s =
    fold_left (fun acc i => store i (if i <? width then total (slice 0 (i + 1) data) * (1 / INR (i + 1))
                                   else total (slice (i + 1 - width) (i + 1) data) * (1 / INR width)) acc) l s).
  { induction l as [|i l IH]; intros s H; [reflexivity|]. cbn [fold_left]. destruct (Nat.ltb_spec i width).
    - apply IH. intros; apply H; now right.
    - specialize (H i (or_introl eq_refl)). lia. }
  rewrite E1 by (intros i Hi; apply in_seq in Hi; lia).
  generalize (fold_left (fun acc i => store i (if i <? width then total (slice 0 (i + 1) data) * (1 / INR (i + 1))
                                   else total (slice (i + 1 - width) (i + 1) data) * (1 / INR width)) acc)
    (seq 0 width) (Ok (repeat 0 (length data)))).
  assert (Hl : forall i, In i (seq width (length data - width)) -> (width <= i)%nat) by (intros i Hi; apply in_seq in Hi; lia).
  revert Hl. generalize (seq width (length data - width)). induction l as [|i l IH]; intros Hl s; [reflexivity|].
  cbn [fold_left]. destruct (Nat.ltb_spec i width); [specialize (Hl i (or_introl eq_refl)); lia|].
  destruct (Nat.eqb_spec width 0); [lia|]. destruct s; cbn [store].
  - apply IH. intros; apply Hl; now right.
  - apply IH. intros; apply Hl; now right.
Qed.
