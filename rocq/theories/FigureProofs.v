(** Proofs about the figures of the history. *)
From Coq Require Import String Ascii List Bool Arith Lia Permutation Sorted.
From Verif Require Import PyExn PyBase ColumnsModel ColumnsSpec ColumnsProofs ColumnsProps PlotModel HistoryProofs MatlabProofs FigureModel FigureSpec.
Import ListNotations.
Local Open Scope string_scope.
Local Open Scope list_scope.

(** ** Lists *)
Lemma assoc_in {A} k (l : list (string * A)) a : assoc k l = Some a -> In (k, a) l.
Proof.
  induction l as [|[k' b] l IH]; cbn; [discriminate|]. destruct (String.eqb k k') eqn:E.
  - apply String.eqb_eq in E. subst k'. intros [= ->]. left. reflexivity.
  - intros H. right. auto.
Qed.
Lemma assoc_none {A} k (l : list (string * A)) : assoc k l = None <-> forall a, ~ In (k, a) l.
Proof.
  induction l as [|[k' b] l IH]; cbn; [intuition|]. destruct (String.eqb k k') eqn:E.
  - apply String.eqb_eq in E. subst k'. split; [discriminate|]. intros H. destruct (H b). left. reflexivity.
  - rewrite IH. apply String.eqb_neq in E. split; intros H a; [intros [Hx|Hx]|intros Hx].
    + congruence.
    + exact (H a Hx).
    + apply (H a). right. exact Hx.
Qed.
Lemma described_assoc n : described n <-> exists i, assoc n information = Some i.
Proof.
  split.
  - intros [i Hi]. destruct (assoc n information) as [j|] eqn:E; [eauto|]. exfalso. apply (proj1 (assoc_none n information) E i Hi).
  - intros [i Hi]. exists i. apply assoc_in, Hi.
Qed.
Lemma known_in l n : known l n = true <-> In n l.
Proof.
  unfold known. rewrite existsb_exists. split.
  - intros [x [Hx E]]. apply String.eqb_eq in E. subst x. exact Hx.
  - intros H. exists n. split; [exact H|apply String.eqb_refl].
Qed.
Lemma columns_ok frame names : columns frame names = Ok tt <-> incl names frame.
Proof.
  unfold columns. destruct (forallb (known frame) names) eqn:E.
  - split; [|reflexivity]. intros _ x Hx. rewrite forallb_forall in E. apply known_in, E, Hx.
  - split; [discriminate|]. intros H. assert (forallb (known frame) names = true); [|congruence].
    apply forallb_forall. intros x Hx. apply known_in, H, Hx.
Qed.
Lemma columns_cases frame names : (columns frame names = Ok tt /\ incl names frame) \/ (columns frame names = Raise KeyError /\ ~ incl names frame).
Proof.
  destruct (columns frame names) as [[]|e] eqn:E.
  - left. split; [reflexivity|apply columns_ok, E].
  - right. split; [|intros H; apply columns_ok in H; congruence].
    unfold columns in E. destruct (forallb (known frame) names); congruence.
Qed.
Lemma nth_last {A} (h : A -> A) l i : nth_error (rev (match rev l with [] => [] | f :: l' => h f :: l' end)) i =
  if Nat.eqb (S i) (length l) then option_map h (nth_error l i) else nth_error l i.
Proof.
  destruct (rev l) as [|x r] eqn:E.
  - assert (l = []) as -> by (rewrite <- (rev_involutive l), E; reflexivity). cbn. destruct i; reflexivity.
  - assert (l = rev r ++ [x]) as -> by (rewrite <- (rev_involutive l), E; reflexivity).
    cbn [rev]. rewrite app_length, rev_length. cbn [length].
    destruct (Nat.eqb_spec (S i) (length r + 1)) as [Hi|Hi].
    + rewrite !nth_error_app2 by (rewrite rev_length; lia). rewrite rev_length.
      replace (i - length r) with 0 by lia. reflexivity.
    + destruct (Nat.lt_ge_cases i (length r)) as [H|H].
      * rewrite !nth_error_app1 by (rewrite rev_length; lia). reflexivity.
      * rewrite !(proj2 (nth_error_None _ _)); [reflexivity| |]; rewrite app_length, rev_length; cbn; lia.
Qed.
Lemma on_last_nth h l i : nth_error (on_last h l) i = if Nat.eqb (S i) (length l) then option_map h (nth_error l i) else nth_error l i.
Proof. apply (nth_last h). Qed.
Lemma on_first_length h l : length (on_first h l) = length l.
Proof. destruct l; reflexivity. Qed.
Lemma on_last_length h l : length (on_last h l) = length l.
Proof. unfold on_last. rewrite rev_length, on_first_length, rev_length. reflexivity. Qed.
Lemma on_first_nth h l i : nth_error (on_first h l) i = if Nat.eqb i 0 then option_map h (nth_error l i) else nth_error l i.
Proof. destruct l, i; reflexivity. Qed.
Lemma nth_repeat {A} (a : A) n i : i < n -> nth_error (repeat a n) i = Some a.
Proof. revert i. induction n; intros [|i] H; cbn; try lia; [reflexivity|]. apply IHn. lia. Qed.

(** ** Parameters *)
Lemma label_parameters_spec names : forall fs, length fs = length names ->
  match label_parameters names fs with
  | (r, Ok _) => Forall described names /\ length r = length names /\
      forall i n f, nth_error names i = Some n -> nth_error fs i = Some f ->
      exists inf, In (n, inf) information /\ nth_error r i = Some (set_title (i_name inf) (set_ylabel (i_unit inf) f))
  | (r, Raise e) => e = KeyError /\ ~ Forall described names /\ length r = length names
  end.
Proof.
  induction names as [|n names IH]; intros fs H.
  - destruct fs; [|discriminate]. cbn. split; [constructor|]. split; [reflexivity|]. intros [|i]; discriminate.
  - destruct fs as [|f fs]; [discriminate|]. injection H as H. cbn [label_parameters].
    destruct (assoc n information) as [inf|] eqn:E.
    + specialize (IH fs H). destruct (label_parameters names fs) as [r [[]|e]].
      * destruct IH as [H1 [H2 H3]]. split; [constructor; [apply described_assoc; eauto|exact H1]|]. split; [cbn; congruence|].
        intros [|i] m g; cbn [nth_error].
        -- intros [= <-] [= <-]. exists inf. split; [apply assoc_in, E|reflexivity].
        -- apply H3.
      * destruct IH as [H1 [H2 H3]]. split; [exact H1|]. split; [|cbn; congruence]. intros HF. inversion HF. auto.
    + split; [reflexivity|]. split; [|cbn; congruence]. intros HF. inversion HF as [|? ? Hd]; subst. apply described_assoc in Hd.
      destruct Hd. congruence.
Qed.
Lemma draw_parameters_spec names std (errors : bool) :
  (forall n, In n names -> assoc n std = if errors then Some (n ++ "#var")%string else None) ->
  match draw_parameters names std (repeat empty_field (length names)) with
  | (r, Ok _) => names <> [] /\ Forall described names /\ shows_parameters errors names r
  | (r, Raise e) => ~ (names <> [] /\ Forall described names) /\ length r = length names /\ e = (match names with [] => TypeError | _ => KeyError end)
  end.
Proof.
  intros Hs. unfold draw_parameters. destruct names as [|n0 names0] eqn:En.
  - cbn. split; [tauto|]. split; reflexivity.
  - rewrite <- En in *. rewrite repeat_length, Nat.eqb_refl.
    set (drawn := map _ (combine names (repeat empty_field (length names)))).
    assert (Hl : length drawn = length names) by (unfold drawn; rewrite map_length, combine_length, repeat_length; lia).
    assert (Hn : forall i n, nth_error names i = Some n -> nth_error drawn i = Some (add_curves [with_error std (n, n)] empty_field)).
    { intros i n H. unfold drawn. assert (i < length names) by (apply nth_error_Some; congruence).
      erewrite map_nth_error with (d := (n, empty_field)); [reflexivity|]. clear - H. revert i H. induction names as [|m names IH]; intros [|i] H; cbn in *; try discriminate.
      - congruence.
      - apply IH, H. }
    pose proof (label_parameters_spec names drawn Hl) as HL. destruct (label_parameters names drawn) as [r [[]|e]].
    + destruct HL as [H1 [H2 H3]]. split; [congruence|]. split; [exact H1|]. split; [rewrite on_last_length; exact H2|].
      intros i n Hi. destruct (H3 i n _ Hi (Hn i n Hi)) as [inf [Hinf Hr]]. exists inf. split; [exact Hinf|].
      rewrite on_last_nth, Hr, H2. unfold with_error, add_curves, empty_field, below, set_title, set_ylabel, set_xlabel.
      destruct (Nat.eqb (S i) (length names)); cbn; rewrite (Hs n (nth_error_In _ _ Hi)); reflexivity.
    + destruct HL as [-> [H2 H3]]. split; [tauto|]. split; [exact H3|]. try rewrite En; reflexivity.
Qed.

(** ** Gradients *)
Lemma has_gradients p cols : tidy p cols -> (get_gradients p (map col_name cols) <> [] <-> has_gradient cols p).
Proof.
  intros [Hp [Hc [Hg Hv]]].
  assert (R : forall g n, In (g, n) (get_gradients p (map col_name cols)) <-> In (CGrad p g) cols /\ n = col_name (CGrad p g)).
  { intros g n. apply get_gradients_right; auto.
    - intros q g' H. apply (Hg q g' H).
    - intros q g' H. apply (Hg q g' H).
    - intros q g1 g2 H. apply (Hv q g1 g2 H). }
  split.
  - destruct (get_gradients p (map col_name cols)) as [|[g n] l]; [congruence|]. intros _.
    destruct (proj1 (R g n) (or_introl eq_refl)) as [H _]. exists g. exact H.
  - intros [g H] E. pose proof (proj2 (R g _) (conj H eq_refl)) as H'. rewrite E in H'. exact H'.
Qed.
Lemma curves_right p cols (errors : bool) : tidy p cols ->
  gradient_curves errors cols p
    (map (with_error (if errors then get_gradient_variances p (map col_name cols) else [])) (get_gradients p (map col_name cols))).
Proof.
  intros [Hp [Hc [Hg Hv]]].
  assert (R : forall g n, In (g, n) (get_gradients p (map col_name cols)) <-> In (CGrad p g) cols /\ n = col_name (CGrad p g)).
  { intros g n. apply get_gradients_right; auto.
    - intros q g' H. apply (Hg q g' H).
    - intros q g' H. apply (Hg q g' H).
    - intros q g1 g2 H. apply (Hv q g1 g2 H). }
  assert (V : forall g n, In (g, n) (get_gradient_variances p (map col_name cols)) <-> In (CCov p g g) cols /\ n = col_name (CCov p g g)).
  { intros g n. rewrite (get_gradient_variances_exact p cols g n Hp Hc). split.
    - intros [_ [q [He [Hin ->]]]]. destruct (Hv _ _ _ Hin) as [_ [Hq _]]. rewrite (Hq He) in *. auto.
    - intros [Hin ->]. split; [apply (Hv _ _ _ Hin)|]. exists p. split; [exists ""; reflexivity|]. auto. }
  assert (S : forall g, (assoc g (if errors then get_gradient_variances p (map col_name cols) else []) = Some (col_name (CCov p g g)) /\
                         errors = true /\ In (CCov p g g) cols) \/
                        (assoc g (if errors then get_gradient_variances p (map col_name cols) else []) = None /\ ~ (errors = true /\ In (CCov p g g) cols))).
  { intros g. destruct errors; [|right; split; [reflexivity|intros [H _]; discriminate]].
    destruct (assoc g (get_gradient_variances p (map col_name cols))) as [n|] eqn:E.
    - left. apply assoc_in, V in E. destruct E as [H ->]. auto.
    - right. split; [reflexivity|]. intros [_ H]. rewrite assoc_none in E. apply (E (col_name (CCov p g g))), V. auto. }
  intros g c e. rewrite in_map_iff. split.
  - intros [[g' n] [E H]]. unfold with_error in E. cbn in E. injection E as <- <- <-. apply R in H. destruct H as [H ->].
    split; [exact H|]. split; [reflexivity|]. destruct (S g') as [HS|HS]; [left|right]; exact HS.
  - intros [H [-> He]]. exists (g, col_name (CGrad p g)). split; [|apply R; auto]. unfold with_error. cbn [fst snd].
    destruct (S g) as [[-> HS]|[-> HS]], He as [[-> He]|[-> He]]; try reflexivity; tauto.
Qed.

Lemma label_gradients_spec cols (errors : bool) names : Forall (fun n => tidy n cols) names -> forall fs, length fs = length names ->
  Forall (fun f => f_curves f = []) fs ->
  match label_gradients (map (fun n => (n, get_gradients n (map col_name cols))) names)
                        (fun n => if errors then Some (get_gradient_variances n (map col_name cols)) else None) fs with
  | (r, Ok _) => Forall described names /\ Forall (has_gradient cols) names /\ length r = length names /\
      forall i n f, nth_error names i = Some n -> nth_error fs i = Some f ->
      exists inf cs, In (n, inf) information /\ gradient_curves errors cols n cs /\
        nth_error r i = Some (mk_field cs (f_title f) (Some (i_grad inf)) (f_xlabel f))
  | (r, Raise e) => (e = KeyError \/ e = TypeError) /\ ~ (Forall described names /\ Forall (has_gradient cols) names) /\ length r = length names
  end.
Proof.
  intros HT. induction HT as [|n names Ht HT IH]; intros fs H Hf.
  - destruct fs; [|discriminate]. cbn. split; [constructor|]. split; [constructor|]. split; [reflexivity|]. intros [|i]; discriminate.
  - destruct fs as [|f fs]; [discriminate|]. injection H as H. inversion Hf as [|? ? Hf0 Hf1]; subst. cbn [map label_gradients].
    pose proof (has_gradients n cols Ht) as HG. pose proof (curves_right n cols errors Ht) as HC.
    destruct (get_gradients n (map col_name cols)) as [|c l] eqn:EG.
    + split; [auto|]. split; [|cbn; congruence]. intros [_ HF]. inversion HF; subst. tauto.
    + destruct (assoc n information) as [inf|] eqn:E.
      * specialize (IH fs H Hf1). destruct (label_gradients _ _ fs) as [r [[]|e]].
        -- destruct IH as [H1 [H2 [H3 H4]]]. split; [constructor; [apply described_assoc; eauto|exact H1]|].
           split; [constructor; [apply HG; discriminate|exact H2]|]. split; [cbn; congruence|].
           intros [|i] m g; cbn [nth_error].
           ++ intros [= <-] [= <-]. eexists inf, _. split; [apply assoc_in, E|]. split; [exact HC|].
              unfold set_ylabel, add_curves; cbn [f_curves f_title f_xlabel f_ylabel]. rewrite Hf0. destruct errors; reflexivity.
           ++ apply H4.
        -- destruct IH as [H1 [H2 H3]]. split; [exact H1|]. split; [|cbn; congruence].
           intros [HF HF']. inversion HF; inversion HF'; subst. tauto.
      * split; [auto|]. split; [|cbn; congruence]. intros [HF _]. inversion HF as [|? ? Hd]; subst. apply described_assoc in Hd.
        destruct Hd. congruence.
Qed.
Lemma draw_gradients_spec cols (errors : bool) names a : Forall (fun n => tidy n cols) names ->
  match draw_gradients (map (fun n => (n, get_gradients n (map col_name cols))) names)
                       (fun n => if errors then Some (get_gradient_variances n (map col_name cols)) else None) a (repeat empty_field (length names)) with
  | (r, Ok _) => a <> OneAxes /\ names <> [] /\ Forall described names /\ Forall (has_gradient cols) names /\ shows_gradients errors cols names r
  | (r, Raise e) => length r = length names /\ (a = OneAxes \/ names = [] \/ ~ (Forall described names /\ Forall (has_gradient cols) names)) /\
                    (a = OneAxes -> e = TypeError)
  end.
Proof.
  intros HT. unfold draw_gradients.
  assert (HE : Forall (fun f => f_curves f = []) (repeat empty_field (length names))).
  { apply Forall_forall. intros f Hf. apply repeat_spec in Hf. subst f. reflexivity. }
  pose proof (label_gradients_spec cols errors names HT _ (repeat_length _ _) HE) as HL.
  assert (Main : a <> OneAxes ->
    match match label_gradients (map (fun n => (n, get_gradients n (map col_name cols))) names)
                        (fun n => if errors then Some (get_gradient_variances n (map col_name cols)) else None) (repeat empty_field (length names)) with
          | (r, Raise e) => (r, Raise e)
          | ([], Ok _) => ([], Raise IndexError)
          | (r, Ok _) => (on_last (set_xlabel "Measurement Number") (on_first (set_title "Response Matrix") r), Ok tt)
          end with
  | (r, Ok _) => a <> OneAxes /\ names <> [] /\ Forall described names /\ Forall (has_gradient cols) names /\ shows_gradients errors cols names r
  | (r, Raise e) => length r = length names /\ (a = OneAxes \/ names = [] \/ ~ (Forall described names /\ Forall (has_gradient cols) names)) /\
                    (a = OneAxes -> e = TypeError)
  end).
  { intros Ha. destruct (label_gradients _ _ _) as [r [[]|e]].
    - destruct HL as [H1 [H2 [H3 H4]]]. destruct r as [|x r].
      + destruct names; [|discriminate]. split; [reflexivity|]. split; [auto|]. intros; contradiction.
      + set (rr := x :: r) in *. assert (Hne : names <> []) by (intros ->; discriminate).
        split; [exact Ha|]. split; [exact Hne|]. split; [exact H1|]. split; [exact H2|].
        split; [rewrite on_last_length, on_first_length; exact H3|]. intros i n Hi.
        assert (Hlt : i < length names) by (apply nth_error_Some; congruence).
        destruct (H4 i n empty_field Hi (nth_repeat _ _ _ Hlt)) as [inf [cs [Hinf [Hcs Hr]]]]. exists inf, cs.
        split; [exact Hinf|]. split; [exact Hcs|].
        rewrite on_last_nth, on_first_nth, on_first_length, Hr, H3. unfold below.
        destruct (Nat.eqb i 0), (Nat.eqb (S i) (length names)); reflexivity.
    - destruct HL as [H1 [H2 H3]]. destruct r; (split; [exact H3|]; split; [auto|]; intros; contradiction). }
  destruct a; [|apply Main; discriminate|apply Main; discriminate].
  split; [apply repeat_length|]. split; auto.
Qed.

(** ** Modes *)
Lemma prefix_comma p a b : ~ In ","%char (chars_of p) -> String.prefix p (a ++ String ","%char b) = String.prefix p a.
Proof.
  revert a. induction p as [|x p IH]; intros a Hp; [destruct a; reflexivity|].
  destruct a as [|y a]; cbn [String.append String.prefix].
  - destruct (Ascii.ascii_dec x ","%char) as [->|]; [|reflexivity]. destruct Hp. left. reflexivity.
  - destruct (Ascii.ascii_dec x y); [|reflexivity]. apply IH. intros H. apply Hp. right. exact H.
Qed.
Lemma contains_comma p a b : ~ In ","%char (chars_of p) -> p <> "" ->
  contains p (a ++ String ","%char b) = contains p a || contains p b.
Proof.
  intros Hp Hn. induction a as [|y a IH].
  - cbn [String.append contains]. destruct p as [|x p]; [congruence|]. cbn [String.prefix].
    destruct (Ascii.ascii_dec x ","%char) as [->|]; [destruct Hp; left; reflexivity|]. reflexivity.
  - change (String y a ++ String "," b)%string with (String y (a ++ String ","%char b)).
    cbn [contains]. rewrite IH. change (String y (a ++ String ","%char b)) with (String y a ++ String ","%char b)%string.
    rewrite prefix_comma by exact Hp. rewrite !orb_assoc. reflexivity.
Qed.
Lemma contains_blank p b : String.prefix p (String " "%char b) = false -> contains p (String " "%char b) = contains p b.
Proof. intros H. cbn [contains]. rewrite H. reflexivity. Qed.
Lemma option_alone o o' : In o mode_options -> In o' mode_options -> contains o o' = String.eqb o o'.
Proof.
  cbn. intros H H'. repeat (destruct H as [<-|H]; [repeat (destruct H' as [<-|H']; [reflexivity|]); destruct H'|]). destruct H.
Qed.
Lemma option_chars o : In o mode_options -> ~ In ","%char (chars_of o) /\ o <> "" /\ forall b, String.prefix o (String " "%char b) = false.
Proof.
  cbn. intros H. repeat (destruct H as [<-|H]; [split; [cbn; intuition discriminate|]; split; [discriminate|reflexivity]|]). destruct H.
Qed.
Lemma contains_mode o opts : In o mode_options -> Forall (fun x => In x mode_options) opts ->
  contains o (String.concat ", " opts) = existsb (String.eqb o) opts.
Proof.
  intros Ho HF. destruct (option_chars o Ho) as [Hc [Hn Hb]].
  induction HF as [|x opts Hx HF IH]; [|destruct opts as [|y opts]].
  - cbn. destruct o; [congruence|reflexivity].
  - cbn. rewrite orb_false_r. apply option_alone; assumption.
  - change (String.concat ", " (x :: y :: opts)) with (x ++ (", " ++ String.concat ", " (y :: opts)))%string.
    change (", " ++ String.concat ", " (y :: opts))%string with (String ","%char (String " "%char (String.concat ", " (y :: opts)))).
    rewrite contains_comma by assumption. rewrite contains_blank by apply Hb. rewrite IH, option_alone by assumption. reflexivity.
Qed.
Lemma existsb_in o opts : existsb (String.eqb o) opts = true <-> In o opts.
Proof. apply (known_in opts o). Qed.
Lemma sorted_in_order l : in_order (sort_labels l) l.
Proof.
  split; [apply sort_labels_perm|]. pose proof (sort_sorted l) as H. induction H as [|x l' Hx H IH]; constructor; [exact IH|].
  apply Forall_forall, Hx.
Qed.

(** ** The window *)
Lemma clear_fields_spec fs rows : rows <> 0 ->
  exists a, clear_fields fs rows = (repeat empty_field rows, Ok a) /\ (a = OneAxes <-> rows = 1 /\ length fs <> 1).
Proof.
  intros H. unfold clear_fields, get_clear_axes. destruct (Nat.eqb_spec (length fs) rows) as [E|E].
  - eexists. rewrite E. split; [reflexivity|]. split; [discriminate|lia].
  - unfold subplots. rewrite Nat.mul_1_r. destruct (Nat.eqb_spec rows 0) as [|_]; [contradiction|].
    destruct (Nat.eqb_spec rows 1) as [->|E1].
    + exists OneAxes. split; [reflexivity|]. tauto.
    + eexists. split; [reflexivity|]. split; [discriminate|tauto].
Qed.
Lemma refill_parameters names frame fs :
  match refill ParameterWindow names frame fs with
  | (r, Ok _) => (names <> [] /\ incl names frame /\ incl (map (fun n => n ++ "#var")%string names) frame /\ Forall described names) /\
                 shows_parameters true names r
  | (r, Raise _) => ~ (names <> [] /\ incl names frame /\ incl (map (fun n => n ++ "#var")%string names) frame /\ Forall described names)
  end.
Proof.
  cbn [refill]. destruct (columns_cases frame names) as [[-> H1]|[-> H1]]; [|tauto].
  change (map var_name names) with (map (fun n => n ++ "#var")%string names).
  destruct (columns_cases frame (map (fun n => n ++ "#var")%string names)) as [[-> H2]|[-> H2]]; [|tauto].
  destruct names as [|n0 l0] eqn:En.
  - destruct fs; cbn; tauto.
  - rewrite <- En in *. destruct (clear_fields_spec fs (length names)) as [a [-> _]]; [subst; discriminate|].
    pose proof (draw_parameters_spec names (map (fun n => (n, var_name n)) names) true) as HD.
    destruct (draw_parameters names _ _) as [r [[]|e]].
    + destruct HD as [H3 [H4 H5]]; [|tauto].
      intros n Hn. clear - Hn. induction names as [|m names IH]; [destruct Hn|]. cbn. destruct (String.eqb_spec n m) as [->|E]; [reflexivity|].
      apply IH. destruct Hn; [congruence|assumption].
    + destruct HD as [H3 _]; [|tauto].
      intros n Hn. clear - Hn. induction names as [|m names IH]; [destruct Hn|]. cbn. destruct (String.eqb_spec n m) as [->|E]; [reflexivity|].
      apply IH. destruct Hn; [congruence|assumption].
Qed.
Lemma refill_gradients names cols fs : Forall (fun n => tidy n cols) names ->
  match refill GradientWindow names (map col_name cols) fs with
  | (r, Ok _) => (names <> [] /\ Forall described names /\ Forall (has_gradient cols) names /\ ~ (length names = 1 /\ length fs <> 1)) /\
                 shows_gradients true cols names r
  | (r, Raise e) => ~ (names <> [] /\ Forall described names /\ Forall (has_gradient cols) names /\ ~ (length names = 1 /\ length fs <> 1)) /\
                 length r = length names /\ (length names = 1 -> length fs <> 1 -> e = TypeError)
  end.
Proof.
  intros HT. cbn [refill]. destruct names as [|n0 l0] eqn:En.
  - destruct fs; cbn; (split; [tauto|]; split; [reflexivity|discriminate]).
  - rewrite <- En in *. destruct (clear_fields_spec fs (length names)) as [a [-> Ha]]; [subst; discriminate|].
    pose proof (draw_gradients_spec cols true names a HT) as HD. cbv beta iota in HD.
    destruct (draw_gradients _ _ _ _) as [r [[]|e]].
    + destruct HD as [H1 [H2 [H3 [H4 H5]]]]. split; [|exact H5]. split; [congruence|]. split; [exact H3|]. split; [exact H4|].
      intros H. apply H1, Ha, H.
    + destruct HD as [H1 [H2 H3]]. split; [|split; [exact H1|intros; apply H3, Ha; auto]].
      intros [H4 [H5 [H6 H7]]]. destruct H2 as [H2|[H2|H2]]; [apply H7, Ha, H2|congruence|tauto].
Qed.
Lemma parameter_figure_spec src names (errors : bool) :
  match parameter_figure src names errors with
  | (l, Ok f) => l = [f] /\ (names <> [] /\ incl names (s_frame src) /\ Forall described names /\
                   (errors = true -> incl (map (fun n => n ++ "#var")%string names) (s_frame src))) /\ shows_parameters errors names f
  | (l, Raise _) => ~ (names <> [] /\ incl names (s_frame src) /\ Forall described names /\
                   (errors = true -> incl (map (fun n => n ++ "#var")%string names) (s_frame src)))
  end.
Proof.
  unfold parameter_figure. change (map var_name names) with (map (fun n => n ++ "#var")%string names).
  assert (HE : ((if errors then columns (s_frame src) (map (fun n => n ++ "#var")%string names) else Ok tt) = Ok tt /\
                (errors = true -> incl (map (fun n => n ++ "#var")%string names) (s_frame src))) \/
               ((if errors then columns (s_frame src) (map (fun n => n ++ "#var")%string names) else Ok tt) = Raise KeyError /\
                ~ (errors = true -> incl (map (fun n => n ++ "#var")%string names) (s_frame src)))).
  { destruct errors; [|left; split; [reflexivity|discriminate]].
    destruct (columns_cases (s_frame src) (map (fun n => n ++ "#var")%string names)) as [[-> H]|[-> H]]; [left|right]; tauto. }
  destruct HE as [[-> H1]|[-> H1]]; [|tauto].
  destruct (columns_cases (s_frame src) names) as [[-> H2]|[-> H2]]; [|tauto].
  destruct names as [|n0 l0] eqn:En; [cbn; tauto|]. rewrite <- En in *.
  assert (exists a, subplots (length names) 1 = Ok a) as [a ->].
  { unfold subplots. rewrite Nat.mul_1_r, En. cbn. destruct (length l0); cbn; eauto. }
  pose proof (draw_parameters_spec names (if errors then map (fun n => (n, var_name n)) names else []) errors) as HD.
  assert (HA : forall n, In n names -> assoc n (if errors then map (fun n => (n, var_name n)) names else []) = (if errors then Some (n ++ "#var")%string else None)).
  { intros n Hn. destruct errors; [|reflexivity]. clear - Hn.
    induction names as [|m names IH]; [destruct Hn|]. cbn. destruct (String.eqb_spec n m) as [->|E]; [reflexivity|].
    apply IH. destruct Hn; [congruence|assumption]. }
  specialize (HD HA). destruct (draw_parameters names _ _) as [r [[]|e]]; [|tauto].
  split; [reflexivity|]. tauto.
Qed.
Lemma gradient_figure_spec src cols names (errors : bool) : s_frame src = map col_name cols -> Forall (fun n => tidy n cols) names ->
  match gradient_figure src names errors with
  | (l, Ok f) => l = [f] /\ (2 <= length names /\ Forall described names /\ Forall (has_gradient cols) names) /\ shows_gradients errors cols names f
  | (l, Raise _) => ~ (2 <= length names /\ Forall described names /\ Forall (has_gradient cols) names)
  end.
Proof.
  intros Hs HT. unfold gradient_figure. rewrite Hs. destruct names as [|n0 [|n1 l0]] eqn:En; [cbn; lia|cbn; lia|]. rewrite <- En in *.
  assert (exists a, subplots (length names) 1 = Ok a /\ a <> OneAxes) as [a [-> Ha]].
  { unfold subplots. rewrite Nat.mul_1_r, En. cbn. eexists. split; [reflexivity|discriminate]. }
  assert (Hl : 2 <= length names) by (rewrite En; cbn; lia).
  pose proof (draw_gradients_spec cols errors names a HT) as HD.
  destruct (draw_gradients _ _ _ _) as [r [[]|e]].
  - destruct HD as [H1 [H2 [H3 [H4 H5]]]]. tauto.
  - destruct HD as [_ [[H|[H|H]] _]]; [contradiction|rewrite En in H; discriminate|tauto].
Qed.

(** ** After a failure *)
Lemma first_bad_0 (P : string -> Prop) n names : ~ P n -> forall j, first_bad P (n :: names) j -> j = 0.
Proof. intros H [|j] [_ Hj]; [reflexivity|]. destruct H. apply (Hj 0 n); [lia|reflexivity]. Qed.
Lemma first_bad_S (P : string -> Prop) n names : P n -> forall j, first_bad P (n :: names) j -> exists j', j = S j' /\ first_bad P names j'.
Proof.
  intros H [|j] [[m [Hm Hn]] Hj]; [cbn in Hm; congruence|]. exists j. split; [reflexivity|]. split; [exists m; auto|].
  intros i k Hi Hk. apply (Hj (S i) k); [lia|exact Hk].
Qed.
Lemma described_dec n : described n \/ ~ described n.
Proof.
  destruct (assoc n information) as [i|] eqn:E.
  - left. apply described_assoc. eauto.
  - right. intros H. apply described_assoc in H. destruct H. congruence.
Qed.
Lemma label_parameters_left names : forall fs j, length fs = length names -> first_bad described names j ->
  exists r, label_parameters names fs = (r, Raise KeyError) /\ length r = length names /\
    forall i n f, nth_error names i = Some n -> nth_error fs i = Some f ->
    (i < j -> exists inf, In (n, inf) information /\ nth_error r i = Some (set_title (i_name inf) (set_ylabel (i_unit inf) f))) /\
    (j <= i -> nth_error r i = Some f).
Proof.
  induction names as [|n names IH]; intros fs j H HB.
  - destruct HB as [[m [Hm _]] _]. destruct j; discriminate.
  - destruct fs as [|f fs]; [discriminate|]. injection H as H. cbn [label_parameters].
    destruct (assoc n information) as [inf|] eqn:E.
    + destruct (first_bad_S described n names ltac:(apply described_assoc; eauto) j HB) as [j' [-> HB']].
      destruct (IH fs j' H HB') as [r [-> [Hl Hr]]]. eexists. split; [reflexivity|]. split; [cbn; congruence|].
      intros [|i] m g; cbn [nth_error].
      * intros [= <-] [= <-]. split; [|lia]. intros _. exists inf. split; [apply assoc_in, E|reflexivity].
      * intros Hm Hg. destruct (Hr i m g Hm Hg) as [H1 H2]. split; intros Hi; [apply H1|apply H2]; lia.
    + assert (Hn : ~ described n) by (intros Hd; apply described_assoc in Hd; destruct Hd; congruence).
      rewrite (first_bad_0 described n names Hn j HB). eexists. split; [reflexivity|]. split; [cbn; congruence|].
      intros i m g _ Hg. split; [lia|]. intros _. exact Hg.
Qed.
Lemma draw_parameters_left names std (errors : bool) j :
  (forall n, In n names -> assoc n std = if errors then Some (n ++ "#var")%string else None) -> first_bad described names j ->
  exists r, draw_parameters names std (repeat empty_field (length names)) = (r, Raise KeyError) /\ left_parameters errors names j r.
Proof.
  intros Hs HB. unfold draw_parameters. destruct names as [|n0 names0] eqn:En.
  - destruct HB as [[m [Hm _]] _]. destruct j; discriminate.
  - rewrite <- En in *. rewrite repeat_length, Nat.eqb_refl.
    set (drawn := map _ (combine names (repeat empty_field (length names)))).
    assert (Hl : length drawn = length names) by (unfold drawn; rewrite map_length, combine_length, repeat_length; lia).
    assert (Hn : forall i n, nth_error names i = Some n -> nth_error drawn i = Some (add_curves [with_error std (n, n)] empty_field)).
    { intros i n H. unfold drawn. assert (i < length names) by (apply nth_error_Some; congruence).
      erewrite map_nth_error with (d := (n, empty_field)); [reflexivity|]. clear - H. revert i H. induction names as [|m names IH]; intros [|i] H; cbn in *; try discriminate.
      - congruence.
      - apply IH, H. }
    destruct (label_parameters_left names drawn j Hl HB) as [r [-> [Hr1 Hr2]]]. exists r. split; [reflexivity|].
    split; [exact Hr1|]. intros i n Hi. destruct (Hr2 i n _ Hi (Hn i n Hi)) as [H1 H2]. cbv zeta.
    unfold with_error, add_curves, empty_field, set_title, set_ylabel in H1, H2. cbn in H1, H2. rewrite (Hs n (nth_error_In _ _ Hi)) in H1, H2.
    split; assumption.
Qed.
Lemma label_gradients_left cols (errors : bool) names : Forall (fun n => tidy n cols) names -> forall fs j, length fs = length names ->
  Forall (fun f => f = empty_field) fs -> first_bad (fun n => described n /\ has_gradient cols n) names j ->
  exists r e, label_gradients (map (fun n => (n, get_gradients n (map col_name cols))) names)
                        (fun n => if errors then Some (get_gradient_variances n (map col_name cols)) else None) fs = (r, Raise e) /\
    left_gradients errors cols names j r.
Proof.
  intros HT. induction HT as [|n names Ht HT IH]; intros fs j H Hf HB.
  - destruct HB as [[m [Hm _]] _]. destruct j; discriminate.
  - destruct fs as [|f fs]; [discriminate|]. injection H as H. inversion Hf as [|? ? Hf0 Hf1]; subst. cbn [map label_gradients].
    assert (Hrest : forall i m, nth_error names i = Some m -> nth_error fs i = Some empty_field).
    { intros i m Hi. assert (i < length fs) by (rewrite H; apply nth_error_Some; congruence).
      destruct (nth_error fs i) as [f|] eqn:E; [|apply nth_error_None in E; lia].
      rewrite Forall_forall in Hf1. rewrite (Hf1 f (nth_error_In _ _ E)). reflexivity. }
    pose proof (has_gradients n cols Ht) as HG. pose proof (curves_right n cols errors Ht) as HC.
    destruct (get_gradients n (map col_name cols)) as [|c l] eqn:EG.
    + assert (Hn : ~ has_gradient cols n) by (rewrite <- HG; tauto).
      rewrite (first_bad_0 _ n names (fun Hx => Hn (proj2 Hx)) j HB). eexists _, _. split; [reflexivity|]. split; [cbn; congruence|].
      intros [|i] m; cbn [nth_error].
      * intros [= <-]. split; [lia|]. split; [|lia]. intros _. split; [tauto|]. intros _. reflexivity.
      * intros Hm. split; [lia|]. split; [lia|]. intros _. apply (Hrest i m Hm).
    + assert (Hg : has_gradient cols n) by (apply HG; discriminate).
      destruct (assoc n information) as [inf|] eqn:E.
      * assert (Hd : described n) by (apply described_assoc; eauto).
        destruct (first_bad_S _ n names (conj Hd Hg) j HB) as [j' [-> HB']].
        destruct (IH fs j' H Hf1 HB') as [r [e [-> [Hl Hr]]]]. eexists _, e. split; [reflexivity|]. split; [cbn; congruence|].
        intros [|i] m; cbn [nth_error].
        -- intros [= <-]. split; [|split; lia]. intros _. eexists inf, _. split; [apply assoc_in, E|]. split; [exact HC|].
           destruct errors; reflexivity.
        -- intros Hm. destruct (Hr i m Hm) as [H1 [H2 H3]]. split; [intros; apply H1; lia|]. split; [intros; apply H2; lia|intros; apply H3; lia].
      * assert (Hn : ~ described n) by (intros Hd; apply described_assoc in Hd; destruct Hd; congruence).
        rewrite (first_bad_0 _ n names (fun Hx => Hn (proj1 Hx)) j HB). eexists _, _. split; [reflexivity|]. split; [cbn; congruence|].
        intros [|i] m; cbn [nth_error].
        -- intros [= <-]. split; [lia|]. split; [|lia]. intros _. split; [|tauto]. intros _. eexists. split; [exact HC|]. destruct errors; reflexivity.
        -- intros Hm. split; [lia|]. split; [lia|]. intros _. apply (Hrest i m Hm).
Qed.
Lemma draw_gradients_left cols (errors : bool) names a j : Forall (fun n => tidy n cols) names -> a <> OneAxes ->
  first_bad (fun n => described n /\ has_gradient cols n) names j ->
  exists r e, draw_gradients (map (fun n => (n, get_gradients n (map col_name cols))) names)
                       (fun n => if errors then Some (get_gradient_variances n (map col_name cols)) else None) a (repeat empty_field (length names)) = (r, Raise e) /\
    left_gradients errors cols names j r.
Proof.
  intros HT Ha HB.
  assert (HE : Forall (fun f => f = empty_field) (repeat empty_field (length names))).
  { apply Forall_forall. intros f Hf. apply repeat_spec in Hf. exact Hf. }
  destruct (label_gradients_left cols errors names HT _ j (repeat_length _ _) HE HB) as [r [e [E HL]]].
  exists r, e. split; [|exact HL]. unfold draw_gradients. rewrite E. destruct a; [congruence|destruct r; reflexivity|destruct r; reflexivity].
Qed.
Lemma variance_columns names n : In n names -> assoc n (map (fun n => (n, var_name n)) names) = Some (n ++ "#var")%string.
Proof.
  intros Hn. induction names as [|m names IH]; [destruct Hn|]. cbn. destruct (String.eqb_spec n m) as [->|E]; [reflexivity|].
  apply IH. destruct Hn; [congruence|assumption].
Qed.
Lemma refill_parameters_left names frame fs j : incl names frame -> incl (map (fun n => n ++ "#var")%string names) frame -> first_bad described names j ->
  exists r, refill ParameterWindow names frame fs = (r, Raise KeyError) /\ left_parameters true names j r.
Proof.
  intros H1 H2 HB. cbn [refill]. change (map var_name names) with (map (fun n => n ++ "#var")%string names).
  apply columns_ok in H1, H2. rewrite H1, H2.
  destruct (clear_fields_spec fs (length names)) as [a [-> _]].
  { destruct names; [|discriminate]. destruct HB as [[m [Hm _]] _]. destruct j; discriminate. }
  apply draw_parameters_left; [|exact HB]. intros n Hn. apply variance_columns, Hn.
Qed.
Lemma refill_gradients_left names cols fs j : Forall (fun n => tidy n cols) names -> ~ (length names = 1 /\ length fs <> 1) ->
  first_bad (fun n => described n /\ has_gradient cols n) names j ->
  exists r e, refill GradientWindow names (map col_name cols) fs = (r, Raise e) /\ left_gradients true cols names j r.
Proof.
  intros HT H1 HB. cbn [refill]. destruct (clear_fields_spec fs (length names)) as [a [-> Ha]].
  { destruct names; [|discriminate]. destruct HB as [[m [Hm _]] _]. destruct j; discriminate. }
  apply (draw_gradients_left cols true names a j HT); [tauto|exact HB].
Qed.
Lemma parameter_figure_left src names (errors : bool) :
  let found := incl names (s_frame src) /\ (errors = true -> incl (map (fun n => n ++ "#var")%string names) (s_frame src)) in
  let r := parameter_figure src names errors in
  (~ found -> r = ([], Raise KeyError)) /\
  (found -> names = [] -> r = ([[]], Raise ValueError)) /\
  (found -> forall j, first_bad described names j -> exists f, r = ([f], Raise KeyError) /\ left_parameters errors names j f).
Proof.
  intros found r. subst found r. unfold parameter_figure. change (map var_name names) with (map (fun n => n ++ "#var")%string names).
  assert (HE : ((if errors then columns (s_frame src) (map (fun n => n ++ "#var")%string names) else Ok tt) = Ok tt /\
                (errors = true -> incl (map (fun n => n ++ "#var")%string names) (s_frame src))) \/
               ((if errors then columns (s_frame src) (map (fun n => n ++ "#var")%string names) else Ok tt) = Raise KeyError /\
                ~ (errors = true -> incl (map (fun n => n ++ "#var")%string names) (s_frame src)))).
  { destruct errors; [|left; split; [reflexivity|discriminate]].
    destruct (columns_cases (s_frame src) (map (fun n => n ++ "#var")%string names)) as [[-> H]|[-> H]]; [left|right]; tauto. }
  destruct HE as [[-> H1]|[-> H1]]; [|split; [reflexivity|tauto]].
  destruct (columns_cases (s_frame src) names) as [[-> H2]|[-> H2]]; [|split; [reflexivity|tauto]].
  split; [tauto|]. split; [intros _ ->; reflexivity|]. intros _ j HB.
  assert (exists a, subplots (length names) 1 = Ok a) as [a ->].
  { destruct names as [|n names]; [destruct HB as [[m [Hm _]] _]; destruct j; discriminate|].
    unfold subplots. rewrite Nat.mul_1_r. cbn. destruct (length names); cbn; eauto. }
  destruct (draw_parameters_left names (if errors then map (fun n => (n, var_name n)) names else []) errors j) as [f [-> Hf]]; [|exact HB|].
  - intros n Hn. destruct errors; [apply variance_columns, Hn|reflexivity].
  - exists f. split; [reflexivity|exact Hf].
Qed.
Lemma gradient_figure_left src cols names (errors : bool) : s_frame src = map col_name cols -> Forall (fun n => tidy n cols) names ->
  let r := gradient_figure src names errors in
  (names = [] -> r = ([[]], Raise ValueError)) /\
  (length names = 1 -> r = ([[empty_field]], Raise TypeError)) /\
  (2 <= length names -> forall j, first_bad (fun n => described n /\ has_gradient cols n) names j ->
     exists f e, r = ([f], Raise e) /\ left_gradients errors cols names j f).
Proof.
  intros Hs HT r. subst r. unfold gradient_figure. rewrite Hs. split; [intros ->; reflexivity|]. split.
  - intros H. rewrite H. reflexivity.
  - intros H j HB. assert (exists k, subplots (length names) 1 = Ok (AxesArray k)) as [k ->].
    { unfold subplots. rewrite Nat.mul_1_r. destruct (length names) as [|[|n]]; try lia. cbn. eauto. }
    destruct (draw_gradients_left cols errors names (AxesArray k) j HT) as [f [e [-> Hf]]]; [discriminate|exact HB|].
    exists f, e. split; [reflexivity|exact Hf].
Qed.
