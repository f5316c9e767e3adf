(** Lemmas about the plots (PlotModel.v). *)
From Coq Require Import String List Bool Arith ZArith Lia.
From Verif Require Import PyExn PlotModel.
Import ListNotations.
Local Open Scope string_scope.
Local Open Scope list_scope.

Lemma known_in cols n : known cols n = true <-> In n cols.
Proof.
  unfold known. rewrite existsb_exists. split.
  - intros [m [H E]]. apply String.eqb_eq in E as ->. exact H.
  - intros H. exists n. split; [exact H|apply String.eqb_refl].
Qed.
Lemma unknown_in cols n : known cols n = false <-> ~ In n cols.
Proof. rewrite <- known_in. destruct (known cols n); intuition discriminate. Qed.

Lemma remove_unknown_filter cols n names : known cols n = false -> filter (known cols) (remove_first n names) = filter (known cols) names.
Proof.
  intros H. induction names as [|a l IH]; [reflexivity|]. cbn [remove_first]. destruct (String.eqb_spec n a) as [<-|E].
  - cbn [filter]. rewrite H. reflexivity.
  - cbn [filter]. rewrite IH. reflexivity.
Qed.
Lemma discard_filter cols f : forall i names, filter (known cols) (discard f i cols names) = filter (known cols) names.
Proof.
  induction f as [|f IH]; intros i names; [reflexivity|]. cbn [discard]. destruct (nth_error names i) as [n|]; [|reflexivity].
  rewrite IH. destruct (known cols n) eqn:K; [reflexivity|]. apply remove_unknown_filter, K.
Qed.
Lemma remove_first_prefix n l r : ~ In n l -> remove_first n (l ++ n :: r) = l ++ r.
Proof.
  induction l as [|a l IH]; intros H; cbn [app remove_first].
  - rewrite String.eqb_refl. reflexivity.
  - destruct (String.eqb_spec n a) as [<-|E]; [exfalso; apply H; left; reflexivity|]. rewrite IH; [reflexivity|]. intros K. apply H. right. exact K.
Qed.
Lemma remove_first_in n l r : In n l -> exists l1 l2, l = l1 ++ n :: l2 /\ remove_first n (l ++ r) = l1 ++ l2 ++ r.
Proof.
  induction l as [|a l IH]; intros H; [destruct H|]. cbn [app remove_first]. destruct (String.eqb_spec n a) as [<-|E].
  - exists [], l. split; reflexivity.
  - destruct H as [->|H]; [contradiction|]. destruct (IH H) as [l1 [l2 [-> E2]]]. exists (a :: l1), l2. split; [reflexivity|]. rewrite E2. reflexivity.
Qed.

(** Once an unknown name lies before the index, one stays. *)
Lemma discard_keeps cols f : forall l r, (exists a, In a l /\ known cols a = false) -> exists a, In a (discard f (length l) cols (l ++ r)) /\ known cols a = false.
Proof.
  induction f as [|f IH]; intros l r [a [Ha Ka]]; cbn [discard].
  - exists a. split; [apply in_or_app; left; exact Ha|exact Ka].
  - rewrite nth_error_app2, Nat.sub_diag by lia. destruct r as [|n r]; cbn [nth_error].
    + exists a. split; [apply in_or_app; left; exact Ha|exact Ka].
    + destruct (known cols n) eqn:K.
      * assert (E : (l ++ n :: r) = (l ++ [n]) ++ r) by (rewrite <- app_assoc; reflexivity). rewrite E.
        replace (S (length l)) with (length (l ++ [n])) by (rewrite app_length; cbn; lia). apply IH. exists a. split; [apply in_or_app; left; exact Ha|exact Ka].
      * destruct (in_dec string_dec n l) as [I|I].
        -- destruct (remove_first_in n l (n :: r) I) as [l1 [l2 [-> E]]]. rewrite E.
           destruct r as [|m r].
           ++ assert (N : nth_error (l1 ++ l2 ++ [n]) (S (length (l1 ++ n :: l2))) = None) by (apply nth_error_None; rewrite !app_length; cbn; lia).
              destruct f as [|f]; cbn [discard]; [|rewrite N]; exists n; (split; [apply in_or_app; right; apply in_or_app; right; left; reflexivity|exact K]).
           ++ replace (l1 ++ l2 ++ n :: m :: r) with ((l1 ++ l2 ++ [n; m]) ++ r) by (rewrite <- !app_assoc; reflexivity).
              replace (S (length (l1 ++ n :: l2))) with (length (l1 ++ l2 ++ [n; m])) by (rewrite !app_length; cbn; lia). apply IH. exists n. split; [|exact K].
              apply in_or_app; right; apply in_or_app; right; left; reflexivity.
        -- rewrite remove_first_prefix by exact I. destruct r as [|m r].
           ++ rewrite app_nil_r. assert (N : nth_error l (S (length l)) = None) by (apply nth_error_None; lia).
              destruct f as [|f]; cbn [discard]; [|rewrite N]; exists a; auto.
           ++ replace (l ++ m :: r) with ((l ++ [m]) ++ r) by (rewrite <- app_assoc; reflexivity).
              replace (S (length l)) with (length (l ++ [m])) by (rewrite app_length; cbn; lia). apply IH. exists a. split; [apply in_or_app; left; exact Ha|exact Ka].
Qed.

Definition two_unknown (cols names : list string) : Prop := exists l a b r, names = l ++ a :: b :: r /\ ~ In a cols /\ ~ In b cols.

Lemma two_unknown_cons cols a names : two_unknown cols names -> two_unknown cols (a :: names).
Proof. intros [l [x [y [r [-> H]]]]]. exists (a :: l), x, y, r. split; [reflexivity|exact H]. Qed.
Lemma discard_adjacent cols : forall f l r, (forall a, In a l -> known cols a = true) -> (length r <= f)%nat ->
  (two_unknown cols r -> exists a, In a (discard f (length l) cols (l ++ r)) /\ known cols a = false) /\
  (~ two_unknown cols r -> forall a, In a (discard f (length l) cols (l ++ r)) -> known cols a = true).
Proof.
  induction f as [f IH] using lt_wf_ind. intros l r Hl Hf. destruct r as [|n r].
  - split; [intros [l' [a [b [r' [E _]]]]]; destruct l'; discriminate|]. intros _ a. destruct f; cbn [discard]; [|rewrite app_nil_r, (proj2 (nth_error_None l (length l))) by lia]; rewrite ?app_nil_r; apply Hl.
  - destruct f as [|f]; [cbn in Hf; lia|]. cbn [discard]. rewrite nth_error_app2, Nat.sub_diag by lia. cbn [nth_error]. cbn [length] in Hf. destruct (known cols n) eqn:K.
    + assert (E : (l ++ n :: r) = (l ++ [n]) ++ r) by (rewrite <- app_assoc; reflexivity). rewrite E.
      replace (S (length l)) with (length (l ++ [n])) by (rewrite app_length; cbn; lia).
      destruct (IH f ltac:(lia) (l ++ [n]) r) as [H1 H2]; [|lia|].
      { intros a Ha. apply in_app_or in Ha as [Ha|[<-|[]]]; [apply Hl, Ha|exact K]. }
      split.
      * intros [l' [a [b [r' [E' [Ka Kb]]]]]]. apply H1. destruct l' as [|c l']; [injection E' as -> ->; apply unknown_in in Ka; congruence|]. injection E' as -> ->. exists l', a, b, r'. auto.
      * intros H. apply H2. intros K2. apply H, two_unknown_cons, K2.
    + assert (I : ~ In n l) by (intros I; specialize (Hl n I); congruence). rewrite remove_first_prefix by exact I. destruct r as [|m r].
      * rewrite app_nil_r. split; [intros [l' [a [b [r' [E' _]]]]]; destruct l' as [|c [|]]; discriminate|]. intros _ a.
        assert (N : nth_error l (S (length l)) = None) by (apply nth_error_None; lia). destruct f as [|f]; cbn [discard]; [|rewrite N]; apply Hl.
      * destruct (known cols m) eqn:Km.
        -- replace (l ++ m :: r) with ((l ++ [m]) ++ r) by (rewrite <- app_assoc; reflexivity).
           replace (S (length l)) with (length (l ++ [m])) by (rewrite app_length; cbn; lia).
           destruct (IH f ltac:(lia) (l ++ [m]) r) as [H1 H2]; [|cbn in Hf; lia|].
           { intros a Ha. apply in_app_or in Ha as [Ha|[<-|[]]]; [apply Hl, Ha|exact Km]. }
           split.
           ++ intros [l' [a [b [r' [E' [Ka Kb]]]]]]. apply H1. destruct l' as [|c l']; [injection E' as -> -> _; apply unknown_in in Kb; congruence|]. injection E' as -> E'.
              destruct l' as [|d l']; [injection E' as -> _; apply unknown_in in Ka; congruence|]. injection E' as -> ->. exists l', a, b, r'. auto.
           ++ intros H. apply H2. intros K2. apply H, two_unknown_cons, two_unknown_cons, K2.
        -- split.
           ++ intros _. replace (l ++ m :: r) with ((l ++ [m]) ++ r) by (rewrite <- app_assoc; reflexivity).
              replace (S (length l)) with (length (l ++ [m])) by (rewrite app_length; cbn; lia). apply discard_keeps. exists m. split; [apply in_or_app; right; left; reflexivity|exact Km].
           ++ intros H. exfalso. apply H. exists [], n, m, r. split; [reflexivity|]. split; apply unknown_in; assumption.
Qed.

(** ** Figures *)
Lemma relevant_ok cols row : forall names rel, relevant cols row names = Ok rel ->
  (forall n, In n names -> In n cols) /\
  Forall (fun r => cell_at row (fst (fst r)) = Stored (snd (fst r)) (snd r) /\ forall x i, snd r <> AverageOf x i) rel /\
  map (fun r => fst (fst r)) rel = filter (fun n => match cell_at row n with Missing => false | _ => true end) names.
Proof.
  induction names as [|n names IH]; intros rel H; cbn [relevant] in H.
  - injection H as <-. split; [intros n []|]. split; [constructor|reflexivity].
  - destruct (known cols n) eqn:K; [|discriminate]. apply known_in in K. cbn [filter]. destruct (cell_at row n) as [|k c] eqn:C.
    + destruct (IH rel H) as [H1 [H2 H3]]. split; [intros m [<-|Hm]; [exact K|apply H1, Hm]|]. split; assumption.
    + destruct (measurement_count (Stored k c)) as [k'|] eqn:M; [|discriminate]. destruct (relevant cols row names) as [l|]; [|discriminate]. injection H as <-.
      destruct (IH l eq_refl) as [H1 [H2 H3]]. split; [intros m [<-|Hm]; [exact K|apply H1, Hm]|]. split.
      * constructor; [|exact H2]. cbn [fst snd]. destruct c; cbn in M; try discriminate; injection M as <-; (split; [exact C|intros; discriminate]).
      * cbn [map fst]. rewrite H3. reflexivity.
Qed.
Lemma slices_spec : forall rel from, map (fun s => (fst (fst s), snd (fst s))) (slices from rel) = map (fun r => (fst (fst r), snd r)) rel /\
  concat (map snd (slices from rel)) = seq from (list_sum (map (fun r => snd (fst r)) rel)) /\
  map (fun s => length (snd s)) (slices from rel) = map (fun r => snd (fst r)) rel.
Proof.
  induction rel as [|[[n k] c] rel IH]; intros from; [split; [|split]; reflexivity|]. cbn [slices map]. destruct (IH (from + k)%nat) as [H1 [H2 H3]].
  cbn [fst snd concat]. rewrite H1, H2, H3. split; [reflexivity|]. split; [|rewrite seq_length; reflexivity]. cbn [list_sum fold_right]. rewrite seq_app. reflexivity.
Qed.
Lemma draw_all_ok : forall l d, draw_all l = Ok d -> d = map (fun s => (fst (fst s), snd s)) l /\
  Forall (fun s => exists p x, match_plot (fst (fst s)) = Some p /\ draw p (AxesArray (snd s)) (snd (fst s)) = Ok x) l.
Proof.
  induction l as [|[[n c] ax] l IH]; intros d H; cbn [draw_all] in H; [injection H as <-; split; [reflexivity|constructor]|].
  destruct (match_plot n) as [p|] eqn:P; [|discriminate]. destruct (draw p (AxesArray ax) c) as [x|] eqn:D; [|discriminate]. destruct (draw_all l) as [d'|]; [|discriminate].
  injection H as <-. destruct (IH d' eq_refl) as [-> H2]. split; [reflexivity|]. constructor; [|exact H2]. exists p, x. auto.
Qed.
Lemma half_up n : (n <= 2 * (n / 2 + n mod 2) <= n + 1)%nat.
Proof. pose proof (Nat.div_mod n 2 ltac:(lia)) as H. pose proof (Nat.mod_upper_bound n 2 ltac:(lia)) as U. lia. Qed.

(** What a drawn figure looks like. *)
Lemma plot_row_ok cols row names fields drawn : plot_row cols row names = Ok (fields, drawn) ->
  (forall n, In n names -> In n cols) /\
  map fst drawn = filter (fun n => match cell_at row n with Missing => false | _ => true end) names /\
  (exists total, (0 < total)%nat /\ concat (map snd drawn) = seq 0 total /\ (total <= fields <= total + 1)%nat) /\
  Forall (fun d => exists p c x, match_plot (fst d) = Some p /\ cell_at row (fst d) = Stored (length (snd d)) c /\ (forall y i, c <> AverageOf y i) /\ draw p (AxesArray (snd d)) c = Ok x) drawn.
Proof.
  unfold plot_row. destruct (relevant cols row names) as [rel|] eqn:E; [|discriminate]. set (total := list_sum (map (fun r => snd (fst r)) rel)).
  destruct (subplots 2 (total / 2 + total mod 2)) as [a|] eqn:S; [|discriminate]. destruct (draw_all (slices 0 rel)) as [d|] eqn:D; [|discriminate].
  intros H. injection H as <- <-. destruct (relevant_ok cols row names rel E) as [H1 [H2 H3]]. destruct (draw_all_ok _ _ D) as [-> H4]. destruct (slices_spec rel 0) as [S1 [S2 S3]].
  split; [exact H1|]. split; [|split].
  - rewrite map_map. rewrite <- H3. apply (f_equal (map fst)) in S1. rewrite !map_map in S1. exact S1.
  - exists total. split; [|split].
    + destruct (Nat.eq_0_gt_0_cases total) as [Z|Z]; [|exact Z]. rewrite Z in S. discriminate.
    + rewrite map_map. exact S2.
    + exact (half_up total).
  - clear -H2 H4 S1 S3. revert S1 S3 H4. generalize (slices 0 rel) as sl. induction H2 as [|[[n k] c] rel [C A] H2 IH]; intros [|[[n' c'] ax] sl] S1 S3 H4; try discriminate; cbn [map]; [constructor|].
    cbn [map fst snd] in *. injection S1 as -> -> S1. injection S3 as L S3. inversion H4 as [|s sl' [p [x [P X]]] H4']; subst. constructor; [|apply IH; assumption].
    cbn [fst snd] in *. exists p, c, x. split; [exact P|]. split; [exact C|]. split; [exact A|exact X].
Qed.
Lemma plot_rows_ok f names : forall is figs, plot_rows f names is = Ok figs -> length figs = length is /\
  forall k i, nth_error is k = Some i -> (0 <= i)%Z /\ exists row fig, nth_error (f_rows f) (Z.to_nat i) = Some row /\ nth_error figs k = Some fig /\ plot_row (f_columns f) row names = Ok fig.
Proof.
  induction is as [|i is IH]; intros figs H; cbn [plot_rows] in H; [injection H as <-; split; [reflexivity|]; intros [|k] i Hk; discriminate|].
  destruct (Z.ltb_spec i 0) as [N|N]; [discriminate|]. destruct (nth_error (f_rows f) (Z.to_nat i)) as [row|] eqn:R; [|discriminate].
  destruct (plot_row (f_columns f) row names) as [p|] eqn:P; [|discriminate]. destruct (plot_rows f names is) as [ps|]; [|discriminate]. injection H as <-.
  destruct (IH ps eq_refl) as [L H]. split; [cbn; congruence|]. intros [|k] j Hk; cbn [nth_error] in Hk; [injection Hk as <-; split; [exact N|]; exists row, p; auto|]. apply (H k j Hk).
Qed.
