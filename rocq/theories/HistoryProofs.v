(** Proofs about the history. *)
From Verif Require Import PyBase TargetModel TunerModel TunerSpec SeriesLemmas AutotunerModel HistoryModel HistorySpec.
From Coq Require Import Permutation Lia NArith.

(** ** Sorted labels *)
Lemma leb_trans a b c : String.leb a b = true -> String.leb b c = true -> String.leb a c = true.
Proof.
  unfold String.leb. revert b c. induction a as [|x a IH]; intros [|y b] [|z c]; cbn; try congruence; auto.
  unfold Ascii.compare. destruct (N.compare_spec (Ascii.N_of_ascii x) (Ascii.N_of_ascii y)) as [E1|E1|E1]; try congruence;
  destruct (N.compare_spec (Ascii.N_of_ascii y) (Ascii.N_of_ascii z)) as [E2|E2|E2]; try congruence;
  destruct (N.compare_spec (Ascii.N_of_ascii x) (Ascii.N_of_ascii z)) as [E3|E3|E3]; try congruence; try lia.
  apply IH.
Qed.
Inductive sorted : list label -> Prop :=
| sorted_nil : sorted []
| sorted_cons l ls : (forall k, In k ls -> String.leb l k = true) -> sorted ls -> sorted (l :: ls).
Lemma insert_in l ls k : In k (insert_label l ls) <-> k = l \/ In k ls.
Proof.
  induction ls as [|m ls IH]; cbn; [intuition|]. destruct (String.leb l m); cbn; [intuition|]. rewrite IH. intuition.
Qed.
Lemma sort_in ls k : In k (sort_labels ls) <-> In k ls.
Proof. induction ls as [|m ls IH]; cbn; [tauto|]. rewrite insert_in, IH. intuition. Qed.
Lemma insert_sorted l ls : sorted ls -> sorted (insert_label l ls).
Proof.
  induction ls as [|m ls IH]; cbn; intros H; [repeat constructor; intros ? []|].
  inversion H as [|? ? Hm Hs]; subst. destruct (String.leb l m) eqn:E.
  - constructor; [|exact H]. intros k [<-|Hk]; [exact E|]. eapply leb_trans; [exact E|auto].
  - constructor; [|auto]. intros k Hk. apply insert_in in Hk. destruct Hk as [-> | Hk]; [|auto].
    destruct (String.leb_total l m); congruence.
Qed.
Lemma sort_sorted ls : sorted (sort_labels ls).
Proof. induction ls; cbn; [constructor|]. apply insert_sorted; assumption. Qed.
Lemma sorted_unique a b : sorted a -> sorted b -> NoDup a -> NoDup b -> (forall k, In k a <-> In k b) -> a = b.
Proof.
  intros Ha; revert b. induction Ha as [|x a Hx Ha IH]; intros b Hb Na Nb E.
  - destruct b as [|y b]; [reflexivity|]. exfalso. apply (E y). left; reflexivity.
  - destruct Hb as [|y b Hy Hb]; [exfalso; apply (proj1 (E x)); left; reflexivity|].
    inversion Na; inversion Nb; subst.
    assert (x = y) as <-.
    { destruct (proj1 (E x) (or_introl eq_refl)) as [->|Hin]; [reflexivity|].
      destruct (proj2 (E y) (or_introl eq_refl)) as [->|Hin']; [reflexivity|].
      apply String.leb_antisym; auto. }
    f_equal. apply IH; auto. intros k. split; intros Hk.
    + destruct (proj1 (E k) (or_intror Hk)) as [->|]; [contradiction|assumption].
    + destruct (proj2 (E k) (or_intror Hk)) as [->|]; [contradiction|assumption].
Qed.
Lemma insert_nodup l ls : ~ In l ls -> NoDup ls -> NoDup (insert_label l ls).
Proof.
  induction ls as [|m ls IH]; cbn; intros Hn H; [repeat constructor; intros []|].
  destruct (String.leb l m); [constructor; cbn; assumption|]. inversion H; subst.
  constructor; [|auto]. rewrite insert_in. intuition.
Qed.
Lemma sort_nodup ls : NoDup ls -> NoDup (sort_labels ls).
Proof. induction 1; cbn; [constructor|]. apply insert_nodup; [rewrite sort_in|]; assumption. Qed.
Lemma sort_labels_ext a b : NoDup a -> NoDup b -> (forall k, In k a <-> In k b) -> sort_labels a = sort_labels b.
Proof.
  intros Na Nb E. apply sorted_unique; try apply sort_sorted; try (apply sort_nodup; assumption).
  intros k. rewrite !sort_in. apply E.
Qed.

(** ** Comparing points *)
Lemma num_eqb_eq a b : num_eqb a b = true <-> a = b.
Proof.
  destruct a, b; cbn; split; intros H; try congruence; try reflexivity.
  - apply Reqb_true in H. congruence.
  - injection H as ->. apply Reqb_true. reflexivity.
Qed.
Lemma series_eqb_eq a : forall b, series_eqb a b = true <-> a = b.
Proof.
  induction a as [|[k x] a IH]; intros [|[l y] b]; cbn; split; intros H; try congruence; try reflexivity.
  - rewrite !andb_true_iff in H. destruct H as [[H1 H2] H3]. apply String.eqb_eq in H1. apply num_eqb_eq in H2. apply IH in H3. congruence.
  - injection H as -> -> ->. rewrite !andb_true_iff. repeat split; [apply String.eqb_refl|apply num_eqb_eq; reflexivity|apply IH; reflexivity].
Qed.
Lemma index_sort_series v : index (sort_series v) = sort_labels (index v).
Proof. unfold sort_series, index. rewrite map_map. cbn. apply map_id. Qed.
Lemma lookup_map_get ls (f : label -> num) l : lookup l (map (fun k => (k, f k)) ls) = if mem l ls then Some (f l) else None.
Proof.
  induction ls as [|k ls IH]; cbn; [reflexivity|]. unfold label_eqb. destruct (String.eqb_spec l k) as [->|]; cbn; [reflexivity|apply IH].
Qed.
Lemma get_notin l v : ~ In l (index v) -> get l v = NaN.
Proof.
  unfold get. induction v as [|[k x] v IH]; cbn; intros H; [reflexivity|]. unfold label_eqb.
  destruct (String.eqb_spec l k) as [->|]; [exfalso; apply H; left; reflexivity|]. apply IH. intros C; apply H; right; exact C.
Qed.
Lemma get_map_get ls f l : get l (map (fun k => (k, f k)) ls) = if mem l ls then f l else NaN.
Proof. unfold get at 1. rewrite lookup_map_get. destruct (mem l ls); reflexivity. Qed.
Lemma get_sort_series v l : get l (sort_series v) = get l v.
Proof.
  unfold sort_series. rewrite get_map_get. destruct (mem l (sort_labels (index v))) eqn:E; [reflexivity|].
  apply mem_false in E. rewrite sort_in in E. symmetry. apply get_notin. exact E.
Qed.
Lemma same_point_refl a : same_point a a.
Proof. split; intros; tauto. Qed.
Lemma same_point_sym a b : same_point a b -> same_point b a.
Proof. intros [H1 H2]; split; intros; [symmetry; apply H1|symmetry; apply H2]. Qed.
Lemma same_point_trans a b c : same_point a b -> same_point b c -> same_point a c.
Proof. intros [H1 H2] [H3 H4]; split; intros; [rewrite H1; apply H3|rewrite H2; apply H4]. Qed.
Lemma same_point_sort v : same_point (sort_series v) v.
Proof. split; intros; [rewrite index_sort_series; apply sort_in|apply get_sort_series]. Qed.
Lemma same_point_sorted v w : NoDup (index v) -> NoDup (index w) -> (sort_series v = sort_series w <-> same_point v w).
Proof.
  intros Nv Nw. split; intros H.
  - eapply same_point_trans; [apply same_point_sym, same_point_sort|]. rewrite H. apply same_point_sort.
  - destruct H as [H1 H2]. unfold sort_series. rewrite (sort_labels_ext (index v) (index w)) by assumption.
    apply map_ext. intros l. rewrite H2. reflexivity.
Qed.

(** ** Lists *)
Lemma set_last_snoc {A} (x y : A) l : set_last x (l ++ [y]) = l ++ [x].
Proof. induction l as [|z l IH]; cbn; [reflexivity|]. rewrite IH. destruct (l ++ [y]) eqn:E; [destruct l; discriminate|reflexivity]. Qed.
Lemma set_last_length {A} (x : A) l : length (set_last x l) = length l.
Proof. induction l as [|z l IH]; cbn; [reflexivity|]. destruct l; cbn in *; [reflexivity|]. rewrite IH. reflexivity. Qed.
Lemma rev_cons_snoc {A} (l : list A) r t : rev l = r :: t -> l = rev t ++ [r].
Proof. intros H. rewrite <- (rev_involutive l), H. reflexivity. Qed.

(** ** Appending, by cases *)
(** The last row, with its voltages read in the order of the gate names. *)
Definition row_point (h : hist) (r : hrow) : series := map (fun g => (g, get g (r_volts r))) (sort_labels (h_gates h)).

Definition hist_ok (gates : list label) (h : hist) : Prop :=
  length (h_paths h) = length (h_rows h) /\
  (h_rows h <> [] -> NoDup (h_gates h) /\ forall g, In g (h_gates h) <-> In g gates) /\
  Forall (fun r => NoDup (index (r_volts r)) /\ (forall g, In g (index (r_volts r)) <-> In g gates) /\ sort_series (r_volts r) = r_volts r) (h_rows h).

Lemma first_row_inv h v a p h' : h_rows h = [] -> first_row h v a p = (h', Ok tt) ->
  exists c, all_cells (sn_tuners a) = Ok c /\
  h_rows h' = [mk_row (sort_series v) (Some (sn_index a)) (upserts c [])] /\ h_paths h' = h_paths h ++ [p] /\ h_gates h' = index v.
Proof.
  unfold first_row. intros Hr. destruct (all_cells (sn_tuners a)) as [c|e]; intros H; [|discriminate].
  injection H as <-. exists c. auto.
Qed.
Lemma stay_inv h r a p h' : stay_in_row h r a p = (h', Ok tt) ->
  exists start, r_index r = Some start /\ h_paths h' = set_last p (h_paths h) /\ h_gates h' = h_gates h /\
  ((eval_end a = 0%nat /\ h_rows h' = h_rows h) \/
   (eval_end a <> 0%nat /\ exists c, all_cells (slice start (eval_end a) (sn_tuners a)) = Ok c /\
    h_rows h' = set_last (mk_row (r_volts r) (Some (sn_index a)) (upserts c (r_cells r))) (h_rows h))).
Proof.
  unfold stay_in_row. destruct (r_index r) as [start|]; [|discriminate]. intros H. exists start.
  destruct (Nat.eqb_spec (eval_end a) 0) as [E|E].
  - injection H as <-. cbn. auto 8.
  - destruct (all_cells (slice start (eval_end a) (sn_tuners a))) as [c|e]; [|discriminate].
    injection H as <- H. cbn. repeat split; auto. right. split; [exact E|]. exists c. auto.
Qed.
Lemma new_row_inv h v a p h' : new_row h v a p = (h', Ok tt) ->
  h_paths h' = h_paths h ++ [p] /\ h_gates h' = h_gates h /\
  ((eval_end a = 0%nat /\ h_rows h' = h_rows h ++ [mk_row (sort_series v) None []]) \/
   (eval_end a <> 0%nat /\ exists c, all_cells (slice 0 (eval_end a) (sn_tuners a)) = Ok c /\
    h_rows h' = h_rows h ++ [mk_row (sort_series v) (Some (sn_index a)) (upserts c [])])).
Proof.
  unfold new_row. destruct (Nat.eqb_spec (eval_end a) 0) as [E|E]; intros H.
  - injection H as <-. cbn. auto.
  - destruct (all_cells (slice 0 (eval_end a) (sn_tuners a))) as [c|e]; [|discriminate].
    injection H as <-. cbn. repeat split; auto. right. split; [exact E|]. exists c. auto.
Qed.
(** A successful append, in full. *)
Lemma append_inv h a p h' : hist_append h a p = (h', Ok tt) ->
  exists v h1 rows r, point_of a v /\ h_rows h1 = rows ++ [r] /\
  ((h_rows h <> [] /\ h1 = h) \/ (h_rows h = [] /\ first_row h v a p = (h1, Ok tt))) /\
  ((sort_series v = row_point h1 r /\ stay_in_row h1 r a p = (h', Ok tt)) \/
   (sort_series v <> row_point h1 r /\ new_row h1 v a p = (h', Ok tt))).
Proof.
  unfold hist_append. destruct (sn_tuners a) as [|t0 ts] eqn:Et; [discriminate|]. destruct (ts_volts t0) as [v|] eqn:Ev; [|discriminate].
  set (q := match h_rows h with [] => first_row h v a p | _ :: _ => (h, Ok tt) end).
  destruct q as [h1 [[]|e]] eqn:Eq; [|discriminate].
  destruct (rev (h_rows h1)) as [|r t] eqn:Er; [discriminate|]. intros H.
  exists v, h1, (rev t), r. split; [exists t0, ts; auto|]. split; [apply rev_cons_snoc; exact Er|]. split.
  - unfold q in Eq. destruct (h_rows h) eqn:Eh; [right; auto|]. left. injection Eq as <-. split; [discriminate|reflexivity].
  - fold (row_point h1 r) in H. destruct (series_eqb (sort_series v) (row_point h1 r)) eqn:Es.
    + left. split; [apply series_eqb_eq; exact Es|exact H].
    + right. split; [|exact H]. intros C. apply series_eqb_eq in C. congruence.
Qed.

(** ** Rows follow the points *)
Lemma sort_series_idem v : NoDup (index v) -> sort_series (sort_series v) = sort_series v.
Proof.
  intros N. apply same_point_sorted; [rewrite index_sort_series; apply sort_nodup; exact N|exact N|apply same_point_sort].
Qed.
Lemma row_point_eq gates h rows r : hist_ok gates h -> h_rows h = rows ++ [r] -> row_point h r = r_volts r.
Proof.
  intros (_ & Hg & Hr) E. rewrite E in Hr. apply Forall_app in Hr. destruct Hr as [_ Hr]. inversion Hr as [|? ? (Nr & Er & Sr) _]; subst.
  destruct Hg as [Ng Eg]; [rewrite E; intros C; destruct rows; discriminate|].
  transitivity (sort_series (r_volts r)); [|exact Sr]. unfold row_point, sort_series. rewrite (sort_labels_ext (h_gates h) (index (r_volts r))); auto.
  intros k. rewrite Eg, Er. tauto.
Qed.
Lemma first_row_ok gates h v a p h1 : hist_ok gates h -> h_rows h = [] -> NoDup (index v) -> (forall g, In g (index v) <-> In g gates) ->
  first_row h v a p = (h1, Ok tt) -> hist_ok gates h1.
Proof.
  intros (Hl & _ & _) Hn N E H. destruct (first_row_inv _ _ _ _ _ Hn H) as (c & _ & Er & Ep & Eg).
  unfold hist_ok. rewrite Er, Ep, Eg, app_length, Hl, Hn. cbn. split; [reflexivity|]. split; [auto|].
  constructor; [|constructor]. cbn. split; [rewrite index_sort_series; apply sort_nodup; exact N|].
  split; [intros g; rewrite index_sort_series, sort_in; apply E|apply sort_series_idem; exact N].
Qed.
(** Effect of a successful append on the voltages and paths. *)
Definition row_ok (gates : list label) (w : series) : Prop :=
  NoDup (index w) /\ (forall g, In g (index w) <-> In g gates) /\ sort_series w = w.
Lemma hist_ok_alt gates h : hist_ok gates h <->
  length (h_paths h) = length (h_rows h) /\
  (h_rows h <> [] -> NoDup (h_gates h) /\ forall g, In g (h_gates h) <-> In g gates) /\ Forall (row_ok gates) (map r_volts (h_rows h)).
Proof. unfold hist_ok. rewrite Forall_map. tauto. Qed.
Lemma map_nil {A B} (f : A -> B) l : map f l = [] <-> l = [].
Proof. destruct l; cbn; split; congruence. Qed.
Lemma append_points gates h a p h' : hist_ok gates h -> same_gates gates a -> hist_append h a p = (h', Ok tt) ->
  hist_ok gates h' /\ exists v, point_of a v /\
  ((h_rows h = [] /\ map r_volts (h_rows h') = [sort_series v] /\ h_paths h' = [p]) \/
   (exists rows r ps q, h_rows h = rows ++ [r] /\ h_paths h = ps ++ [q] /\ same_point (r_volts r) v /\
      map r_volts (h_rows h') = map r_volts (h_rows h) /\ h_paths h' = ps ++ [p]) \/
   (exists rows r, h_rows h = rows ++ [r] /\ ~ same_point (r_volts r) v /\
      map r_volts (h_rows h') = map r_volts (h_rows h) ++ [sort_series v] /\ h_paths h' = h_paths h ++ [p])).
Proof.
  intros Hok Hg H. apply append_inv in H. destruct H as (v & h1 & rows & r & Hv & Er & H1 & H2).
  destruct (Hg v Hv) as [Nv Ev].
  assert (Hok1 : hist_ok gates h1).
  { destruct H1 as [[_ ->]|[Hn Hf]]; [exact Hok|]. eapply first_row_ok; eauto. }
  rewrite (row_point_eq gates h1 rows r Hok1 Er) in H2.
  assert (Hr : row_ok gates (r_volts r)).
  { apply hist_ok_alt in Hok1. destruct Hok1 as (_ & _ & F). rewrite Er, map_app in F. apply Forall_app in F. destruct F as [_ F]. inversion F; assumption. }
  assert (Hcmp : sort_series v = r_volts r <-> same_point (r_volts r) v).
  { destruct Hr as (Nr & _ & Sr). rewrite <- Sr at 1. split; intros C.
    - apply same_point_sym. apply same_point_sorted; auto.
    - apply same_point_sorted; auto. apply same_point_sym. exact C. }
  assert (Hn1 : h_rows h1 <> []) by (rewrite Er; intros C; destruct rows; discriminate).
  destruct H2 as [[Hs Hst]|[Hs Hnew]].
  - (* same point *)
    apply stay_inv in Hst. destruct Hst as (start & _ & Ep & Eg & Hrows).
    assert (Em : map r_volts (h_rows h') = map r_volts (h_rows h1)).
    { destruct Hrows as [[_ ->]|(_ & c & _ & ->)]; [reflexivity|]. rewrite Er, set_last_snoc, !map_app. reflexivity. }
    assert (Hok' : hist_ok gates h').
    { apply hist_ok_alt in Hok1. apply hist_ok_alt. destruct Hok1 as (Hl & Hgs & F).
      rewrite Ep, Eg, Em, set_last_length. split; [|split; [|exact F]].
      - rewrite Hl. rewrite <- (map_length r_volts (h_rows h1)), <- Em, map_length. reflexivity.
      - intros _. auto. }
    split; [exact Hok'|]. exists v. split; [exact Hv|].
    destruct H1 as [[Hn ->]|[Hn Hf]].
    + right; left. destruct Hok1 as (Hl & _). rewrite Er, app_length in Hl. cbn in Hl.
      destruct (rev (h_paths h)) as [|q ps] eqn:Erev.
      { apply (f_equal (@rev string)) in Erev. rewrite rev_involutive in Erev. cbn in Erev. rewrite Erev in Hl. cbn in Hl. lia. }
      apply rev_cons_snoc in Erev. exists rows, r, (rev ps), q. rewrite Ep, Erev, set_last_snoc. repeat split; auto; apply Hcmp; exact Hs.
    + left. destruct (first_row_inv _ _ _ _ _ Hn Hf) as (c & _ & E1 & E2 & _). split; [exact Hn|]. split; [rewrite Em, E1; reflexivity|].
      rewrite Ep, E2, set_last_snoc. destruct Hok as (Hl & _). rewrite Hn in Hl. cbn in Hl. destruct (h_paths h); [reflexivity|discriminate].
  - (* new point *)
    apply new_row_inv in Hnew. destruct Hnew as (Ep & Eg & Hrows).
    assert (Em : map r_volts (h_rows h') = map r_volts (h_rows h1) ++ [sort_series v]).
    { destruct Hrows as [[_ ->]|(_ & c & _ & ->)]; rewrite map_app; reflexivity. }
    assert (Hok' : hist_ok gates h').
    { apply hist_ok_alt in Hok1. apply hist_ok_alt. destruct Hok1 as (Hl & Hgs & F).
      rewrite Ep, Eg, Em, app_length. split; [|split].
      - rewrite Hl. rewrite <- (map_length r_volts (h_rows h')), Em, app_length, map_length. reflexivity.
      - intros _. auto.
      - apply Forall_app. split; [exact F|]. constructor; [|constructor]. split; [rewrite index_sort_series; apply sort_nodup; exact Nv|].
        split; [intros g; rewrite index_sort_series, sort_in; apply Ev|apply sort_series_idem; exact Nv]. }
    split; [exact Hok'|]. exists v. split; [exact Hv|].
    destruct H1 as [[Hn ->]|[Hn Hf]].
    + right; right. exists rows, r. split; [exact Er|]. split; [intros C; apply Hs, Hcmp; exact C|]. auto.
    + exfalso. apply Hs. destruct (first_row_inv _ _ _ _ _ Hn Hf) as (c & _ & E1 & _ & _). rewrite Er in E1.
      destruct rows as [|? [|]]; cbn in E1; try discriminate. injection E1 as ->. reflexivity.
Qed.

Lemma adjacent_snoc ps p q : adjacent_differ (ps ++ [p]) -> ~ same_point p q -> adjacent_differ ((ps ++ [p]) ++ [q]).
Proof.
  induction ps as [|x ps IH]; cbn; [auto|]. intros H Hd. destruct ps as [|y ps]; cbn in *; [intuition|].
  destruct H as [H1 H2]. split; [exact H1|]. apply IH; assumption.
Qed.
Definition ends_with (p : string) (g : list (snap * string)) : Prop := exists g' a, g = g' ++ [(a, p)].
Definition grouped (l : list (snap * string)) (h : hist) : Prop :=
  exists groups, concat groups = l /\ Forall2 (fun r g => group (r_volts r) g) (h_rows h) groups /\
    adjacent_differ (map r_volts (h_rows h)) /\ Forall2 ends_with (h_paths h) groups.
Definition grouped_v (l : list (snap * string)) (vs : list series) (ps : list string) : Prop :=
  exists groups, concat groups = l /\ Forall2 group vs groups /\ adjacent_differ vs /\ Forall2 ends_with ps groups.
Lemma Forall2_map_l {A B C} (f : A -> B) (P : B -> C -> Prop) l m : Forall2 P (map f l) m <-> Forall2 (fun x y => P (f x) y) l m.
Proof.
  revert m. induction l as [|x l IH]; intros m; cbn; split; intros H; inversion H; subst; constructor; auto; apply IH; assumption.
Qed.
Lemma grouped_alt l h : grouped l h <-> grouped_v l (map r_volts (h_rows h)) (h_paths h).
Proof. unfold grouped, grouped_v. setoid_rewrite Forall2_map_l. reflexivity. Qed.
Lemma group_single p a s v : point_of a v -> same_point p v -> group p [(a, s)].
Proof. intros H1 H2. split; [discriminate|]. constructor; [exists v; auto|constructor]. Qed.
Lemma append_grouped gates l h a p h' : hist_ok gates h -> same_gates gates a -> grouped l h ->
  hist_append h a p = (h', Ok tt) -> hist_ok gates h' /\ grouped (l ++ [(a, p)]) h'.
Proof.
  intros Hok Hg Hgr H. destruct (append_points gates h a p h' Hok Hg H) as (Hok' & v & Hv & Hc). split; [exact Hok'|].
  rewrite grouped_alt in *. destruct Hgr as (groups & El & F1 & Ha & F2).
  destruct Hc as [(Hn & -> & ->)|[(rows & r & ps & q & Er & Epp & Hs & -> & ->)|(rows & r & Er & Hd & -> & ->)]].
  - rewrite Hn in F1. inversion F1; subst. cbn. exists [[(a, p)]]. cbn. repeat split; auto.
    + constructor; [|constructor]. apply (group_single _ _ _ v Hv). apply same_point_sort.
    + constructor; [|constructor]. exists [], a. reflexivity.
  - rewrite Er, map_app in F1. rewrite Epp in F2. apply Forall2_app_inv_l in F1. destruct F1 as (g1 & g2 & F11 & F12 & ->).
    inversion F12 as [|? g ? ? [Hne Hgr] Hnil]; subst. inversion Hnil; subst.
    apply Forall2_app_inv_l in F2. destruct F2 as (g3 & g4 & F21 & F22 & E).
    inversion F22 as [|? g' ? ? He Hnil']; subst. inversion Hnil'; subst. apply app_inj_tail in E. destruct E as [<- <-].
    exists (g1 ++ [g ++ [(a, p)]]). rewrite !concat_app. cbn. rewrite !app_nil_r, <- app_assoc. split; [reflexivity|].
    split; [|split; [exact Ha|]].
    + rewrite Er, map_app. apply Forall2_app; [exact F11|]. constructor; [|constructor]. split; [intros C; destruct g; discriminate|].
      apply Forall_app. split; [exact Hgr|]. constructor; [exists v; auto|constructor].
    + apply Forall2_app; [exact F21|]. constructor; [|constructor]. exists g, a. reflexivity.
  - exists (groups ++ [[(a, p)]]). rewrite concat_app, El. cbn. split; [reflexivity|]. split; [|split].
    + apply Forall2_app; [exact F1|]. constructor; [|constructor]. apply (group_single _ _ _ v Hv). apply same_point_sort.
    + rewrite Er in *. rewrite map_app in *. apply adjacent_snoc; [exact Ha|]. intros C. apply Hd.
      eapply same_point_trans; [exact C|apply same_point_sort].
    + apply Forall2_app; [exact F2|]. constructor; [|constructor]. exists [], a. reflexivity.
Qed.
Lemma run_grouped gates l : forall done h h', hist_ok gates h -> Forall (fun e => same_gates gates (fst e)) l -> grouped done h ->
  hist_run h l = (h', Ok tt) -> hist_ok gates h' /\ grouped (done ++ l) h'.
Proof.
  induction l as [|[a p] l IH]; intros done h h' Hok Hg Hgr H; cbn in H.
  - injection H as <-. rewrite app_nil_r. auto.
  - inversion Hg; subst. destruct (hist_append h a p) as [h1 [[]|e]] eqn:E; [|discriminate].
    destruct (append_grouped gates done h a p h1 Hok) as [Hok1 Hgr1]; auto.
    replace (done ++ (a, p) :: l) with ((done ++ [(a, p)]) ++ l) by (rewrite <- app_assoc; reflexivity).
    eapply IH; eauto.
Qed.
Lemma empty_ok gates : hist_ok gates empty_hist.
Proof. split; [reflexivity|]. split; [intros C; contradiction|constructor]. Qed.
Lemma empty_grouped : grouped [] empty_hist.
Proof. exists []. repeat split; constructor. Qed.

(** ** Earlier rows stay, whatever happens *)
Lemma append_prefix h a p old r ps q : h_rows h = old ++ [r] -> h_paths h = ps ++ [q] ->
  exists r' tail q' ptail,
    h_rows (fst (hist_append h a p)) = old ++ r' :: tail /\ r_volts r' = r_volts r /\ (tail = [] \/ (r' = r /\ exists n, tail = [n])) /\
    h_paths (fst (hist_append h a p)) = ps ++ q' :: ptail /\ (q' = q \/ q' = p) /\ (ptail = [] \/ (q' = q /\ ptail = [p])).
Proof.
  intros Er Ep. unfold hist_append.
  assert (Hsame : exists r' tail q' ptail, h_rows h = old ++ r' :: tail /\ r_volts r' = r_volts r /\ (tail = [] \/ (r' = r /\ exists n, tail = [n])) /\
    h_paths h = ps ++ q' :: ptail /\ (q' = q \/ q' = p) /\ (ptail = [] \/ (q' = q /\ ptail = [p]))).
  { exists r, [], q, []. repeat split; auto. }
  destruct (sn_tuners a) as [|t0 ts]; [exact Hsame|]. destruct (ts_volts t0) as [v|]; [|exact Hsame].
  assert (Hm : match h_rows h with [] => first_row h v a p | _ :: _ => (h, Ok tt) end = (h, Ok tt)).
  { rewrite Er. destruct old; reflexivity. }
  rewrite Hm, Er, rev_app_distr. cbn [rev app].
  destruct (series_eqb _ _).
  - unfold stay_in_row.
    assert (Hpath : exists r' tail q' ptail, h_rows h = old ++ r' :: tail /\ r_volts r' = r_volts r /\ (tail = [] \/ (r' = r /\ exists n, tail = [n])) /\
      set_last p (h_paths h) = ps ++ q' :: ptail /\ (q' = q \/ q' = p) /\ (ptail = [] \/ (q' = q /\ ptail = [p]))).
    { exists r, [], p, []. rewrite Ep, set_last_snoc. repeat split; auto. }
    destruct (r_index r) as [start|]; [|exact Hpath]. destruct (eval_end a =? 0)%nat; [exact Hpath|].
    destruct (all_cells (slice start (eval_end a) (sn_tuners a))) as [c|e]; [|exact Hpath]. cbn.
    eexists _, [], p, []. rewrite Ep, Er, !set_last_snoc. repeat split; auto. 
  - unfold new_row. destruct (eval_end a =? 0)%nat; [|destruct (all_cells (slice 0 (eval_end a) (sn_tuners a))) as [c|e]]; cbn.
    + eexists r, [_], q, [p]. rewrite Ep, Er, <- !app_assoc. cbn. repeat split; eauto.
    + eexists r, [_], q, [p]. rewrite Ep, Er, <- !app_assoc. cbn. repeat split; eauto.
    + exists r, [], q, [p]. rewrite Ep, Er, <- !app_assoc. cbn. repeat split; eauto.
Qed.

(** ** The newest row is up to date *)
Lemma upsert_get k x s l : get l (upsert k x s) = if String.eqb l k then x else get l s.
Proof.
  induction s as [|[m w] s IH]; cbn.
  - unfold get. cbn. unfold label_eqb. destruct (String.eqb l k); reflexivity.
  - unfold label_eqb. destruct (String.eqb_spec k m) as [<-|N]; unfold get in *; cbn; unfold label_eqb.
    + destruct (String.eqb l k); reflexivity.
    + destruct (String.eqb_spec l m) as [->|]; [destruct (String.eqb_spec m k); [congruence|reflexivity]|apply IH].
Qed.
Lemma upserts_get c : forall s, NoDup (index c) ->
  (forall k x, In (k, x) c -> get k (upserts c s) = x) /\ (forall k, ~ In k (index c) -> get k (upserts c s) = get k s).
Proof.
  induction c as [|[m w] c IH]; intros s N; cbn.
  - split; [intros ? ? []|reflexivity].
  - cbn in N. inversion N as [|? ? Nin Nc]; subst. destruct (IH (upsert m w s) Nc) as [H1 H2]. split.
    + intros k x [E|Hin]; [|apply H1; exact Hin]. injection E as -> ->. unfold upserts in *. cbn. rewrite H2 by exact Nin.
      rewrite upsert_get, String.eqb_refl. reflexivity.
    + intros k Hk. unfold upserts in *. cbn. rewrite H2 by (intros C; apply Hk; right; exact C). rewrite upsert_get.
      destruct (String.eqb_spec k m) as [->|]; [exfalso; apply Hk; left; reflexivity|reflexivity].
Qed.
Definition row_has (cells : series) (t : tsnap) : Prop :=
  exists c, tuner_cells t = Ok c /\ forall k x, In (k, x) c -> get k cells = x.
Lemma all_cells_nth ts c : all_cells ts = Ok c -> forall i t, nth_error ts i = Some t -> exists ct, tuner_cells t = Ok ct /\ incl ct c.
Proof.
  revert c. induction ts as [|u ts IH]; intros c H i t Hi; [destruct i; discriminate|]. cbn in H.
  destruct (tuner_cells u) as [cu|] eqn:Eu; [|discriminate]. destruct (all_cells ts) as [cs|] eqn:Es; [|discriminate]. injection H as <-.
  destruct i as [|i]; cbn in Hi.
  - injection Hi as <-. exists cu. split; [exact Eu|apply incl_appl, incl_refl].
  - destruct (IH cs eq_refl i t Hi) as (ct & E & I). exists ct. split; [exact E|apply incl_appr; exact I].
Qed.
Lemma all_cells_index ts c : all_cells ts = Ok c -> index c = flat_map columns ts.
Proof.
  revert c. induction ts as [|u ts IH]; intros c H; cbn in H; [injection H as <-; reflexivity|]. cbn. unfold columns at 1.
  destruct (tuner_cells u) as [cu|] eqn:Eu; [|discriminate]. destruct (all_cells ts) as [cs|] eqn:Es; [|discriminate]. injection H as <-.
  unfold index in *. rewrite map_app, (IH cs eq_refl). reflexivity.
Qed.
Lemma slice_split {A} s e (l : list A) : l = firstn s l ++ slice s e l ++ skipn (e - s) (skipn s l).
Proof. unfold slice. rewrite firstn_skipn, firstn_skipn. reflexivity. Qed.
Lemma nth_slice {A} s e (l : list A) i : (s <= i < e)%nat -> nth_error (slice s e l) (i - s) = nth_error l i.
Proof.
  intros H. unfold slice. revert e l i H. induction s as [|s IH]; intros e l i H.
  - rewrite Nat.sub_0_r, Nat.sub_0_r. cbn [skipn]. revert l i H. induction e as [|e IHe]; intros l i H; [lia|].
    destruct l as [|x l]; cbn [firstn]; [reflexivity|]. destruct i as [|i]; cbn; [reflexivity|]. apply IHe. lia.
  - destruct l as [|x l]; cbn [skipn].
    + rewrite firstn_nil. destruct i; [lia|]. destruct (S i - S s)%nat; reflexivity.
    + destruct i as [|i]; [lia|]. destruct e as [|e]; [lia|]. cbn [Nat.sub nth_error]. apply IH. lia.
Qed.
Lemma in_firstn {A} s (l : list A) i x : (i < s)%nat -> nth_error l i = Some x -> In x (firstn s l).
Proof.
  revert l i. induction s as [|s IH]; intros l i H E; [lia|]. destruct l as [|y l]; [destruct i; discriminate|].
  destruct i as [|i]; cbn in *; [left; congruence|]. right. apply (IH l i); [lia|exact E].
Qed.
Lemma nodup_app_l {A} (a b : list A) : NoDup (a ++ b) -> NoDup a.
Proof. induction a as [|x a IH]; cbn; intros H; [constructor|]. inversion H; subst. constructor; [|auto]. intros C. apply H2, in_or_app. auto. Qed.
Lemma nodup_app_r {A} (a b : list A) : NoDup (a ++ b) -> NoDup b.
Proof. induction a as [|x a IH]; cbn; intros H; [exact H|]. inversion H; auto. Qed.
Lemma nodup_app_disj {A} (a b : list A) x : NoDup (a ++ b) -> In x a -> ~ In x b.
Proof.
  induction a as [|y a IH]; cbn; intros H; [intros []|]. inversion H; subst. intros [->|Hx] C; [apply H2, in_or_app; auto|exact (IH H3 Hx C)].
Qed.
(** Writing a slice into a row: what is in the slice is there, what was there
    below the slice stays. *)
Lemma write_slice ts s e c cells : NoDup (flat_map columns ts) -> all_cells (slice s e ts) = Ok c ->
  (forall i t, (i < s)%nat -> nth_error ts i = Some t -> row_has cells t) ->
  forall i t, (i < e)%nat -> nth_error ts i = Some t -> row_has (upserts c cells) t.
Proof.
  intros N Hc Hold i t Hi Ht.
  assert (Ec := all_cells_index _ _ Hc). rewrite (slice_split s e ts), !flat_map_app in N.
  assert (Nc : NoDup (index c)). { rewrite Ec. apply nodup_app_r in N. apply nodup_app_l in N. exact N. }
  destruct (upserts_get c cells Nc) as [H1 H2].
  destruct (Nat.lt_ge_cases i s) as [Hl|Hl].
  - destruct (Hold i t Hl Ht) as (ct & E & H). exists ct. split; [exact E|]. intros k x Hin. rewrite H2; [apply H; exact Hin|].
    rewrite Ec. intros C. assert (Hk : In k (flat_map columns (firstn s ts))).
    { apply in_flat_map. exists t. split; [eapply in_firstn; eauto|]. unfold columns. rewrite E. apply in_map_iff. exists (k, x). auto. }
    apply (nodup_app_disj _ _ _ N Hk). apply in_or_app. left. exact C.
  - destruct (all_cells_nth _ _ Hc (i - s)%nat t) as (ct & E & I); [rewrite nth_slice by lia; exact Ht|].
    exists ct. split; [exact E|]. intros k x Hin. apply H1, I, Hin.
Qed.
Lemma lookup_get_in k s : In k (index s) -> In (k, get k s) s.
Proof.
  unfold get. induction s as [|[m w] s IH]; cbn; [intros []|]. unfold label_eqb. intros [->|H].
  - rewrite String.eqb_refl. left; reflexivity.
  - destruct (String.eqb_spec k m) as [->|]; [left; reflexivity|right; apply IH; exact H].
Qed.
Lemma select_In ls s r l : select ls s = Ok r -> In l ls -> In (l, get l s) r.
Proof.
  unfold select. destruct ls as [|m ls]; [intros _ []|]. destruct (existsb _ _); [|discriminate]. intros H Hin. injection H as <-.
  exact (in_map (fun l0 => (l0, get l0 s)) (m :: ls) l Hin).
Qed.
Lemma grad_cells_In gs c p g cv : grad_cells gs = Ok c -> In (p, (Some g, Some cv)) gs ->
  (forall k x, In (k, x) g -> In (grad_col p k, x) c) /\ (forall k col k' x, In (k, col) cv -> In (k', x) col -> In (cov_col p k k', x) c).
Proof.
  revert c. induction gs as [|[q [[g'|] [c'|]]] gs IH]; intros c H; [intros []|..]; cbn in H; try discriminate.
  destruct (grad_cells gs) as [cs|]; [|discriminate]. injection H as <-. intros [E|Hin].
  - injection E as -> -> ->. split.
    + intros k x Hk. apply in_or_app. left. apply in_map_iff. exists (k, x). auto.
    + intros k col k' x Hk Hk'. apply in_or_app. right. apply in_or_app. left. apply in_flat_map. exists (k, col). split; [exact Hk|].
      apply in_map_iff. exists (k', x). auto.
  - destruct (IH cs eq_refl Hin) as [H1 H2]. split; intros; apply in_or_app; right; apply in_or_app; right; eauto.
Qed.
Lemma row_has_holds r t : row_has (r_cells r) t -> row_holds r t.
Proof.
  intros (c & E & H). unfold tuner_cells in E. destruct (tuner_params t) as [[p v]|] eqn:Ep; [|discriminate].
  destruct (grad_cells (ts_grads t)) as [g|] eqn:Eg; [|discriminate]. injection E as <-.
  assert (Hp : (forall q, relevant t (ts_params t) q -> In (q, get q (ts_params t)) p) /\ (forall q, relevant t (ts_vars t) q -> In (q, get q (ts_vars t)) v)).
  { unfold tuner_params in Ep. unfold relevant. destruct (ts_desired t) as [d|].
    - destruct (select _ (ts_params t)) as [p'|] eqn:E1; [|discriminate]. destruct (select _ (ts_vars t)) as [v'|] eqn:E2; [|discriminate].
      injection Ep as <- <-.
      assert (Hin : forall q, (exists x, In (q, x) d /\ isna x = false) -> In q (index (filter (fun p => negb (isna (snd p))) d))).
      { intros q (x & Hq & Hx). apply in_map_iff. exists (q, x). split; [reflexivity|]. apply filter_In. split; [exact Hq|]. cbn. rewrite Hx. reflexivity. }
      split; intros q Hq; [apply (select_In _ _ _ _ E1)|apply (select_In _ _ _ _ E2)]; apply Hin; exact Hq.
    - injection Ep as <- <-. split; intros q Hq; apply lookup_get_in; exact Hq. }
  destruct Hp as [Hp Hv]. split; [|split].
  - intros q Hq. apply H. apply in_or_app. left. apply Hp; exact Hq.
  - intros q Hq. apply H. apply in_or_app. right. apply in_or_app. left. apply in_map_iff. exists (q, get q (ts_vars t)). split; [reflexivity|]. apply Hv; exact Hq.
  - intros q g' cv Hin. destruct (grad_cells_In _ _ _ _ _ Eg Hin) as [H1 H2]. split; intros; apply H; apply in_or_app; right; apply in_or_app; right; eauto.
Qed.
Lemma eval_end_evaluated a : eval_end a = evaluated a.
Proof. unfold eval_end, evaluated. destruct (sn_pending a || sn_status a); lia. Qed.
Lemma point_unique a v w : point_of a v -> point_of a w -> v = w.
Proof. intros (t & ts & E & H) (u & us & E' & H'). rewrite E in E'. injection E' as <- <-. congruence. Qed.

Definition newest (gates : list label) (reached : nat) (a : snap) (h : hist) : Prop :=
  hist_ok gates h /\ (evaluated a = 0%nat \/ sn_index a = reached) /\
  exists old r v, h_rows h = old ++ [r] /\ r_index r = Some reached /\ point_of a v /\ same_point (r_volts r) v /\
    forall i t, (i < evaluated a)%nat -> nth_error (sn_tuners a) i = Some t -> row_has (r_cells r) t.

Lemma newest_first gates a p h : same_gates gates a -> well_named a -> hist_append empty_hist a p = (h, Ok tt) -> newest gates (sn_index a) a h.
Proof.
  intros Hg Hw H. destruct (append_points gates _ _ _ _ (empty_ok gates) Hg H) as (Hok & v & Hv & Hpt).
  apply append_inv in H. destruct H as (v' & h1 & rows & r & Hv' & Er & [[C _]|[Hn Hf]] & H2); [exfalso; apply C; reflexivity|].
  assert (v' = v) as -> by (eapply point_unique; eauto).
  destruct (Hg v Hv) as [Nv Ev].
  assert (Hok1 : hist_ok gates h1) by exact (first_row_ok gates empty_hist v a p h1 (empty_ok gates) Hn Nv Ev Hf).
  rewrite (row_point_eq gates h1 rows r Hok1 Er) in H2.
  destruct (first_row_inv _ _ _ _ _ Hn Hf) as (c & Hc & E1 & _ & _). rewrite E1 in Er.
  destruct rows as [|? [|]]; cbn in Er; try discriminate. injection Er as <-.
  destruct H2 as [[_ Hst]|[C _]]; [|exfalso; apply C; reflexivity].
  assert (Hall : forall i t, nth_error (sn_tuners a) i = Some t -> row_has (upserts c []) t).
  { intros i t Ht. destruct (all_cells_nth _ _ Hc i t Ht) as (ct & E & I). exists ct. split; [exact E|].
    assert (N : NoDup (index c)) by (rewrite (all_cells_index _ _ Hc); exact Hw).
    intros k x Hin. apply (upserts_get c [] N). apply I, Hin. }
  split; [exact Hok|]. split; [right; reflexivity|].
  apply stay_inv in Hst. cbn in Hst. destruct Hst as (start & Est & _ & _ & [[E0 Hr]|(_ & c' & Hc' & Hr)]); injection Est as <-.
  - exists [], (mk_row (sort_series v) (Some (sn_index a)) (upserts c [])), v. rewrite Hr, E1. cbn. repeat split; auto; try apply same_point_sort; eauto.
  - exists [], (mk_row (sort_series v) (Some (sn_index a)) (upserts c' (upserts c []))), v. rewrite Hr, E1. cbn. repeat split; auto; try apply same_point_sort.
    intros i t Hi Ht. rewrite <- eval_end_evaluated in Hi. eapply write_slice; eauto.
Qed.
Lemma step_old a b reached : tuning_step a b -> (evaluated a = 0%nat \/ sn_index a = reached) -> (starts_round a -> reached = 0%nat) ->
  forall i, (i < reached)%nat -> (i < evaluated a)%nat /\ nth_error (sn_tuners b) i = nth_error (sn_tuners a) i.
Proof.
  intros Hs Hr H0 i Hi. destruct Hs as [j ts1 t t' ts2 El|j ts1 t t' ts2 El|j ts|j st ts]; unfold evaluated, starts_round in *; cbn in *.
  - assert (j <> 0%nat). { intros ->. rewrite H0 in Hi by auto. lia. } assert (Ej : j = reached) by lia. split; [lia|]. rewrite !nth_error_app1 by lia. reflexivity.
  - assert (j <> 0%nat). { intros ->. rewrite H0 in Hi by auto. lia. } assert (Ej : j = reached) by lia. split; [lia|]. rewrite !nth_error_app1 by lia. reflexivity.
  - split; [lia|reflexivity].
  - split; [lia|reflexivity].
Qed.
Lemma step_zero a b : tuning_step a b -> evaluated b = 0%nat -> sn_tuners b = sn_tuners a.
Proof. intros H. destruct H; unfold evaluated; cbn; intros E; try lia; reflexivity. Qed.
Lemma newest_step gates reached a b p h h' : newest gates reached a h -> tuning_step a b -> (starts_round a -> reached = 0%nat \/ moved a b) ->
  same_gates gates b -> well_named b -> hist_append h b p = (h', Ok tt) ->
  newest gates (match evaluated b with 0%nat => reached | S _ => sn_index b end) b h'.
Proof.
  intros (Hok & Hpos & old & r & v & Er & Ei & Hv & Hsp & Hhas) Hstep Hmv Hg Hw H.
  destruct (append_points gates _ _ _ _ Hok Hg H) as (Hok' & w & Hw1 & _).
  apply append_inv in H. destruct H as (w' & h1 & rows & r1 & Hw' & Er1 & [[_ ->]|[C _]] & H2); [|rewrite Er in C; destruct old; discriminate].
  assert (w' = w) as -> by (eapply point_unique; eauto).
  rewrite Er in Er1. apply app_inj_tail in Er1. destruct Er1 as [<- <-].
  rewrite (row_point_eq gates h old r Hok Er) in H2. destruct (Hg w Hw1) as [Nw Ew].
  assert (Hr : row_ok gates (r_volts r)).
  { apply hist_ok_alt in Hok. destruct Hok as (_ & _ & F). rewrite Er, map_app in F. apply Forall_app in F. destruct F as [_ F]. inversion F; assumption. }
  assert (Hcmp : sort_series w = r_volts r <-> same_point (r_volts r) w).
  { destruct Hr as (Nr & _ & Sr). rewrite <- Sr at 1. split; intros C.
    - apply same_point_sym. apply same_point_sorted; auto.
    - apply same_point_sorted; auto. apply same_point_sym. exact C. }
  split; [exact Hok'|].
  destruct H2 as [[Hs Hst]|[Hs Hnew]].
  - apply stay_inv in Hst. destruct Hst as (start & Est & _ & _ & Hrows). rewrite Ei in Est. injection Est as <-.
    rewrite eval_end_evaluated in Hrows. destruct Hrows as [[E0 Hrw]|(E0 & c & Hc & Hrw)].
    + rewrite E0. split; [left; reflexivity|]. exists old, r, w. rewrite Hrw. repeat split; auto; try apply Hcmp; auto. intros i t Hi. lia.
    + destruct (evaluated b) as [|n] eqn:Eb; [contradiction|]. split; [right; reflexivity|].
      eexists old, _, w. rewrite Hrw, Er, set_last_snoc. split; [reflexivity|]. cbn. split; [reflexivity|]. split; [exact Hw1|]. split; [apply Hcmp; exact Hs|].
      apply (write_slice _ reached _ _ _ Hw Hc). intros i t Hi Ht.
      destruct (step_old a b reached Hstep Hpos) with (i := i) as [H1 H2]; [|exact Hi|].
      * intros Hsr. destruct (Hmv Hsr) as [->|Hm]; [reflexivity|]. exfalso. apply (Hm v w Hv Hw1).
        eapply same_point_trans; [apply same_point_sym; exact Hsp|]. apply Hcmp. exact Hs.
      * apply (Hhas i); [exact H1|]. rewrite <- H2. exact Ht.
  - apply new_row_inv in Hnew. destruct Hnew as (_ & _ & Hrows). rewrite eval_end_evaluated in Hrows. destruct Hrows as [[E0 _]|(E0 & c & Hc & Hrw)].
    + exfalso. apply Hs, Hcmp. assert (w = v) as ->; [|exact Hsp]. destruct Hw1 as (t & ts & E & Et). destruct Hv as (t' & ts' & E' & Et').
      rewrite (step_zero a b Hstep E0), E' in E. injection E as <- <-. congruence.
    + destruct (evaluated b) as [|n] eqn:Eb; [contradiction|]. split; [right; reflexivity|].
      eexists (old ++ [r]), _, w. rewrite Hrw, Er. split; [reflexivity|]. cbn. split; [reflexivity|]. split; [exact Hw1|]. split; [apply same_point_sort|].
      apply (write_slice _ 0 _ _ _ Hw Hc). intros i t Hi. lia.
Qed.
Lemma newest_run gates l : forall reached a h h', newest gates reached a h -> tuning_run a (map fst l) -> always_moved reached a (map fst l) ->
  Forall (fun e => same_gates gates (fst e) /\ well_named (fst e)) l -> hist_run h l = (h', Ok tt) ->
  exists reached', newest gates reached' (last (map fst l) a) h'.
Proof.
  induction l as [|[b p] l IH]; intros reached a h h' Hn Hr Hm Hf H; cbn in *.
  - injection H as <-. exists reached. exact Hn.
  - destruct (hist_append h b p) as [h1 [[]|e]] eqn:E; [|discriminate]. destruct Hr as [Hstep Hr]. destruct Hm as [Hm1 Hm2].
    inversion Hf as [|? ? [Hg Hw] Hf']; subst. cbn in *.
    assert (Hn1 := newest_step gates reached a b p h h1 Hn Hstep Hm1 Hg Hw E).
    destruct (IH _ _ _ _ Hn1 Hr Hm2 Hf' H) as (reached' & Hl). exists reached'.
    destruct (map fst l) eqn:El; [exact Hl|]. rewrite <- El in *. clear - Hl El. destruct (map fst l); [discriminate|]. 
    replace (last (s0 :: l1) a) with (last (s0 :: l1) b); [exact Hl|]. clear. revert s0. induction l1; intros; [reflexivity|]. cbn in *. apply IHl1.
Qed.

(** ** Iterations of the autotuner are tuning steps *)
Lemma split_at {A} (l m : list A) i : length l = length m -> (i < length l)%nat -> (forall j, j <> i -> nth_error m j = nth_error l j) ->
  exists a x y b, length a = i /\ l = a ++ x :: b /\ m = a ++ y :: b.
Proof.
  revert m i. induction l as [|x l IH]; intros [|y m] i El Hi H; cbn in *; try lia.
  destruct i as [|i].
  - exists [], x, y, l. repeat split. cbn. f_equal. clear - H El. assert (E : forall j, nth_error m j = nth_error l j).
    { intros j. apply (H (S j)). lia. }
    injection El as El. clear H. revert m El E. induction l as [|z l IH]; intros [|u m] El E; cbn in *; try lia; [reflexivity|].
    f_equal; [specialize (E 0%nat); cbn in E; congruence|]. apply IH; [lia|]. intros j. apply (E (S j)).
  - destruct (IH m i) as (a & u & v & b & E1 & E2 & E3); [lia|lia|intros j Hj; apply (H (S j)); lia|].
    assert (y = x) as -> by (specialize (H 0%nat); cbn in H; assert (0 <> S i)%nat by lia; apply H in H0; congruence).
    exists (x :: a), u, v, b. cbn. rewrite E1, <- E2, <- E3. auto.
Qed.
Lemma iterate_step {W} (E : env W) obs s s' : local_env E obs -> (a_index (s_at s) <= e_n E)%nat -> iterate E s = (s', Ok tt) ->
  tuning_step (snapshot obs s) (snapshot obs s').
Proof.
  intros L Hb. destruct s as [a w tr].
  unfold iterate, ready_to_tune, save_current_status, do_set, do_eval, do_next;
  unfold bind, call, get_at, get_w, lift, raise, ret, put_at; cbn [s_at s_w s_tr].
  assert (L1 := lo_read E obs L w). destruct (e_read E w) as [w1 [volts|e1]]; cbn in L1 |- *; [|discriminate].
  assert (Hw : forall w2, obs (fst (e_write E w2)) = obs w2) by apply (lo_write E obs L).
  destruct a as [i st ts p]; cbn in Hb |- *. unfold is_tuning_complete; cbn [a_index].
  destruct ts as [v|]; cbn.
  - destruct (subset (index v) (index volts)); cbn; [|discriminate].
    destruct (views_coherent (index volts) (e_views E w1) true) as [[|]|e2]; cbn; try discriminate.
    destruct (i =? e_n E); cbn; [discriminate|]. destruct (any_na v); cbn; [discriminate|].
    destruct (e_log_step E v w1) as [[]|e3]; cbn; [|discriminate].
    assert (L2 := lo_set E obs L v w1). destruct (e_set E v w1) as [w2 [[]|e4]]; cbn in L2 |- *; [|discriminate].
    destruct p as [p|]; cbn.
    + specialize (Hw w2). destruct (e_write E w2) as [w3 r3]; cbn in Hw |- *. intros H; injection H as <- _. unfold snapshot; cbn.
      rewrite Hw, L2, L1. constructor.
    + intros H; injection H as <-. unfold snapshot; cbn. rewrite L2, L1. constructor.
  - destruct (views_coherent (index volts) (e_views E w1) true) as [[|]|e2]; cbn; try discriminate.
    destruct (Nat.eqb_spec i (e_n E)); cbn; [discriminate|]. destruct st; cbn.
    + match goal with |- context [e_next E i ?t w1] =>
        assert (L2 := lo_next E obs L i t w1); destruct (e_next E i t w1) as [w2 [v|e4]]; cbn in L2 |- *; [|discriminate] end.
      destruct p as [p|]; cbn.
      * specialize (Hw w2). destruct (e_write E w2) as [w3 r3]; cbn in Hw |- *. intros H; injection H as <- _. unfold snapshot; cbn.
        rewrite Hw, L2, L1. constructor.
      * intros H; injection H as <-. unfold snapshot; cbn. rewrite L2, L1. constructor.
    + assert (L2 := lo_read E obs L w1). destruct (e_read E w1) as [w2 [volts2|e3]]; cbn in L2 |- *; [|discriminate].
      assert (L3 := lo_eval E obs L i volts2 w2). destruct (e_is_tuned E i volts2 w2) as [w3 b]; cbn in L3.
      destruct (split_at (obs w2) (obs w3) i) as (a1 & x & y & b1 & El & E2 & E3); [rewrite !(lo_len E obs L); reflexivity|rewrite (lo_len E obs L); lia|exact L3|].
      destruct b as [[|]|e4]; cbn; [| |discriminate].
      * destruct p as [p|]; cbn.
        -- specialize (Hw w3). destruct (e_write E w3) as [w4 r4]; cbn in Hw |- *. intros H; injection H as <- _. unfold snapshot; cbn.
           rewrite Hw, E3, <- L1, <- L2, E2. constructor; exact El.
        -- intros H; injection H as <-. unfold snapshot; cbn. rewrite E3, <- L1, <- L2, E2. constructor; exact El.
      * destruct (e_log_dist E i w3) as [[]|e5]; cbn; [|discriminate]. destruct p as [p|]; cbn.
        -- specialize (Hw w3). destruct (e_write E w3) as [w4 r4]; cbn in Hw |- *. intros H; injection H as <- _. unfold snapshot; cbn.
           rewrite Hw, E3, <- L1, <- L2, E2. constructor; exact El.
        -- intros H; injection H as <-. unfold snapshot; cbn. rewrite E3, <- L1, <- L2, E2. constructor; exact El.
Qed.
