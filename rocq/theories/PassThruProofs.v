From Coq Require Import Reals List String Bool Arith Lra Lia.
From Verif Require Import PyExn PyBase SeriesLemmas EvaluatorModel PassThruModel PassThruSpec.
Import ListNotations.

Lemma nan_tab ps : nan_series ps = tab ps (fun _ => NaN).
Proof. reflexivity. Qed.

Definition over (s : series) (f : label -> num) (k : label) : num := match lookup k s with Some v => v | None => f k end.
Lemma lookup_notin k (s : series) : ~ In k (map fst s) -> lookup k s = None.
Proof.
  induction s as [|[l v] s IH]; cbn; auto. intros H. unfold label_eqb. destruct (String.eqb_spec k l); [subst; tauto|]. auto.
Qed.
Lemma over_cons ls p v (s : series) f : NoDup (p :: map fst s) ->
  tab ls (over s (fun k => if label_eqb k p then v else f k)) = tab ls (over ((p, v) :: s) f).
Proof.
  intros N. inversion N; subst. apply tab_ext. intros k _. unfold over. cbn. unfold label_eqb.
  destruct (String.eqb_spec k p); auto. subst. rewrite lookup_notin; auto.
Qed.

Definition values_of (ps : list label) (pairs : list (num * num)) : series :=
  map (fun q => (fst q, fst (snd q))) (combine ps pairs).
Definition errors_of (E Rf : label -> num) (ps : list label) (pairs : list (num * num)) : series :=
  map (fun q => (fst q, scaled (E (fst q)) (snd (snd q)) (Rf (fst q)))) (combine ps pairs).
Lemma keys_values ps : forall pairs, map fst (values_of ps pairs) = firstn (List.length pairs) ps.
Proof. induction ps as [|p ps IH]; intros [|q pairs]; cbn; auto. rewrite <- (IH pairs). reflexivity. Qed.
Lemma keys_errors E Rf ps : forall pairs, map fst (errors_of E Rf ps pairs) = firstn (List.length pairs) ps.
Proof. induction ps as [|p ps IH]; intros [|q pairs]; cbn; auto. rewrite <- (IH pairs). reflexivity. Qed.
Lemma NoDup_firstn (A : Type) n (l : list A) : NoDup l -> NoDup (firstn n l).
Proof.
  intros H. rewrite <- (firstn_skipn n l) in H. revert H. generalize (skipn n l). generalize (firstn n l).
  induction l0 as [|x l0 IH]; intros l1 H; [constructor|]. cbn in H. inversion H; subst.
  constructor; eauto. intros I. apply H2. apply in_or_app. auto.
Qed.
Lemma In_firstn (A : Type) (x : A) n : forall l, In x (firstn n l) -> In x l.
Proof. induction n; intros [|y l]; cbn; intuition. Qed.

Lemma deal_plain_tab error reference (E Rf : label -> num) ls : NoDup ls ->
  (forall p, In p ls -> lookup p error = Some (E p) /\ lookup p reference = Some (Rf p)) ->
  forall ps vs ss f g, incl ps ls -> NoDup ps ->
  deal_plain error reference ps vs ss (tab ls f, tab ls g) =
  Ok (tab ls (over (values_of ps (combine vs ss)) f), tab ls (over (errors_of E Rf ps (combine vs ss)) g)).
Proof.
  intros ND K. induction ps as [|p ps IH]; intros vs ss f g I N; [reflexivity|].
  destruct vs as [|v vs]; [reflexivity|]. destruct ss as [|s ss]; [reflexivity|].
  assert (Ip : In p ls) by (apply I; left; reflexivity).
  assert (I' : incl ps ls) by (intros q Q; apply I; right; exact Q).
  assert (Np : ~ In p ps /\ NoDup ps) by (inversion N; auto). destruct Np as [Np N'].
  destruct (K p Ip) as [Ke Kr]. cbn [deal_plain]. rewrite Ke, Kr. cbn [fst snd].
  rewrite set_label_tab by exact ND.
  assert (St : forall w, deal_plain error reference ps vs ss
            (tab ls (fun k => if label_eqb k p then v else f k), set_label p w (tab ls g)) =
          Ok (tab ls (over ((p, v) :: values_of ps (combine vs ss)) f), tab ls (over ((p, w) :: errors_of E Rf ps (combine vs ss)) g))).
  { intros w. rewrite set_label_tab by exact ND. rewrite IH by auto. f_equal. f_equal; apply over_cons.
    - rewrite keys_values. constructor; [|apply NoDup_firstn; auto]. intros J. apply In_firstn in J. auto.
    - rewrite keys_errors. constructor; [|apply NoDup_firstn; auto]. intros J. apply In_firstn in J. auto. }
  cbn [combine]. unfold values_of, errors_of. cbn [combine map fst snd]. fold (values_of ps (combine vs ss)). fold (errors_of E Rf ps (combine vs ss)).
  unfold scaled. destruct (isna s); cbn [orb]; [apply St|]. destruct (isna (Rf p)); apply St.
Qed.
Lemma deal_line_tab ls : NoDup ls ->
  forall ps vs ss f g, incl ps ls -> NoDup ps ->
  deal_line ps vs ss (tab ls f, tab ls g) =
  (tab ls (over (values_of ps (combine vs ss)) f), tab ls (over (map (fun q => (fst q, snd (snd q))) (combine ps (combine vs ss))) g)).
Proof.
  intros ND. induction ps as [|p ps IH]; intros vs ss f g I N; [reflexivity|].
  destruct vs as [|v vs]; [reflexivity|]. destruct ss as [|s ss]; [reflexivity|].
  assert (I' : incl ps ls) by (intros q Q; apply I; right; exact Q).
  assert (Np : ~ In p ps /\ NoDup ps) by (inversion N; auto). destruct Np as [Np N'].
  assert (KL : forall l : list (num * num), map fst (map (fun q : label * (num * num) => (fst q, snd (snd q))) (combine ps l)) = firstn (List.length l) ps).
  { clear. induction ps as [|p ps IH]; intros [|q l]; cbn; auto. rewrite <- (IH l). reflexivity. }
  cbn [deal_line fst snd]. rewrite !set_label_tab by exact ND. rewrite IH by auto.
  unfold values_of. cbn [combine map fst snd]. fold (values_of ps (combine vs ss)).
  f_equal; apply over_cons.
  - rewrite keys_values. constructor; [|apply NoDup_firstn; auto]. intros J. apply In_firstn in J. auto.
  - rewrite KL. constructor; [|apply NoDup_firstn; auto]. intros J. apply In_firstn in J. auto.
Qed.

(** The entry of the i-th parameter. *)
Lemma lookup_combine (A : Type) (h : label -> A -> num) : forall ps (l : list A) i p, NoDup ps -> nth_error ps i = Some p ->
  lookup p (map (fun q => (fst q, h (fst q) (snd q))) (combine ps l)) = option_map (h p) (nth_error l i).
Proof.
  induction ps as [|q ps IH]; intros l i p N H; [destruct i; discriminate|]. inversion N; subst.
  destruct l as [|a l]; [destruct i; reflexivity|]. destruct i as [|i]; cbn in *.
  - injection H as ->. unfold label_eqb. rewrite String.eqb_refl. reflexivity.
  - unfold label_eqb. destruct (String.eqb_spec p q) as [->|_].
    + exfalso. apply H2. eapply nth_error_In; eauto.
    + apply IH; auto.
Qed.

(** Contributions. *)
Lemma close_vanishes s : close_to_zero s = vanishes s.
Proof.
  destruct s as [| | |q]; try reflexivity. cbn. unfold Rleb. destruct (Rle_dec (Rabs q) (1 / 100000000)), (Rle_dec (Rabs q * 100000000) 1); auto; exfalso; lra.
Qed.
Lemma contribution_plain name r : enough name r -> name <> "line"%string ->
  exists vs ss, contribution name r = Ok (vs, ss, []) /\ combine vs ss = own name r /\ List.length vs = List.length ss /\ vs = own_values name r.
Proof.
  intros (E1 & _ & E3) N. unfold contribution, own, own_values, own_residual.
  destruct (String.eqb_spec name "lead") as [->|N1]; [|destruct (String.eqb_spec name "line") as [->|N2]; [congruence|]; destruct (String.eqb_spec name "resp") as [->|N3]].
  - assert (R : r <> []) by auto. destruct r as [|a r]; [congruence|].
    do 2 eexists. split; [reflexivity|].
    assert (L : List.length (removelast (a :: r)) = List.length (a :: r) - 1).
    { rewrite (app_removelast_last NaN R) at 2. rewrite app_length. cbn [List.length]. lia. }
    split; [|split; auto]. 2: rewrite repeat_length; exact L.
    rewrite <- L. generalize (last (a :: r) NaN). generalize (removelast (a :: r)). clear.
    intros l b. induction l as [|x l IH]; auto. cbn [List.length repeat combine seq map nth]. f_equal.
    rewrite <- seq_shift, map_map. exact IH.
  - assert (R : 8 <= List.length r) by auto.
    replace (List.length r <? 8) with false by (symmetry; apply Nat.ltb_ge; lia).
    do 9 (destruct r as [|? r]; [cbn in R; try lia|]); try (cbn in R; lia);
    (do 2 eexists; split; [reflexivity|]; split; [|split; reflexivity]; cbn;
     repeat match goal with |- context [close_to_zero ?q || isna ?q] =>
       replace (if close_to_zero q || isna q then NaN else q) with (if vanishes q then NaN else q) by (rewrite <- close_vanishes; destruct q; cbn; try reflexivity; rewrite orb_false_r; reflexivity) end; reflexivity).
  - do 2 eexists. split; [reflexivity|]. split; [|split; auto]. 2: rewrite repeat_length; reflexivity.
    clear. induction r as [|x l IH]; auto. cbn [List.length repeat combine seq map nth]. f_equal.
    rewrite <- seq_shift, map_map. exact IH.
Qed.
Lemma combine_app (A B : Type) : forall (a a' : list A) (b b' : list B), List.length a = List.length b ->
  combine (a ++ a') (b ++ b') = combine a b ++ combine a' b'.
Proof. induction a as [|x a IH]; intros a' [|y b] b' H; cbn in *; try discriminate; auto. f_equal. apply IH. lia. Qed.

Lemma gather_plain x : forall names k rs files g, measured x k names rs -> ~ In "line"%string names ->
  List.length (g_values g) = List.length (g_residuals g) ->
  exists files' g', gather x names k files g = (k + List.length names, files', Ok g') /\
    List.length (g_values g') = List.length (g_residuals g') /\
    combine (g_values g') (g_residuals g') = combine (g_values g) (g_residuals g) ++ all_own names rs.
Proof.
  induction names as [|name names IH]; intros k rs files g M N L; destruct rs as [|r rs]; try contradiction.
  - exists files, g. cbn. rewrite app_nil_r, Nat.add_0_r. auto.
  - destruct M as (O & [f F] & E & M). cbn [gather]. rewrite O, F.
    destruct (contribution_plain name r E) as (vs & ss & C & Cv & Lv & _). { intros ->. apply N. left. reflexivity. }
    rewrite C.
    destruct (IH (S k) rs (files ++ [f]) (mk_gathered (g_values g ++ vs) (g_residuals g ++ ss) (g_variances g ++ []))) as (files' & g' & G & Lg & Cg); auto.
    { intros I. apply N. right. exact I. }
    { cbn. rewrite !app_length. lia. }
    exists files', g'. rewrite G. split; [f_equal; f_equal; cbn; lia|]. split; auto.
    rewrite Cg. cbn. rewrite combine_app by exact L. rewrite Cv, app_assoc. reflexivity.
Qed.
(** Any mixture: the values. *)
Fixpoint all_values (names : list string) (rs : list (list num)) : list num :=
  match names, rs with
  | name :: names', r :: rs' => own_values name r ++ all_values names' rs'
  | _, _ => []
  end.
Fixpoint all_variances (names : list string) (rs : list (list num)) : list num :=
  match names, rs with
  | name :: names', r :: rs' => (if String.eqb name "line" then [nth 1 r NaN] else []) ++ all_variances names' rs'
  | _, _ => []
  end.
Lemma contribution_any name r : enough name r ->
  exists vs ss ws, contribution name r = Ok (vs, ss, ws) /\ vs = own_values name r /\ List.length vs <= List.length ss /\
    ws = if String.eqb name "line" then [nth 1 r NaN] else [].
Proof.
  intros E. destruct (String.eqb_spec name "line") as [->|N].
  - destruct E as (_ & E & _). specialize (E eq_refl). destruct r as [|a [|b r]]; cbn in E; try lia.
    do 3 eexists. split; [reflexivity|]. split; [reflexivity|]. split; [cbn; lia|reflexivity].
  - destruct (contribution_plain name r E N) as (vs & ss & C & _ & L & O). exists vs, ss, []. split; auto. split; auto. split; auto. lia.
Qed.
Lemma gather_any x : forall names k rs files g, measured x k names rs ->
  List.length (g_values g) <= List.length (g_residuals g) ->
  exists files' g', gather x names k files g = (k + List.length names, files', Ok g') /\
    List.length (g_values g') <= List.length (g_residuals g') /\
    g_values g' = g_values g ++ all_values names rs /\ g_variances g' = g_variances g ++ all_variances names rs.
Proof.
  induction names as [|name names IH]; intros k rs files g M L; destruct rs as [|r rs]; try contradiction.
  - exists files, g. cbn. rewrite !app_nil_r, Nat.add_0_r. auto.
  - destruct M as (O & [f F] & E & M). cbn [gather]. rewrite O, F.
    destruct (contribution_any name r E) as (vs & ss & ws & C & Cv & Lv & Cw). rewrite C.
    destruct (IH (S k) rs (files ++ [f]) (mk_gathered (g_values g ++ vs) (g_residuals g ++ ss) (g_variances g ++ ws))) as (files' & g' & G & Lg & Gv & Gw); auto.
    { cbn. rewrite !app_length. lia. }
    exists files', g'. rewrite G. split; [f_equal; f_equal; cbn; lia|]. split; auto.
    cbn [g_values g_variances all_values all_variances] in *. rewrite Gv, Gw, Cv, Cw, !app_assoc. auto.
Qed.
Lemma gather_files x post : forall pre k rs files g, measured x k pre rs ->
  exists fs g', gather x (pre ++ post) k files g = gather x post (k + List.length pre) (files ++ fs) g' /\
    map (fun i => file_name x (k + i)) (seq 0 (List.length pre)) = map (@Ok string) fs.
Proof.
  induction pre as [|name pre IH]; intros k rs files g M; destruct rs as [|r rs]; try contradiction.
  - exists [], g. rewrite app_nil_r, Nat.add_0_r. auto.
  - destruct M as (O & [f F] & E & M). cbn [app gather]. rewrite O, F.
    destruct (contribution_any name r E) as (vs & ss & ws & C & _). rewrite C.
    destruct (IH (S k) rs (files ++ [f]) (mk_gathered (g_values g ++ vs) (g_residuals g ++ ss) (g_variances g ++ ws)) M) as (fs & g' & G & Q).
    exists (f :: fs), g'. split; [rewrite G, <- app_assoc; f_equal; cbn; lia|].
    cbn [List.length seq map]. rewrite Nat.add_0_r, F. f_equal. rewrite <- Q, <- seq_shift, map_map. apply map_ext. intros i. f_equal. lia.
Qed.
Lemma contribution_short name r : ~ enough name r -> contribution name r = Raise IndexError.
Proof.
  intros N. unfold contribution.
  destruct (String.eqb_spec name "lead") as [->|N1]; [|destruct (String.eqb_spec name "line") as [->|N2]; [|destruct (String.eqb_spec name "resp") as [->|N3]]].
  - destruct r; [reflexivity|]. exfalso. apply N. repeat split; intros; discriminate.
  - destruct r as [|a [|b r]]; try reflexivity. exfalso. apply N. repeat split; intros; try discriminate. cbn. lia.
  - destruct (Nat.ltb_spec (List.length r) 8); [reflexivity|]. exfalso. apply N. repeat split; intros; try discriminate. assumption.
  - exfalso. apply N. repeat split; intros; congruence.
Qed.
Lemma gather_fail x e : forall names k files g i,
  outcome x (k + i) = Raise e -> i < List.length names ->
  exists n files' e', gather x names k files g = (n, files', Raise e').
Proof.
  induction names as [|name names IH]; intros k files g i O L; cbn in L; [lia|]. cbn [gather].
  destruct (outcome x k) as [r|] eqn:Ok; [|eauto]. destruct (file_name x k) as [f|]; [|eauto].
  destruct (contribution name r) as [[[v s] w]|]; [|eauto].
  destruct i as [|i]. { rewrite Nat.add_0_r in O. congruence. }
  apply (IH (S k) _ _ i). { replace (S k + i) with (k + S i) by lia. exact O. } lia.
Qed.
Lemma gather_done x : forall names k files g n files' g',
  gather x names k files g = (n, files', Ok g') -> n = k + List.length names.
Proof.
  induction names as [|name names IH]; intros k files g n files' g' H; cbn [gather] in H.
  - injection H as <- _ _. cbn. lia.
  - destruct (outcome x k) as [r|]; [|discriminate]. destruct (file_name x k) as [f|]; [|discriminate].
    destruct (contribution name r) as [[[v s] w]|]; [|discriminate]. apply IH in H. cbn. lia.
Qed.

Lemma set_nan p ps : set_label p NaN (nan_series ps) = nan_series ps.
Proof.
  unfold nan_series. induction ps as [|q qs IH]; [reflexivity|]. cbn [map set_label].
  destruct (label_eqb p q); [reflexivity|]. rewrite IH. reflexivity.
Qed.
Lemma lookup_nan p ps e : lookup p (nan_series ps) = Some e -> e = NaN.
Proof.
  unfold nan_series. induction ps as [|q qs IH]; cbn; [discriminate|]. destruct (label_eqb p q); auto. congruence.
Qed.

Section Evaluations.
Variable x : experiment.
Variable names : list string.
Variable parameters : list label.
Variable reference : series.
Notation eval := (evaluate x names parameters reference).
Notation eval_known := (evaluate_known x names parameters reference).

Lemma last_not_line : names <> [] -> ~ In "line"%string names -> String.eqb (last names ""%string) "line" = false.
Proof.
  intros NE N. destruct (String.eqb_spec (last names ""%string) "line"); auto. exfalso. apply N. rewrite <- e.
  rewrite (app_removelast_last ""%string NE) at 2. apply in_or_app. right. left. reflexivity.
Qed.
Lemma eval_known_plain error E Rf s rs :
  NoDup parameters -> names <> [] -> ~ In "line"%string names ->
  (forall p, In p parameters -> lookup p error = Some (E p) /\ lookup p reference = Some (Rf p)) ->
  measured x (pt_done s) names rs ->
  exists files,
  eval_known error s =
    (mk_passthru (pt_error s) files (S (pt_count s)) [pt_count s]
       (map (over (values_of parameters (all_own names rs)) (fun _ => NaN)) parameters) (pt_done s + List.length names),
     Ok (tab parameters (over (values_of parameters (all_own names rs)) (fun _ => NaN)),
         tab parameters (over (errors_of E Rf parameters (all_own names rs)) (fun _ => NaN)))).
Proof.
  intros ND NE NL K M. unfold evaluate_known.
  destruct (gather_plain x names (pt_done s) rs [] (mk_gathered [] [] []) M NL eq_refl) as (files & g & G & L & C).
  rewrite G. rewrite (last_not_line NE NL). rewrite nan_tab.
  destruct names as [|n0 ns] eqn:En; [congruence|]. rewrite <- En in *.
  rewrite (deal_plain_tab error reference E Rf parameters ND) by (auto using incl_refl).
  rewrite C. cbn [combine app g_values g_residuals].
  exists files. cbn [fst]. f_equal. f_equal. unfold tab. rewrite map_map. reflexivity.
Qed.
Lemma eval_known_error error s : pt_error (fst (eval_known error s)) = pt_error s.
Proof.
  unfold evaluate_known. destruct (gather x names (pt_done s) [] (mk_gathered [] [] [])) as [[k files] [g|e]]; auto.
  cbv zeta. destruct (match names with [] => _ | _ => _ end) as [out|e]; auto.
Qed.
Lemma evaluations_error error : forall m s, pt_error s = Some error -> pt_error (evaluations x names parameters reference m s) = Some error.
Proof.
  induction m as [|m IH]; intros s H; auto. cbn. apply IH. unfold evaluate. rewrite H. rewrite eval_known_error. exact H.
Qed.
Lemma deal_plain_nan : forall ps vs ss a out,
  deal_plain (nan_series parameters) reference ps vs ss (a, nan_series parameters) = Ok out -> snd out = nan_series parameters.
Proof.
  pose proof (fun p => set_nan p parameters) as Z. pose proof (fun p e => lookup_nan p parameters e) as W.
  induction ps as [|p ps IH]; intros vs ss a out H. { injection H as <-. reflexivity. }
  destruct vs as [|v vs]; [injection H as <-; reflexivity|]. destruct ss as [|s ss]; [injection H as <-; reflexivity|].
  cbn [deal_plain] in H. destruct (lookup p (nan_series parameters)) as [e|] eqn:El; [|discriminate].
  apply W in El. subst e. cbn [fst snd] in H. cbv zeta in H.
  destruct (isna s). { rewrite Z in H. apply IH in H. exact H. }
  destruct (lookup p reference) as [r|]; [|discriminate].
  destruct (isna r); [|change (ndiv (nmul NaN s) r) with NaN in H]; rewrite Z in H; apply IH in H; exact H.
Qed.
Lemma eval_known_nan s s' result err : names <> [] -> ~ In "line"%string names ->
  eval_known (nan_series parameters) s = (s', Ok (result, err)) -> err = nan_series parameters.
Proof.
  intros NE NL. unfold evaluate_known. rewrite (last_not_line NE NL).
  destruct (gather x names (pt_done s) [] (mk_gathered [] [] [])) as [[k files] [g|e]]; [|discriminate].
  cbv zeta. destruct names as [|n0 ns]; [congruence|].
  destruct (deal_plain _ _ _ _ _ _) as [out|e] eqn:D; [|discriminate].
  intros H. injection H as _ H. apply deal_plain_nan in D. rewrite <- D. rewrite H. reflexivity.
Qed.

Definition reading (rs : list (list num)) : series :=
  tab parameters (over (values_of parameters (all_own names rs)) (fun _ => NaN)).
Lemma estimate_ok (Rf : label -> num) : NoDup parameters -> names <> [] -> ~ In "line"%string names ->
  (forall p, In p parameters -> lookup p reference = Some (Rf p)) ->
  forall n s (rs : nat -> list (list num)),
  (forall j, j < n -> measured x (pt_done s + j * List.length names) names (rs j)) ->
  exists s', estimate x names parameters reference n s = (s', Ok (map (fun j => reading (rs j)) (seq 0 n))) /\
    pt_done s' = pt_done s + n * List.length names /\ pt_error s' = pt_error s /\ pt_count s' = pt_count s + n.
Proof.
  intros ND NE NL K. induction n as [|n IH]; intros s rs M.
  - exists s. cbn. rewrite !Nat.add_0_r. auto.
  - cbn [estimate]. assert (M0 : measured x (pt_done s) names (rs 0)).
    { specialize (M 0). cbn in M. rewrite Nat.add_0_r in M. apply M. lia. }
    destruct (eval_known_plain (nan_series parameters) (fun _ => NaN) Rf s (rs 0) ND NE NL) as [files E]; auto.
    { intros p I. split; auto. rewrite nan_tab, lookup_tab. apply mem_In in I. rewrite I. reflexivity. }
    rewrite E. set (s1 := mk_passthru _ _ _ _ _ _) in *.
    destruct (IH s1 (fun j => rs (S j))) as (s' & E' & D & Er & C).
    { intros j Hj. cbn [pt_done s1]. replace (pt_done s + List.length names + j * List.length names) with (pt_done s + S j * List.length names) by (cbn; lia).
      apply M. lia. }
    rewrite E'. exists s'. split.
    { f_equal. f_equal. cbn [seq map]. f_equal. rewrite <- seq_shift, map_map. reflexivity. }
    rewrite D, Er, C. cbn. split; [lia|]. split; [reflexivity|lia].
Qed.
Lemma eval_known_fail error s i e : outcome x (pt_done s + i) = Raise e -> i < List.length names ->
  exists s' e', eval_known error s = (s', Raise e') /\ pt_error s' = pt_error s.
Proof.
  intros O L. unfold evaluate_known.
  destruct (gather_fail x e names (pt_done s) [] (mk_gathered [] [] []) i O L) as (n & f & e' & G). rewrite G.
  do 2 eexists. split; reflexivity.
Qed.
Lemma eval_known_done error s s' out : eval_known error s = (s', Ok out) -> pt_done s' = pt_done s + List.length names.
Proof.
  unfold evaluate_known. destruct (gather x names (pt_done s) [] (mk_gathered [] [] [])) as [[k files] [g|e]] eqn:G; [|discriminate].
  apply gather_done in G. cbv zeta. destruct (match names with [] => _ | _ => _ end) as [o|e]; [|discriminate].
  intros H. injection H as <- _. exact G.
Qed.
Lemma estimate_fail e : forall n s i, outcome x (pt_done s + i) = Raise e -> i < n * List.length names ->
  exists s' e', estimate x names parameters reference n s = (s', Raise e') /\ pt_error s' = pt_error s.
Proof.
  induction n as [|n IH]; intros s i O L; [lia|]. cbn [estimate].
  destruct (eval_known (nan_series parameters) s) as [s1 [[result err]|e1]] eqn:E.
  - pose proof (eval_known_done _ _ _ _ E) as D. pose proof (eval_known_error (nan_series parameters) s) as Er. rewrite E in Er. cbn [fst] in Er.
    destruct (le_lt_dec (List.length names) i) as [G|G].
    + destruct (IH s1 (i - List.length names)) as (s' & e' & E' & Er').
      { rewrite D. replace (pt_done s + List.length names + (i - List.length names)) with (pt_done s + i) by lia. exact O. }
      { cbn in L. lia. }
      rewrite E'. exists s', e'. split; [reflexivity|]. congruence.
    + destruct (eval_known_fail (nan_series parameters) s i e O G) as (s2 & e2 & E2 & _). congruence.
  - exists s1, e1. split; [reflexivity|]. pose proof (eval_known_error (nan_series parameters) s) as Er. rewrite E in Er. exact Er.
Qed.
End Evaluations.
