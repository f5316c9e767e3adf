From Verif Require Import PyBase TargetModel TunerModel TunerSpec SeriesLemmas TunerProofs SolverModel SolverSpec.
From Coq Require Import Lra ZArith Permutation.

Lemma insert_perm l ls : Permutation (insert_label l ls) (l :: ls).
Proof.
  induction ls as [|k ls IH]; cbn; [apply Permutation_refl|].
  destruct (String.leb l k); [apply Permutation_refl|].
  transitivity (k :: l :: ls); [constructor; assumption|constructor].
Qed.
Lemma sort_perm ls : Permutation (sort_labels ls) ls.
Proof.
  induction ls as [|l ls IH]; cbn; [constructor|].
  transitivity (l :: sort_labels ls); [apply insert_perm|constructor; assumption].
Qed.
Lemma sort_In l ls : In l (sort_labels ls) <-> In l ls.
Proof. split; apply Permutation_in; [apply sort_perm|apply Permutation_sym, sort_perm]. Qed.
Lemma sort_NoDup ls : NoDup ls -> NoDup (sort_labels ls).
Proof. apply Permutation_NoDup, Permutation_sym, sort_perm. Qed.

Lemma is_tab s : NoDup (index s) -> s = tab (index s) (fun l => get l s).
Proof.
  induction s as [|[k x] s IH]; intros Hnd; [reflexivity|].
  cbn in Hnd. inversion Hnd; subst. unfold tab, index, get; cbn. unfold label_eqb. rewrite String.eqb_refl. f_equal.
  rewrite IH at 1 by assumption. unfold tab. apply map_ext_in. intros l Hl. unfold get. cbn. unfold label_eqb.
  destruct (String.eqb_spec l k); [subst; contradiction|reflexivity].
Qed.

Lemma assign_tabs s ls' h : NoDup (index s) -> NoDup ls' ->
  assign s (tab ls' h) = (if subset ls' (index s) then Ok (tab (index s) (fun l => if mem l ls' then h l else get l s)) else Raise ValueError).
Proof.
  intros H1 H2. destruct (subset ls' (index s)) eqn:Hs.
  - apply subset_incl in Hs. rewrite (is_tab s H1) at 1. rewrite assign_tab by assumption. reflexivity.
  - unfold assign. rewrite index_tab, Hs. reflexivity.
Qed.

Lemma reindex_tab ls s : reindex ls s = tab ls (fun l => get l s).
Proof. reflexivity. Qed.

Section SD.
Context {S X : Type} (O : solver_ops S) (cheap expensive : X -> X * res (series * series)).

Local Arguments index : simpl never.
Local Arguments any_na : simpl never.
Local Arguments any_le : simpl never.
Local Arguments sort_series : simpl never.
Local Arguments assign : simpl never.
Local Arguments select : simpl never.
Local Ltac un :=
  unfold sd_is_tuned, sd_next, sd_evaluate;
  unfold tbind, temit, tget, tput, tsolver, teval, tlift, ttarget, tret, traise; cbn.

(** The values handed on by one evaluation. *)
Definition prepared (T : target) (raw : series) : series :=
  tab (sort_labels (index raw)) (scaled T raw).

Definition variances (T : target) (rawvar : series) : series :=
  tab (sort_labels (index rawvar)) (fun l => ndiv (get l rawvar) (nmul (factor T l) (factor T l))).

Lemma prepared_eq T raw rawvar :
  rescale_values T (sort_series raw) (sort_series rawvar) = (prepared T raw, variances T rawvar).
Proof. unfold sort_series. rewrite !reindex_tab; apply rescale_tab. Qed.

Lemma any_na_tab ls f : any_na (tab ls f) = true <-> exists l, In l ls /\ f l = NaN.
Proof.
  unfold any_na. rewrite existsb_exists. split.
  - intros [[l x] [Hin Hx]]. apply in_map_iff in Hin. destruct Hin as [k [Hk Hin]]. inversion Hk; subst.
    exists l. split; [assumption|]. cbn in Hx. destruct (f l); try discriminate. reflexivity.
  - intros [l [Hin Hx]]. exists (l, NaN). split; [|reflexivity]. apply in_map_iff. exists l. rewrite Hx. auto.
Qed.

Lemma column_get c T l : NoDup (t_index T) -> forall r, In r T -> t_name r = l -> get l (t_column c T) = cell c r.
Proof.
  induction T as [|q T IH]; intros Hnd r Hin Hn; [destruct Hin|].
  cbn in Hnd. inversion Hnd; subst. unfold get; cbn. unfold label_eqb.
  destruct Hin as [->|Hin]; [rewrite String.eqb_refl; reflexivity|].
  destruct (String.eqb_spec (t_name r) (t_name q)) as [He|Hne].
  - exfalso. apply H1. rewrite <- He. apply in_map. assumption.
  - apply (IH H2 r Hin eq_refl).
Qed.
Lemma column_out c T l : ~ In l (t_index T) -> get l (t_column c T) = NaN.
Proof.
  induction T as [|q T IH]; intros H; [reflexivity|]. unfold get; cbn. unfold label_eqb.
  destruct (String.eqb_spec l (t_name q)); [exfalso; apply H; left; auto|].
  apply IH. intros H'. apply H. right; assumption.
Qed.

Lemma any_le_below c T raw : NoDup (t_index T) -> any_le c T (prepared T raw) = true <-> below c T raw.
Proof.
  intros Hnd. unfold any_le, below, prepared. rewrite existsb_exists. split.
  - intros [[l x] [Hin Hx]]. apply in_map_iff in Hin. destruct Hin as [k [Hk Hin]]. inversion Hk; subst. clear Hk.
    rewrite sort_In in Hin. cbn [fst snd] in Hx. destruct (in_dec string_dec l (t_index T)) as [Hi|Ho].
    + apply in_map_iff in Hi. destruct Hi as [r [Hr Hi]]. exists r. rewrite Hr. repeat split; auto.
      rewrite (column_get c T l Hnd r Hi Hr) in Hx. assumption.
    + rewrite column_out in Hx by assumption. destruct (scaled T raw l); discriminate.
  - intros [r [Hr [Hin Hx]]]. exists (t_name r, scaled T raw (t_name r)). split.
    + apply in_map_iff. exists (t_name r). split; [reflexivity|apply sort_In; assumption].
    + cbn [fst snd]. rewrite (column_get c T _ Hnd r Hr eq_refl). assumption.
Qed.

Lemma sel_same s p ls f lp sel :
  NoDup (index s) -> NoDup ls -> p = tab ls f -> assign s p = Ok lp -> select (index p) lp = Ok sel -> sel = p.
Proof.
  intros H1 H2 -> Ha Hs. rewrite assign_tabs in Ha by assumption.
  destruct (subset ls (index s)) eqn:Hsub; [|discriminate]. inversion Ha; subst.
  apply subset_incl in Hsub. apply select_tab in Hs. subst. rewrite index_tab. apply tab_ext. intros l Hl.
  rewrite get_tab by auto. apply mem_In in Hl. rewrite Hl. reflexivity.
Qed.

Lemma NaN_dec (x : num) : x = NaN \/ x <> NaN.
Proof. destruct x; [left; reflexivity|right; discriminate..]. Qed.

Lemma known_dec T raw : any_na (prepared T raw) = false <-> all_known T raw.
Proof.
  unfold all_known. rewrite <- not_true_iff_false. unfold prepared. rewrite any_na_tab. split.
  - intros H l Hl Hn. apply H. exists l. split; [apply sort_In; assumption|assumption].
  - intros H [l [Hl Hn]]. rewrite sort_In in Hl. exact (H l Hl Hn).
Qed.

Local Ltac noexp :=
  match goal with
  | H : exists r, _ |- _ => destruct H as [? H]; repeat (destruct H as [H|H]; try discriminate); contradiction
  end.

(** *** C16 *)
Lemma sd_decision v s s' b :
  let T := so_target O (ts_s s) in
  (forall x r, snd (cheap x) = Ok r -> NoDup (index (fst r))) ->
  NoDup (t_index T) -> NoDup (index (t_params (ts_t s))) ->
  sd_is_tuned O cheap expensive v s = (s', Ok b) ->
  exists raw rawvar evs,
    snd (cheap (ts_x s)) = Ok (raw, rawvar) /\ ts_tr s' = evs ++ ts_tr s /\
    (b = true <-> all_known T raw /\ ~ below Minimum T raw) /\
    (t_failed (ts_t s') = true <-> ~ all_known T raw) /\
    ((exists r, In (TEval false r) evs) <-> all_known T raw /\ below Minimum T raw /\ below Cost T raw) /\
    (b = true -> filter is_update evs = []) /\
    (~ all_known T raw -> filter is_update evs = []) /\
    (b = false -> all_known T raw -> ~ below Cost T raw ->
       filter is_update evs = [TUpdate v (prepared T raw) (variances T rawvar) (Ok tt)]) /\
    (b = false -> all_known T raw -> below Cost T raw ->
       exists raw2 rawvar2, snd (expensive (fst (cheap (ts_x s)))) = Ok (raw2, rawvar2) /\
       filter is_update evs = [TUpdate v (prepared T raw2) (variances T rawvar2) (Ok tt)]).
Proof.
  intros T Hch Hnd Hndp. un. pose proof (Hch (ts_x s)) as Hc.
  destruct (cheap (ts_x s)) as [x' [[raw rawvar]|e]] eqn:Hce; cbn; [|discriminate]. cbn in Hc.
  specialize (Hc _ eq_refl). cbn in Hc.
  fold T.
  pose proof (prepared_eq T raw rawvar) as HP. unfold rescale_values in HP. injection HP as HP1 HP2. rewrite HP1, HP2.
  set (p := prepared T raw) in *. set (var := variances T rawvar) in *.
  destruct (assign (t_params (ts_t s)) p) as [lp|] eqn:Ha; cbn; [|discriminate].
  destruct (assign (t_vars (ts_t s)) var) as [lv|] eqn:Hv; cbn; [|discriminate].
  destruct (select (index p) lp) as [sel|] eqn:Hs; cbn; [|discriminate].
  assert (Hsel : sel = p).
  { eapply (sel_same (t_params (ts_t s)) p (sort_labels (index raw)) (scaled T raw)); eauto. apply sort_NoDup; assumption. }
  subst sel. pose proof (known_dec T raw) as HK. fold p in HK.
  destruct (any_na p) eqn:Hna; cbn.
  { assert (HnK : ~ all_known T raw) by (intros H; apply HK in H; discriminate).
    intros H; inversion H; subst; clear H. exists raw, rawvar, [TEval true (Ok (raw, rawvar)); TEnter v].
    cbn. split; [reflexivity|]. split; [reflexivity|]. repeat split; try tauto; try discriminate.
    all: noexp. }
  assert (HyK : all_known T raw) by (apply HK; reflexivity). clear HK.
  pose proof (any_le_below Minimum T raw Hnd) as HM. pose proof (any_le_below Cost T raw Hnd) as HC. fold p in HM, HC.
  destruct (any_le Minimum T p) eqn:Hmin; cbn.
  2:{ assert (HnM : ~ below Minimum T raw) by (intros H; apply HM in H; discriminate).
      intros H; inversion H; subst; clear H. exists raw, rawvar, [TEval true (Ok (raw, rawvar)); TEnter v].
      cbn. split; [reflexivity|]. split; [reflexivity|]. repeat split; try tauto; try discriminate.
      all: noexp. }
  assert (HyM : below Minimum T raw) by (apply HM; reflexivity). clear HM.
  destruct (any_le Cost T p) eqn:Hcost; cbn.
  - assert (HyC : below Cost T raw) by (apply HC; reflexivity). clear HC.
    destruct (expensive x') as [x2 [[raw2 rawvar2]|e]] eqn:Hex; cbn; [|discriminate].
    pose proof (prepared_eq T raw2 rawvar2) as HP'. unfold rescale_values in HP'. injection HP' as HP1' HP2'.
    rewrite HP1', HP2'.
    destruct (assign lp _) as [lp2|]; cbn; [|discriminate].
    destruct (assign lv _) as [lv2|]; cbn; [|discriminate].
    destruct (so_update O v _ _ (ts_s s)) as [S' [[]|e]]; cbn; [|discriminate].
    intros H; inversion H; subst; clear H.
    exists raw, rawvar, [TUpdate v (prepared T raw2) (variances T rawvar2) (Ok tt); TEval false (Ok (raw2, rawvar2)); TEval true (Ok (raw, rawvar)); TEnter v].
    cbn. split; [reflexivity|]. split; [reflexivity|]. repeat split; try tauto; try discriminate.
    + intros _. eexists. right; left; reflexivity.
    + intros _ _ _. exists raw2, rawvar2. split; reflexivity.
  - assert (HnC : ~ below Cost T raw) by (intros H; apply HC in H; discriminate). clear HC.
    destruct (so_update O v _ _ (ts_s s)) as [S' [[]|e]]; cbn; [|discriminate].
    intros H; inversion H; subst; clear H.
    exists raw, rawvar, [TUpdate v p var (Ok tt); TEval true (Ok (raw, rawvar)); TEnter v].
    cbn. split; [reflexivity|]. split; [reflexivity|]. repeat split; try tauto; try discriminate.
    all: noexp.
Qed.
End SD.

(** *** C18 *)
Lemma factor_good t l : good_factors t -> exists f, factor t l = Fin f /\ f <> 0%R.
Proof.
  intros H. unfold factor. destruct (find _ t) as [r|] eqn:Hf.
  - apply find_some in Hf. destruct Hf as [Hf _]. auto.
  - exists 1%R. split; [reflexivity|lra].
Qed.

Lemma inf_of_sign_div pos x : x <> 0%R -> inf_of_sign pos x = if Rltb x 0 then (if pos then MInf else PInf) else (if pos then PInf else MInf).
Proof.
  intros H. unfold inf_of_sign. destruct (Rltb 0 x) eqn:H1; destruct (Rltb x 0) eqn:H2; auto.
  - apply Rltb_true in H1, H2. lra.
  - apply Rltb_false in H1, H2. exfalso. apply H. lra.
Qed.

Lemma div_mul x f : f <> 0%R -> nmul (ndiv x (Fin f)) (Fin f) = x.
Proof.
  intros H. destruct x as [| | |r]; cbn.
  - reflexivity.
  - destruct (Rltb f 0) eqn:Hf; cbn; rewrite inf_of_sign_div, Hf by assumption; reflexivity.
  - destruct (Rltb f 0) eqn:Hf; cbn; rewrite inf_of_sign_div, Hf by assumption; reflexivity.
  - apply Reqb_false in H. rewrite H. cbn. f_equal. apply Reqb_false in H. field. assumption.
Qed.

Lemma rescale_descale t p var :
  good_factors t ->
  (let (p', var') := rescale_values t p var in descale_values t p' var') = (p, var).
Proof.
  intros H. unfold rescale_values, descale_values. rewrite !map_map. cbn.
  f_equal.
  - rewrite <- (map_id p) at 2. apply map_ext. intros [l x]. cbn.
    destruct (factor_good t l H) as [f [-> Hf]]. rewrite div_mul by assumption. reflexivity.
  - rewrite <- (map_id var) at 2. apply map_ext. intros [l x]. cbn.
    destruct (factor_good t l H) as [f [-> Hf]]. cbn [nmul].
    rewrite div_mul by (intros E; apply Hf; apply Rmult_integral in E; tauto). reflexivity.
Qed.

Lemma rescale_one t p var l x y :
  In (l, x) (fst (rescale_values t p var)) -> ~ In l (t_index t) ->
  (forall x', In (l, x') p -> exists r, x' = Fin r) ->
  In (l, x) p /\ (In (l, y) (snd (rescale_values t p var)) -> (forall y', In (l, y') var -> exists r, y' = Fin r) -> In (l, y) var).
Proof.
  intros Hin Hout Hfin.
  assert (Hf : factor t l = Fin 1).
  { unfold factor. destruct (find _ t) as [r|] eqn:E; [|reflexivity]. apply find_some in E. destruct E as [E1 E2].
    apply String.eqb_eq in E2. exfalso. apply Hout. rewrite <- E2. apply in_map. assumption. }
  assert (H1 : Reqb 1 0 = false) by (apply Reqb_false; lra).
  assert (H11 : Reqb (1 * 1) 0 = false) by (apply Reqb_false; lra).
  split.
  - cbn in Hin. apply in_map_iff in Hin. destruct Hin as [[k z] [Hk Hin]]. cbn in Hk. inversion Hk; subst.
    destruct (Hfin z Hin) as [r ->]. rewrite Hf in *. cbn. rewrite H1. replace (r / 1)%R with r by field. assumption.
  - intros Hin' Hfin'. cbn in Hin'. apply in_map_iff in Hin'. destruct Hin' as [[k z] [Hk Hz]]. cbn in Hk. inversion Hk; subst.
    destruct (Hfin' z Hz) as [r ->]. rewrite Hf in *. cbn. rewrite H11. replace (r / (1 * 1))%R with r by field. assumption.
Qed.

Lemma rescale_entry t p var l m f : NoDup (t_index t) ->
  (exists r, In r t /\ t_name r = l /\ t_rescale r = Fin f) -> f <> 0%R ->
  (In (l, Fin m) p -> In (l, Fin (m / f)) (fst (rescale_values t p var))) /\
  (In (l, Fin m) var -> In (l, Fin (m / (f * f))) (snd (rescale_values t p var))).
Proof.
  intros Hnd [r [Hr [Hn Hf]]] Hf0.
  assert (HF : factor t l = Fin f). { rewrite <- Hn, factor_row by assumption. assumption. }
  assert (H1 : Reqb f 0 = false) by (apply Reqb_false; assumption).
  assert (H2 : Reqb (f * f) 0 = false). { apply Reqb_false. intros E. apply Rmult_integral in E. tauto. }
  split; intros Hin; cbn; apply in_map_iff; exists (l, Fin m); split; auto; cbn; rewrite HF; cbn.
  - rewrite H1. reflexivity.
  - rewrite H2. reflexivity.
Qed.

(** *** C19 *)
Lemma intersection_In l a b : In l (intersection a b) <-> In l a /\ In l b.
Proof. unfold intersection. rewrite filter_In, mem_In. tauto. Qed.
Lemma intersection_NoDup a b : NoDup a -> NoDup (intersection a b).
Proof. apply NoDup_filter. Qed.

Lemma forwarded_In m values l g : NoDup (map fst m) ->
  In (l, g) (forwarded m values) <-> In l (index values) /\ In (l, Some g) m.
Proof.
  intros Hnd. unfold forwarded. rewrite in_flat_map. split.
  - intros [k [Hk Hin]]. destruct (find (fun q => label_eqb (fst q) k) m) as [[k' [g'|]]|] eqn:Hf; try destruct Hin as [Hin|[]]; try contradiction.
    inversion Hin; subst. apply find_some in Hf. destruct Hf as [Hf He]. apply String.eqb_eq in He. cbn in He. subst. auto.
  - intros [Hl Hin]. exists l. split; [assumption|].
    assert (Hf : find (fun q => label_eqb (fst q) l) m = Some (l, Some g)).
    { clear Hl. induction m as [|[k o] m IH]; [destruct Hin|]. cbn in *. inversion Hnd; subst. unfold label_eqb.
      destruct (String.eqb_spec k l) as [->|Hne].
      - destruct Hin as [Hin|Hin]; [inversion Hin; reflexivity|].
        exfalso. apply H1. apply in_map_iff. exists (l, Some g). auto.
      - destruct Hin as [Hin|Hin]; [inversion Hin; congruence|]. apply IH; assumption. }
    rewrite Hf. left; reflexivity.
Qed.

Lemma get_reindex l ls s : In l ls -> get l (reindex ls s) = get l s.
Proof. intros H. rewrite ?reindex_tab; rewrite get_tab by assumption. reflexivity. Qed.

Lemma get_descale t values var l : In l (index values) -> 
  get l (fst (descale_values t values var)) = nmul (get l values) (factor t l).
Proof.
  cbn. induction values as [|[k x] vs IH]; cbn; [tauto|]. intros H. unfold get; cbn. unfold label_eqb.
  destruct (String.eqb_spec l k) as [->|Hne]; [reflexivity|]. destruct H as [H|H]; [congruence|]. apply IH; assumption.
Qed.

Lemma lookup_map_pairs (ps : list (label * label)) (f : label -> num) l g :
  NoDup (map snd ps) -> In (l, g) ps -> lookup g (map (fun q => (snd q, f (fst q))) ps) = Some (f l).
Proof.
  induction ps as [|[k h] ps IH]; cbn; intros Hnd Hin; [tauto|]. inversion Hnd; subst. unfold label_eqb.
  destruct (String.eqb_spec g h) as [->|Hne].
  - destruct Hin as [Hin|Hin]; [inversion Hin; reflexivity|]. exfalso. apply H1. apply in_map_iff. exists (l, h). auto.
  - destruct Hin as [Hin|Hin]; [inversion Hin; congruence|]. apply IH; assumption.
Qed.
Lemma lookup_out (s : series) g : ~ In g (index s) -> lookup g s = None.
Proof.
  induction s as [|[k x] s IH]; cbn; intros H; [reflexivity|]. unfold label_eqb.
  destruct (String.eqb_spec g k); [exfalso; apply H; left; auto|]. apply IH. tauto.
Qed.

Lemma forwarded_NoDup_snd m values : NoDup (map fst m) -> NoDup (index values) ->
  (forall l l' g, In (l, Some g) m -> In (l', Some g) m -> l = l') ->
  NoDup (map snd (forwarded m values)).
Proof.
  intros Hnd Hndv Hinj.
  assert (H : forall vs, NoDup vs ->
    NoDup (map snd (flat_map (fun l => match find (fun q => label_eqb (fst q) l) m with
      | Some (_, Some g) => [(l, g)] | _ => [] end) vs)) /\
    forall g, In g (map snd (flat_map (fun l => match find (fun q => label_eqb (fst q) l) m with
      | Some (_, Some g) => [(l, g)] | _ => [] end) vs)) -> exists l, In l vs /\ In (l, Some g) m).
  { induction vs as [|l vs IH]; intros Hv; cbn; [split; [constructor|tauto]|].
    inversion Hv; subst. destruct (IH H2) as [IH1 IH2]. rewrite map_app.
    destruct (find (fun q => label_eqb (fst q) l) m) as [[k [g|]]|] eqn:Hf; cbn.
    - assert (Hk : In (l, Some g) m).
      { apply find_some in Hf. destruct Hf as [Hf He]. apply String.eqb_eq in He. cbn in He. subst. assumption. }
      split.
      + constructor; [|assumption]. intros Hin. destruct (IH2 g Hin) as [l' [Hl' Hm']].
        rewrite (Hinj l l' g Hk Hm') in H1. contradiction.
      + intros g' [<-|Hg']; [exists l; auto|]. destruct (IH2 g' Hg') as [l' [? ?]]. exists l'; auto.
    - split; [assumption|]. intros g' Hg'. destruct (IH2 g' Hg') as [l' [? ?]]. exists l'; auto.
    - split; [assumption|]. intros g' Hg'. destruct (IH2 g' Hg') as [l' [? ?]]. exists l'; auto. }
  apply (H (index values) Hndv).
Qed.

Lemma fwd_update_spec st pos values variances :
  index (fw_next st) = index (fw_cur st) -> NoDup (index (fw_cur st)) -> NoDup (index pos) -> NoDup (index values) ->
  NoDup (map fst (fw_map st)) ->
  (forall l l' g, In (l, Some g) (fw_map st) -> In (l', Some g) (fw_map st) -> l = l') ->
  (forall l g, In l (index values) -> In (l, Some g) (fw_map st) -> In g (index (fw_cur st))) ->
  exists st', fwd_update pos values variances st = (st', Ok tt) /\
    index (fw_next st') = index (fw_cur st) /\ index (fw_cur st') = index (fw_cur st) /\
    fw_target st' = fw_target st /\ fw_map st' = fw_map st /\
    (forall g, In g (index (fw_cur st)) ->
       forward_value (fw_target st) (fw_map st) pos values (fw_next st) g (get g (fw_next st'))) /\
    (forall g, In g (index (fw_cur st)) ->
       get g (fw_cur st') = if mem g (index pos) then get g pos else get g (fw_cur st)).
Proof.
  intros Hidx Hnd Hndp Hndv Hndm Hinj Hincl. unfold fwd_update.
  set (ls := intersection (index pos) (index (fw_cur st))).
  assert (Hls : NoDup ls) by (apply intersection_NoDup; assumption).
  assert (Hlsi : subset ls (index (fw_cur st)) = true).
  { apply subset_incl. intros l Hl. apply intersection_In in Hl. tauto. }
  rewrite ?reindex_tab; rewrite assign_tabs by assumption. rewrite Hlsi.
  rewrite assign_tabs by (rewrite ?Hidx; assumption). rewrite Hidx, Hlsi.
  set (new := map _ (forwarded _ _)).
  assert (Hnew : index new = map snd (forwarded (fw_map st) values)).
  { unfold new, index. rewrite map_map. reflexivity. }
  pose proof (forwarded_NoDup_snd _ values Hndm Hndv Hinj) as HndN.
  assert (Hnin : incl (index new) (index (fw_cur st))).
  { rewrite Hnew. intros g Hg. apply in_map_iff in Hg. destruct Hg as [[l g'] [<- Hg]]. apply forwarded_In in Hg; [|assumption].
    destruct Hg. eapply Hincl; eauto. }
  rewrite (is_tab new) by (rewrite Hnew; assumption).
  rewrite assign_tabs by (rewrite ?index_tab, ?Hnew; assumption). rewrite index_tab.
  assert (Hsub : subset (index new) (index (fw_cur st)) = true) by (apply subset_incl; assumption). rewrite Hsub.
  eexists. split; [reflexivity|]. cbn [fw_next fw_cur fw_target fw_map]. rewrite !index_tab.
  repeat split.
  - intros g Hg. rewrite get_tab by assumption.
    destruct (mem g (index new)) eqn:Hgn.
    + apply mem_In in Hgn. rewrite Hnew in Hgn. apply in_map_iff in Hgn. destruct Hgn as [[l g'] [<- Hgn]]. cbn.
      left. pose proof Hgn as Hgn'. apply forwarded_In in Hgn; [|assumption]. destruct Hgn as [Hl Hm].
      exists l. repeat split; auto. unfold get at 1. unfold new.
      rewrite (lookup_map_pairs _ (fun k => get k (fst (descale_values (fw_target st) values variances))) l g') by assumption.
      apply get_descale. assumption.
    + apply mem_false in Hgn.
      assert (Hno : forall l, In l (index values) -> ~ In (l, Some g) (fw_map st)).
      { intros l Hl Hm. apply Hgn. rewrite Hnew. apply in_map_iff. exists (l, g). split; [reflexivity|].
        apply forwarded_In; auto. }
      right. rewrite get_tab by assumption. destruct (mem g ls) eqn:Hgl.
      * apply mem_In in Hgl. apply intersection_In in Hgl. left. tauto.
      * apply mem_false in Hgl. right. repeat split; auto. intros Hgp. apply Hgl. apply intersection_In. auto.
  - intros g Hg. rewrite get_tab by assumption. destruct (mem g ls) eqn:Hgl.
    + apply mem_In in Hgl. apply intersection_In in Hgl. destruct Hgl as [Hgl _]. apply mem_In in Hgl. rewrite Hgl. reflexivity.
    + apply mem_false in Hgl. destruct (mem g (index pos)) eqn:Hgp; [|reflexivity].
      apply mem_In in Hgp. exfalso. apply Hgl. apply intersection_In. auto.
Qed.

(** *** C17 *)
Lemma get_In (s : series) l x : lookup l s = Some x -> In (l, x) s.
Proof.
  induction s as [|[k y] s IH]; cbn; [discriminate|]. unfold label_eqb. destruct (String.eqb_spec l k).
  - intros H; inversion H; subst. left; reflexivity.
  - intros H. right. apply IH. assumption.
Qed.
Lemma lookup_In_index (s : series) l : In l (index s) -> exists x, lookup l s = Some x.
Proof.
  induction s as [|[k y] s IH]; cbn; [tauto|]. intros H. unfold label_eqb. destruct (String.eqb_spec l k); [eauto|].
  destruct H; [congruence|auto].
Qed.

Lemma expensive_nan {X} (cheap expensive : X -> X * res (series * series)) v (s s' : tsys fwd X) b raw rawvar raw2 rawvar2 l g :
  let T := so_target fwd_ops (ts_s s) in
  let st := ts_s s in
  (forall x r, snd (cheap x) = Ok r -> NoDup (index (fst r))) ->
  NoDup (t_index T) -> NoDup (index (t_params (ts_t s))) ->
  index (fw_next st) = index (fw_cur st) -> NoDup (index (fw_cur st)) -> NoDup (index v) ->
  NoDup (map fst (fw_map st)) ->
  (forall l l' g, In (l, Some g) (fw_map st) -> In (l', Some g) (fw_map st) -> l = l') ->
  (forall l g, In (l, Some g) (fw_map st) -> In g (index (fw_cur st))) ->
  snd (cheap (ts_x s)) = Ok (raw, rawvar) ->
  all_known T raw -> below Minimum T raw -> below Cost T raw ->
  snd (expensive (fst (cheap (ts_x s)))) = Ok (raw2, rawvar2) -> NoDup (index raw2) ->
  In l (index raw2) -> get l raw2 = NaN -> In (l, Some g) (fw_map st) ->
  sd_is_tuned fwd_ops cheap expensive v s = (s', Ok b) ->
  b = false /\ t_failed (ts_t s') = false /\
  forall tuned, exists s'' w, sd_next fwd_ops tuned s' = (s'', Ok w) /\ In (g, NaN) w.
Proof.
  intros T st Hch HndT Hndp Hidx Hndc Hndv Hndm Hinj Hincl Hc HK HM HC He Hnd2 Hl Hnan Hmap Hrun.
  pose proof (sd_decision fwd_ops cheap expensive v s s' b Hch HndT Hndp Hrun) as HD.
  destruct HD as [r0 [rv0 [evs [Hc' [_ [Hb [Hf _]]]]]]]. rewrite Hc in Hc'. inversion Hc'; subst r0 rv0.
  assert (Hbf : b = false). { destruct b; [|reflexivity]. destruct Hb as [Hb _]. specialize (Hb eq_refl). tauto. }
  assert (Hff : t_failed (ts_t s') = false). { destruct (t_failed (ts_t s')) eqn:E; [|reflexivity]. destruct Hf as [Hf _]. specialize (Hf eq_refl). contradiction. }
  split; [assumption|]. split; [assumption|]. intros tuned.
  assert (Hnext : exists w, fw_next (ts_s s') = w /\ In (g, NaN) w).
  { eexists. split; [reflexivity|].
    revert Hrun. unfold sd_is_tuned, sd_evaluate, tbind, temit, tget, tput, tsolver, teval, tlift, ttarget, tret, traise.
    cbn -[assign select any_na any_le sort_series index rescale_values fwd_update prepared variances]; change (fw_target (ts_s s)) with T.
    destruct (cheap (ts_x s)) as [x' rc] eqn:Hce. cbn in Hc. subst rc. cbn -[assign select any_na any_le sort_series index rescale_values fwd_update prepared variances]; change (fw_target (ts_s s)) with T.
    cbn in He. change (fw_target (ts_s s)) with T.
    rewrite prepared_eq.
    cbn -[assign select any_na any_le sort_series index rescale_values fwd_update prepared variances]; change (fw_target (ts_s s)) with T.
    destruct (assign (t_params (ts_t s)) _) as [lp|] eqn:Ha; [|cbn; discriminate].
    cbn -[assign select any_na any_le sort_series index rescale_values fwd_update prepared variances]; change (fw_target (ts_s s)) with T.
    destruct (assign (t_vars (ts_t s)) _) as [lv|] eqn:Hv; [|cbn; discriminate].
    cbn -[assign select any_na any_le sort_series index rescale_values fwd_update prepared variances]; change (fw_target (ts_s s)) with T.
    destruct (select (index (prepared T raw)) lp) as [sel|] eqn:Hs; [|cbn; discriminate].
    cbn -[assign select any_na any_le sort_series index rescale_values fwd_update prepared variances]; change (fw_target (ts_s s)) with T.
    assert (Hsel : sel = prepared T raw).
    { eapply (sel_same (t_params (ts_t s)) (prepared T raw) (sort_labels (index raw)) (scaled T raw)); eauto; try reflexivity.
      apply sort_NoDup. specialize (Hch (ts_x s) (raw, rawvar)). rewrite Hce in Hch. apply Hch. reflexivity. }
    subst sel. apply known_dec in HK. rewrite HK.
    cbn -[assign select any_na any_le sort_series index rescale_values fwd_update prepared variances]; change (fw_target (ts_s s)) with T.
    apply any_le_below in HM; [|assumption]. rewrite HM. apply any_le_below in HC; [|assumption]. rewrite HC.
    cbn -[assign select any_na any_le sort_series index rescale_values fwd_update prepared variances]; change (fw_target (ts_s s)) with T.
    destruct (expensive x') as [x2 re]. cbn in He. subst re.
    cbn -[assign select any_na any_le sort_series index rescale_values fwd_update prepared variances]; change (fw_target (ts_s s)) with T.
    rewrite prepared_eq.
    cbn -[assign select any_na any_le sort_series index rescale_values fwd_update prepared variances]; change (fw_target (ts_s s)) with T.
    destruct (assign lp _) as [lp2|]; [|cbn; discriminate].
    cbn -[assign select any_na any_le sort_series index rescale_values fwd_update prepared variances]; change (fw_target (ts_s s)) with T.
    destruct (assign lv _) as [lv2|]; [|cbn; discriminate].
    cbn -[assign select any_na any_le sort_series index rescale_values fwd_update prepared variances]; change (fw_target (ts_s s)) with T.
    pose proof (fwd_update_spec (ts_s s) v (prepared T raw2) (variances T rawvar2)) as HU.
    assert (Hpi : index (prepared T raw2) = sort_labels (index raw2)) by apply index_tab.
    destruct HU as [st' [HU1 [HU2 [_ [_ [_ [HU3 _]]]]]]]; auto.
    - rewrite Hpi. apply sort_NoDup. assumption.
    - intros l0 g0 _ Hm0. eapply Hincl; eauto.
    - rewrite HU1. cbn. intros H; inversion H; subst; clear H. cbn.
      assert (Hg : In g (index (fw_cur (ts_s s)))) by (eapply Hincl; eauto).
      specialize (HU3 g Hg).
      assert (Hx : get g (fw_next st') = NaN).
      { destruct HU3 as [[l' [Hl' [Hm' ->]]]|[[Hno _]|[Hno _]]].
        - assert (l' = l) by (eapply Hinj; eauto). subst l'.
          rewrite Hpi in Hl'. unfold prepared. rewrite get_tab by assumption. unfold scaled. rewrite Hnan. reflexivity.
        - exfalso. apply (Hno l); [rewrite Hpi; apply sort_In; assumption|assumption].
        - exfalso. apply (Hno l); [rewrite Hpi; apply sort_In; assumption|assumption]. }
      assert (Hgi : In g (index (fw_next st'))) by (rewrite HU2; assumption).
      destruct (lookup_In_index _ _ Hgi) as [x Hlx]. unfold get in Hx. rewrite Hlx in Hx. subst x. apply get_In. assumption. }
  destruct Hnext as [w [Hw Hin]]. unfold sd_next, tbind, tget, tsolver. rewrite Hff. cbn.
  eexists. exists w. split; [|assumption]. rewrite Hw. reflexivity.
Qed.
