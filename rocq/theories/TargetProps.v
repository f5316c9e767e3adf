(** Properties C50 and C99: construction and changes of the targets. *)
From Verif Require Import PyBase TargetModel SeriesLemmas AutotunerModel AutotunerSpec AutotunerProofs.
From Coq Require Import Lia.
Local Open Scope string_scope.
Local Open Scope list_scope.

(** One row after some changes: each cell has the new value given for it or is
    unchanged. *)
Definition row_changed (chs : list (column * series)) (r r' : trow) : Prop :=
  t_name r' = t_name r /\
  forall c, (forall ch v, In (c, ch) chs -> In (t_name r, v) ch -> cell c r' = v) /\
            ((forall ch, In (c, ch) chs -> ~ In (t_name r) (index ch)) -> cell c r' = cell c r).
(** A table after some changes, row by row. *)
Definition target_changed (chs : list (column * series)) (t t' : target) : Prop := Forall2 (row_changed chs) t t'.
(** Changes as they come from a dict of Series: each category once, each
    parameter once. *)
Definition proper_changes (chs : list (column * series)) : Prop :=
  NoDup (map fst chs) /\ forall c ch, In (c, ch) chs -> NoDup (index ch).
(** Only parameters of the target are named. *)
Definition known (chs : list (column * series)) (t : target) : Prop :=
  forall c ch l, In (c, ch) chs -> In l (index ch) -> In l (t_index t).

Lemma cell_set c v r : cell c (set_cell c v r) = v.
Proof. destruct c; reflexivity. Qed.
Lemma cell_set_other c d v r : c <> d -> cell d (set_cell c v r) = cell d r.
Proof. destruct c, d; intros H; try reflexivity; congruence. Qed.
Lemma name_set c v r : t_name (set_cell c v r) = t_name r.
Proof. destruct c; reflexivity. Qed.
Lemma names_set_column c ch t : t_index (set_column c ch t) = t_index t.
Proof. unfold t_index, set_column. rewrite map_map. apply map_ext. intros r. destruct (lookup _ ch); [apply name_set|reflexivity]. Qed.
Lemma lookup_some l v ch : NoDup (index ch) -> In (l, v) ch -> lookup l ch = Some v.
Proof.
  induction ch as [|[k x] ch IH]; intros N H; [contradiction|]. inversion N as [|? ? N1 N2]; subst. cbn. unfold label_eqb.
  destruct H as [H|H]; [inversion H; subst; rewrite String.eqb_refl; reflexivity|].
  destruct (String.eqb_spec l k) as [->|]; [|apply IH; assumption]. exfalso. apply N1. apply in_map_iff. exists (k, v). auto.
Qed.
Lemma lookup_none l ch : ~ In l (index ch) -> lookup l ch = None.
Proof.
  induction ch as [|[k x] ch IH]; intros H; [reflexivity|]. cbn. unfold label_eqb.
  destruct (String.eqb_spec l k) as [->|]; [exfalso; apply H; left; reflexivity|]. apply IH. intros C; apply H; right; exact C.
Qed.
Lemma row_set_column c ch r : NoDup (index ch) ->
  let r' := match lookup (t_name r) ch with Some v => set_cell c v r | None => r end in
  t_name r' = t_name r /\ (forall v, In (t_name r, v) ch -> cell c r' = v) /\
  (~ In (t_name r) (index ch) -> cell c r' = cell c r) /\ forall d, d <> c -> cell d r' = cell d r.
Proof.
  intros N r'. unfold r'. repeat split.
  - destruct (lookup _ ch); [apply name_set|reflexivity].
  - intros v Hv. rewrite (lookup_some _ _ _ N Hv). apply cell_set.
  - intros Hn. rewrite (lookup_none _ _ Hn). reflexivity.
  - intros d Hd. destruct (lookup _ ch); [apply cell_set_other; congruence|reflexivity].
Qed.
Lemma set_target_known chs : forall t, known chs t -> snd (set_target chs t) = Ok tt.
Proof.
  induction chs as [|[c ch] chs IH]; intros t H; [reflexivity|]. cbn.
  assert (E : subset (index ch) (t_index t) = true) by (apply SeriesLemmas.subset_incl; intros l; apply (H c); left; reflexivity).
  rewrite E. apply IH. intros d dh l Hd Hl. rewrite names_set_column. apply (H d dh); [right|]; assumption.
Qed.
Lemma set_target_row chs : forall t t', proper_changes chs -> set_target chs t = (t', Ok tt) -> target_changed chs t t'.
Proof.
  induction chs as [|[c ch] chs IH]; intros t t' [N P] H.
  - cbn in H. inversion H; subst. clear. induction t'; constructor; [|assumption]. split; [reflexivity|]. intros c; split; [intros ? ? []|reflexivity].
  - cbn in H. destruct (subset (index ch) (t_index t)); [|discriminate]. cbn in N. inversion N as [|? ? N1 N2]; subst.
    specialize (IH (set_column c ch t) t'). unfold target_changed in *.
    assert (HF : Forall2 (row_changed chs) (set_column c ch t) t').
    { apply IH; [|exact H]. split; [exact N2|]. intros d dh Hd. apply (P d). right; exact Hd. }
    assert (Pc : NoDup (index ch)) by (apply (P c); left; reflexivity).
    clear -HF Pc N1. unfold set_column in HF. revert t' HF. induction t as [|r t IHt]; intros t' HF; cbn in HF; inversion HF as [|? r' ? t'' Hr Ht]; subst; constructor.
    2:{ apply IHt. exact Ht. }
    clear IHt HF Ht. pose proof (row_set_column c ch r Pc) as Hs. cbn zeta in Hs.
    set (r1 := match lookup (t_name r) ch with Some v => set_cell c v r | None => r end) in *.
    destruct Hs as (S1 & S2 & S3 & S4). destruct Hr as [R1 R2]. split; [congruence|]. intros d. destruct (R2 d) as [Q1 Q2]. rewrite S1 in *.
    assert (Hd : forall dh, In (d, dh) chs -> d <> c).
    { intros dh Hin ->. apply N1. apply in_map_iff. exists (c, dh). auto. }
    split.
    + intros dh v [E|Hin] Hv; [|apply (Q1 dh); assumption]. inversion E; subst d dh.
      rewrite Q2; [apply S2; exact Hv|]. intros dh Hin. exfalso. apply (Hd dh Hin). reflexivity.
    + intros Hno. rewrite Q2 by (intros dh Hin; apply Hno; right; exact Hin).
      assert (Hdc : {d = c} + {d <> c}) by decide equality. destruct Hdc as [->|Hne]; [|apply S4; exact Hne].
      apply S3. apply (Hno ch). left; reflexivity.
Qed.
Lemma set_target_bad chs : forall t t' e, set_target chs t = (t', Raise e) ->
  exists pre c ch post, chs = pre ++ (c, ch) :: post /\ set_target pre t = (t', Ok tt) /\ e = KeyError /\
    exists l, In l (index ch) /\ ~ In l (t_index t).
Proof.
  induction chs as [|[c ch] chs IH]; intros t t' e H; cbn in H; [discriminate|].
  destruct (subset (index ch) (t_index t)) eqn:E.
  - destruct (IH _ _ _ H) as (pre & d & dh & post & E1 & E2 & E3 & l & L1 & L2).
    exists ((c, ch) :: pre), d, dh, post. rewrite E1. split; [reflexivity|]. split; [cbn; rewrite E; exact E2|]. split; [exact E3|].
    exists l. split; [exact L1|]. rewrite names_set_column in L2. exact L2.
  - inversion H; subst. exists [], c, ch, chs. repeat split.
    assert (Hx : existsb (fun l => negb (mem l (t_index t'))) (index ch) = true).
    { apply Bool.not_false_iff_true. intros C. assert (subset (index ch) (t_index t') = true); [|congruence].
      apply SeriesLemmas.subset_incl. intros l Hl. destruct (mem l (t_index t')) eqn:Em; [apply SeriesLemmas.mem_In; exact Em|].
      exfalso. assert (existsb (fun l => negb (mem l (t_index t'))) (index ch) = true); [|congruence].
      apply existsb_exists. exists l. rewrite Em. auto. }
    apply existsb_exists in Hx. destruct Hx as [l [Hl Hm]]. exists l. split; [exact Hl|]. apply SeriesLemmas.mem_false. destruct (mem l _); [discriminate|reflexivity].
Qed.

(** ** C50 *)
(** The target setter: with known parameters exactly the named cells change, in
    the named categories, to the given values; otherwise KeyError, and the
    categories in front of the first one with an unknown parameter stay changed. *)
Theorem set_target_exact chs t t' r :
  proper_changes chs -> set_target chs t = (t', r) ->
  t_index t' = t_index t /\
  (known chs t -> r = Ok tt /\ target_changed chs t t') /\
  (~ known chs t -> r = Raise KeyError /\
     exists pre c ch post l, chs = pre ++ (c, ch) :: post /\ known pre t /\ target_changed pre t t' /\ In l (index ch) /\ ~ In l (t_index t)).
Proof.
  intros P H.
  assert (HI : forall chs t t', target_changed chs t t' -> t_index t' = t_index t).
  { clear. intros chs t t' H. induction H as [|r r' t t' [H _] _ IH]; [reflexivity|]. cbn. unfold t_index in IH. rewrite H, IH. reflexivity. }
  assert (Hpre : forall pre post, chs = pre ++ post -> proper_changes pre).
  { intros pre post ->. destruct P as [P1 P2]. split.
    - rewrite map_app in P1. clear -P1. induction (map fst pre) as [|a l IH]; [constructor|]. cbn in P1. inversion P1; subst.
      constructor; [intros C; apply H1, in_or_app; left; exact C|apply IH; assumption].
    - intros c ch Hc. apply (P2 c). apply in_or_app. left; exact Hc. }
  assert (Hknown : forall chs t t', set_target chs t = (t', Ok tt) -> known chs t).
  { clear. induction chs as [|[c ch] chs IH]; intros t t' H d dh l Hd Hl; [contradiction|]. cbn in H.
    destruct (subset (index ch) (t_index t)) eqn:E; [|discriminate]. destruct Hd as [Hd|Hd].
    - inversion Hd; subst. apply SeriesLemmas.subset_incl in E. apply E, Hl.
    - specialize (IH _ _ H d dh l Hd Hl). rewrite names_set_column in IH. exact IH. }
  destruct r as [[]|e].
  - pose proof (set_target_row _ _ _ P H) as Hc. split; [apply (HI _ _ _ Hc)|]. split; [auto|]. intros Hn. exfalso. apply Hn. apply (Hknown _ _ _ H).
  - destruct (set_target_bad _ _ _ _ H) as (pre & c & ch & post & E1 & E2 & -> & l & L1 & L2).
    pose proof (set_target_row _ _ _ (Hpre _ _ E1) E2) as Hc. split; [apply (HI _ _ _ Hc)|]. split.
    + intros Hk. exfalso. apply L2. apply (Hk c ch); [|exact L1]. rewrite E1. apply in_or_app. right; left; reflexivity.
    + intros _. split; [reflexivity|]. exists pre, c, ch, post, l. repeat split; try assumption. apply (Hknown _ _ _ E2).
Qed.
Definition case_row (n : label) : trow := mk_trow n (Fin 1) NaN NaN (Fin 2) NaN (Fin 1).
Example case_set_target :
  let chs := [(Tolerance, [("b", Fin 5)]); (Desired, [("a", Fin 7); ("b", NaN)])] in
  proper_changes chs /\ known chs [case_row "a"; case_row "b"; case_row "c"] /\
  fst (set_target chs [case_row "a"; case_row "b"; case_row "c"]) =
    [mk_trow "a" (Fin 7) NaN NaN (Fin 2) NaN (Fin 1); mk_trow "b" NaN NaN NaN (Fin 5) NaN (Fin 1); case_row "c"].
Proof.
  cbn zeta. split; [|split; [|reflexivity]].
  - split; [repeat constructor; cbn; intuition discriminate|].
    intros c ch [H|[H|[]]]; inversion H; subst; repeat constructor; cbn; intuition discriminate.
  - intros c ch l [H|[H|[]]]; inversion H; subst; cbn; intuition.
Qed.
Example case_set_target_unknown :
  set_target [(Tolerance, [("b", Fin 5)]); (Desired, [("x", Fin 7); ("b", NaN)]); (Minimum, [("b", Fin 0)])] [case_row "a"; case_row "b"]
    = ([case_row "a"; mk_trow "b" (Fin 1) NaN NaN (Fin 5) NaN (Fin 1)], Raise KeyError).
Proof. reflexivity. Qed.

(** ** C99 *)
(** What an argument of make_target says about a parameter. *)
Definition says (a : targ) (l : label) (v : num) : Prop :=
  match a with
  | TScalar x => v = x
  | TSeries s => In (l, v) s \/ ~ In l (index s) /\ v = NaN
  end.
Definition is_scalar (a : targ) : Prop := exists x, a = TScalar x.
(** The parameters of the table: the ones of the first series. *)
Definition naming (args : list targ) (names : list label) : Prop :=
  exists pre s post, args = pre ++ TSeries s :: post /\ (forall a, In a pre -> is_scalar a) /\ names = index s.
(** A series about other parameters only. *)
Definition foreign (names : list label) (a : targ) : Prop :=
  exists s, a = TSeries s /\ names <> [] /\ forall l, In l names -> ~ In l (index s).

Lemma first_names_some args names : first_names args = Some names -> naming args names.
Proof.
  induction args as [|[x|s] args IH]; intros H; [discriminate| |].
  - destruct (IH H) as (pre & s & post & -> & Hp & Hn). exists (TScalar x :: pre), s, post. split; [reflexivity|]. split; [|exact Hn].
    intros a [<-|Ha]; [exists x; reflexivity|apply Hp, Ha].
  - inversion H; subst. exists [], s, args. split; [reflexivity|]. split; [intros a []|reflexivity].
Qed.
Lemma first_names_none args : first_names args = None <-> forall a, In a args -> is_scalar a.
Proof.
  induction args as [|[x|s] args IH]; cbn.
  - split; [intros _ a []|reflexivity].
  - rewrite IH. split; intros H; [intros a [<-|Ha]; [exists x; reflexivity|apply H, Ha]|intros a Ha; apply H; right; exact Ha].
  - split; [discriminate|]. intros H. destruct (H _ (or_introl eq_refl)) as [x Hx]. discriminate.
Qed.
Lemma naming_unique args n n' : naming args n -> naming args n' -> n = n'.
Proof.
  intros (pre & s & post & -> & Hp & ->) (pre' & s' & post' & E & Hp' & ->). revert pre' E Hp'.
  induction pre as [|a pre IH]; intros [|a' pre'] E Hp'; cbn in E; inversion E; subst.
  - reflexivity.
  - destruct (Hp' _ (or_introl eq_refl)) as [x Hx]. discriminate.
  - destruct (Hp _ (or_introl eq_refl)) as [x Hx]. discriminate.
  - apply (IH (fun b Hb => Hp b (or_intror Hb)) pre' H1 (fun b Hb => Hp' b (or_intror Hb))).
Qed.
Lemma lookup_in l v s : lookup l s = Some v -> In (l, v) s.
Proof.
  induction s as [|[k x] s IH]; cbn; [discriminate|]. unfold label_eqb. destruct (String.eqb_spec l k) as [->|]; intros H; [left; congruence|right; apply IH, H].
Qed.
Lemma lookup_not l s : lookup l s = None -> ~ In l (index s).
Proof.
  induction s as [|[k x] s IH]; cbn; [auto|]. unfold label_eqb. destruct (String.eqb_spec l k) as [->|Hne]; [discriminate|]. intros H [E|Hi]; [congruence|exact (IH H Hi)].
Qed.
Lemma to_series_ok names a s : to_series names a = Ok s -> forall l, In l names -> says a l (get l s).
Proof.
  assert (Hg : forall f (ns : list label) l, In l ns -> get l (map (fun k => (k, f k)) ns) = f l).
  { intros f ns l. induction ns as [|k ns IH]; intros H; [destruct H|]. unfold get in *. cbn. unfold label_eqb. destruct (String.eqb_spec l k) as [->|]; [reflexivity|].
    destruct H as [<-|H]; [contradiction|]. apply IH, H. }
  destruct a as [x|t]; cbn; intros H l Hl.
  - inversion H; subst. apply (Hg (fun _ => x)), Hl.
  - destruct names as [|n0 ns]; [destruct Hl|]. match type of H with (if ?c then _ else _) = _ => destruct c; [injection H as H1|discriminate] end.
    assert (K : get l s = get l t) by (rewrite <- H1; exact (Hg (fun k => get k t) (n0 :: ns) l Hl)). rewrite K. unfold get. destruct (lookup l t) as [v|] eqn:E; [left; apply lookup_in, E|right; split; [apply lookup_not, E|reflexivity]].
Qed.
Lemma to_series_fails names a : (exists s, to_series names a = Ok s /\ ~ foreign names a) \/ (to_series names a = Raise KeyError /\ foreign names a).
Proof.
  destruct a as [x|t]; cbn.
  - left. eexists. split; [reflexivity|]. intros [s [E _]]. discriminate.
  - destruct names as [|n0 ns]; [left; eexists; split; [reflexivity|]; intros [s [_ [H _]]]; apply H; reflexivity|].
    match goal with |- context [if ?c then _ else _] => change c with (existsb (fun l => mem l (index t)) (n0 :: ns)) end. destruct (existsb (fun l => mem l (index t)) (n0 :: ns)) eqn:E.
    + left. eexists. split; [reflexivity|]. intros [s [Es [_ H]]]. inversion Es; subst. apply existsb_exists in E. destruct E as [l [Hl Hm]]. apply SeriesLemmas.mem_In in Hm. exact (H l Hl Hm).
    + right. split; [reflexivity|]. exists t. split; [reflexivity|]. split; [discriminate|]. intros l Hl Hi.
      assert (existsb (fun l => mem l (index t)) (n0 :: ns) = true); [|congruence]. apply existsb_exists. exists l. split; [exact Hl|apply SeriesLemmas.mem_In, Hi].
Qed.

(** The table has one row for each parameter of the first series among desired,
    maximum, minimum and tolerance; other series can not add parameters.  A cell
    holds what the argument says, NaN if it says nothing; the rescaling factor is
    1 if it is not given at all.  RuntimeError without a series in the first
    four arguments, KeyError for a series about other parameters only. *)
Theorem make_target_exact d ma mi to co re :
  let re' := match re with TScalar NaN => TScalar (Fin 1) | _ => re end in
  (forall t, make_target d ma mi to co re = Ok t ->
     naming [d; ma; mi; to] (t_index t) /\
     forall r, In r t -> says d (t_name r) (t_desired r) /\ says ma (t_name r) (t_maximum r) /\ says mi (t_name r) (t_minimum r) /\
       says to (t_name r) (t_tolerance r) /\ says co (t_name r) (t_cost r) /\ says re' (t_name r) (t_rescale r)) /\
  (forall e, make_target d ma mi to co re = Raise e ->
     e = RuntimeError /\ (forall a, In a [d; ma; mi; to] -> is_scalar a) \/
     e = KeyError /\ exists names a, naming [d; ma; mi; to] names /\ In a [d; ma; mi; to; co; re] /\ foreign names a) /\
  ((forall a, In a [d; ma; mi; to] -> is_scalar a) -> make_target d ma mi to co re = Raise RuntimeError) /\
  (forall names a, naming [d; ma; mi; to] names -> In a [d; ma; mi; to; co; re] -> foreign names a -> make_target d ma mi to co re = Raise KeyError).
Proof.
  cbn zeta. unfold make_target. set (args := [d; ma; mi; to]).
  assert (Hre : forall names, foreign names (default_rescale re) <-> foreign names re).
  { intros names. destruct re as [[]|s]; cbn; try reflexivity. split; intros [s [E _]]; discriminate. }
  destruct (first_names args) as [names|] eqn:Hf.
  - pose proof (first_names_some _ _ Hf) as Hn.
    assert (Hns : ~ forall a, In a args -> is_scalar a) by (intros H; apply first_names_none in H; congruence).
    destruct (to_series_fails names d) as [[sd [Ed Fd]]|[Ed Fd]]; rewrite Ed.
    2:{ split; [discriminate|]. split; [|split; [intros H; contradiction|reflexivity]]. intros e H. inversion H; subst. right. split; [reflexivity|]. exists names, d. split; [exact Hn|]. split; [cbn; auto|exact Fd]. }
    destruct (to_series_fails names mi) as [[si [Ei Fi]]|[Ei Fi]]; rewrite Ei.
    2:{ split; [discriminate|]. split; [|split; [intros H; contradiction|reflexivity]]. intros e H. inversion H; subst. right. split; [reflexivity|]. exists names, mi. split; [exact Hn|]. split; [cbn; auto|exact Fi]. }
    destruct (to_series_fails names ma) as [[sa [Ea Fa]]|[Ea Fa]]; rewrite Ea.
    2:{ split; [discriminate|]. split; [|split; [intros H; contradiction|reflexivity]]. intros e H. inversion H; subst. right. split; [reflexivity|]. exists names, ma. split; [exact Hn|]. split; [cbn; auto|exact Fa]. }
    destruct (to_series_fails names to) as [[st [Et Ft]]|[Et Ft]]; rewrite Et.
    2:{ split; [discriminate|]. split; [|split; [intros H; contradiction|reflexivity]]. intros e H. inversion H; subst. right. split; [reflexivity|]. exists names, to. split; [exact Hn|]. split; [cbn; auto|exact Ft]. }
    destruct (to_series_fails names co) as [[sc [Ec Fc]]|[Ec Fc]]; rewrite Ec.
    2:{ split; [discriminate|]. split; [|split; [intros H; contradiction|reflexivity]]. intros e H. inversion H; subst. right. split; [reflexivity|]. exists names, co. split; [exact Hn|]. split; [cbn; auto 7|exact Fc]. }
    destruct (to_series_fails names (default_rescale re)) as [[sr [Er Fr]]|[Er Fr]]; rewrite Er.
    2:{ split; [discriminate|]. split; [|split; [intros H; contradiction|reflexivity]]. intros e H. inversion H; subst. right. split; [reflexivity|]. exists names, re. split; [exact Hn|]. split; [cbn; auto 8|apply Hre, Fr]. }
    split; [|split; [discriminate|split; [intros H; contradiction|]]].
    + intros t H. inversion H; subst t. clear H. unfold t_index. rewrite map_map. cbn [t_name]. rewrite map_id. split; [exact Hn|].
      intros r Hr. apply in_map_iff in Hr. destruct Hr as [l [<- Hl]]. cbn [t_name t_desired t_maximum t_minimum t_tolerance t_cost t_rescale].
      split; [exact (to_series_ok _ _ _ Ed l Hl)|]. split; [exact (to_series_ok _ _ _ Ea l Hl)|]. split; [exact (to_series_ok _ _ _ Ei l Hl)|].
      split; [exact (to_series_ok _ _ _ Et l Hl)|]. split; [exact (to_series_ok _ _ _ Ec l Hl)|].
      pose proof (to_series_ok _ _ _ Er l Hl) as K. destruct re as [[]|]; exact K.
    + intros n a Hn' Ha Hfo. pose proof (naming_unique _ _ _ Hn Hn') as <-. exfalso. cbn in Ha.
      destruct Ha as [<-|[<-|[<-|[<-|[<-|[<-|[]]]]]]]; try contradiction. apply Fr, Hre, Hfo.
  - pose proof (proj1 (first_names_none _) Hf) as Hs. split; [discriminate|]. split; [|split; [reflexivity|]].
    + intros e H. inversion H; subst. left. split; [reflexivity|exact Hs].
    + intros names a (pre & s & post & E & _) _ _. exfalso. destruct (Hs (TSeries s)) as [x Hx]; [|discriminate]. rewrite E. apply in_or_app. right. left. reflexivity.
Qed.
(** A minimum for a parameter without a desired value is dropped; a rescaling
    factor for one parameter leaves the others without one. *)
Example make_target_exact_instance :
  make_target (TSeries [("a", Fin 1); ("b", Fin 2)]) (TScalar NaN) (TSeries [("b", Fin 0); ("c", Fin 5)]) (TScalar (Fin 3)) (TScalar NaN) (TScalar NaN)
    = Ok [mk_trow "a" (Fin 1) NaN NaN (Fin 3) NaN (Fin 1); mk_trow "b" (Fin 2) (Fin 0) NaN (Fin 3) NaN (Fin 1)] /\
  make_target (TScalar NaN) (TSeries [("b", Fin 9)]) (TSeries [("b", Fin 0)]) (TScalar NaN) (TScalar NaN) (TSeries [("b", Fin 2)])
    = Ok [mk_trow "b" NaN (Fin 0) (Fin 9) NaN NaN (Fin 2)] /\
  make_target (TSeries [("a", Fin 1); ("b", Fin 2)]) (TScalar NaN) (TScalar NaN) (TScalar NaN) (TScalar NaN) (TSeries [("a", Fin 2)])
    = Ok [mk_trow "a" (Fin 1) NaN NaN NaN NaN (Fin 2); mk_trow "b" (Fin 2) NaN NaN NaN NaN NaN] /\
  make_target (TSeries [("a", Fin 1)]) (TScalar NaN) (TSeries [("c", Fin 5)]) (TScalar NaN) (TScalar NaN) (TScalar NaN) = Raise KeyError /\
  make_target (TScalar (Fin 1)) (TScalar NaN) (TScalar NaN) (TScalar NaN) (TSeries [("c", Fin 5)]) (TScalar NaN) = Raise RuntimeError.
Proof. repeat split. Qed.

(** Tuners whose target setter is the one of the solvers and which share no
    target. *)
Definition separate_targets {W} (E : env W) : Prop :=
  forall i ch w, e_target E i (fst (e_set_target E i ch w)) = fst (set_target ch (e_target E i w)) /\
    snd (e_set_target E i ch w) = snd (set_target ch (e_target E i w)) /\
    forall j, j <> i -> e_target E j (fst (e_set_target E i ch w)) = e_target E j w.

Section C.
Context {W : Type} (E : env W) (Sep : separate_targets E).
Lemma change_tuners_effect chs : forall i s s' r, change_tuners E i chs s = (s', r) ->
  (r = Ok tt /\ forall j, (j < i -> e_target E j (s_w s') = e_target E j (s_w s)) /\
     (i <= j -> match nth_error chs (j - i) with
       | Some ch => set_target ch (e_target E j (s_w s)) = (e_target E j (s_w s'), Ok tt)
       | None => e_target E j (s_w s') = e_target E j (s_w s) end)) \/
  (exists e k ch, r = Raise e /\ nth_error chs k = Some ch /\ set_target ch (e_target E (i + k) (s_w s)) = (e_target E (i + k) (s_w s'), Raise e) /\
     forall j, j <> i + k ->
       (i <= j < i + k -> exists ch', nth_error chs (j - i) = Some ch' /\ set_target ch' (e_target E j (s_w s)) = (e_target E j (s_w s'), Ok tt)) /\
       (j < i \/ i + k < j -> e_target E j (s_w s') = e_target E j (s_w s))).
Proof.
  induction chs as [|ch chs IH]; intros i s s' r H.
  - cbn in H. unfold ret in H. inversion H; subst. left. split; [reflexivity|]. intros j. split; [reflexivity|]. intros _. destruct (j - i); reflexivity.
  - cbn in H. unfold bind, call in H. destruct (Sep i ch (s_w s)) as (T1 & T2 & T3).
    destruct (e_set_target E i ch (s_w s)) as [w1 [u|e]]; cbn in *.
    + apply IH in H. cbn in H. destruct H as [[-> H]|(e & k & ch' & -> & K1 & K2 & K3)].
      * left. split; [reflexivity|]. intros j. destruct (H j) as [H1 H2]. split.
        -- intros Hj. rewrite H1 by lia. apply T3. lia.
        -- intros Hj. destruct (Nat.eq_dec j i) as [->|Hne].
           ++ rewrite Nat.sub_diag. cbn. rewrite H1 by lia. rewrite T1. rewrite (surjective_pairing (set_target ch _)) at 1. rewrite <- T2. destruct u; reflexivity.
           ++ specialize (H2 ltac:(lia)). replace (j - i) with (S (j - S i)) by lia. cbn. rewrite T3 in H2 by lia. exact H2.
      * right. exists e, (S k), ch'. split; [reflexivity|]. split; [exact K1|]. split.
        -- replace (i + S k) with (S i + k) by lia. rewrite <- (T3 (S i + k)) by lia. exact K2.
        -- intros j Hj. destruct (K3 j ltac:(lia)) as [K4 K5]. split.
           ++ intros Hr. destruct (Nat.eq_dec j i) as [->|Hne].
              ** exists ch. rewrite Nat.sub_diag. split; [reflexivity|]. rewrite K5 by lia. rewrite T1.
                 rewrite (surjective_pairing (set_target ch _)) at 1. rewrite <- T2. destruct u; reflexivity.
              ** destruct (K4 ltac:(lia)) as [ch2 [N1 N2]]. exists ch2. replace (j - i) with (S (j - S i)) by lia. split; [exact N1|].
                 rewrite T3 in N2 by lia. exact N2.
           ++ intros Hr. rewrite K5 by lia. apply T3. lia.
    + inversion H; subst; cbn. right. exists e, 0, ch. rewrite Nat.add_0_r. split; [reflexivity|]. split; [reflexivity|]. split.
      * rewrite T1. rewrite (surjective_pairing (set_target ch _)) at 1. rewrite <- T2. reflexivity.
      * intros j Hj. split; [lia|]. intros _. apply T3. exact Hj.
Qed.
End C.

(** change_targets: the i-th set of changes goes to the i-th tuner, tuners
    without changes keep their target, the hierarchy starts again at the first
    tuner with nothing pending.  If one setter fails, the tuners in front keep
    their new targets and position and pending voltages stay. *)
Theorem change_targets_exact {W} (E : env W) chs (s s' : sys W) r :
  separate_targets E -> change_targets E chs s = (s', r) ->
  (r = Ok tt -> length chs <= e_n E /\
     s_at s' = mk_at 0 (a_status (s_at s)) None (a_path (s_at s)) /\
     forall j, match nth_error chs j with
       | Some ch => set_target ch (e_target E j (s_w s)) = (e_target E j (s_w s'), Ok tt)
       | None => e_target E j (s_w s') = e_target E j (s_w s) end) /\
  (forall e, r = Raise e -> s_at s' = s_at s /\
     ((e_n E < length chs /\ e = AssertionError /\ s' = s) \/
      exists k ch, nth_error chs k = Some ch /\
        set_target ch (e_target E k (s_w s)) = (e_target E k (s_w s'), Raise e) /\
        (forall j, j < k -> exists ch', nth_error chs j = Some ch' /\ set_target ch' (e_target E j (s_w s)) = (e_target E j (s_w s'), Ok tt)) /\
        (forall j, k < j -> e_target E j (s_w s') = e_target E j (s_w s)))).
Proof.
  intros Sep H. pose proof (change_cases E chs s s' r H) as (evs & _ & Hc).
  unfold change_targets in H. destruct (length chs <=? e_n E)%nat eqn:El.
  - apply Nat.leb_le in El. unfold bind at 1 in H. destruct (change_tuners E 0 chs s) as [s1 r1] eqn:H1.
    pose proof (change_tuners_frame E chs 0 s s1 r1 H1) as [Ha _].
    apply (change_tuners_effect E Sep) in H1. destruct H1 as [[-> H1]|(e & k & ch & -> & K1 & K2 & K3)].
    + unfold bind, get_at, put_at, emit in H; cbn in H. inversion H; subst; cbn. split; [|discriminate]. intros _. split; [exact El|].
      split; [rewrite Ha; reflexivity|]. intros j. destruct (H1 j) as [_ H2]. rewrite Nat.sub_0_r in H2. apply H2. lia.
    + inversion H; subst. split; [discriminate|]. intros e0 He. inversion He; subst e0. split; [exact Ha|]. right. exists k, ch. cbn in K2.
      split; [exact K1|]. split; [exact K2|]. split.
      * intros j Hj. destruct (K3 j ltac:(lia)) as [K4 _]. rewrite Nat.sub_0_r in K4. apply K4. lia.
      * intros j Hj. destruct (K3 j ltac:(lia)) as [_ K5]. apply K5. right. exact Hj.
  - apply Nat.leb_gt in El. unfold raise in H. inversion H; subst. split; [discriminate|]. intros e He. inversion He; subst. split; [reflexivity|]. left. auto.
Qed.

(** Two tuners whose targets are the world. *)
Definition case_env : env (target * target) :=
  mk_env (target * target) 2 (fun w => (w, Ok [])) (fun _ w => (w, Ok tt)) (fun _ => []) (fun _ _ w => (w, Ok false))
    (fun _ _ w => (w, Ok []))
    (fun i w => match i with 0 => fst w | 1 => snd w | _ => [] end)
    (fun i ch w => match i with
       | 0 => let (t, r) := set_target ch (fst w) in ((t, snd w), r)
       | 1 => let (t, r) := set_target ch (snd w) in ((fst w, t), r)
       | _ => (w, snd (set_target ch []))
       end)
    (fun _ _ w => (w, Ok tt)) (fun _ _ => Ok tt) (fun _ _ => Ok tt) (fun w => (w, Ok tt)).
Example case_change :
  separate_targets case_env /\
  let s := mk_sys (mk_at 1 true (Some [("P", Fin 1)]) None) ([case_row "a"], [case_row "b"]) [] in
  (let (s', r) := change_targets case_env [[(Desired, [("a", Fin 9)])]] s in
   r = Ok tt /\ s_w s' = ([mk_trow "a" (Fin 9) NaN NaN (Fin 2) NaN (Fin 1)], [case_row "b"]) /\ s_at s' = mk_at 0 true None None) /\
  (let (s', r) := change_targets case_env [[(Desired, [("a", Fin 9)])]; [(Desired, [("a", Fin 9)])]] s in
   r = Raise KeyError /\ s_w s' = ([mk_trow "a" (Fin 9) NaN NaN (Fin 2) NaN (Fin 1)], [case_row "b"]) /\ s_at s' = s_at s).
Proof.
  split; [|split; repeat split].
  intros [|[|i]] ch [t1 t2]; cbn.
  - destruct (set_target ch t1); cbn. repeat split. intros [|[|j]] Hj; try reflexivity. congruence.
  - destruct (set_target ch t2); cbn. repeat split. intros [|[|j]] Hj; try reflexivity. congruence.
  - repeat split. destruct ch as [|[c ch] chs]; [reflexivity|]. cbn. induction chs as [|x y IH] in c, ch |- *; cbn.
    + destruct (subset _ _); reflexivity.
    + destruct (subset _ _); [|reflexivity]. destruct x. apply (IH c0 s).
Qed.

Print Assumptions set_target_exact.
Print Assumptions change_targets_exact.
Print Assumptions make_target_exact.
