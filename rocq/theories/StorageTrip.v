(** Saving to a new file and loading it. *)
From Coq Require Import String Ascii List Bool Arith Lia Permutation.
From Verif Require Import PyExn StorageModel StorageSpec StorageProofs StorageSave StorageLoad.
Import ListNotations.
Local Open Scope string_scope.
Local Open Scope list_scope.

Section Trip.
Context {payload : Type}.
Variable storable scalar : payload -> bool.
Variable serializables : string -> bool.
Variable construct : string -> list (string * pyval payload) -> option exn.
Notation pyval := (pyval payload).
Notation h5 := (h5 payload).

(** ** Reserved objects in the file *)
Definition tag (k : nat) : h5 := HData k (Some "#reserved") CEmpty.

Lemma save_reserved_ok reserved : forall ls s,
  NoDup (map fst reserved) -> Forall plain (map fst reserved) -> NoDup (map snd reserved) ->
  (forall n, In n (map fst ls) -> ~ In n (map fst reserved)) ->
  (forall i k, at_id i (sv_ser s) = Some k -> k < sv_next s) ->
  (forall i j k, at_id i (sv_ser s) = Some k -> at_id j (sv_ser s) = Some k -> i = j) ->
  (forall i, In i (map snd reserved) -> at_id i (sv_ser s) = None) ->
  exists ks s', save_reserved payload reserved ls s = Ok (ls ++ combine (map fst reserved) (map tag ks), s') /\
    length ks = length reserved /\ NoDup ks /\ (forall k, In k ks -> sv_next s <= k < sv_next s') /\ sv_next s <= sv_next s' /\
    extends (sv_ser s) (sv_ser s') /\
    (forall i k, at_id i (sv_ser s') = Some k -> k < sv_next s') /\
    (forall i j k, at_id i (sv_ser s') = Some k -> at_id j (sv_ser s') = Some k -> i = j) /\
    Forall2 (fun r k => at_id (snd r) (sv_ser s') = Some k) reserved ks /\
    (forall i k, at_id i (sv_ser s') = Some k -> at_id i (sv_ser s) = Some k \/ In i (map snd reserved)).
Proof.
  induction reserved as [|[key i] reserved IH]; intros ls s Hn Hp Hi Hd Hb Hj Hnone.
  - exists [], s. cbn. rewrite app_nil_r. repeat split; auto; try constructor; try contradiction. intros i k H; exact H.
  - cbn [map fst snd] in *. inversion Hn as [|? ? N1 N2]; subst. inversion Hp as [|? ? P1 P2]; subst. inversion Hi as [|? ? I1 I2]; subst.
    cbn [save_reserved]. unfold fresh, put.
    rewrite link_plain; [|exact P1|intros G; apply (Hd _ G); left; reflexivity]. cbn [sv_next sv_ser].
    set (k := sv_next s). set (s1 := register i k (mk_saving (sv_ser s) (S k))).
    assert (He : extends (sv_ser s) (sv_ser s1)) by (apply extends_cons; apply Hnone; left; reflexivity).
    destruct (IH (ls ++ [(key, tag k)]) s1) as [ks [s' [E [L [ND [Rg [Nx [Ex [B [J [F2 Nw]]]]]]]]]]]; auto.
    + intros n G Hin. rewrite map_app in G. apply in_app_or in G. destruct G as [G|[<-|[]]]; [apply (Hd n G); right; exact Hin|contradiction].
    + intros j x. cbn. destruct (Nat.eqb j i); [intros [= <-]; lia|]. intros G. apply Hb in G. unfold k. lia.
    + intros a b x. cbn. destruct (Nat.eqb_spec a i) as [->|], (Nat.eqb_spec b i) as [->|]; intros G1 G2; [reflexivity| | |].
      * injection G1 as <-. apply Hb in G2. unfold k in G2. lia.
      * injection G2 as <-. apply Hb in G1. unfold k in G1. lia.
      * eapply Hj; eassumption.
    + intros j G. cbn. destruct (Nat.eqb_spec j i) as [->|]; [contradiction|]. apply Hnone. right. exact G.
    + cbn [sv_next sv_ser s1 register] in *. exists (k :: ks), s'. cbn [length combine map]. repeat split.
      * etransitivity; [exact E|]. rewrite <- app_assoc. reflexivity.
      * rewrite L. reflexivity.
      * constructor; [|exact ND]. intros G. apply Rg in G. lia.
      * destruct H as [<-|G]; [unfold k; lia|]. apply Rg in G. fold k. lia.
      * destruct H as [<-|G]; [lia|]. apply Rg in G. lia.
      * fold k. lia.
      * eapply extends_trans; eassumption.
      * exact B.
      * exact J.
      * constructor; [|exact F2]. apply Ex. cbn. rewrite Nat.eqb_refl. reflexivity.
      * intros j x G. destruct (Nw j x G) as [G'|G']; [|right; right; exact G']. cbn in G'.
        destruct (Nat.eqb_spec j i) as [->|]; [right; left; reflexivity|left; exact G'].
Qed.

(** ** Reserved objects when loading *)
Definition is_res (h : h5) : Prop :=
  match h with HData _ (Some t) _ | HGroup _ (Some t) _ => t = "#reserved" | _ => False end.
Lemma is_res_dec h : is_res h \/ ~ is_res h.
Proof. destruct h as [k [t|] l|k [t|] c]; cbn; auto; destruct (String.eqb_spec t "#reserved"); auto. Qed.
Lemma load_reserved_step supplied key (h : h5) ls d : is_res h ->
  load_reserved payload supplied ((key, h) :: ls) d =
  match named key supplied with Some v => load_reserved payload supplied ls ((hid h, v) :: d) | None => Raise KeyError end.
Proof. destruct h as [k [t|] l|k [t|] c]; cbn; try contradiction; intros ->; reflexivity. Qed.
Lemma load_reserved_skip supplied key (h : h5) ls d : ~ is_res h ->
  load_reserved payload supplied ((key, h) :: ls) d = load_reserved payload supplied ls d.
Proof. destruct h as [k [t|] l|k [t|] c]; cbn; auto; destruct (String.eqb_spec t "#reserved"); tauto. Qed.

Lemma load_reserved_ok supplied ls : forall d,
  (forall key h, In (key, h) ls -> is_res h -> named key supplied <> None) ->
  NoDup (map (fun l => hid (snd l)) ls) -> (forall key h, In (key, h) ls -> at_id (hid h) d = None) ->
  exists d', load_reserved payload supplied ls d = Ok d' /\ extends d d' /\
    (forall k v, at_id k d' = Some v -> at_id k d = Some v \/ exists key h, In (key, h) ls /\ is_res h /\ hid h = k /\ named key supplied = Some v) /\
    (forall key h v, In (key, h) ls -> is_res h -> named key supplied = Some v -> at_id (hid h) d' = Some v).
Proof.
  induction ls as [|[key h] ls IH]; intros d Hk Hn Hd.
  - exists d. repeat split; auto; [apply extends_refl|contradiction].
  - cbn in Hn. inversion Hn as [|? ? N1 N2]; subst.
    destruct (is_res_dec h) as [Hr|Hr].
    + rewrite load_reserved_step by exact Hr.
      destruct (named key supplied) as [v|] eqn:Ev; [|exfalso; apply (Hk key h (or_introl eq_refl) Hr); exact Ev].
      destruct (IH ((hid h, v) :: d)) as [d' [E [Ex [A B]]]].
      * intros key' h' G. apply (Hk key' h'). right. exact G.
      * exact N2.
      * intros key' h' G. cbn. destruct (Nat.eqb_spec (hid h') (hid h)) as [Eh|]; [|apply (Hd key'); right; exact G].
        exfalso. apply N1. rewrite <- Eh. apply (in_map (fun l : string * h5 => hid (snd l)) ls (key', h')). exact G.
      * exists d'. split; [exact E|]. split; [|split].
        -- eapply extends_trans; [|exact Ex]. apply extends_cons. apply (Hd key). left. reflexivity.
        -- intros k w G. destruct (A k w G) as [G'|[key' [h' [C1 C2]]]].
           ++ cbn in G'. destruct (Nat.eqb_spec k (hid h)) as [->|]; [|auto]. injection G' as <-. right. exists key, h. cbn. auto.
           ++ right. exists key', h'. cbn. tauto.
        -- intros key' h' w [G|G] Hr' Ew.
           ++ injection G as <- <-. apply Ex. cbn. rewrite Nat.eqb_refl. congruence.
           ++ eapply B; eassumption.
    + rewrite load_reserved_skip by exact Hr.
      destruct (IH d) as [d' [E [Ex [A B]]]]; auto.
      * intros key' h' G. apply (Hk key' h'). right. exact G.
      * intros key' h' G. apply (Hd key'). right. exact G.
      * exists d'. split; [exact E|]. split; [exact Ex|]. split.
        -- intros k w G. destruct (A k w G) as [G'|[key' [h' [C1 C2]]]]; [auto|]. right. exists key', h'. cbn. tauto.
        -- intros key' h' w [G|G] Hr' Ew; [injection G as <- <-; contradiction|]. eapply B; eassumption.
Qed.

(** ** The replacements *)
Lemma replacements_in reserved supplied i v : at_id i (replacements reserved supplied) = Some v ->
  exists key, In (key, i) reserved /\ @named pyval key supplied = Some v.
Proof.
  induction reserved as [|[key j] reserved IH]; [discriminate|]. unfold replacements. cbn [flat_map fst snd].
  destruct (named key supplied) as [w|] eqn:E; cbn.
  - destruct (Nat.eqb_spec i j) as [->|]; [intros [= <-]; exists key; auto|]. intros G. destruct (IH G) as [key' [C1 C2]]. exists key'; auto.
  - intros G. destruct (IH G) as [key' [C1 C2]]. exists key'; auto.
Qed.
Lemma replacements_of reserved supplied key i v : NoDup (map snd reserved) -> In (key, i) reserved -> @named pyval key supplied = Some v ->
  at_id i (replacements reserved supplied) = Some v.
Proof.
  induction reserved as [|[key' j] reserved IH]; [contradiction|]. cbn [map snd]. intros Hn Hin Hv. inversion Hn as [|? ? N1 N2]; subst.
  unfold replacements. cbn [flat_map fst snd]. fold (replacements reserved supplied). destruct Hin as [Hin|Hin].
  - injection Hin as -> ->. rewrite Hv. cbn. rewrite Nat.eqb_refl. reflexivity.
  - assert (i <> j) by (intros ->; apply N1; apply (in_map snd) in Hin; exact Hin).
    destruct (named key' supplied); cbn; rewrite ?(proj2 (Nat.eqb_neq i j)) by assumption; apply IH; auto.
Qed.

Lemma hids_tags names ks : length names = length ks -> hids_links hids (combine names (map tag ks)) = ks.
Proof. revert names. induction ks as [|k ks IH]; intros [|n names] H; try discriminate; [reflexivity|]. cbn. f_equal. apply IH. injection H as H. exact H. Qed.

Lemma hid_tags names ks : length names = length ks -> map (fun l : string * h5 => hid (snd l)) (combine names (map tag ks)) = ks.
Proof. revert names. induction ks as [|k ks IH]; intros [|n names] H; try discriminate; [reflexivity|]. cbn. f_equal. apply IH. injection H as H. exact H. Qed.
Lemma Forall2_cons_iff {A B} (P : A -> B -> Prop) a b l l' : Forall2 P (a :: l) (b :: l') <-> P a b /\ Forall2 P l l'.
Proof. split; [inversion 1; auto|intros [H1 H2]; constructor; auto]. Qed.
Lemma nodup_snoc (l : list nat) x : NoDup l -> ~ In x l -> NoDup (l ++ [x]).
Proof. intros H1 H2. eapply Permutation_NoDup; [apply Permutation_cons_append|]. constructor; assumption. Qed.

Lemma stored_not_res rsv ser h (t : pyval) : serializables "#reserved" = false -> stored scalar serializables rsv ser h t -> ~ is_res h.
Proof.
  intros Hc Hst G. inversion Hst as [k x t' Hx|h' t' Hd]; subst; [contradiction|].
  inversion Hd; subst; cbn in G; try discriminate; try contradiction; try (destruct b; discriminate).
  subst cls. congruence.
Qed.

Theorem round_trip reserved (supplied : list (string * pyval)) name obj n fuel :
  NoDup (name :: map fst reserved) -> Forall plain (name :: map fst reserved) -> NoDup (map snd reserved) ->
  (forall key, In key (map fst reserved) -> named key supplied <> None) ->
  (forall t, In t ["dict"; "list"; "tuple"; "#reserved"] -> serializables t = false) ->
  let rsv i := In i (map snd reserved) in let R := replacements reserved supplied in
  ids_unique rsv obj ->
  (forall t, reached rsv t obj -> ~ rsv (pid t) -> can_save storable scalar serializables t) ->
  (forall i cls kvs kvs' l loc, reached rsv (PInst i cls kvs) obj -> Permutation l kvs' -> match_fields (copy scalar loc R) kvs l ->
    construct cls kvs' = None) ->
  2 * depth obj + 3 <= fuel ->
  exists file j kvs v loc, to_hdf5 payload storable serializables [] 1 name obj reserved = Ok file /\
    from_hdf5 payload scalar serializables construct fuel file supplied n = Ok (PDict j kvs) /\
    Permutation (map fst kvs) (name :: map fst reserved) /\ named name kvs = Some v /\
    (forall key, In key (map fst reserved) -> named key kvs = named key supplied) /\
    copy scalar loc R obj v /\ one_to_one loc /\ forall a b, loc a b -> n <= b.
Proof.
  intros Hnames Hplain Hids Hsup Hcls rsv R Huniq Hgood Hacc Hfuel.
  inversion Hnames as [|? ? Nn Nr]; subst. inversion Hplain as [|? ? Pn Pr]; subst.
  set (U := fun t => reached rsv t obj).
  assert (U_member : forall t c, U t -> ~ rsv (pid t) -> In c (members t) -> U c).
  { unfold U. intros t c Ht Hr Hc. clear - Ht Hr Hc. induction Ht as [|d t' Hd1 Hd2 Hd3 IH].
    - eapply reached_member; [exact Hr|exact Hc|apply reached_self].
    - eapply reached_member; eassumption. }
  destruct (save_reserved_ok reserved [] (mk_saving [] 1) Nr Pr Hids) as [ks [s1 [E1 [L1 [ND1 [Rg1 [Nx1 [Ex1 [B1 [J1 [F1 Nw1]]]]]]]]]]];
    try (cbn; intros; try discriminate; auto; fail).
  cbn [app] in E1.
  assert (Hs1 : state_ok rsv s1).
  { constructor; auto. intros i Hi. unfold rsv in Hi. apply in_map_iff in Hi. destruct Hi as [[key i'] [Ei Hi]]. cbn in Ei. subst i'.
    clear - F1 Hi. induction F1 as [|r k rs ks Hr F1 IH]; [contradiction|]. destruct Hi as [->|Hi]; [cbn in Hr; congruence|auto]. }
  destruct (save_ok storable scalar serializables rsv U U_member Huniq Hgood (depth obj) obj s1 (le_n _) (reached_self _ _) Hs1)
    as [h [s2 [E2 [A1 A2 A3 A4 A5 A6]]]].
  set (tags := combine (map fst reserved) (map tag ks)) in *.
  assert (Htags : map fst tags = map fst reserved).
  { unfold tags. clear - L1. revert ks L1. induction reserved as [|r rs IH]; intros [|k ks] H; try discriminate; [reflexivity|]. cbn. f_equal. apply IH. injection H as H; exact H. }
  set (F := HGroup 0 None (tags ++ [(name, h)])).
  assert (Efile : to_hdf5 payload storable serializables [] 1 name obj reserved = Ok F).
  { unfold to_hdf5. rewrite E1. unfold put. rewrite E2. rewrite link_plain; [reflexivity|exact Pn|rewrite Htags; exact Nn]. }
  assert (Hid1 : hids_links hids tags = ks) by (apply hids_tags; rewrite map_length; symmetry; exact L1).
  assert (F_ids : NoDup (hids F)).
  { cbn. rewrite hids_links_app, Hid1. cbn. rewrite app_nil_r. constructor.
    - intros G. apply in_app_or in G. destruct G as [G|G]; [apply Rg1 in G; cbn in G; lia|].
      destruct A5 as [_ A5]. apply A5 in G. cbn in Nx1. lia.
    - apply (fresh_in_app (mk_saving [] 1) s1 s2 ks (hids h)); auto; try lia. split; auto. }
  assert (Htag_in : forall key i, In (key, i) reserved -> exists k, In (key, tag k) tags /\ at_id i (sv_ser s1) = Some k).
  { unfold tags. clear - F1. intros key i Hin. induction F1 as [|r k rs ks0 Hr F1 IH]; [contradiction|]. cbn.
    destruct Hin as [->|Hin]; [exists k; auto|]. destruct (IH Hin) as [k' [C1 C2]]. exists k'; auto. }
  assert (Htag_of : forall key g, In (key, g) tags -> exists k i, g = tag k /\ In (key, i) reserved /\ at_id i (sv_ser s1) = Some k).
  { unfold tags. clear - F1. intros key g Hin. induction F1 as [|r k rs ks0 Hr F1 IH]; [contradiction|]. cbn in Hin.
    destruct Hin as [Hin|Hin]; [injection Hin as <- <-; exists k, (snd r); destruct r; cbn; auto|].
    destruct (IH Hin) as [k' [i' [C1 [C2 C3]]]]. exists k', i'; cbn; auto. }
  assert (Hh_res : ~ is_res h).
  { eapply stored_not_res; [|exact A4]. apply Hcls. cbn. auto. }
  set (links := tags ++ [(name, h)]) in *.
  assert (Plinks : Permutation links (by_name links)) by apply by_name_perm.
  assert (Hlinks_ids : NoDup (map (fun l => hid (snd l)) links)).
  { assert (Hk : map (fun l => hid (snd l)) tags = ks).
    { apply hid_tags. rewrite map_length. symmetry. exact L1. }
    unfold links. rewrite map_app, Hk. cbn. apply nodup_snoc; [exact ND1|]. intros G. apply Rg1 in G.
    assert (Hh : In (hid h) (hids h)) by (destruct h; cbn; auto). destruct A5 as [_ A5]. apply A5 in Hh. lia. }
  destruct (load_reserved_ok supplied (by_name links) []) as [D0 [E3 [_ [D0a D0b]]]].
  { intros key g Hin Hr. apply (Permutation_in _ (Permutation_sym Plinks)) in Hin. unfold links in Hin. apply in_app_or in Hin.
    destruct Hin as [Hin|[Hin|[]]]; [|injection Hin as <- <-; contradiction]. destruct (Htag_of _ _ Hin) as [k [i [_ [C _]]]].
    apply Hsup. apply (in_map fst) in C. exact C. }
  { eapply Permutation_NoDup; [|exact Hlinks_ids]. apply Permutation_map. exact Plinks. }
  { reflexivity. }
  assert (ser_node : forall i k, at_id i (sv_ser s2) = Some k -> rsv i \/
    exists g t, hnode g F /\ hid g = k /\ direct scalar serializables rsv (sv_ser s2) g t /\ pid t = i /\ U t).
  { intros i k G. destruct (A6 i k G) as [G'|[g [t [[C1 C2] [C3 [C4 [C5 C6]]]]]]].
    - left. destruct (Nw1 i k G') as [G''|G'']; [discriminate|exact G''].
    - right. exists g, t. repeat split; auto. eapply hnode_link; [|exact C1]. unfold links. apply in_or_app. right. left. reflexivity. }
  assert (D0_node : forall k v, at_id k D0 = Some v -> hnode (HData k (Some "#reserved") CEmpty) F /\
    exists i, at_id i (sv_ser s2) = Some k /\ rsv i /\ at_id i R = Some v).
  { intros k v G. destruct (D0a k v G) as [G'|[key [g [C1 [C2 [C3 C4]]]]]]; [discriminate|].
    apply (Permutation_in _ (Permutation_sym Plinks)) in C1. pose proof C1 as C1'. unfold links in C1. apply in_app_or in C1.
    destruct C1 as [C1|[C1|[]]]; [|injection C1 as <- <-; contradiction]. destruct (Htag_of _ _ C1) as [k' [i [-> [C5 C6]]]].
    cbn in C3. subst k'. split; [eapply hnode_link; [exact C1'|apply hnode_self]|]. exists i. repeat split.
    - apply A3. exact C6.
    - apply (in_map snd) in C5. exact C5.
    - unfold R. eapply replacements_of; eassumption. }
  assert (rsv_D0 : forall i, rsv i -> exists k v, at_id i (sv_ser s2) = Some k /\ at_id k D0 = Some v /\ at_id i R = Some v).
  { intros i Hi. unfold rsv in Hi. apply in_map_iff in Hi. destruct Hi as [[key i'] [Ei Hi]]. cbn in Ei. subst i'.
    destruct (Htag_in _ _ Hi) as [k [C1 C2]].
    destruct (named key supplied) as [v|] eqn:Ev; [|exfalso; apply (Hsup key); [apply (in_map fst) in Hi; exact Hi|exact Ev]].
    exists k, v. split; [apply A3; exact C2|]. split.
    - change k with (hid (tag k)). eapply D0b; [|reflexivity|exact Ev]. eapply Permutation_in; [exact Plinks|]. unfold links. apply in_or_app. left. exact C1.
    - unfold R. eapply replacements_of; eassumption. }
  assert (rsv_dec : forall i, rsv i \/ ~ rsv i).
  { intros i. unfold rsv. destruct (in_dec Nat.eq_dec i (map snd reserved)); auto. }
  assert (rsv_R : forall i, ~ rsv i -> at_id i R = None).
  { intros i Hi. destruct (at_id i R) as [v|] eqn:E; [|reflexivity]. exfalso. apply Hi. unfold R in E.
    apply replacements_in in E. destruct E as [key [C1 _]]. apply (in_map snd) in C1. exact C1. }
  assert (ser_inj := so_inj _ _ A1).
  set (s0 := mk_loading payload D0 n).
  assert (Hs0 : loading_ok scalar rsv U (sv_ser s2) D0 R n s0).
  { constructor; cbn; auto.
    - apply extends_refl.
    - intros k k' v v' H H' Hk. congruence. }
  destruct fuel as [|fuel]; [lia|].
  set (kvs := map (fun r => (fst r, POther (snd r) 0)) reserved ++ [(name, obj)]).
  set (ld := load payload scalar serializables construct fuel F).
  assert (Hfields : Forall2 (fun l f => fst l = fst f /\ forall s, loading_ok scalar rsv U (sv_ser s2) D0 R n s ->
      exists v s', ld (snd l) s = Ok (v, s') /\ loaded scalar rsv U (sv_ser s2) D0 R n (snd f) s v s') links kvs).
  { unfold links, kvs. apply Forall2_app.
    - assert (G : forall rs ks0, Forall2 (fun r k => at_id (snd r) (sv_ser s1) = Some k) rs ks0 -> (forall r, In r rs -> rsv (snd r)) ->
        Forall2 (fun l f => fst l = fst f /\ forall s, loading_ok scalar rsv U (sv_ser s2) D0 R n s ->
          exists v s', ld (snd l) s = Ok (v, s') /\ loaded scalar rsv U (sv_ser s2) D0 R n (snd f) s v s')
          (combine (map fst rs) (map tag ks0)) (map (fun r : string * nat => (fst r, POther (snd r) 0)) rs)).
      { intros rs ks0 FF. induction FF as [|r k rs ks0 Hr FF IH]; intros Hin; [constructor|]. cbn [map combine]. constructor.
        - split; [reflexivity|]. intros s Hs. cbn [snd]. destruct (rsv_D0 (snd r) (Hin r (or_introl eq_refl))) as [k' [v [C1 [C2 C3]]]].
          assert (k' = k) by (apply A3 in Hr; congruence). subst k'.
          exists v, s. unfold ld. destruct fuel as [|fuel']; [lia|]. split; [cbn [load tag hid]; rewrite (lo_ext _ _ _ _ _ _ _ _ Hs _ _ C2); reflexivity|].
          apply kept_ok; [exact Hs|]. cbn [snd StorageSpec.copy pid]. rewrite C3. reflexivity.
        - apply IH. intros r' Hr'. apply Hin. right. exact Hr'. }
      apply G; [exact F1|]. intros r Hr. apply in_map. exact Hr.
    - constructor; [|constructor]. split; [reflexivity|]. cbn [snd].
      apply (load_ok scalar serializables construct rsv U U_member Huniq F (sv_ser s2) D0 R n F_ids ser_inj ser_node D0_node rsv_D0 rsv_dec rsv_R
        (Hcls "dict" ltac:(cbn; auto)) (Hcls "list" ltac:(cbn; auto)) (Hcls "tuple" ltac:(cbn; auto)) Hacc (depth obj) fuel h obj (le_n _) (reached_self _ _)); [|exact A4|lia].
      eapply hnode_link; [|apply hnode_self]. unfold links. apply in_or_app. right. left. reflexivity. }
  destruct (Permutation_Forall2 Plinks Hfields) as [kvs2 [P2 F2]].
  destruct (load_fields_ok scalar rsv U (sv_ser s2) D0 R n ld (by_name links) kvs2 F2 s0 Hs0) as [l [s3 [E4 [C1 C2 C3 C4 C5]]]].
  assert (Hroot : at_id 0 D0 = None).
  { destruct (at_id 0 D0) as [v|] eqn:E; [|reflexivity]. exfalso. destruct (D0_node _ _ E) as [Hn _].
    pose proof (same_node F F_ids _ F Hn (hnode_self _) eq_refl) as G. discriminate G. }
  destruct (Permutation_Forall2 (Permutation_sym P2) C4) as [l1 [P3 F3]].
  assert (Hkeys : map fst l1 = map fst reserved ++ [name]).
  { transitivity (map fst kvs).
    - symmetry. clear - F3. induction F3 as [|a b la lb [H _] F3 IH]; [reflexivity|]. cbn. rewrite H, IH. reflexivity.
    - unfold kvs. rewrite map_app, map_map. cbn [map fst]. reflexivity. }
  assert (Hnd : NoDup (map fst l)).
  { eapply Permutation_NoDup; [apply Permutation_map, Permutation_sym; exact P3|]. rewrite Hkeys.
    eapply Permutation_NoDup; [apply Permutation_cons_append|]. exact Hnames. }
  unfold kvs in F3. apply Forall2_app_inv_l in F3. destruct F3 as [la [lb [Fa [Fb El]]]].
  destruct lb as [|[name' v] lb]; [inversion Fb|]. apply Forall2_cons_iff in Fb. destruct Fb as [[En Hv] Fb].
  destruct lb as [|? ?]; [|inversion Fb]. cbn [fst snd] in En, Hv. subst name' l1.
  exists F, (ld_next payload s3), l, v, (loc rsv (sv_ser s2) (ld_des payload s3)).
  split; [exact Efile|]. split.
  { unfold from_hdf5, F. fold links. rewrite E3. cbn [load]. cbn [hid]. fold s0. change (ld_des payload s0) with D0. rewrite Hroot.
    fold F. fold ld. rewrite E4. reflexivity. }
  assert (Hin_l : forall e, In e (la ++ [(name, v)]) -> In e l) by (intros e He; eapply Permutation_in; [apply Permutation_sym; exact P3|exact He]).
  split.
  { eapply perm_trans; [apply Permutation_map; exact P3|]. rewrite Hkeys. apply Permutation_sym, Permutation_cons_append. }
  split; [apply named_some; [exact Hnd|apply Hin_l; apply in_or_app; right; left; reflexivity]|].
  split.
  { intros key Hin. destruct (named key supplied) as [w|] eqn:Ew; [|exfalso; apply (Hsup key); auto].
    apply named_some; [exact Hnd|]. apply Hin_l. apply in_or_app. left.
    apply in_map_iff in Hin. destruct Hin as [[key' i] [Ek Hin]]. cbn in Ek. subst key'.
    assert (Hrep := replacements_of _ _ _ _ _ Hids Hin Ew). fold R in Hrep.
    assert (G : forall lc rs l0, Forall2 (fun a b => fst a = fst b /\ copy scalar lc R (snd a) (snd b))
        (map (fun r : string * nat => (fst r, POther (snd r) 0)) rs) l0 -> In (key, i) rs -> In (key, w) l0).
    { intros lc rs. induction rs as [|r rs IH]; intros l0 FF Hr; [contradiction|]. cbn [map] in FF.
      destruct l0 as [|[k' v'] l0]; [inversion FF|]. apply Forall2_cons_iff in FF. destruct FF as [[E1' E2'] FF].
      destruct Hr as [->|Hr]; [|right; apply IH; assumption]. left. cbn [fst snd StorageSpec.copy pid] in E1', E2'. rewrite Hrep in E2'. subst k' v'. reflexivity. }
    eapply G; eassumption. }
  split; [exact Hv|]. split.
  - intros i j i' j' [Hi [k [w [G1 [G2 G3]]]]] [Hi' [k' [w' [G1' [G2' G3']]]]]. split; intros E.
    + subst i'. congruence.
    + assert (Hno : forall i k, ~ rsv i -> at_id i (sv_ser s2) = Some k -> at_id k D0 = None).
      { intros i0 k0 Hi0 Hk0. destruct (at_id k0 D0) eqn:E0; [|reflexivity]. exfalso. destruct (D0_node _ _ E0) as [_ [i1 [Q1 [Q2 _]]]].
        apply Hi0. rewrite (ser_inj _ _ _ Hk0 Q1). exact Q2. }
      assert (k = k') by (eapply (lo_inj _ _ _ _ _ _ _ _ C1); [exact G2|exact G2'|eauto|eauto|congruence]).
      subst k'. eapply ser_inj; eassumption.
  - intros a b [Ha [k [w [G1 [G2 G3]]]]]. destruct (lo_ent _ _ _ _ _ _ _ _ C1 _ _ G2) as [G|[t [_ [_ [_ [_ [_ G]]]]]]]; [|lia].
    exfalso. destruct (D0_node _ _ G) as [_ [i1 [Q1 [Q2 _]]]]. apply Ha. rewrite (ser_inj _ _ _ G1 Q1). exact Q2.
Qed.
End Trip.
