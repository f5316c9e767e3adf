(** Saving succeeds and the file represents the object. *)
From Coq Require Import String Ascii List Bool Arith Lia Permutation.
From Verif Require Import PyExn StorageModel StorageSpec StorageProofs.
Import ListNotations.
Local Open Scope string_scope.
Local Open Scope list_scope.

Section Save.
Context {payload : Type}.
Variable storable scalar : payload -> bool.
Variable serializables : string -> bool.
Notation pyval := (pyval payload).
Notation h5 := (h5 payload).
Notation save := (save payload storable serializables).
Variable rsv : nat -> Prop.
Variable U : pyval -> Prop.
Hypothesis U_member : forall t c, U t -> ~ rsv (pid t) -> In c (members t) -> U c.
Hypothesis U_unique : forall a b, U a -> U b -> pid a = pid b -> a = b.
Hypothesis U_good : forall t, U t -> ~ rsv (pid t) -> can_save storable scalar serializables t.
Notation stored := (stored scalar serializables rsv).
Notation direct := (direct scalar serializables rsv).

(** Invariant of the save state. *)
Record state_ok (s : saving) : Prop := mk_state_ok {
  so_bound : forall i k, at_id i (sv_ser s) = Some k -> k < sv_next s;
  so_inj : forall i j k, at_id i (sv_ser s) = Some k -> at_id j (sv_ser s) = Some k -> i = j;
  so_rsv : forall i, rsv i -> at_id i (sv_ser s) <> None }.

Definition fresh_in (s s' : saving) (l : list nat) : Prop :=
  NoDup l /\ forall x, In x l -> sv_next s <= x < sv_next s'.
(** Every new entry of [serialized] belongs to a new node. *)
Definition news (s s' : saving) (P : h5 -> pyval -> Prop) : Prop :=
  forall i k, at_id i (sv_ser s') = Some k -> at_id i (sv_ser s) = Some k \/
    exists h t, P h t /\ hid h = k /\ direct (sv_ser s') h t /\ pid t = i /\ U t.
Record saved (t : pyval) (s : saving) (h : h5) (s' : saving) : Prop := mk_saved {
  sd_ok : state_ok s';
  sd_next : sv_next s < sv_next s';
  sd_ext : extends (sv_ser s) (sv_ser s');
  sd_stored : stored (sv_ser s') h t;
  sd_fresh : fresh_in s s' (hids h);
  sd_news : news s s' (fun h' t' => hnode h' h /\ within t' t) }.
Record saved_fields (kvs : list (string * pyval)) (s : saving) (new : list (string * h5)) (s' : saving) : Prop := mk_saved_fields {
  sf_ok : state_ok s';
  sf_next : sv_next s <= sv_next s';
  sf_ext : extends (sv_ser s) (sv_ser s');
  sf_stored : Forall2 (fun l f => fst l = fst f /\ stored (sv_ser s') (snd l) (snd f)) new kvs;
  sf_fresh : fresh_in s s' (hids_links hids new);
  sf_news : news s s' (fun h' t' => exists l f, In l new /\ In f kvs /\ hnode h' (snd l) /\ within t' (snd f)) }.

Lemma stored_ext ser ser' h t : extends ser ser' -> stored ser h t -> stored ser' h t.
Proof. intros He. apply (stored_mono scalar serializables rsv ser ser' He (depth t) t (le_n _) h). Qed.
Lemma direct_ext ser ser' h t : extends ser ser' -> direct ser h t -> direct ser' h t.
Proof. intros He. apply (stored_mono scalar serializables rsv ser ser' He (depth t) t (le_n _) h). Qed.
Lemma fields_ext ser ser' new (kvs : list (string * pyval)) : extends ser ser' ->
  Forall2 (fun l f => fst l = fst f /\ stored ser (snd l) (snd f)) new kvs ->
  Forall2 (fun l f => fst l = fst f /\ stored ser' (snd l) (snd f)) new kvs.
Proof. intros He. apply Forall2_impl_in. intros a b _ [E H]. split; [exact E|]. eapply stored_ext; eassumption. Qed.
Lemma news_ext s s' s'' P : news s s' P -> extends (sv_ser s') (sv_ser s'') ->
  forall i k, at_id i (sv_ser s') = Some k -> at_id i (sv_ser s) = Some k \/
    exists h t, P h t /\ hid h = k /\ direct (sv_ser s'') h t /\ pid t = i /\ U t.
Proof.
  intros Hn He i k H. destruct (Hn i k H) as [G|[h [t [H1 [H2 [H3 [H4 H5]]]]]]]; [auto|]. right. exists h, t.
  repeat split; auto. eapply direct_ext; eassumption.
Qed.
Lemma news_weaken s s' (P Q : h5 -> pyval -> Prop) : (forall h t, P h t -> Q h t) -> news s s' P -> news s s' Q.
Proof. intros H Hn i k G. destruct (Hn i k G) as [G'|[h [t [H1 H2]]]]; [auto|]. right. exists h, t. auto. Qed.

Lemma fresh_in_app s s' s'' l l' : sv_next s <= sv_next s' -> sv_next s' <= sv_next s'' -> fresh_in s s' l -> fresh_in s' s'' l' -> fresh_in s s'' (l ++ l').
Proof.
  intros Ha Hb [N1 R1] [N2 R2]. split.
  - clear Ha Hb. induction l as [|x l IH]; [exact N2|]. cbn. inversion N1; subst. constructor.
    + intros H. apply in_app_or in H. destruct H as [H|H]; [tauto|].
      pose proof (R1 x (or_introl eq_refl)). pose proof (R2 x H). lia.
    + apply IH; [assumption|]. intros y Hy. apply R1. right. exact Hy.
  - intros x H. apply in_app_or in H. destruct H as [H|H]; [apply R1 in H|apply R2 in H]; lia.
Qed.

(** The members of a container. *)
Lemma save_fields_ok (kvs : list (string * pyval)) :
  (forall f s, In f kvs -> state_ok s -> exists h s', save (snd f) s = Ok (h, s') /\ saved (snd f) s h s') ->
  NoDup (map fst kvs) -> Forall plain (map fst kvs) ->
  forall ls s, (forall n, In n (map fst ls) -> ~ In n (map fst kvs)) -> state_ok s ->
  exists new s', save_fields payload save kvs ls s = Ok (ls ++ new, s') /\ saved_fields kvs s new s'.
Proof.
  induction kvs as [|[key t] kvs IH]; intros Hsave Hn Hp ls s Hd Hs.
  - exists [], s. split; [cbn; rewrite app_nil_r; reflexivity|]. constructor; auto.
    + apply extends_refl.
    + split; [constructor|intros x []].
    + intros i k H. auto.
  - cbn [map fst] in *. inversion Hn as [|? ? Hn1 Hn2]; subst. inversion Hp as [|? ? Hp1 Hp2]; subst.
    destruct (Hsave (key, t) s (or_introl eq_refl) Hs) as [h [s1 [E1 H1]]]. cbn [snd] in *.
    assert (Hname : ~ In key (map fst ls)) by (intros G; apply (Hd key G); left; reflexivity).
    cbn [save_fields]. unfold put. rewrite E1. rewrite link_plain by assumption.
    replace {| sv_ser := sv_ser s1; sv_next := sv_next s1 |} with s1 by (destruct s1; reflexivity).
    destruct (IH (fun f s0 Hf => Hsave f s0 (or_intror Hf)) Hn2 Hp2 (ls ++ [(key, h)]) s1) as [new [s' [E2 H2]]].
    { intros n G Hin. rewrite map_app in G. apply in_app_or in G. destruct G as [G|[<-|[]]]; [apply (Hd n G); right; exact Hin|contradiction]. }
    { apply sd_ok in H1. exact H1. }
    exists ((key, h) :: new), s'. split; [etransitivity; [exact E2|]; rewrite <- app_assoc; reflexivity|].
    destruct H1 as [A1 A2 A3 A4 A5 A6]. destruct H2 as [B1 B2 B3 B4 B5 B6]. constructor.
    + exact B1.
    + lia.
    + eapply extends_trans; eassumption.
    + constructor; [split; [reflexivity|]; eapply stored_ext; eassumption|exact B4].
    + cbn. eapply fresh_in_app; [| |exact A5|exact B5]; lia.
    + intros i k G. destruct (B6 i k G) as [G'|[h' [t' [[l [f [C1 [C2 [C3 C4]]]]] C5]]]].
      * destruct (news_ext _ _ _ _ A6 B3 i k G') as [G''|[h' [t' [[C1 C2] C3]]]]; [auto|].
        right. exists h', t'. split; [|exact C3]. exists (key, h), (key, t). cbn. auto.
      * right. exists h', t'. split; [|exact C5]. exists l, f. cbn. auto.
Qed.

Lemma register_ok i k s : at_id i (sv_ser s) = None -> k < sv_next s -> (forall j, at_id j (sv_ser s) = Some k -> False) ->
  state_ok s -> state_ok (register i k s) /\ extends (sv_ser s) (sv_ser (register i k s)) /\ at_id i (sv_ser (register i k s)) = Some k.
Proof.
  intros Hi Hk Hf [B I Rv]. split; [|split; [apply extends_cons; exact Hi|cbn; rewrite Nat.eqb_refl; reflexivity]].
  constructor; cbn.
  - intros j x. destruct (Nat.eqb_spec j i) as [->|]; [intros [= <-]; exact Hk|apply B].
  - intros a b x. destruct (Nat.eqb_spec a i) as [->|], (Nat.eqb_spec b i) as [->|]; intros H1 H2; [reflexivity| | |].
    + injection H1 as ->. exfalso. eapply Hf. exact H2.
    + injection H2 as ->. exfalso. eapply Hf. exact H1.
    + eapply I; eassumption.
  - intros j Hj. destruct (Nat.eqb_spec j i); [discriminate|apply Rv; exact Hj].
Qed.

Lemma fresh_ok s k s1 : fresh s = (k, s1) -> state_ok s ->
  k = sv_next s /\ sv_ser s1 = sv_ser s /\ sv_next s1 = S k /\ state_ok s1 /\ (forall j, at_id j (sv_ser s1) = Some k -> False).
Proof.
  unfold fresh. intros [= <- <-] [B I Rv]. cbn. repeat split; auto; cbn.
  - intros i k H. apply B in H. lia.
  - intros j H. apply B in H. lia.
Qed.

(** A container that is registered after its members. *)
Lemma container_late t s (ty : string) (kvs : list (string * pyval)) k s1 :
  U t -> state_ok s -> at_id (pid t) (sv_ser s) = None -> fresh s = (k, s1) ->
  members t = map snd kvs -> NoDup (map fst kvs) -> Forall plain (map fst kvs) ->
  (forall c s0, In c (members t) -> state_ok s0 -> exists h s', save c s0 = Ok (h, s') /\ saved c s0 h s') ->
  (forall ser ls, at_id (pid t) ser = Some k -> Forall2 (fun l f => fst l = fst f /\ stored ser (snd l) (snd f)) ls kvs -> direct ser (HGroup k (Some ty) ls) t) ->
  exists ls s2, save_fields payload save kvs [] s1 = Ok (ls, s2) /\
    saved t s (HGroup k (Some ty) ls) (register (pid t) k s2).
Proof.
  intros Ht Hs Hid Hf Hm Hn Hp Hc Hdir.
  destruct (fresh_ok _ _ _ Hf Hs) as [-> [Es [En [Hs1 Hk]]]].
  destruct (save_fields_ok kvs) with (ls := @nil (string * h5)) (s := s1) as [ls [s2 [E H]]]; auto.
  { intros f s0 Hin Hs0. apply Hc; [rewrite Hm; apply in_map; exact Hin|exact Hs0]. }
  exists ls, s2. split; [exact E|]. destruct H as [B1 B2 B3 B4 B5 B6].
  assert (Hrs : ~ rsv (pid t)) by (intros G; apply (so_rsv _ Hs) in G; congruence).
  assert (Hnone : at_id (pid t) (sv_ser s2) = None).
  { destruct (at_id (pid t) (sv_ser s2)) as [x|] eqn:Ex; [|reflexivity]. exfalso.
    destruct (B6 _ _ Ex) as [G|[h' [t' [[l [f [C1 [C2 [C3 C4]]]]] [C5 [C6 [C7 C8]]]]]]]; [congruence|].
    assert (Hin : In (snd f) (members t)) by (rewrite Hm; apply in_map; exact C2).
    pose proof (U_unique _ _ C8 Ht C7). subst t'. apply within_depth in C4. apply depth_member in Hin.
    destruct C4 as [->|C4]; lia. }
  assert (Hfresh : forall j, at_id j (sv_ser s2) = Some (sv_next s) -> False).
  { intros j G. destruct (B6 _ _ G) as [G'|[h' [t' [[l [f [C1 [C2 [C3 C4]]]]] [C5 _]]]]]; [exact (Hk j G')|].
    apply hnode_hid in C3. destruct B5 as [_ R5]. destruct l as [lk lh].
    pose proof (R5 (hid h') (hids_links_in _ _ _ _ _ C1 C3)). lia. }
  destruct (register_ok (pid t) (sv_next s) s2 Hnone ltac:(lia) Hfresh B1) as [D1 [D2 D3]].
  assert (D : direct (sv_ser (register (pid t) (sv_next s) s2)) (HGroup (sv_next s) (Some ty) ls) t)
    by (apply Hdir; [exact D3|eapply fields_ext; eassumption]).
  constructor.
  - exact D1.
  - cbn. lia.
  - eapply extends_trans; [|exact D2]. rewrite <- Es. exact B3.
  - apply st_direct. exact D.
  - destruct B5 as [N5 R5]. split; cbn.
    + constructor; [|exact N5]. intros G. apply R5 in G. lia.
    + intros x [<-|G]; [lia|]. apply R5 in G. lia.
  - intros i x G. cbn in G. destruct (Nat.eqb_spec i (pid t)) as [->|Hne].
    + injection G as <-. right. exists (HGroup (sv_next s) (Some ty) ls), t. repeat split; auto; [apply hnode_self|apply within_self].
    + destruct (news_ext _ _ _ _ B6 D2 i x G) as [G'|[h' [t' [[[lk lh] [f [C1 [C2 [C3 C4]]]]] C5]]]]; [rewrite Es in G'; auto|].
      right. exists h', t'. split; [|exact C5]. split; [eapply hnode_link; eassumption|].
      eapply within_member; [|exact C4]. rewrite Hm. apply in_map. exact C2.
Qed.

(** A dataset that is registered. *)
Lemma leaf_ok t s h k s1 : U t -> state_ok s -> at_id (pid t) (sv_ser s) = None -> fresh s = (k, s1) ->
  hids h = [k] -> hid h = k -> (forall ser, at_id (pid t) ser = Some k -> direct ser h t) ->
  saved t s h (register (pid t) k s1).
Proof.
  intros Ht Hs Hid Hf Hh Hk Hdir. destruct (fresh_ok _ _ _ Hf Hs) as [-> [Es [En [Hs1 Hfr]]]].
  assert (Hid1 : at_id (pid t) (sv_ser s1) = None) by (rewrite Es; exact Hid).
  destruct (register_ok (pid t) (sv_next s) s1 Hid1 ltac:(lia) Hfr Hs1) as [D1 [D2 D3]].
  constructor; auto.
  - cbn. lia.
  - rewrite <- Es. exact D2.
  - apply st_direct, Hdir. exact D3.
  - rewrite Hh. split; [constructor; [intros []|constructor]|]. cbn. intros x [<-|[]]. lia.
  - intros i x G. cbn in G. destruct (Nat.eqb_spec i (pid t)) as [->|Hne].
    + injection G as <-. right. exists h, t. repeat split; auto; [apply hnode_self|apply within_self].
    + rewrite Es in G. auto.
Qed.

Theorem save_ok : forall d t s, depth t <= d -> U t -> state_ok s -> exists h s', save t s = Ok (h, s') /\ saved t s h s'.
Proof.
  induction d as [d IH] using lt_wf_ind. intros t s Hd Ht Hs.
  destruct (fresh s) as [k s1] eqn:Ef. pose proof (fresh_ok _ _ _ Ef Hs) as [Ek [Es [En [Hs1 Hfr]]]].
  destruct (at_id (pid t) (sv_ser s)) as [x|] eqn:Eid.
  - exists (HData k None (CRef x)), s1. split; [destruct t; cbn [StorageModel.save]; rewrite Ef; cbn [pid] in *; rewrite Eid; reflexivity|].
    constructor; auto.
    + lia.
    + rewrite Es. apply extends_refl.
    + apply st_ref. rewrite Es. exact Eid.
    + cbn. split; [constructor; [intros []|constructor]|]. intros y [<-|[]]. lia.
    + intros i y G. rewrite Es in G. auto.
  - assert (Hrs : ~ rsv (pid t)) by (intros G; apply (so_rsv _ Hs) in G; congruence).
    pose proof (U_good t Ht Hrs) as [G1 [G2 G3]].
    assert (Hmem : forall c s0, In c (members t) -> state_ok s0 -> exists h s', save c s0 = Ok (h, s') /\ saved c s0 h s').
    { intros c s0 Hc Hs0. pose proof (depth_member _ _ Hc). apply (IH (depth c)); [lia|lia|eapply U_member; eassumption|exact Hs0]. }
    destruct t as [i kvs|i b xs|i cls kvs|i b p|i p|i b p|i str|i|i w]; cbn [pid] in *; cbn [StorageModel.save]; rewrite Ef; cbn [pid]; rewrite Eid.
    + destruct (container_late (PDict i kvs) s "dict" kvs k s1) as [ls [s2 [E H]]]; auto.
      { intros ser ls H1 H2. constructor; auto. }
      rewrite E. eexists _, _. split; [reflexivity|exact H].
    + destruct (container_late (PSeq i b xs) s (if b then "list" else "tuple") (enum 0 xs) k s1) as [ls [s2 [E H]]]; auto.
      { cbn. rewrite enum_vals. reflexivity. }
      { apply enum_nodup. }
      { apply enum_plain. }
      { intros ser ls H1 H2. constructor; auto. }
      rewrite save_items_fields, E. eexists _, _. split; [reflexivity|exact H].
    + rewrite G3. cbn [keys] in *. rewrite <- Es in Eid.
      destruct (register_ok i k s1 Eid ltac:(lia) Hfr Hs1) as [D1 [D2 D3]].
      destruct (save_fields_ok kvs) with (ls := @nil (string * h5)) (s := register i k s1) as [ls [s2 [E H]]]; auto.
      { intros f s0 Hin Hs0. apply Hmem; [cbn; apply in_map; exact Hin|exact Hs0]. }
      rewrite E. cbn [app]. eexists _, _. split; [reflexivity|]. destruct H as [B1 B2 B3 B4 B5 B6]. cbn in B2.
      assert (D : direct (sv_ser s2) (HGroup k (Some cls) ls) (PInst i cls kvs)) by (constructor; auto).
      constructor; auto.
      * lia.
      * rewrite <- Es. eapply extends_trans; eassumption.
      * apply st_direct. exact D.
      * destruct B5 as [N5 R5]. split; cbn.
        -- constructor; [|exact N5]. intros G. apply R5 in G. cbn in G. lia.
        -- intros x [<-|G]; [lia|]. apply R5 in G. cbn in G. lia.
      * intros j x G. destruct (B6 j x G) as [G'|[h' [t' [[[lk lh] [f [C1 [C2 [C3 C4]]]]] C5]]]].
        -- cbn in G'. destruct (Nat.eqb_spec j i) as [->|Hne].
           ++ injection G' as <-. right. exists (HGroup k (Some cls) ls), (PInst i cls kvs). repeat split; auto; [apply hnode_self|apply within_self].
           ++ rewrite Es in G'. auto.
        -- right. exists h', t'. split; [|exact C5]. split; [eapply hnode_link; eassumption|].
           eapply within_member; [|exact C4]. cbn. apply in_map. exact C2.
    + rewrite G3. eexists _, _. split; [reflexivity|].
      apply (leaf_ok (PTable i b p) s); auto. intros ser H. constructor; auto.
    + rewrite G3. eexists _, _. split; [reflexivity|].
      apply (leaf_ok (PArray i p) s); auto. intros ser H. constructor; auto.
    + destruct G3 as [G3 G4]. rewrite G3. eexists _, _. split; [reflexivity|]. constructor; auto.
      * lia.
      * rewrite Es. apply extends_refl.
      * apply st_direct. constructor; auto.
      * cbn. split; [constructor; [intros []|constructor]|]. intros y [<-|[]]. lia.
      * intros j y G. rewrite Es in G. auto.
    + eexists _, _. split; [reflexivity|].
      apply (leaf_ok (PStr i str) s); auto. intros ser H. constructor; auto.
    + eexists _, _. split; [reflexivity|].
      apply (leaf_ok (PNone i) s); auto. intros ser H. constructor; auto.
    + contradiction.
Qed.
End Save.
