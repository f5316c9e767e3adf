(** Saving: what the file contains. *)
From Coq Require Import String Ascii List Bool Arith Lia Permutation.
From Coq Require Import DecimalString DecimalNat.
From Verif Require Import PyExn StorageModel StorageSpec.
Import ListNotations.
Local Open Scope string_scope.

(** ** Names *)
Lemma components_plain s : forall cur, ~ In "/"%char (list_ascii_of_string s) -> components cur s = [cur ++ s].
Proof.
  induction s as [|c s IH]; intros cur H; cbn [components].
  - f_equal. induction cur as [|c cur IH]; [reflexivity|]. cbn. f_equal. exact IH.
  - destruct (Ascii.eqb_spec c "/"%char) as [->|]; [exfalso; apply H; left; reflexivity|].
    rewrite IH by (intros G; apply H; right; exact G). f_equal. clear.
    induction cur as [|d cur IH]; [reflexivity|]. cbn. f_equal. exact IH.
Qed.
Lemma path_plain s : plain s -> path s = [s].
Proof.
  intros [H1 [H2 H3]]. unfold path. rewrite components_plain by exact H3. cbn.
  rewrite (proj2 (String.eqb_neq _ _) H1), (proj2 (String.eqb_neq _ _) H2). reflexivity.
Qed.
Lemma str_of_inj a b : str_of a = str_of b -> a = b.
Proof.
  unfold str_of. intros H. apply Unsigned.to_uint_inj.
  apply (f_equal NilEmpty.uint_of_string) in H. rewrite !NilEmpty.usu in H. congruence.
Qed.
Lemma digits_plain d : ~ In "/"%char (list_ascii_of_string (NilEmpty.string_of_uint d)) /\ NilEmpty.string_of_uint d <> ".".
Proof.
  split.
  - induction d; cbn; intros H; repeat destruct H as [H|H]; try discriminate; auto.
  - destruct d; discriminate.
Qed.
Lemma str_of_plain n : plain (str_of n).
Proof.
  unfold str_of. destruct (digits_plain (Nat.to_uint n)) as [H1 H2]. split; [|split; assumption].
  destruct (Nat.to_uint n) eqn:E; try discriminate. intros _.
  pose proof (Unsigned.of_to n) as H. rewrite E in H. cbn in H. subst n. discriminate.
Qed.

Lemma named_none {A} k (l : list (string * A)) : ~ In k (map fst l) -> named k l = None.
Proof.
  induction l as [|[j a] l IH]; [reflexivity|]. cbn. intros H. destruct (String.eqb_spec k j) as [->|]; [tauto|]. apply IH. tauto.
Qed.
Lemma named_some {A} k a (l : list (string * A)) : NoDup (map fst l) -> In (k, a) l -> named k l = Some a.
Proof.
  induction l as [|[j b] l IH]; [contradiction|]. cbn. intros Hn [H|H]; inversion Hn as [|? ? Hn1 Hn2]; subst.
  - injection H as -> ->. rewrite String.eqb_refl. reflexivity.
  - destruct (String.eqb_spec k j) as [->|]; [|auto]. exfalso. apply Hn1. apply (in_map fst) in H. exact H.
Qed.

Lemma nodup_app_l {A} (a b : list A) : NoDup (a ++ b)%list -> NoDup a.
Proof. induction a as [|x a IH]; [constructor|]. cbn. inversion 1; subst. constructor; [|auto]. intros G. apply H2, in_or_app. auto. Qed.
Lemma nodup_app_r {A} (a b : list A) : NoDup (a ++ b)%list -> NoDup b.
Proof. induction a as [|x a IH]; [auto|]. cbn. inversion 1; subst. auto. Qed.

Section Save.
Context {payload : Type}.
Notation pyval := (pyval payload).
Notation h5 := (h5 payload).

Lemma link_plain name (h : h5) ls n : plain name -> ~ In name (map fst ls) -> link payload name h ls n = Ok ((ls ++ [(name, h)])%list, n).
Proof. intros H1 H2. unfold link. rewrite path_plain by exact H1. cbn. rewrite named_none by exact H2. reflexivity. Qed.

(** ** Trees *)
Lemma depth_max_le f (xs : list pyval) c : In c xs -> f c <= depth_max f xs.
Proof. induction xs as [|x xs IH]; [contradiction|]. cbn. intros [->|H]; [lia|]. specialize (IH H). lia. Qed.
Lemma depth_max_snd_map f (kvs : list (string * pyval)) : depth_max_snd f kvs = depth_max f (map snd kvs).
Proof. induction kvs as [|[k x] kvs IH]; [reflexivity|]. cbn. rewrite IH. reflexivity. Qed.
Lemma depth_member (c t : pyval) : In c (members t) -> depth c < depth t.
Proof.
  destruct t; cbn; try contradiction; intros H; rewrite ?depth_max_snd_map; pose proof (depth_max_le depth _ _ H); lia.
Qed.
Lemma within_depth (a t : pyval) : within a t -> a = t \/ depth a < depth t.
Proof. induction 1 as [|c t Hc Hw IH]; [auto|]. right. apply depth_member in Hc. destruct IH as [->|]; lia. Qed.
Lemma within_trans (a b c : pyval) : within a b -> within b c -> within a c.
Proof. intros Hab. induction 1 as [|d t Hd Hw IH]; [exact Hab|]. eapply within_member; eassumption. Qed.
Lemma member_within (c t : pyval) : In c (members t) -> within c t.
Proof. intros H. eapply within_member; [exact H|apply within_self]. Qed.

(** Members of a sequence with their names. *)
Definition enum (i : nat) (xs : list pyval) : list (string * pyval) := combine (map str_of (seq i (length xs))) xs.
Lemma save_items_fields f xs : forall i ls s, save_items payload f i xs ls s = save_fields payload f (enum i xs) ls s.
Proof.
  induction xs as [|x xs IH]; intros i ls s; [reflexivity|]. cbn.
  destruct (put payload (str_of i) (f x s) ls) as [[ls' s']|e]; [|reflexivity]. apply IH.
Qed.
Lemma enum_keys xs : forall i, map fst (enum i xs) = map str_of (seq i (length xs)).
Proof. induction xs as [|x xs IH]; intros i; [reflexivity|]. cbn. f_equal. apply (IH (S i)). Qed.
Lemma enum_vals xs : forall i, map snd (enum i xs) = xs.
Proof. induction xs as [|x xs IH]; intros i; [reflexivity|]. cbn. f_equal. apply (IH (S i)). Qed.
Lemma enum_nodup i xs : NoDup (map fst (enum i xs)).
Proof. rewrite enum_keys. apply FinFun.Injective_map_NoDup; [exact str_of_inj|apply seq_NoDup]. Qed.
Lemma enum_plain i xs : Forall plain (map fst (enum i xs)).
Proof. rewrite enum_keys. apply Forall_forall. intros s H. apply in_map_iff in H. destruct H as [n [<- _]]. apply str_of_plain. Qed.

(** ** Nodes of a file *)
Definition hids_links (f : h5 -> list nat) := fix go (ls : list (string * h5)) : list nat :=
  match ls with [] => [] | (_, h) :: ls' => (f h ++ go ls')%list end.
Fixpoint hids (h : h5) : list nat :=
  match h with HGroup k _ ls => k :: hids_links hids ls | HData k _ _ => [k] end.
Inductive hnode (a : h5) : h5 -> Prop :=
| hnode_self : hnode a a
| hnode_link k ty ls name g : In (name, g) ls -> hnode a g -> hnode a (HGroup k ty ls).
Lemma hids_links_app f ls ls' : hids_links f (ls ++ ls') = (hids_links f ls ++ hids_links f ls')%list.
Proof. induction ls as [|[k h] ls IH]; [reflexivity|]. cbn. rewrite IH, app_assoc. reflexivity. Qed.
Lemma hids_links_in f ls k (h : h5) x : In (k, h) ls -> In x (f h) -> In x (hids_links f ls).
Proof. induction ls as [|[k' h'] ls IH]; [contradiction|]. cbn. intros [H|H] Hx; apply in_or_app; [left; injection H as -> ->; exact Hx|right; auto]. Qed.
Lemma hnode_hid (a h : h5) : hnode a h -> In (hid a) (hids h).
Proof.
  induction 1 as [|k ty ls name g Hg Ha IH].
  - destruct a; cbn; auto.
  - cbn. right. eapply hids_links_in; eassumption.
Qed.
Lemma hnode_trans (a b c : h5) : hnode a b -> hnode b c -> hnode a c.
Proof. intros Hab. induction 1; [exact Hab|]. eapply hnode_link; eassumption. Qed.
Lemma hids_links_sub f (ls : list (string * h5)) k h : In (k, h) ls -> NoDup (hids_links f ls) -> NoDup (f h).
Proof.
  induction ls as [|[k' h'] ls IH]; [contradiction|]. cbn. intros [H|H] Hn.
  - injection H as -> ->. apply nodup_app_l in Hn. exact Hn.
  - apply nodup_app_r in Hn. auto.
Qed.
Lemma find_absent k : forall n (h : h5), length (hids h) <= n -> ~ In k (hids h) -> find_h5 payload k h = None.
Proof.
  induction n as [|n IH]; intros h Hl Hk; [destruct h; cbn in Hl; lia|].
  destruct h as [k' ty ls|k' ty c]; cbn [find_h5 hid hids] in *.
  - rewrite (proj2 (Nat.eqb_neq _ _)) by (intros ->; apply Hk; left; reflexivity).
    assert (G : length (hids_links hids ls) <= n) by (cbn in Hl; lia).
    assert (Hk' : ~ In k (hids_links hids ls)) by (intros H; apply Hk; right; exact H). clear Hk Hl.
    induction ls as [|[name g] ls IHl]; [reflexivity|]. cbn in *. rewrite app_length in G.
    rewrite IH; [|lia|intros H; apply Hk'; apply in_or_app; auto]. apply IHl; [lia|]. intros H; apply Hk', in_or_app; auto.
  - rewrite (proj2 (Nat.eqb_neq _ _)) by (intros ->; apply Hk; left; reflexivity). reflexivity.
Qed.
Lemma find_node (a h : h5) : hnode a h -> NoDup (hids h) -> find_h5 payload (hid a) h = Some a.
Proof.
  induction 1 as [|k ty ls name g Hg Ha IH]; intros Hn.
  - destruct a; cbn; rewrite Nat.eqb_refl; reflexivity.
  - cbn in Hn. inversion Hn as [|? ? Hk Hn']; subst. clear Hn.
    assert (Hin : In (hid a) (hids_links hids ls)) by (eapply hids_links_in; [exact Hg|apply hnode_hid; exact Ha]).
    cbn [find_h5 hid]. rewrite (proj2 (Nat.eqb_neq _ _)) by (intros ->; tauto). clear Hk.
    assert (IH' := IH (hids_links_sub _ _ _ _ Hg Hn')). clear IH. clear Hin.
    induction ls as [|[name' g'] ls IHl]; [contradiction|]. cbn [find_in]. destruct Hg as [Hg|Hg].
    + injection Hg as -> ->. rewrite IH'. reflexivity.
    + cbn in Hn'. rewrite (find_absent (hid a) (length (hids g'))); [|lia|].
      * apply IHl; [exact Hg|]. apply nodup_app_r in Hn'. exact Hn'.
      * intros H. assert (H2 : In (hid a) (hids_links hids ls)) by (eapply hids_links_in; [exact Hg|apply hnode_hid; exact Ha]).
        clear - Hn' H H2. induction (hids g') as [|x l IH]; [contradiction|]. cbn in Hn'. inversion Hn' as [|? ? Hx Hl]; subst.
        destruct H as [->|H]; [apply Hx, in_or_app; auto|auto].
Qed.

(** ** What is in the file *)
Section Rep.
Variable scalar : payload -> bool.
Variable serializables : string -> bool.
(** The final [serialized] and the ids of reserved objects. *)
Variable rsv : nat -> Prop.
Inductive stored (ser : list (nat * nat)) : h5 -> pyval -> Prop :=
| st_ref k x t : at_id (pid t) ser = Some x -> stored ser (HData k None (CRef x)) t
| st_direct h t : direct ser h t -> stored ser h t
with direct (ser : list (nat * nat)) : h5 -> pyval -> Prop :=
| di_dict k i ls kvs : ~ rsv i -> at_id i ser = Some k -> Forall2 (fun l f => fst l = fst f /\ stored ser (snd l) (snd f)) ls kvs ->
    direct ser (HGroup k (Some "dict") ls) (PDict i kvs)
| di_inst k i cls ls kvs : ~ rsv i -> at_id i ser = Some k -> serializables cls = true ->
    Forall2 (fun l f => fst l = fst f /\ stored ser (snd l) (snd f)) ls kvs ->
    direct ser (HGroup k (Some cls) ls) (PInst i cls kvs)
| di_seq k i (b : bool) ls xs : ~ rsv i -> at_id i ser = Some k ->
    Forall2 (fun l f => fst l = fst f /\ stored ser (snd l) (snd f)) ls (enum 0 xs) ->
    direct ser (HGroup k (Some (if b then "list" else "tuple")) ls) (PSeq i b xs)
| di_table k i (b : bool) p : ~ rsv i -> at_id i ser = Some k ->
    direct ser (HData k (Some (if b then "DataFrame" else "Series")) (CData p)) (PTable i b p)
| di_array k i p : ~ rsv i -> at_id i ser = Some k -> direct ser (HData k None (CData p)) (PArray i p)
| di_num k i b p : ~ rsv i -> scalar p = true -> direct ser (HData k None (CData p)) (PNum i b p)
| di_str k i s : ~ rsv i -> at_id i ser = Some k -> direct ser (HData k (Some "str") (CStr s)) (PStr i s)
| di_none k i : ~ rsv i -> at_id i ser = Some k -> direct ser (HData k (Some "NoneType") CEmpty) (PNone i).

Definition extends {A} (d d' : list (nat * A)) : Prop := forall i a, at_id i d = Some a -> at_id i d' = Some a.
Lemma extends_refl {A} (d : list (nat * A)) : extends d d.
Proof. intros i a H; exact H. Qed.
Lemma extends_trans {A} (d d' d'' : list (nat * A)) : extends d d' -> extends d' d'' -> extends d d''.
Proof. intros H1 H2 i a H. auto. Qed.
Lemma extends_cons {A} (d : list (nat * A)) i a : at_id i d = None -> extends d ((i, a) :: d).
Proof. intros H j b Hj. cbn. destruct (Nat.eqb_spec j i) as [->|]; [congruence|exact Hj]. Qed.

Lemma Forall2_impl_in {A B} (P Q : A -> B -> Prop) l l' : (forall a b, In b l' -> P a b -> Q a b) -> Forall2 P l l' -> Forall2 Q l l'.
Proof. intros H. induction 1; constructor; [apply H; [left; reflexivity|assumption]|]. apply IHForall2. intros; apply H; [right|]; assumption. Qed.
Lemma in_members_fields (kvs : list (string * pyval)) f : In f kvs -> In (snd f) (map snd kvs).
Proof. apply in_map. Qed.

Lemma stored_mono ser ser' : extends ser ser' -> forall d (t : pyval), depth t <= d ->
  forall h, (stored ser h t -> stored ser' h t) /\ (direct ser h t -> direct ser' h t).
Proof.
  intros He. induction d as [d IH] using lt_wf_ind. intros t Hd h.
  assert (Hdir : direct ser h t -> direct ser' h t).
  { intros H. inversion H; subst; constructor; auto.
    - eapply Forall2_impl_in; [|eassumption]. intros a b Hin [E Hs]. split; [exact E|].
      assert (Hlt : depth (snd b) < depth (PDict i kvs)) by (apply depth_member; cbn; apply in_map; exact Hin).
      apply (IH (depth (snd b))); [lia|lia|exact Hs].
    - eapply Forall2_impl_in; [|eassumption]. intros a b Hin [E Hs]. split; [exact E|].
      assert (Hlt : depth (snd b) < depth (PInst i cls kvs)) by (apply depth_member; cbn; apply in_map; exact Hin).
      apply (IH (depth (snd b))); [lia|lia|exact Hs].
    - eapply Forall2_impl_in; [|eassumption]. intros a f Hin [E Hs]. split; [exact E|].
      assert (Hlt : depth (snd f) < depth (PSeq i b xs)) by (apply depth_member; cbn; rewrite <- (enum_vals xs 0); apply in_map; exact Hin).
      apply (IH (depth (snd f))); [lia|lia|exact Hs]. }
  split; [|exact Hdir]. intros H. inversion H; subst; [apply st_ref; auto|apply st_direct; auto].
Qed.
End Rep.
End Save.
