(** Loading a file that represents an object gives a copy of the object. *)
From Coq Require Import String Ascii List Bool Arith Lia Permutation.
From Verif Require Import PyExn StorageModel StorageSpec StorageProofs.
Import ListNotations.
Local Open Scope string_scope.
Local Open Scope list_scope.

(** ** Sorting links *)
Lemma insert_link_perm {A} (e : string * A) l : Permutation (e :: l) (insert_link e l).
Proof.
  induction l as [|f l IH]; [apply Permutation_refl|]. cbn. destruct (String.leb (fst e) (fst f)); [apply Permutation_refl|].
  eapply perm_trans; [apply perm_swap|]. apply perm_skip. exact IH.
Qed.
Lemma by_name_perm {A} (l : list (string * A)) : Permutation l (by_name l).
Proof. induction l as [|e l IH]; [apply perm_nil|]. cbn. eapply perm_trans; [apply perm_skip; exact IH|]. apply insert_link_perm. Qed.

Section Load.
Context {payload : Type}.
Variable scalar : payload -> bool.
Variable serializables : string -> bool.
Variable construct : string -> list (string * pyval payload) -> option exn.
Notation pyval := (pyval payload).
Notation h5 := (h5 payload).
Notation load := (load payload scalar serializables construct).
Notation copy := (copy scalar).

Lemma match_fields_Forall2 f (kvs l : list (string * pyval)) :
  match_fields f kvs l <-> Forall2 (fun a b => fst a = fst b /\ f (snd a) (snd b)) kvs l.
Proof.
  revert l. induction kvs as [|[k t] kvs IH]; intros [|[k' t'] l]; cbn; split; intros H; try contradiction; try (inversion H; fail); auto.
  - destruct H as [H1 [H2 H3]]. constructor; [auto|]. apply IH. exact H3.
  - inversion H as [|? ? ? ? [H1 H2] H3]; subst. repeat split; auto. apply IH. exact H3.
Qed.
Lemma match_items_Forall2 f (xs l : list pyval) : match_items f xs l <-> Forall2 f xs l.
Proof.
  revert l. induction xs as [|t xs IH]; intros [|t' l]; cbn; split; intros H; try contradiction; try (inversion H; fail); auto.
  - destruct H as [H1 H2]. constructor; [auto|]. apply IH. exact H2.
  - inversion H; subst. split; auto. apply IH. assumption.
Qed.

Lemma copy_mono (loc loc' : nat -> nat -> Prop) R : (forall i j, loc i j -> loc' i j) ->
  forall d (t v : pyval), depth t <= d -> copy loc R t v -> copy loc' R t v.
Proof.
  intros Hl. induction d as [d IH] using lt_wf_ind. intros t v Hd.
  assert (Hm : forall c v', In c (members t) -> copy loc R c v' -> copy loc' R c v').
  { intros c v' Hc. pose proof (depth_member _ _ Hc). apply (IH (depth c)); lia. }
  assert (Hf : forall kvs l : list (string * pyval), (forall f, In f kvs -> In (snd f) (members t)) ->
    match_fields (copy loc R) kvs l -> match_fields (copy loc' R) kvs l).
  { intros kvs l Hin. rewrite !match_fields_Forall2. induction 1 as [|f g kvs0 l0 [H1 H2] H3 IH']; constructor.
    - split; [exact H1|]. apply Hm; [apply Hin; left; reflexivity|exact H2].
    - apply IH'. intros f0 Hf0. apply Hin. right. exact Hf0. }
  destruct t as [i kvs|i b xs|i cls kvs|i b p|i p|i b p|i s|i|i w]; cbn [StorageSpec.copy pid]; destruct (at_id i R) as [v0|]; auto;
    destruct v; auto.
  - intros [H1 [l [H2 H3]]]. split; [auto|]. exists l. split; [exact H2|]. apply Hf; [|exact H3]. intros f H. apply in_map. exact H.
  - intros [H1 [H2 H3]]. split; [auto|]. split; [exact H2|]. rewrite match_items_Forall2 in *.
    cbn [members] in Hm. clear - Hm H3. induction H3 as [|x y xs ys H H3 IH]; constructor; [apply Hm; [left; reflexivity|exact H]|].
    apply IH. intros c v' Hc. apply Hm. right. exact Hc.
  - intros [H1 [H2 [l [H3 H4]]]]. split; [auto|]. split; [exact H2|]. exists l. split; [exact H3|]. apply Hf; [|exact H4].
    intros f H. apply in_map. exact H.
  - intros [H1 H2]. auto.
  - intros [H1 H2]. auto.
Qed.

(** ** The situation after a save *)
Variable rsv : nat -> Prop.
Variable U : pyval -> Prop.
Hypothesis U_member : forall t c, U t -> ~ rsv (pid t) -> In c (members t) -> U c.
Hypothesis U_unique : forall a b, U a -> U b -> pid a = pid b -> a = b.
Notation stored := (stored scalar serializables rsv).
Notation direct := (direct scalar serializables rsv).
Variable F : h5.
Variable ser : list (nat * nat).
Variable D0 : list (nat * pyval).
Variable R : list (nat * pyval).
Variable n0 : nat.
Hypothesis F_ids : NoDup (hids F).
Hypothesis ser_inj : forall i j k, at_id i ser = Some k -> at_id j ser = Some k -> i = j.
Hypothesis ser_node : forall i k, at_id i ser = Some k -> rsv i \/
  exists h t, hnode h F /\ hid h = k /\ direct ser h t /\ pid t = i /\ U t.
Hypothesis D0_node : forall k v, at_id k D0 = Some v -> hnode (HData k (Some "#reserved") CEmpty) F /\
  exists i, at_id i ser = Some k /\ rsv i /\ at_id i R = Some v.
Hypothesis rsv_D0 : forall i, rsv i -> exists k v, at_id i ser = Some k /\ at_id k D0 = Some v /\ at_id i R = Some v.
Hypothesis rsv_dec : forall i, rsv i \/ ~ rsv i.
Hypothesis rsv_R : forall i, ~ rsv i -> at_id i R = None.
Hypothesis no_dict_class : serializables "dict" = false.
Hypothesis no_list_class : serializables "list" = false.
Hypothesis no_tuple_class : serializables "tuple" = false.
Hypothesis accepts : forall i cls kvs kvs' l loc, U (PInst i cls kvs) -> Permutation l kvs' -> match_fields (copy loc R) kvs l ->
  construct cls kvs' = None.

Definition shared (t : pyval) : Prop :=
  match t with PDict _ _ | PSeq _ _ _ | PInst _ _ _ | PTable _ _ _ | PStr _ _ => True | _ => False end.
Definition loc (D : list (nat * pyval)) (i j : nat) : Prop :=
  ~ rsv i /\ exists k v, at_id i ser = Some k /\ at_id k D = Some v /\ pid v = j.
Lemma loc_ext D D' i j : extends D D' -> loc D i j -> loc D' i j.
Proof. intros He [H [k [v [H1 [H2 H3]]]]]. split; [exact H|]. exists k, v. auto. Qed.

Record loading_ok (s : loading payload) : Prop := mk_loading_ok {
  lo_ext : extends D0 (ld_des _ s);
  lo_ent : forall k v, at_id k (ld_des _ s) = Some v -> at_id k D0 = Some v \/
    exists t, U t /\ shared t /\ ~ rsv (pid t) /\ at_id (pid t) ser = Some k /\ copy (loc (ld_des _ s)) R t v /\ n0 <= pid v < ld_next _ s;
  lo_inj : forall k k' v v', at_id k (ld_des _ s) = Some v -> at_id k' (ld_des _ s) = Some v' ->
    at_id k D0 = None -> at_id k' D0 = None -> pid v = pid v' -> k = k';
  lo_next : n0 <= ld_next _ s }.
Definition lnews (s s' : loading payload) (P : pyval -> Prop) : Prop :=
  forall k v, at_id k (ld_des _ s') = Some v -> at_id k (ld_des _ s) = Some v \/
    exists t, P t /\ U t /\ at_id (pid t) ser = Some k /\ ~ rsv (pid t).
Record loaded (t : pyval) (s : loading payload) (v : pyval) (s' : loading payload) : Prop := mk_loaded {
  la_ok : loading_ok s';
  la_next : ld_next _ s <= ld_next _ s';
  la_ext : extends (ld_des _ s) (ld_des _ s');
  la_copy : copy (loc (ld_des _ s')) R t v;
  la_news : lnews s s' (fun t' => within t' t) }.

Lemma copy_ext D D' t v : extends D D' -> copy (loc D) R t v -> copy (loc D') R t v.
Proof. intros He. apply (copy_mono (loc D) (loc D') R (fun i j => loc_ext D D' i j He) (depth t)). lia. Qed.

(** Two nodes of the file with the same id. *)
Lemma same_node (a b : h5) : hnode a F -> hnode b F -> hid a = hid b -> a = b.
Proof. intros Ha Hb E. apply find_node in Ha; [|exact F_ids]. apply find_node in Hb; [|exact F_ids]. rewrite E in Ha. congruence. Qed.

Lemma direct_rsv h t : direct ser h t -> ~ rsv (pid t).
Proof. inversion 1; assumption. Qed.
Lemma direct_reg h t : shared t -> direct ser h t -> at_id (pid t) ser = Some (hid h).
Proof. intros Hs. inversion 1; subst; try contradiction; assumption. Qed.

(** An entry of [deserialized] for the id of a node. *)
Lemma entry_node s h v : loading_ok s -> hnode h F -> at_id (hid h) (ld_des _ s) = Some v ->
  h = HData (hid h) (Some "#reserved") CEmpty \/
  exists t, U t /\ shared t /\ direct ser h t /\ copy (loc (ld_des _ s)) R t v.
Proof.
  intros Hs Hh H. destruct (lo_ent _ Hs _ _ H) as [H0|[t [H1 [H2 [H3 [H4 [H5 _]]]]]]].
  - left. destruct (D0_node _ _ H0) as [Hn _]. apply (same_node h _ Hh Hn). reflexivity.
  - right. exists t. repeat split; auto. destruct (ser_node _ _ H4) as [G|[h' [t' [C1 [C2 [C3 [C4 C5]]]]]]]; [contradiction|].
    rewrite (same_node h h' Hh C1) by (symmetry; exact C2). rewrite (U_unique t t') by auto. exact C3.
Qed.

Lemma made_ok t h v s s1 : loading_ok s1 -> U t -> shared t -> direct ser h t -> hnode h F ->
  at_id (hid h) (ld_des _ s) = None -> ld_next _ s <= ld_next _ s1 -> extends (ld_des _ s) (ld_des _ s1) ->
  lnews s s1 (fun t' => exists c, In c (members t) /\ within t' c) ->
  (forall n, pid (v n) = n) ->
  (forall D, extends (ld_des _ s1) D -> loc D (pid t) (ld_next _ s1) -> copy (loc D) R t (v (ld_next _ s1))) ->
  loaded t s (fst (made payload (hid h) v s1)) (snd (made payload (hid h) v s1)).
Proof.
  intros Hs1 Ht Hsh Hdir Hh Hnone Hnx Hex Hnews Hv Hcopy.
  pose proof (direct_rsv _ _ Hdir) as Hr. pose proof (direct_reg _ _ Hsh Hdir) as Hser.
  assert (HD0 : at_id (hid h) D0 = None).
  { destruct (at_id (hid h) D0) eqn:E; [|reflexivity]. exfalso. destruct (D0_node _ _ E) as [_ [i [H1 [H2 _]]]].
    apply Hr. rewrite (ser_inj _ _ _ Hser H1). exact H2. }
  assert (Hn1 : at_id (hid h) (ld_des _ s1) = None).
  { destruct (at_id (hid h) (ld_des _ s1)) eqn:E; [|reflexivity]. exfalso.
    destruct (Hnews _ _ E) as [G|[t' [[c [C1 C2]] [C3 [C4 C5]]]]]; [congruence|].
    pose proof (ser_inj _ _ _ Hser C4) as Hp. assert (t = t') by (apply U_unique; auto). subst t'.
    apply within_depth in C2. apply depth_member in C1. destruct C2 as [->|C2]; lia. }
  unfold made. cbn [fst snd]. set (nx := ld_next _ s1) in *.
  assert (He : extends (ld_des _ s1) ((hid h, v nx) :: ld_des _ s1)) by (apply extends_cons; exact Hn1).
  assert (Hloc : loc ((hid h, v nx) :: ld_des _ s1) (pid t) nx).
  { split; [exact Hr|]. exists (hid h), (v nx). repeat split; auto. cbn. rewrite Nat.eqb_refl. reflexivity. }
  assert (Hc : copy (loc ((hid h, v nx) :: ld_des _ s1)) R t (v nx)) by (apply Hcopy; assumption).
  destruct Hs1 as [J1 J2 J3 J4]. constructor; cbn [ld_des ld_next].
  - constructor; cbn [ld_des ld_next].
    + intros k w H. apply He, J1. exact H.
    + intros k w H. cbn in H. destruct (Nat.eqb_spec k (hid h)) as [->|Hne].
      * injection H as <-. right. exists t. repeat split; auto; rewrite Hv; lia.
      * destruct (J2 _ _ H) as [H0|[t' [C1 [C2 [C3 [C4 [C5 C6]]]]]]]; [auto|]. right. exists t'.
        split; [exact C1|]. split; [exact C2|]. split; [exact C3|]. split; [exact C4|]. split; [eapply copy_ext; eassumption|lia].
    + intros k k' w w' H H' Hk Hk' Hp. cbn in H, H'.
      destruct (Nat.eqb_spec k (hid h)) as [->|Hne], (Nat.eqb_spec k' (hid h)) as [->|Hne']; [reflexivity| | |].
      * injection H as <-. rewrite Hv in Hp. destruct (J2 _ _ H') as [G|[t' [_ [_ [_ [_ [_ C6]]]]]]]; [congruence|]. lia.
      * injection H' as <-. rewrite Hv in Hp. destruct (J2 _ _ H) as [G|[t' [_ [_ [_ [_ [_ C6]]]]]]]; [congruence|]. lia.
      * eapply J3; eassumption.
    + lia.
  - lia.
  - eapply extends_trans; eassumption.
  - exact Hc.
  - intros k w H. cbn in H. destruct (Nat.eqb_spec k (hid h)) as [->|Hne].
    + right. exists t. repeat split; auto. apply within_self.
    + destruct (Hnews _ _ H) as [G|[t' [[c [C1 C2]] C3]]]; [auto|]. right. exists t'. split; [|exact C3].
      eapply within_member; eassumption.
Qed.

Lemma unshared_ok t v s : loading_ok s -> copy (loc (ld_des _ s)) R t (v (ld_next _ s)) ->
  loaded t s (fst (unshared payload v s)) (snd (unshared payload v s)).
Proof.
  intros [J1 J2 J3 J4] Hc. unfold unshared. cbn [fst snd]. constructor; cbn [ld_des ld_next]; auto.
  - constructor; cbn [ld_des ld_next]; auto. intros k w H. destruct (J2 _ _ H) as [G|[t' [C1 [C2 [C3 [C4 [C5 C6]]]]]]]; [auto|].
    right. exists t'. repeat (split; [assumption|]). lia.
  - apply extends_refl.
  - intros k w H. auto.
Qed.
Lemma kept_ok t v s : loading_ok s -> copy (loc (ld_des _ s)) R t v -> loaded t s v s.
Proof. intros Hs Hc. constructor; auto; [apply extends_refl|]. intros k w H. auto. Qed.

(** ** Members *)
Record loaded_fields (kvs : list (string * pyval)) (s : loading payload) (l : list (string * pyval)) (s' : loading payload) : Prop := mk_loaded_fields {
  lf_ok : loading_ok s';
  lf_next : ld_next _ s <= ld_next _ s';
  lf_ext : extends (ld_des _ s) (ld_des _ s');
  lf_copy : Forall2 (fun a b => fst a = fst b /\ copy (loc (ld_des _ s')) R (snd a) (snd b)) kvs l;
  lf_news : lnews s s' (fun t' => exists f, In f kvs /\ within t' (snd f)) }.

Lemma load_fields_ok ld ls (kvs : list (string * pyval)) :
  Forall2 (fun l f => fst l = fst f /\ forall s, loading_ok s -> exists v s', ld (snd l) s = Ok (v, s') /\ loaded (snd f) s v s') ls kvs ->
  forall s, loading_ok s -> exists l s', load_fields payload ld ls s = Ok (l, s') /\ loaded_fields kvs s l s'.
Proof.
  induction 1 as [|[k h] [k' t] ls kvs [H1 H2] H IH]; intros s Hs.
  - exists [], s. split; [reflexivity|]. constructor; auto; [apply extends_refl|]. intros k v G. auto.
  - cbn [fst snd] in *. subst k'. destruct (H2 s Hs) as [v [s1 [E1 [A1 A2 A3 A4 A5]]]].
    destruct (IH s1 A1) as [l [s' [E2 [B1 B2 B3 B4 B5]]]].
    exists ((k, v) :: l), s'. split; [cbn [load_fields]; rewrite E1; cbn [load_fields] in E2; rewrite E2; reflexivity|].
    constructor; auto.
    + lia.
    + eapply extends_trans; eassumption.
    + constructor; [|exact B4]. split; [reflexivity|]. eapply copy_ext; eassumption.
    + intros k1 v1 G. destruct (B5 _ _ G) as [G'|[t' [[f [C1 C2]] C3]]].
      * destruct (A5 _ _ G') as [G''|[t' [C1 C2]]]; [auto|]. right. exists t'. split; [|exact C2]. exists (k, t). cbn. auto.
      * right. exists t'. split; [|exact C3]. exists f. cbn. auto.
Qed.
Lemma load_items_fields ld all idxs ls : Forall2 (fun idx (l : string * h5) => named (str_of idx) all = Some (snd l)) idxs ls ->
  forall s, load_items payload ld all idxs s =
    match load_fields payload ld ls s with Ok (kvs, s') => Ok (map snd kvs, s') | Raise e => Raise e end.
Proof.
  induction 1 as [|idx [k h] idxs ls H1 H IH]; intros s; [reflexivity|]. cbn [load_items load_fields]. rewrite H1. cbn [snd].
  destruct (ld h s) as [[v s1]|e]; [|reflexivity].
  change (match load_items payload ld all idxs s1 with Ok (vs, s2) => Ok (v :: vs, s2) | Raise e => Raise e end =
    match match load_fields payload ld ls s1 with Ok (kvs, s2) => Ok ((k, v) :: kvs, s2) | Raise e => Raise e end with
    | Ok (kvs, s') => Ok (map snd kvs, s') | Raise e => Raise e end).
  rewrite IH. destruct (load_fields payload ld ls s1) as [[kvs s2]|e]; reflexivity.
Qed.

(** ** A stored object is loaded as a copy *)
Definition loads (fuel : nat) (h : h5) (t : pyval) : Prop :=
  forall s, loading_ok s -> exists v s', load fuel F h s = Ok (v, s') /\ loaded t s v s'.

Lemma Forall2_length {A B} (P : A -> B -> Prop) l l' : Forall2 P l l' -> length l = length l'.
Proof. induction 1; cbn; congruence. Qed.
Lemma Forall2_swap {A B} (P : A -> B -> Prop) l l' : Forall2 P l l' -> Forall2 (fun b a => P a b) l' l.
Proof. induction 1; constructor; auto. Qed.
Lemma Forall2_both {A B} (P Q : A -> B -> Prop) l l' : Forall2 P l l' -> (forall a b, In a l -> In b l' -> P a b -> Q a b) -> Forall2 Q l l'.
Proof.
  induction 1; intros G; constructor; [apply G; [left|left|]; auto|].
  apply IHForall2. intros. apply G; [right|right|]; auto.
Qed.

(** Members of a group, in the order of the names. *)
Lemma load_members fuel h k ty ls (kvs : list (string * pyval)) : h = HGroup k ty ls -> hnode h F ->
  Forall2 (fun l f => fst l = fst f /\ stored ser (snd l) (snd f)) ls kvs ->
  (forall f g, In f kvs -> hnode g F -> stored ser g (snd f) -> loads fuel g (snd f)) ->
  forall s, loading_ok s -> exists l s', load_fields payload (load fuel F) (by_name ls) s = Ok (l, s') /\
    (exists l1, Permutation l1 l /\ loaded_fields kvs s l1 s').
Proof.
  intros -> Hh Hst Hld s Hs.
  destruct (Permutation_Forall2 (by_name_perm ls) Hst) as [kvs2 [P2 F2]].
  destruct (load_fields_ok (load fuel F) (by_name ls) kvs2) with (s := s) as [l [s' [E [B1 B2 B3 B4 B5]]]]; [|exact Hs|].
  { eapply Forall2_both; [exact F2|]. intros a b Ha Hb [E1 E2]. split; [exact E1|]. apply Hld.
    - eapply Permutation_in; [symmetry; exact P2|exact Hb].
    - eapply hnode_trans; [|exact Hh]. destruct a as [ak ah]. eapply hnode_link; [|apply hnode_self].
      eapply Permutation_in; [symmetry; apply by_name_perm|exact Ha].
    - exact E2. }
  destruct (Permutation_Forall2 (Permutation_sym P2) B4) as [l1 [P3 F3]].
  exists l, s'. split; [exact E|]. exists l1. split; [symmetry; exact P3|]. constructor; auto.
  intros k1 v1 G. destruct (B5 _ _ G) as [G'|[t' [[f [C1 C2]] C3]]]; [auto|]. right. exists t'. split; [|exact C3].
  exists f. split; [|exact C2]. eapply Permutation_in; [symmetry; exact P2|exact C1].
Qed.

Theorem load_ok : forall d fuel h t, depth t <= d -> U t -> hnode h F ->
  (direct ser h t -> 2 * d + 1 <= fuel -> loads fuel h t) /\ (stored ser h t -> 2 * d + 2 <= fuel -> loads fuel h t).
Proof.
  induction d as [d IH] using lt_wf_ind. intros fuel h t Hd Ht Hh.
  assert (Hdirect : forall fuel h, hnode h F -> direct ser h t -> 2 * d + 1 <= fuel -> loads fuel h t).
  { clear fuel h Hh. intros fuel h Hh Hdir Hfuel s Hs. destruct fuel as [|fuel]; [lia|]. cbn [StorageModel.load].
    pose proof (direct_rsv _ _ Hdir) as Hr. pose proof (rsv_R _ Hr) as HR.
    destruct (at_id (hid h) (ld_des payload s)) as [v0|] eqn:Eid.
    { exists v0, s. split; [reflexivity|]. destruct (entry_node s h v0 Hs Hh Eid) as [G|[t' [C1 [C2 [C3 C4]]]]].
      - exfalso. rewrite G in Hdir. inversion Hdir; destruct b; discriminate.
      - assert (t' = t); [|subst t'; apply kept_ok; assumption].
        pose proof (direct_reg _ _ C2 C3) as E1. apply U_unique; auto.
        assert (Hsh : shared t).
        { clear - Hdir C2 C3. inversion Hdir; subst; cbn; auto; inversion C3; subst; try contradiction; try (destruct b; discriminate); try (destruct b0; discriminate). }
        exact (ser_inj _ _ _ E1 (direct_reg _ _ Hsh Hdir)). }
    assert (Hsub : forall (kvs : list (string * pyval)), (forall f, In f kvs -> In (snd f) (members t)) ->
       forall f g, In f kvs -> hnode g F -> stored ser g (snd f) -> loads fuel g (snd f)).
    { intros kvs Hin f g Hf Hg Hst. pose proof (Hin f Hf) as Hm. pose proof (depth_member _ _ Hm).
      apply (IH (depth (snd f)) ltac:(lia) fuel g (snd f) (le_n _) (U_member _ _ Ht Hr Hm) Hg); [exact Hst|lia]. }
    pose proof Hdir as Hdir'.
    inversion Hdir as [k i ls kvs Hri Hi Hf|k i cls ls kvs Hri Hi Hcls Hf|k i b ls xs Hri Hi Hf|k i b p Hri Hi|k i p Hri Hi|k i b p Hri Hsc|k i str Hri Hi|k i Hri Hi]; subst.
    - destruct (load_members fuel (HGroup k (Some "dict") ls) k (Some "dict") ls kvs eq_refl Hh Hf (Hsub kvs (fun f Hin => in_map snd _ f Hin)) s Hs)
        as [l [s1 [E [l1 [P1 [B1 B2 B3 B4 B5]]]]]].
      cbn [String.eqb Ascii.eqb Bool.eqb]. rewrite E. eexists _, _. split; [apply f_equal, surjective_pairing|].
      apply (made_ok (PDict i kvs) (HGroup k (Some "dict") ls)); cbn [shared pid]; auto.
      + intros k1 v1 G. destruct (B5 _ _ G) as [G'|[t' [[f [C1 C2]] C3]]]; [auto|]. right. exists t'. split; [|exact C3].
        exists (snd f). split; [cbn; apply in_map; exact C1|exact C2].
      + intros D HD Hl. cbn [StorageSpec.copy pid]. cbn [pid] in HR. rewrite HR. split; [exact Hl|]. exists l1. split; [exact P1|].
        apply match_fields_Forall2. eapply Forall2_both; [exact B4|]. intros a b _ _ [E1 E2]. split; [exact E1|]. eapply copy_ext; eassumption.
    - destruct (String.eqb_spec cls "dict") as [->|Hcd]; [congruence|].
      rewrite Hcls.
      destruct (load_members fuel (HGroup k (Some cls) ls) k (Some cls) ls kvs eq_refl Hh Hf (Hsub kvs (fun f Hin => in_map snd _ f Hin)) s Hs)
        as [l [s1 [E [l1 [P1 [B1 B2 B3 B4 B5]]]]]].
      rewrite E. rewrite (accepts i cls kvs l l1 (loc (ld_des payload s1)) Ht P1) by (apply match_fields_Forall2; exact B4).
      eexists _, _. split; [apply f_equal, surjective_pairing|].
      apply (made_ok (PInst i cls kvs) (HGroup k (Some cls) ls)); cbn [shared pid]; auto.
      + intros k1 v1 G. destruct (B5 _ _ G) as [G'|[t' [[f [C1 C2]] C3]]]; [auto|]. right. exists t'. split; [|exact C3].
        exists (snd f). split; [cbn; apply in_map; exact C1|exact C2].
      + intros D HD Hl. cbn [StorageSpec.copy pid]. cbn [pid] in HR. rewrite HR. split; [exact Hl|]. split; [reflexivity|]. exists l1. split; [exact P1|].
        apply match_fields_Forall2. eapply Forall2_both; [exact B4|]. intros a b _ _ [E1 E2]. split; [exact E1|]. eapply copy_ext; eassumption.
    - assert (Htag : String.eqb (if b then "list" else "tuple") "dict" = false) by (destruct b; reflexivity).
      assert (Hser : serializables (if b then "list" else "tuple") = false) by (destruct b; assumption).
      assert (Htag2 : (String.eqb (if b then "list" else "tuple") "list" || String.eqb (if b then "list" else "tuple") "tuple") = true) by (destruct b; reflexivity).
      assert (Htag3 : String.eqb (if b then "list" else "tuple") "list" = b) by (destruct b; reflexivity).
      rewrite Htag, Hser, Htag2, Htag3.
      assert (Hk : map fst ls = map str_of (seq 0 (length ls))).
      { assert (length ls = length xs).
        { apply Forall2_length in Hf. rewrite Hf. unfold enum. rewrite combine_length, map_length, seq_length. lia. }
        rewrite H, <- enum_keys. clear - Hf. induction Hf as [|l f ls fs [E _] Hf IH]; [reflexivity|]. cbn. rewrite E, IH. reflexivity. }
      assert (Hnamed : Forall2 (fun idx (l : string * h5) => named (str_of idx) ls = Some (snd l)) (seq 0 (length ls)) ls).
      { assert (Hnd : NoDup (map fst ls)) by (rewrite Hk; apply FinFun.Injective_map_NoDup; [exact str_of_inj|apply seq_NoDup]).
        assert (G : forall idxs l0, map str_of idxs = map fst l0 -> incl l0 ls ->
                  Forall2 (fun idx (l : string * h5) => named (str_of idx) ls = Some (snd l)) idxs l0).
        { clear - Hnd. induction idxs as [|idx idxs IHi]; intros [|[lk lh] l0] Hm Hi; try discriminate; constructor.
          - cbn in Hm. injection Hm as Hm _. rewrite Hm. apply named_some; [exact Hnd|]. apply Hi. left. reflexivity.
          - apply IHi; [cbn in Hm; injection Hm; auto|]. intros y Hy. apply Hi. right. exact Hy. }
        apply G; [symmetry; exact Hk|apply incl_refl]. }
      rewrite (load_items_fields (load fuel F) ls _ ls Hnamed).
      destruct (load_fields_ok (load fuel F) ls (enum 0 xs)) with (s := s) as [l [s1 [E [B1 B2 B3 B4 B5]]]]; [|exact Hs|].
      { eapply Forall2_both; [exact Hf|]. intros [ak ah] f Ha Hb [E1 E2]. split; [exact E1|].
        apply (Hsub (enum 0 xs)); auto.
        - intros f0 Hf0. cbn. rewrite <- (enum_vals xs 0). apply in_map. exact Hf0.
        - eapply hnode_trans; [|exact Hh]. eapply hnode_link; [exact Ha|apply hnode_self]. }
      rewrite E. eexists _, _. split; [apply f_equal, surjective_pairing|].
      apply (made_ok (PSeq i b xs) (HGroup k (Some (if b then "list" else "tuple")) ls)); cbn [shared pid]; auto.
      + intros k1 v1 G. destruct (B5 _ _ G) as [G'|[t' [[f [C1 C2]] C3]]]; [auto|]. right. exists t'. split; [|exact C3].
        exists (snd f). split; [cbn; rewrite <- (enum_vals xs 0); apply in_map; exact C1|exact C2].
      + intros D HD Hl. cbn [StorageSpec.copy pid]. cbn [pid] in HR. rewrite HR. split; [exact Hl|]. split; [reflexivity|].
        apply match_items_Forall2. rewrite <- (enum_vals xs 0). clear - B4 HD.
        induction B4 as [|a c la lc [E1 E2] B4 IH]; cbn; constructor; [eapply copy_ext; eassumption|exact IH].
    - destruct b; (eexists _, _; split; [apply f_equal, surjective_pairing|]).
      + apply (made_ok (PTable i true p) (HData k (Some "DataFrame") (CData p))); cbn [shared pid]; auto; try apply extends_refl.
        * intros k1 v1 G. auto.
        * intros D HD Hl. cbn [StorageSpec.copy pid]. cbn [pid] in HR. rewrite HR. auto.
      + apply (made_ok (PTable i false p) (HData k (Some "Series") (CData p))); cbn [shared pid]; auto; try apply extends_refl.
        * intros k1 v1 G. auto.
        * intros D HD Hl. cbn [StorageSpec.copy pid]. cbn [pid] in HR. rewrite HR. auto.
    - eexists _, _; split; [apply f_equal, surjective_pairing|]. apply unshared_ok; [exact Hs|].
      cbn [StorageSpec.copy pid]. cbn [pid] in HR. rewrite HR. destruct (scalar p) eqn:Es; auto.
    - eexists _, _; split; [apply f_equal, surjective_pairing|]. apply unshared_ok; [exact Hs|].
      cbn [StorageSpec.copy pid]. cbn [pid] in HR. rewrite HR. rewrite Hsc. auto.
    - eexists _, _; split; [apply f_equal, surjective_pairing|].
      apply (made_ok (PStr i str) (HData k (Some "str") (CStr str))); cbn [shared pid]; auto; try apply extends_refl.
      + intros k1 v1 G. auto.
      + intros D HD Hl. cbn [StorageSpec.copy pid]. cbn [pid] in HR. rewrite HR. auto.
    - eexists _, _; split; [reflexivity|]. apply kept_ok; [exact Hs|]. cbn [StorageSpec.copy pid]. cbn [pid] in HR. rewrite HR. exact I. }
  split; [apply Hdirect; exact Hh|].
  intros Hst Hfuel. inversion Hst as [k x t' Hx|h' t' Hdir]; subst.
  2:{ apply Hdirect; auto. lia. }
  intros s Hs. destruct fuel as [|fuel]; [lia|]. cbn [StorageModel.load hid].
  destruct (at_id k (ld_des payload s)) as [v0|] eqn:Eid.
  { exfalso. destruct (entry_node s (HData k None (CRef x)) v0 Hs Hh Eid) as [G|[t' [_ [_ [C3 _]]]]]; [discriminate|].
    inversion C3. }
  destruct (rsv_dec (pid t)) as [Hr|Hr].
  - destruct (rsv_D0 _ Hr) as [x' [v [E1 [E2 E3]]]]. assert (x' = x) by congruence. subst x'.
    destruct (D0_node _ _ E2) as [Hn _]. change x with (hid (HData x (Some "#reserved") (@CEmpty payload))) at 1. rewrite (find_node _ _ Hn F_ids).
    destruct fuel as [|fuel]; [lia|]. cbn [StorageModel.load hid]. rewrite (lo_ext _ Hs _ _ E2).
    exists v, s. split; [reflexivity|]. apply kept_ok; [exact Hs|].
    destruct t; cbn [StorageSpec.copy pid] in *; rewrite E3; reflexivity.
  - destruct (ser_node _ _ Hx) as [G|[h' [t' [C1 [C2 [C3 [C4 C5]]]]]]]; [contradiction|].
    assert (t' = t) by (apply U_unique; auto). subst t' x. rewrite (find_node _ _ C1 F_ids).
    apply Hdirect; auto. lia.
Qed.
End Load.
