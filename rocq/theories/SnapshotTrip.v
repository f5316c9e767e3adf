(** A snapshot is written and loaded (SnapshotModel.v). *)
From Coq Require Import String List Bool Arith Lia Permutation.
From Verif Require Import PyExn StorageModel StorageSpec StorageProofs StorageTrip SnapshotModel SnapshotSpec SnapshotProofs.
Import ListNotations.
Local Open Scope list_scope.

Section Trip.
Context {payload : Type}.
Notation pyval := (pyval payload).
Variable address : nat -> payload.

Lemma frozen_immutable : forall d (t : pyval), depth t <= d -> frozen t = true -> immutable t.
Proof.
  induction d as [d IH] using lt_wf_ind. intros t Hd F. destruct t; cbn in F; try discriminate; try constructor.
  - destruct is_list; [discriminate|]. rewrite forallb_forall in F. constructor. intros x Hx. pose proof (depth_member x (PSeq i false xs) Hx). apply (IH (depth x)); auto; lia.
  - destruct numpy; [discriminate|]. constructor.
Qed.
Lemma reached_step (rsv : nat -> Prop) (a c t : pyval) : reached rsv a t -> ~ rsv (pid a) -> In c (members a) -> reached rsv c t.
Proof. intros H. induction H as [|b t Hb Hm _ IH]; intros Ha Hc; [econstructor; eauto; constructor|]. econstructor; eauto. Qed.
Lemma members_rename f (t : pyval) : members (rename address f t) = map (rename address f) (members t).
Proof. destruct t; try reflexivity; cbn; induction kvs as [|[k x] kvs IH]; cbn; congruence. Qed.
Lemma keys_rename f (t : pyval) : keys (rename address f t) = keys t.
Proof. destruct t; try reflexivity; cbn; induction kvs as [|[k x] kvs IH]; cbn; congruence. Qed.
Lemma depth_rename f : forall d (t : pyval), depth t <= d -> depth (rename address f t) = depth t.
Proof.
  induction d as [d IH] using lt_wf_ind. intros t Hd.
  assert (M : forall c, In c (members t) -> depth (rename address f c) = depth c).
  { intros c Hc. pose proof (depth_member c t Hc). apply (IH (depth c)); lia. }
  assert (W : forall l, (forall c, In c l -> depth (rename address f c) = depth c) -> depth_max depth (map (rename address f) l) = depth_max depth l).
  { induction l as [|c l IHl]; intros Hl; [reflexivity|]. cbn. rewrite (Hl c (or_introl eq_refl)), IHl; [reflexivity|]. intros x Hx. apply Hl. right. exact Hx. }
  destruct t; try reflexivity; cbn [rename depth]; f_equal.
  - rewrite !depth_max_snd_map, map_map. cbn [snd]. rewrite <- (W (map snd kvs) M), map_map. reflexivity.
  - apply W, M.
  - rewrite !depth_max_snd_map, map_map. cbn [snd]. rewrite <- (W (map snd kvs) M), map_map. reflexivity.
Qed.
Lemma reached_rename f (rsv rsv' : nat -> Prop) (a' : pyval) t' : reached rsv' a' t' -> (forall i, rsv i -> rsv' (f i)) ->
  forall t, t' = rename address f t -> exists a, reached rsv a t /\ a' = rename address f a.
Proof.
  intros H R. induction H as [|c' t' Hr Hc _ IH]; intros t ->; [exists t; split; [constructor|reflexivity]|].
  rewrite members_rename in Hc. apply in_map_iff in Hc as [c [Ec Hc]]. destruct (IH c (eq_sym Ec)) as [a [Ha Ea]].
  exists a. split; [|exact Ea]. econstructor; [|exact Hc|exact Ha]. intros K. apply Hr. rewrite rename_pid. apply R, K.
Qed.

Variable storable scalar : payload -> bool.
Variable serializables : string -> bool.

(** Copies of the renamed object are copies of the object. *)
Lemma copy_rename f (U : pyval -> Prop) (R R' : list (nat * pyval)) loc :
  (forall t, U t -> at_id (f (pid t)) R' = at_id (pid t) R) ->
  (forall t c, U t -> at_id (pid t) R = None -> In c (members t) -> U c) ->
  (forall i what, U (POther i what) -> at_id i R <> None) ->
  forall d t v, depth t <= d -> U t -> copy scalar loc R' (rename address f t) v -> copy scalar (fun i j => (exists t, U t /\ pid t = i) /\ loc (f i) j) R t v.
Proof.
  intros HR HU HO. induction d as [d IH] using lt_wf_ind. intros t v Hd Ht H.
  pose proof (HR t Ht) as E. destruct (at_id (pid t) R) as [w|] eqn:A.
  { destruct t; cbn [rename copy pid] in *; rewrite E in H; rewrite A; exact H. }
  assert (M : forall c w, In c (members t) -> copy scalar loc R' (rename address f c) w -> copy scalar (fun i j => (exists t, U t /\ pid t = i) /\ loc (f i) j) R c w).
  { intros c w Hc. pose proof (depth_member c t Hc). apply (IH (depth c)); [lia|lia|]. eapply HU; eauto. }
  assert (I : forall xs ys, (forall c, In c xs -> In c (members t)) -> match_items (copy scalar loc R') (map (rename address f) xs) ys ->
     match_items (copy scalar (fun i j => (exists t, U t /\ pid t = i) /\ loc (f i) j) R) xs ys).
  { induction xs as [|x xs IHx]; intros [|y ys] Hx; cbn; try tauto. intros [H1 H2]. split; [apply M; auto; apply Hx; left; reflexivity|]. apply IHx; auto. intros c Hc. apply Hx. right. exact Hc. }
  assert (F : forall kvs l, (forall c, In c (map snd kvs) -> In c (members t)) -> match_fields (copy scalar loc R') (map (fun kv => (fst kv, rename address f (snd kv))) kvs) l ->
     match_fields (copy scalar (fun i j => (exists t, U t /\ pid t = i) /\ loc (f i) j) R) kvs l).
  { induction kvs as [|[k x] kvs IHx]; intros [|[k' y] l] Hx; cbn; try tauto. intros [H0 [H1 H2]]. split; [exact H0|]. split; [apply M; auto; apply Hx; left; reflexivity|]. apply IHx; auto. intros c Hc. apply Hx. right. exact Hc. }
  destruct t as [i kvs|i b xs|i cls kvs|i b p|i p|i b p|i str|i|i what]; cbn [rename copy pid members] in *; rewrite E in H; rewrite A; destruct v; try contradiction.
  - destruct H as [H1 [l [H2 H3]]]. split; [split; [eexists; split; [exact Ht|reflexivity]|exact H1]|]. exists l. split; [exact H2|]. apply F; auto.
  - destruct H as [H1 [H2 H3]]. split; [split; [eexists; split; [exact Ht|reflexivity]|exact H1]|]. split; [exact H2|]. apply I; auto.
  - destruct H as [H1 [H0 [l [H2 H3]]]]. split; [split; [eexists; split; [exact Ht|reflexivity]|exact H1]|]. split; [exact H0|]. exists l. split; [exact H2|]. apply F; auto.
  - destruct H as [H1 H2]. split; [split; [eexists; split; [exact Ht|reflexivity]|exact H1]|exact H2].
  - exact H.
  - exact H.
  - exact H.
  - destruct H as [H1 H2]. split; [split; [eexists; split; [exact Ht|reflexivity]|exact H1]|exact H2].
  - exact Logic.I.
  - exfalso. eapply HO; eauto.
Qed.

Variable construct : string -> list (string * pyval) -> option exn.
Variable experiment : nat -> bool.
Definition ids_of (reserved : list (string * pyval)) : list (string * nat) := map (fun r => (fst r, pid (snd r))) reserved.

Section Run.
Variable reserved : list (string * pyval).
Variable obj : pyval.
Variable n : nat.
Let rsv i := In i (map snd (ids_of reserved)).
Let U (t : pyval) := reached rsv t obj \/ In t (map snd reserved).
Hypothesis H_exp : forall r, In r (map snd reserved) -> exists i what, r = POther i what /\ experiment what = true.
Hypothesis H_rsv : forall t r, reached rsv t obj -> In r (map snd reserved) -> pid t = pid r -> t = r.
Hypothesis H_ids : ids_unique rsv obj.
Hypothesis H_nodup : NoDup (map snd (ids_of reserved)).
Hypothesis H_small : forall t, U t -> pid t < n.
Hypothesis H_other : forall i what, reached rsv (POther i what) obj -> experiment what = true.

Lemma rsv_iff i : rsv i <-> exists r, In r (map snd reserved) /\ pid r = i.
Proof.
  unfold rsv, ids_of. rewrite map_map. cbn [snd]. rewrite in_map_iff. split.
  - intros [r [H1 H2]]. exists (snd r). split; [apply in_map; exact H2|exact H1].
  - intros [r [H1 H2]]. apply in_map_iff in H1 as [x [E Hx]]. exists x. split; [congruence|exact Hx].
Qed.
Lemma reserved_ids a b : In a (map snd reserved) -> In b (map snd reserved) -> pid a = pid b -> a = b.
Proof.
  unfold ids_of in H_nodup. rewrite map_map in H_nodup. cbn [snd] in H_nodup. rewrite <- (map_map snd pid) in H_nodup. revert H_nodup. generalize (map snd reserved) as l.
  induction l as [|x l IH]; intros Hn Ha Hb E; [destruct Ha|]. cbn in Hn. apply NoDup_cons_iff in Hn as [Hx Hn]. destruct Ha as [->|Ha]; destruct Hb as [->|Hb]; auto.
  - exfalso. apply Hx. rewrite E. apply in_map, Hb.
  - exfalso. apply Hx. rewrite <- E. apply in_map, Ha.
Qed.
Lemma U_closed t c : U t -> In c (members t) -> U c.
Proof.
  intros [H|H] Hc.
  - left. eapply reached_step; eauto. intros K. apply rsv_iff in K as [r [Hr E]]. rewrite (H_rsv t r H Hr (eq_sym E)) in Hc. destruct (H_exp r Hr) as [i [w [-> _]]]. destruct Hc.
  - destruct (H_exp t H) as [i [w [-> _]]]. destruct Hc.
Qed.
Lemma U_ids a b : U a -> U b -> pid a = pid b -> a = b.
Proof. intros [Ha|Ha] [Hb|Hb] E; [apply H_ids; auto|apply H_rsv; auto|symmetry; apply H_rsv; auto|apply reserved_ids; auto]. Qed.
Lemma U_other i what : U (POther i what) -> experiment what = true.
Proof. intros [H|H]; [eauto|]. destruct (H_exp _ H) as [i' [w [E K]]]. injection E as <- <-. exact K. Qed.

(** The snapshot is the renamed object with the renamed reserved objects. *)
Lemma snapshot_renames : exists s, good address U n s /\ (exists v, done (fst s) obj v) /\
  snapshot address experiment obj reserved n = Ok (rename address (new_id (fst s)) obj, map (fun r => (fst r, rename address (new_id (fst s)) (snd r))) reserved).
Proof.
  assert (G0 : good address U n ([], n)) by (split; [cbn; lia|]; split; intros; discriminate).
  destruct (deepcopy_ok address experiment U U_closed U_ids n H_small U_other (depth obj) obj (le_n _) ([], n) (or_introl (reached_self _ _)) G0) as [v [s1 [E1 [G1 [X1 [D1 _]]]]]].
  destruct (items_ok address experiment U n (depth_max depth (map snd reserved)) (map snd reserved)) with (s := s1) as [vs [s2 [E2 [G2 [X2 [D2 _]]]]]]; auto.
  - intros x _. apply (deepcopy_ok address experiment U U_closed U_ids n H_small U_other (depth x)). lia.
  - intros x Hx. split; [right; exact Hx|apply depth_max_le, Hx].
  - exists s2. split; [exact G2|]. assert (D : done (fst s2) obj v) by (eapply done_ext; eauto). split; [eauto|]. unfold snapshot. rewrite E1, fields_items, E2.
    rewrite (done_rename address U U_closed U_ids n s2 G2 (depth obj) obj v (le_n _) (or_introl (reached_self _ _)) D). f_equal. f_equal.
    assert (W : forall l ws, (forall x, In x (map snd l) -> U x) -> Forall2 (done (fst s2)) (map snd l) ws ->
      combine (map fst l) ws = map (fun r : string * pyval => (fst r, rename address (new_id (fst s2)) (snd r))) l).
    { induction l as [|[k x] l IH]; intros ws HU H; [reflexivity|]. inversion H as [|? w ? ws' Hw Hws]; subst. cbn. f_equal.
      - f_equal. eapply done_rename; [exact U_closed|exact U_ids|exact G2|apply le_n| |exact Hw]. apply HU. left. reflexivity.
      - apply IH; auto. intros y Hy. apply HU. right. exact Hy. }
    apply W; auto. intros x Hx. right. exact Hx.
Qed.

(** Everything in the snapshot that can change is new. *)
Lemma snapshot_new_objects obj' reserved' : snapshot address experiment obj reserved n = Ok (obj', reserved') ->
  forall t', within t' obj' -> n <= pid t' \/ immutable t'.
Proof.
  destruct snapshot_renames as [s [G [[v D] E]]]. rewrite E. intros H. injection H as <- _. intros t' Hw.
  assert (W : forall a, within t' a -> forall t v, a = rename address (new_id (fst s)) t -> U t -> done (fst s) t v -> exists x w, U x /\ done (fst s) x w /\ t' = rename address (new_id (fst s)) x).
  { induction 1 as [|c a Hc _ IH]; intros t w -> Ut Dt; [exists t, w; auto|]. rewrite members_rename in Hc. apply in_map_iff in Hc as [x [Ex Hx]].
    destruct (done_members address U U_ids n s t w G Ut Dt x Hx) as [y Hy]. apply (IH x y); auto. eapply U_closed; eauto. }
  destruct (W _ Hw obj v eq_refl (or_introl (reached_self _ _)) D) as [x [w [Ux [Dx ->]]]].
  destruct (new_id_new address U n s x G Ux (ex_intro _ w Dx)) as [H|F]; [left; rewrite rename_pid; exact H|right].
  rewrite <- (done_rename address U U_closed U_ids n s G (depth x) x w (le_n _) Ux Dx). destruct Dx as [Dx _]. rewrite (Dx F). apply (frozen_immutable (depth x)); auto.
Qed.

Lemma snapshot_round_trip supplied name m fuel :
  NoDup (name :: map fst reserved) -> Forall plain (name :: map fst reserved) ->
  (forall key, In key (map fst reserved) -> named key supplied <> None) ->
  (forall t, In t ["dict"; "list"; "tuple"; "#reserved"]%string -> serializables t = false) ->
  let R := replacements (ids_of reserved) supplied in
  (forall t, reached rsv t obj -> ~ rsv (pid t) -> can_save storable scalar serializables t) ->
  (forall i cls kvs kvs' l loc, reached rsv (PInst i cls kvs) obj -> Permutation l kvs' -> match_fields (copy scalar loc R) kvs l -> construct cls kvs' = None) ->
  2 * depth obj + 3 <= fuel ->
  exists task file j kvs v loc, snapshot address experiment obj reserved n = Ok task /\ written storable serializables name task = Ok file /\
    from_hdf5 payload scalar serializables construct fuel file supplied m = Ok (PDict j kvs) /\
    named name kvs = Some v /\ copy scalar loc R obj v /\ one_to_one loc /\ forall a b, loc a b -> m <= b.
Proof.
  intros Hn Hp Hs Hser R Hsave Hcon Hfuel. destruct snapshot_renames as [s [G [_ E]]]. set (f := new_id (fst s)) in *.
  assert (Inj : forall a b, U a -> U b -> f (pid a) = f (pid b) -> pid a = pid b) by (intros a b; apply (new_id_inj address U n H_small s); exact G).
  set (reserved' := map (fun r : string * pyval => (fst r, pid (snd r))) (map (fun r => (fst r, rename address f (snd r))) reserved)).
  assert (E' : reserved' = map (fun r => (fst r, f (snd r))) (ids_of reserved)).
  { unfold reserved', ids_of. rewrite !map_map. apply map_ext. intros r. cbn. rewrite rename_pid. reflexivity. }
  assert (K1 : map fst reserved' = map fst reserved) by (unfold reserved'; rewrite !map_map; reflexivity).
  assert (K2 : map snd reserved' = map f (map snd (ids_of reserved))) by (rewrite E', !map_map; reflexivity).
  set (rsv' := fun i => In i (map snd reserved')).
  assert (RR : forall i, rsv i -> rsv' (f i)) by (intros i Hi; unfold rsv'; rewrite K2; apply in_map; exact Hi).
  assert (AT : forall t, U t -> at_id (f (pid t)) (replacements reserved' supplied) = at_id (pid t) R).
  { intros t Ut. unfold R. rewrite E'. assert (W : forall l, (forall x, In x (map snd l) -> U x) ->
      at_id (f (pid t)) (replacements (map (fun r => (fst r, f (snd r))) (ids_of l)) supplied) = at_id (pid t) (replacements (ids_of l) supplied)).
    { induction l as [|[k x] l IH]; intros Hl; [reflexivity|]. unfold replacements, ids_of in *. cbn [map flat_map fst snd]. destruct (named k supplied) as [w|]; cbn [app at_id].
      - rewrite IH by (intros y Hy; apply Hl; right; exact Hy). destruct (Nat.eqb (pid t) (pid x)) eqn:Q.
        + apply Nat.eqb_eq in Q. rewrite Q, Nat.eqb_refl. reflexivity.
        + replace (Nat.eqb (f (pid t)) (f (pid x))) with false; [reflexivity|]. symmetry. apply Nat.eqb_neq. intros C. apply Nat.eqb_neq in Q. apply Q, Inj; auto. apply Hl. left. reflexivity.
      - apply IH. intros y Hy. apply Hl. right. exact Hy. }
    apply W. intros x Hx. right. exact Hx. }
  assert (NR : forall t : pyval, at_id (pid t) R = None -> ~ rsv (pid t)).
  { intros t A K. unfold rsv in K. apply in_map_iff in K as [[k i] [Q K]]. cbn in Q. assert (Hk : In k (map fst reserved)).
    { unfold ids_of in K. apply in_map_iff in K as [r [Q' K]]. injection Q' as <- _. apply in_map, K. }
    destruct (named k supplied) as [w|] eqn:Nk; [|apply (Hs k Hk Nk)]. unfold R in A. rewrite <- Q in A. rewrite (replacements_of (ids_of reserved) supplied k i w H_nodup K Nk) in A. discriminate. }
  assert (CR : forall loc t v, U t -> copy scalar loc (replacements reserved' supplied) (rename address f t) v ->
     copy scalar (fun i j => (exists t, U t /\ pid t = i) /\ loc (f i) j) R t v).
  { intros loc t v Ut. apply (copy_rename f U R (replacements reserved' supplied) loc AT) with (d := depth t); auto.
    - intros x c Ux _ Hc. eapply U_closed; eauto.
    - intros i what Ux A. apply (NR (POther i what)) in A. destruct Ux as [Ux|Ux].
      + destruct (Hsave _ Ux A) as [_ [_ []]].
      + apply A. apply rsv_iff. exists (POther i what). auto. }
  assert (RN : forall a', reached rsv' a' (rename address f obj) -> exists a, reached rsv a obj /\ a' = rename address f a).
  { intros a' H. apply (reached_rename f rsv rsv' a' (rename address f obj) H RR obj eq_refl). }
  destruct (round_trip storable scalar serializables construct reserved' supplied name (rename address f obj) m fuel) as [file [j [kvs [v [loc [T1 [T2 [T3 [T4 [T5 [T6 [T7 T8]]]]]]]]]]]].
  - rewrite K1. exact Hn.
  - rewrite K1. exact Hp.
  - rewrite K2. assert (W : forall l, (forall x, In x (map snd l) -> U x) -> NoDup (map snd (ids_of l)) -> NoDup (map f (map snd (ids_of l)))).
    { induction l as [|[k x] l IH]; intros Hl Hd; [constructor|]. cbn in *. apply NoDup_cons_iff in Hd as [Hx Hd]. constructor; [|apply IH; auto].
      intros K. apply in_map_iff in K as [i [Q K]]. apply Hx. unfold ids_of in K. rewrite map_map in K. apply in_map_iff in K as [r [Qr Kr]]. cbn in Qr. subst i.
      assert (QQ : pid (snd r) = pid x) by (apply Inj; auto; apply Hl; right; apply in_map; exact Kr). rewrite <- QQ. unfold ids_of. rewrite map_map. cbn [snd]. apply (in_map (fun r : string * pyval => pid (snd r))), Kr. }
    apply W; auto. intros x Hx. right. exact Hx.
  - rewrite K1. exact Hs.
  - exact Hser.
  - intros a' b' Ha Hb Q. destruct (RN a' Ha) as [a [Ra ->]]. destruct (RN b' Hb) as [b [Rb ->]]. rewrite !rename_pid in Q.
    rewrite (U_ids a b (or_introl Ra) (or_introl Rb)); [reflexivity|]. apply Inj; auto; left; auto.
  - intros t' Ht Hr. destruct (RN t' Ht) as [t [Rt ->]]. rewrite rename_pid in Hr. destruct (Hsave t Rt) as [S1 [S2 S3]]; [intros K; apply Hr, RR, K|].
    split; [rewrite keys_rename; exact S1|]. split; [rewrite keys_rename; exact S2|]. destruct t; cbn [rename]; try (exact S3); auto; try (destruct S3).
  - intros i cls kvs kvs' l loc Ht Hl Hm. destruct (RN _ Ht) as [t [Rt Et]]. destruct t; try discriminate. cbn [rename] in Et. injection Et as -> -> ->.
    apply (Hcon i0 cls0 kvs0 kvs' l (fun i j => (exists t, U t /\ pid t = i) /\ loc (f i) j)); [exact Rt|exact Hl|].
    assert (W : forall ks l, (forall c, In c (map snd ks) -> U c) -> match_fields (copy scalar loc (replacements reserved' supplied)) (map (fun kv : string * pyval => (fst kv, rename address f (snd kv))) ks) l ->
      match_fields (copy scalar (fun i j => (exists t, U t /\ pid t = i) /\ loc (f i) j) R) ks l).
    { induction ks as [|[k x] ks IH]; intros [|[k' y] l'] HU; cbn; try tauto. intros [W0 [W1 W2]]. split; [exact W0|]. split; [apply CR; auto; apply HU; left; reflexivity|]. apply IH; auto. intros c Hc. apply HU. right. exact Hc. }
    apply W; auto. intros c Hc. eapply U_closed; [left; exact Rt|exact Hc].
  - rewrite (depth_rename f (depth obj)) by lia. exact Hfuel.
  - exists (rename address f obj, map (fun r => (fst r, rename address f (snd r))) reserved), file, j, kvs, v, (fun i j => (exists t, U t /\ pid t = i) /\ loc (f i) j).
    split; [exact E|]. split; [unfold written; cbn [fst snd]; exact T1|]. split; [exact T2|]. split; [exact T4|]. split; [apply CR; [left; constructor|exact T6]|]. split.
    + intros a b a' b' [[t [Ut <-]] L] [[t' [Ut' <-]] L']. rewrite <- (T7 _ _ _ _ L L'). split; [congruence|]. intros Q. apply Inj; auto.
    + intros a b [_ L]. eapply T8, L.
Qed.
End Run.
End Trip.
