(** Proofs about snapshots (SnapshotModel.v). *)
From Coq Require Import String List Bool Arith Lia Permutation.
From Verif Require Import PyExn StorageModel StorageSpec StorageProofs SnapshotModel.
Import ListNotations.
Local Open Scope list_scope.

Section Proofs.
Context {payload : Type}.
Notation pyval := (pyval payload).
Variable address : nat -> payload.
Variable experiment : nat -> bool.
Notation deepcopy := (deepcopy address experiment).
Notation copying := (@copying payload).

(** Objects that are never copied. *)
Fixpoint frozen (t : pyval) : bool :=
  match t with
  | PNum _ b _ => negb b
  | PStr _ _ | PNone _ => true
  | PSeq _ false xs => forallb frozen xs
  | _ => false
  end.

(** The same object with other members. *)
Definition shape (t : pyval) (j : nat) (ms : list pyval) : pyval :=
  match t with
  | PDict _ kvs => PDict j (combine (map fst kvs) ms)
  | PInst _ cls kvs => PInst j cls (combine (map fst kvs) ms)
  | PSeq _ b _ => PSeq j b ms
  | PTable _ b p => PTable j b p
  | PArray _ p => PArray j p
  | PNum _ b p => PNum j b p
  | PStr _ s => PStr j s
  | PNone _ => PNone j
  | POther i _ => PNum j false (address i)
  end.

Variable U : pyval -> Prop.
Hypothesis U_closed : forall t c, U t -> In c (members t) -> U c.
Hypothesis U_ids : forall a b, U a -> U b -> pid a = pid b -> a = b.
Variable N : nat.
Hypothesis U_small : forall t, U t -> pid t < N.
Hypothesis U_other : forall i what, U (POther i what) -> experiment what = true.

(** [v] is the copy of [t] according to the memo [m]. *)
Definition done (m : list (nat * pyval)) (t v : pyval) : Prop :=
  (frozen t = true -> v = t) /\ (frozen t = false -> at_id (pid t) m = Some v).
Definition good (s : copying) : Prop :=
  N <= snd s /\
  (forall i v, at_id i (fst s) = Some v -> exists t ms, U t /\ pid t = i /\ frozen t = false /\ v = shape t (pid v) ms /\
     Forall2 (done (fst s)) (members t) ms /\ N <= pid v < snd s) /\
  (forall i i' v v', at_id i (fst s) = Some v -> at_id i' (fst s) = Some v' -> pid v = pid v' -> i = i').

Lemma done_ext m m' t v : extends m m' -> done m t v -> done m' t v.
Proof. intros E [H1 H2]. split; auto. Qed.
Lemma Forall2_done_ext m m' l l' : extends m m' -> Forall2 (done m) l l' -> Forall2 (done m') l l'.
Proof. intros E H. induction H; constructor; eauto using done_ext. Qed.
Lemma frozen_absent s t : good s -> U t -> frozen t = true -> at_id (pid t) (fst s) = None.
Proof.
  intros [_ [H _]] Ht F. destruct (at_id (pid t) (fst s)) as [v|] eqn:E; [|reflexivity].
  destruct (H _ _ E) as [t' [ms [Ht' [P [F' _]]]]]. rewrite (U_ids t t' Ht Ht' (eq_sym P)) in F. congruence.
Qed.
Lemma shape_pid t j ms : pid (shape t j ms) = j.
Proof. destruct t; reflexivity. Qed.

Lemma kept_good i (s : copying) t ms (mk : nat -> pyval) : good s -> U t -> pid t = i -> frozen t = false -> at_id i (fst s) = None ->
  Forall2 (done (fst s)) (members t) ms -> (forall j, mk j = shape t j ms) ->
  good (snd (kept i mk s)) /\ extends (fst s) (fst (snd (kept i mk s))) /\ at_id i (fst (snd (kept i mk s))) = Some (fst (kept i mk s)).
Proof.
  intros G Ht Hi F A M S. assert (E : extends (fst s) (fst (snd (kept i mk s)))) by (cbn; apply extends_cons, A).
  pose proof G as G0. destruct G as [G1 [G2 G3]]. split; [|split; [exact E|cbn; rewrite Nat.eqb_refl; reflexivity]]. cbn [kept snd fst] in *. split; [cbn; lia|]. split.
  - intros k v. cbn [at_id snd fst]. destruct (Nat.eqb k i) eqn:K.
    + apply Nat.eqb_eq in K. subst k. intros H. injection H as <-. exists t, ms. rewrite S, shape_pid. split; [exact Ht|]. split; [exact Hi|]. split; [exact F|]. split; [reflexivity|]. split; [|cbn [snd]; lia].
      eapply Forall2_done_ext; [|exact M]. rewrite <- S. exact E.
    + intros H. destruct (G2 _ _ H) as [t' [ms' [H1 [H2 [H3 [H4 [H5 H6]]]]]]]. exists t', ms'. split; [exact H1|]. split; [exact H2|]. split; [exact H3|]. split; [exact H4|]. split; [|cbn [snd]; lia].
      eapply Forall2_done_ext; [exact E|exact H5].
  - intros k k' v v'. cbn [at_id fst]. destruct (Nat.eqb k i) eqn:K; destruct (Nat.eqb k' i) eqn:K'; intros H H' P.
    + apply Nat.eqb_eq in K, K'. congruence.
    + injection H as <-. rewrite S, shape_pid in P. destruct (G2 _ _ H') as [_ [_ [_ [_ [_ [_ [_ H6]]]]]]]. lia.
    + injection H' as <-. rewrite S, shape_pid in P. destruct (G2 _ _ H) as [_ [_ [_ [_ [_ [_ [_ H6]]]]]]]. lia.
    + eapply G3; eauto.
Qed.

(** What is new in the memo is not deeper than [d]. *)
Definition shallow (s s' : copying) (d : nat) : Prop :=
  forall i v, at_id i (fst s') = Some v -> at_id i (fst s) = Some v \/ exists t, U t /\ pid t = i /\ depth t <= d.
Lemma shallow_refl s d : shallow s s d.
Proof. left. assumption. Qed.
Lemma shallow_trans s s' s'' d d' : shallow s s' d -> shallow s' s'' d' -> shallow s s'' (Nat.max d d').
Proof.
  intros H H' i v E. destruct (H' i v E) as [E'|[t [H1 [H2 H3]]]]; [destruct (H i v E') as [|[t [H1 [H2 H3]]]]; [auto|]|]; right; exists t; repeat split; auto; lia.
Qed.
Lemma shallow_le s s' d d' : d <= d' -> shallow s s' d -> shallow s s' d'.
Proof. intros L H i v E. destruct (H i v E) as [|[t [H1 [H2 H3]]]]; [auto|]. right. exists t. repeat split; auto. lia. Qed.

Definition copies_ok (t : pyval) : Prop := forall s, U t -> good s ->
  exists v s', deepcopy t s = Ok (v, s') /\ good s' /\ extends (fst s) (fst s') /\ done (fst s') t v /\ shallow s s' (depth t).

Lemma items_ok d xs : (forall x, In x xs -> copies_ok x) -> (forall x, In x xs -> U x /\ depth x <= d) -> forall s, good s ->
  exists vs s', copy_items deepcopy xs s = Ok (vs, s') /\ good s' /\ extends (fst s) (fst s') /\ Forall2 (done (fst s')) xs vs /\ shallow s s' d.
Proof.
  induction xs as [|x xs IH]; intros C HU s G.
  - exists [], s. split; [reflexivity|]. split; [exact G|]. split; [apply extends_refl|]. split; [constructor|apply shallow_refl].
  - destruct (HU x (or_introl eq_refl)) as [Ux Dx]. destruct (C x (or_introl eq_refl) s Ux G) as [v [s1 [E1 [G1 [X1 [D1 S1]]]]]].
    destruct (IH (fun y Hy => C y (or_intror Hy)) (fun y Hy => HU y (or_intror Hy)) s1 G1) as [vs [s2 [E2 [G2 [X2 [D2 S2]]]]]].
    exists (v :: vs), s2. cbn [copy_items]. fold (copy_items deepcopy). rewrite E1, E2. split; [reflexivity|]. split; [exact G2|]. split; [eapply extends_trans; eauto|].
    split; [constructor; [eapply done_ext; eauto|exact D2]|]. replace d with (Nat.max d d) by lia. eapply shallow_trans; [|exact S2]. eapply shallow_le; eauto.
Qed.
Lemma fields_items kvs : forall s, copy_fields deepcopy kvs s =
  match copy_items deepcopy (map snd kvs) s with Ok (vs, s') => Ok (combine (map fst kvs) vs, s') | Raise e => Raise e end.
Proof.
  induction kvs as [|[k x] kvs IH]; intros s; [reflexivity|]. cbn [copy_fields copy_items map fst snd]. fold (copy_fields deepcopy). fold (copy_items deepcopy).
  destruct (deepcopy x s) as [[v s1]|e]; [|reflexivity]. rewrite IH. destruct (copy_items deepcopy (map snd kvs) s1) as [[vs s2]|e]; reflexivity.
Qed.
Lemma same_objects_frozen xs vs m : Forall2 (done m) xs vs -> forallb frozen xs = true -> same_objects xs vs = true /\ vs = xs.
Proof.
  induction 1 as [|x v xs vs D _ IH]; [auto|]. cbn. intros H. apply andb_true_iff in H as [H1 H2]. destruct (IH H2) as [I1 I2]. destruct D as [D _]. rewrite (D H1), I2, Nat.eqb_refl. rewrite I2 in I1. rewrite I1. auto.
Qed.
Lemma same_objects_changed xs vs s : good s -> (forall x, In x xs -> U x) -> Forall2 (done (fst s)) xs vs -> forallb frozen xs = false -> same_objects xs vs = false.
Proof.
  intros G HU H. induction H as [|x v xs vs D _ IH]; [discriminate|]. cbn. destruct (frozen x) eqn:F.
  - cbn. intros H. rewrite (IH (fun y Hy => HU y (or_intror Hy)) H). apply andb_false_r.
  - intros _. destruct D as [_ D]. destruct G as [_ [G _]]. destruct (G _ _ (D F)) as [t [ms [Ht [P [_ [_ [_ B]]]]]]].
    pose proof (U_small x (HU x (or_introl eq_refl))). replace (Nat.eqb (pid x) (pid v)) with false; [reflexivity|]. symmetry. apply Nat.eqb_neq. lia.
Qed.

Lemma deepcopy_ok : forall d t, depth t <= d -> copies_ok t.
Proof.
  induction d as [d IH] using lt_wf_ind. intros t Hd s Ht G.
  destruct (at_id (pid t) (fst s)) as [v|] eqn:A.
  { exists v, s. split; [destruct t; cbn in *; rewrite A; reflexivity|]. split; [exact G|]. split; [apply extends_refl|]. split; [|apply shallow_refl]. split; [|auto].
    intros F. rewrite (frozen_absent s t G Ht F) in A. discriminate. }
  assert (I : exists vs s1, copy_items deepcopy (members t) s = Ok (vs, s1) /\ good s1 /\ extends (fst s) (fst s1) /\ Forall2 (done (fst s1)) (members t) vs /\ shallow s s1 (depth t) /\ at_id (pid t) (fst s1) = None).
  { destruct (members t) as [|c cs] eqn:E.
    - exists [], s. split; [reflexivity|]. split; [exact G|]. split; [apply extends_refl|]. split; [constructor|]. split; [apply shallow_refl|exact A].
    - rewrite <- E. assert (P : 0 < depth t) by (assert (In c (members t)) as Hc by (rewrite E; left; reflexivity); pose proof (depth_member c t Hc); lia).
      destruct (items_ok (depth t - 1) (members t)) with (s := s) as [vs [s1 [E1 [G1 [X1 [D1 S1]]]]]]; auto.
      + intros x Hx. pose proof (depth_member x t Hx). apply (IH (depth x)); lia.
      + intros x Hx. pose proof (depth_member x t Hx). split; [eapply U_closed; eauto|lia].
      + exists vs, s1. split; [exact E1|]. split; [exact G1|]. split; [exact X1|]. split; [exact D1|]. split; [eapply shallow_le; [|exact S1]; lia|].
        destruct (at_id (pid t) (fst s1)) as [v|] eqn:A1; [|reflexivity]. destruct (S1 _ _ A1) as [H|[t' [H1 [H2 H3]]]]; [congruence|]. rewrite (U_ids t' t H1 Ht H2) in H3. lia. }
  destruct I as [vs [s1 [E1 [G1 [X1 [D1 [S1 A1]]]]]]].
  assert (K : forall mk, frozen t = false -> (forall j, mk j = shape t j vs) -> deepcopy t s = Ok (kept (pid t) mk s1) ->
    exists v s', deepcopy t s = Ok (v, s') /\ good s' /\ extends (fst s) (fst s') /\ done (fst s') t v /\ shallow s s' (depth t)).
  { intros mk F S E. destruct (kept_good (pid t) s1 t vs mk G1 Ht eq_refl F A1 D1 S) as [K1 [K2 K3]]. do 2 eexists. split; [rewrite E; reflexivity|].
    split; [exact K1|]. split; [eapply extends_trans; eauto|]. split; [split; [congruence|auto]|].
    intros i v H. cbn in H. destruct (Nat.eqb i (pid t)) eqn:Q; [|apply S1, H]. apply Nat.eqb_eq in Q. right. exists t. repeat split; auto. }
  destruct t as [i kvs|i b xs|i cls kvs|i b p|i p|i b p|i str|i|i what]; cbn [pid members] in *.
  - apply (K (fun j => PDict j (combine (map fst kvs) vs))); [reflexivity|reflexivity|]. cbn [SnapshotModel.deepcopy pid]. rewrite A, fields_items, E1. reflexivity.
  - destruct b.
    + apply (K (fun j => PSeq j true vs)); [reflexivity|reflexivity|]. cbn [SnapshotModel.deepcopy pid]. rewrite A, E1. reflexivity.
    + destruct (forallb frozen xs) eqn:F.
      * destruct (same_objects_frozen xs vs _ D1 F) as [Q1 Q2]. exists (PSeq i false xs), s1. cbn [SnapshotModel.deepcopy pid]. rewrite A, E1, Q1. split; [reflexivity|]. split; [exact G1|]. split; [exact X1|].
        split; [split; [reflexivity|cbn [frozen]; congruence]|exact S1].
      * assert (Q : same_objects xs vs = false) by (apply (same_objects_changed xs vs s1 G1); auto; intros x Hx; eapply U_closed; [exact Ht|exact Hx]).
        apply (K (fun j => PSeq j false vs)); [exact F|reflexivity|]. cbn [SnapshotModel.deepcopy pid]. rewrite A, E1, Q. reflexivity.
  - apply (K (fun j => PInst j cls (combine (map fst kvs) vs))); [reflexivity|reflexivity|]. cbn [SnapshotModel.deepcopy pid]. rewrite A, fields_items, E1. reflexivity.
  - cbn in E1. injection E1 as <- <-. apply (K (fun j => PTable j b p)); [reflexivity|reflexivity|]. cbn [SnapshotModel.deepcopy pid]. rewrite A. reflexivity.
  - cbn in E1. injection E1 as <- <-. apply (K (fun j => PArray j p)); [reflexivity|reflexivity|]. cbn [SnapshotModel.deepcopy pid]. rewrite A. reflexivity.
  - cbn in E1. injection E1 as <- <-. destruct b.
    + apply (K (fun j => PNum j true p)); [reflexivity|reflexivity|]. cbn [SnapshotModel.deepcopy pid]. rewrite A. reflexivity.
    + exists (PNum i false p), s. cbn [SnapshotModel.deepcopy pid]. rewrite A. split; [reflexivity|]. split; [exact G|]. split; [apply extends_refl|]. split; [split; [auto|discriminate]|apply shallow_refl].
  - exists (PStr i str), s. cbn [SnapshotModel.deepcopy pid]. rewrite A. split; [reflexivity|]. split; [exact G|]. split; [apply extends_refl|]. split; [split; [auto|discriminate]|apply shallow_refl].
  - exists (PNone i), s. cbn [SnapshotModel.deepcopy pid]. rewrite A. split; [reflexivity|]. split; [exact G|]. split; [apply extends_refl|]. split; [split; [auto|discriminate]|apply shallow_refl].
  - cbn in E1. injection E1 as <- <-. apply (K (fun j => PNum j false (address i))); [reflexivity|reflexivity|]. cbn [SnapshotModel.deepcopy pid]. rewrite A, (U_other i what Ht). reflexivity.
Qed.

(** ** Copies as renamed objects *)
Fixpoint rename (f : nat -> nat) (t : pyval) : pyval :=
  match t with
  | PDict i kvs => PDict (f i) (map (fun kv => (fst kv, rename f (snd kv))) kvs)
  | PInst i cls kvs => PInst (f i) cls (map (fun kv => (fst kv, rename f (snd kv))) kvs)
  | PSeq i b xs => PSeq (f i) b (map (rename f) xs)
  | PTable i b p => PTable (f i) b p
  | PArray i p => PArray (f i) p
  | PNum i b p => PNum (f i) b p
  | PStr i s => PStr (f i) s
  | PNone i => PNone (f i)
  | POther i _ => PNum (f i) false (address i)
  end.
Definition new_id (m : list (nat * pyval)) (i : nat) : nat := match at_id i m with Some v => pid v | None => i end.
Lemma rename_pid f t : pid (rename f t) = f (pid t).
Proof. destruct t; reflexivity. Qed.
Lemma rename_shape f t : rename f t = shape t (f (pid t)) (map (rename f) (members t)).
Proof.
  destruct t; try reflexivity; cbn [rename shape pid members]; f_equal; induction kvs as [|[k x] kvs IH]; cbn; congruence.
Qed.
Lemma frozen_shape t : frozen t = true -> shape t (pid t) (members t) = t.
Proof. destruct t; cbn; intros H; try reflexivity; discriminate. Qed.
Lemma frozen_members t c : frozen t = true -> In c (members t) -> frozen c = true.
Proof. destruct t; cbn; try contradiction; try discriminate. destruct is_list; [discriminate|]. intros H. rewrite forallb_forall in H. apply H. Qed.

Lemma done_rename s : good s -> forall d t v, depth t <= d -> U t -> done (fst s) t v -> v = rename (new_id (fst s)) t.
Proof.
  intros G. induction d as [d IH] using lt_wf_ind. intros t v Hd Ht D. rewrite rename_shape.
  assert (R : forall ms, Forall2 (done (fst s)) (members t) ms -> ms = map (rename (new_id (fst s))) (members t)).
  { assert (W : forall l ms, (forall c, In c l -> In c (members t)) -> Forall2 (done (fst s)) l ms -> ms = map (rename (new_id (fst s))) l).
    { intros l ms Hl H. induction H as [|c m l ms Dc _ IHl]; [reflexivity|]. cbn. f_equal.
      - pose proof (depth_member c t (Hl c (or_introl eq_refl))). apply (IH (depth c)); auto; [lia|]. eapply U_closed; [exact Ht|apply Hl; left; reflexivity].
      - apply IHl. intros x Hx. apply Hl. right. exact Hx. }
    intros ms. apply W. auto. }
  destruct D as [D1 D2]. destruct (frozen t) eqn:F.
  - rewrite (D1 eq_refl). rewrite <- (frozen_shape t F) at 1. f_equal.
    + unfold new_id. rewrite (frozen_absent s t G Ht F). reflexivity.
    + apply R. assert (W : forall l, (forall c, In c l -> In c (members t)) -> Forall2 (done (fst s)) l l).
      { induction l as [|c l IHl]; intros Hl; constructor; [|apply IHl; intros x Hx; apply Hl; right; exact Hx].
        assert (Fc : frozen c = true) by (eapply frozen_members; [exact F|apply Hl; left; reflexivity]). split; [auto|congruence]. }
      apply W. auto.
  - pose proof (D2 eq_refl) as A. destruct G as [_ [G _]]. destruct (G _ _ A) as [t' [ms [Ht' [P [_ [E [M _]]]]]]].
    rewrite (U_ids t' t Ht' Ht P) in *. rewrite E. rewrite (R ms M). f_equal. unfold new_id. rewrite A. reflexivity.
Qed.

Lemma new_id_inj s a b : good s -> U a -> U b -> new_id (fst s) (pid a) = new_id (fst s) (pid b) -> pid a = pid b.
Proof.
  intros [_ [G1 G2]] Ha Hb. unfold new_id. destruct (at_id (pid a) (fst s)) as [v|] eqn:A; destruct (at_id (pid b) (fst s)) as [w|] eqn:B; intros H; auto.
  - eapply G2; eauto.
  - destruct (G1 _ _ A) as [_ [_ [_ [_ [_ [_ [_ L]]]]]]]. pose proof (U_small b Hb). lia.
  - destruct (G1 _ _ B) as [_ [_ [_ [_ [_ [_ [_ L]]]]]]]. pose proof (U_small a Ha). lia.
Qed.
Lemma new_id_new s t : good s -> U t -> (exists v, done (fst s) t v) -> N <= new_id (fst s) (pid t) \/ frozen t = true.
Proof.
  intros [_ [G1 _]] Ht [v [_ D]]. destruct (frozen t) eqn:F; [auto|]. left. unfold new_id. rewrite (D eq_refl). destruct (G1 _ _ (D eq_refl)) as [_ [_ [_ [_ [_ [_ [_ L]]]]]]]. lia.
Qed.
Lemma done_members s t v : good s -> U t -> done (fst s) t v -> forall c, In c (members t) -> exists w, done (fst s) c w.
Proof.
  intros [_ [G _]] Ht [D1 D2] c Hc. destruct (frozen t) eqn:F.
  - exists c. split; [auto|]. rewrite (frozen_members t c F Hc). discriminate.
  - destruct (G _ _ (D2 eq_refl)) as [t' [ms [Ht' [P [_ [_ [M _]]]]]]]. rewrite (U_ids t' t Ht' Ht P) in M. clear - M Hc.
    induction M as [|x w l ms D _ IH]; [destruct Hc|]. destruct Hc as [->|Hc]; eauto.
Qed.
End Proofs.
