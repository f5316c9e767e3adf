From Coq Require Import List Arith Bool String Lia.
From Verif Require Import PyExn EngineModel EngineSpec.
Import ListNotations.

Section Proofs.
Variable V : Type.

(** Arrays. *)
Lemma flat_map_length_const (A : Type) (f : nat -> list A) n : forall m a,
  (forall k, a <= k < a + m -> List.length (f k) = n) -> List.length (flat_map f (seq a m)) = m * n.
Proof.
  induction m as [|m IH]; intros a H; cbn; auto.
  rewrite app_length, (H a), (IH (S a)); auto; try lia. intros k Hk. apply H. lia.
Qed.
Lemma nth_flat_map_const (A : Type) (f : nat -> list A) n : forall m a k l,
  (forall k, a <= k < a + m -> List.length (f k) = n) -> k < m -> l < n ->
  nth_error (flat_map f (seq a m)) (k * n + l) = nth_error (f (a + k)) l.
Proof.
  induction m as [|m IH]; intros a k l H Hk Hl; [lia|]. cbn [seq flat_map].
  assert (Ha : List.length (f a) = n) by (apply H; lia).
  destruct k as [|k].
  - rewrite nth_error_app1 by (rewrite Ha; lia). rewrite Nat.add_0_r. reflexivity.
  - rewrite nth_error_app2 by (rewrite Ha; nia).
    replace (S k * n + l - List.length (f a)) with (k * n + l) by (rewrite Ha; nia).
    rewrite IH; auto. { f_equal. f_equal. lia. } { intros q Hq. apply H. lia. } lia.
Qed.

Lemma transpose_spec (data : list V) c r :
  List.length data = r * c ->
  exists data', m_transpose ([c; r], data) = Ok ([r; c], data') /\ List.length data' = r * c /\
    forall i j, i < r -> j < c -> ml_entry r data' i j = np_entry c data i j.
Proof.
  intros Hl.
  set (g := fun k l => match nth_error data (l * c + k) with Some x => [x] | None => [] end).
  assert (G : forall k l, k < c -> l < r -> List.length (g k l) = 1).
  { intros k l Hk Hr. unfold g. destruct (nth_error data (l * c + k)) eqn:E; auto.
    apply nth_error_None in E. nia. }
  assert (L : forall k, 0 <= k < 0 + c -> List.length (flat_map (g k) (seq 0 r)) = r).
  { intros k Hk. rewrite flat_map_length_const with (n := 1); [lia|]. intros l Hr. apply G; lia. }
  exists (flat_map (fun k => flat_map (g k) (seq 0 r)) (seq 0 c)). split; [reflexivity|]. split.
  - rewrite flat_map_length_const with (n := r); auto. lia.
  - intros i j Hi Hj. unfold ml_entry, np_entry.
    rewrite nth_flat_map_const; auto. cbn [Nat.add].
    replace i with (i * 1 + 0) at 1 by lia.
    rewrite nth_flat_map_const; [|intros l Hr; apply G; lia|lia|lia].
    cbn [Nat.add]. unfold g. destruct (nth_error data (i * c + j)) eqn:E; auto.
Qed.

Lemma strip_ones_repeat k : strip_ones (repeat 1 k) = [].
Proof. induction k; cbn; auto. Qed.
Lemma strip_ones_nil l : strip_ones l = [] -> l = repeat 1 (List.length l).
Proof. induction l as [|[|[|n]] l IH]; cbn; try discriminate; auto. intros H. f_equal; auto. Qed.
Lemma rev_repeat (A : Type) (x : A) k : rev (repeat x k) = repeat x k.
Proof.
  induction k as [|k IH]; auto. cbn. rewrite IH. clear IH.
  induction k as [|k IH]; auto. cbn. rewrite IH. reflexivity.
Qed.
Lemma product_cons x l : product (x :: l) = x * product l.
Proof. reflexivity. Qed.
Lemma product_repeat k : product (repeat 1 k) = 1.
Proof. induction k as [|k IH]; auto. cbn [repeat]. rewrite product_cons, IH. reflexivity. Qed.
Lemma product_app a b : product (a ++ b) = product a * product b.
Proof. induction a as [|x a IH]; [cbn [app]; change (product []) with 1; lia|]. cbn [app]. rewrite !product_cons, IH. lia. Qed.

Lemma convert_matrix d k r c (data : list V) :
  known_dtype d -> List.length data = product (repeat 1 k ++ [r; c]) ->
  exists data', convert_array d (repeat 1 k ++ [r; c]) data = Ok (MArray [r; c] data') /\ List.length data' = r * c /\
    forall i j, i < r -> j < c -> ml_entry r data' i j = np_entry c data i j.
Proof.
  intros Hd Hl. unfold convert_array.
  assert (S1 : supported d = true) by (destruct d; auto; exfalso; eapply Hd; eauto).
  rewrite S1. rewrite rev_app_distr, rev_repeat. cbn [rev app List.length Nat.eqb].
  assert (P : product (c :: r :: repeat 1 k) = r * c).
  { change (c :: r :: repeat 1 k) with ([c; r] ++ repeat 1 k). rewrite product_app, product_repeat, !product_cons. change (product []) with 1. lia. }
  assert (Q : List.length data = r * c).
  { rewrite Hl, product_app, product_repeat, !product_cons. change (product []) with 1. lia. }
  unfold m_reshape. rewrite P, Q, Nat.eqb_refl.
  unfold sizes. rewrite rev_repeat, strip_ones_repeat. cbn [rev].
  destruct (transpose_spec data c r Q) as (data' & T & L & E). rewrite T. exists data'. auto.
Qed.
Lemma convert_vector d n (data : list V) :
  known_dtype d -> List.length data = n -> convert_array d [n] data = Ok (MArray [1; n] data).
Proof.
  intros Hd Hl. unfold convert_array.
  assert (S1 : supported d = true) by (destruct d; auto; exfalso; eapply Hd; eauto).
  rewrite S1. cbn [rev app List.length Nat.eqb]. unfold m_reshape.
  replace (product [n; 1] =? List.length data) with true by (symmetry; apply Nat.eqb_eq; cbn; lia).
  unfold sizes. cbn [rev strip_ones].
  assert (Q : List.length data = 1 * n) by lia.
  destruct (transpose_spec data n 1 Q) as (data' & T & L & E). rewrite T.
  f_equal. f_equal.
  assert (X : forall j, nth_error data' j = nth_error data j).
  { intros j. destruct (Nat.lt_ge_cases j n) as [Hj|Hj].
    - specialize (E 0 j). unfold ml_entry, np_entry in E. cbn in E.
      replace (j * 1 + 0) with j in E by lia. apply E; lia.
    - rewrite (proj2 (nth_error_None data' j)), (proj2 (nth_error_None data j)); auto; lia. }
  clear -X. revert data' X. induction data as [|x data IH]; intros [|y data'] X; auto.
  - specialize (X 0). discriminate.
  - specialize (X 0). discriminate.
  - f_equal. { specialize (X 0). cbn in X. congruence. } apply IH. intros j. exact (X (S j)).
Qed.
Lemma convert_array_shape d shape (data : list V) m :
  convert_array d shape data = Ok m -> known_dtype d /\ flat_shape shape.
Proof.
  unfold convert_array. intros H. destruct (supported d) eqn:S1; [|discriminate]. split.
  - intros name ->. discriminate.
  - destruct (List.length (rev shape) =? 1) eqn:L1.
    + apply Nat.eqb_eq in L1. rewrite rev_length in L1. left.
      destruct shape as [|n [|]]; try discriminate. eauto.
    + right. destruct (rev shape) as [|a [|b rest]] eqn:R; try discriminate.
      unfold m_reshape in H. destruct (product (a :: b :: rest) =? List.length data); [|discriminate].
      unfold sizes in H. destruct (rev (strip_ones (rev rest))) eqn:Z; [|discriminate].
      apply (f_equal (@rev nat)) in Z. rewrite rev_involutive in Z. cbn in Z.
      apply strip_ones_nil in Z. apply (f_equal (@rev nat)) in Z. rewrite rev_involutive, rev_repeat in Z.
      exists (List.length (rev rest)), b, a.
      apply (f_equal (@rev nat)) in R. rewrite rev_involutive in R. rewrite R. cbn.
      rewrite Z, rev_repeat, <- app_assoc. f_equal. f_equal. rewrite rev_length, repeat_length. reflexivity.
Qed.
Lemma convert_array_iff d shape (data : list V) :
  List.length data = product shape ->
  (exists m, convert_array d shape data = Ok m) <-> known_dtype d /\ flat_shape shape.
Proof.
  intros Hl. split.
  - intros [m H]. eapply convert_array_shape; eauto.
  - intros [Hd [[n ->]|(k & r & c & ->)]].
    + eexists. apply convert_vector; auto. rewrite Hl. cbn. lia.
    + destruct (convert_matrix d k r c data Hd Hl) as (data' & E & _). eauto.
Qed.

(** Containers. *)
Section Ind.
Variable P : pyval V -> Prop.
Hypothesis Hnum : forall x, P (PNum x).
Hypothesis Hgen : forall x, P (PGeneric x).
Hypothesis Hoth : P POther.
Hypothesis Harr : forall d s l, P (PArray d s l).
Hypothesis Hser : forall s, P (PSeries s).
Hypothesis Hlist : forall l, Forall P l -> P (PList l).
Hypothesis Htup : forall l, P (PTuple l).
Hypothesis Hset : forall l, Forall P l -> P (PSet l).
Hypothesis Hdict : forall d, Forall (fun q => P (snd q)) d -> P (PDict d).
Fixpoint pyval_induction (v : pyval V) : P v :=
  match v with
  | PNum x => Hnum x
  | PGeneric x => Hgen x
  | POther => Hoth
  | PArray d s l => Harr d s l
  | PSeries s => Hser s
  | PList l => Hlist l ((fix all l : Forall P l :=
      match l with [] => Forall_nil _ | x :: l' => Forall_cons x (pyval_induction x) (all l') end) l)
  | PTuple l => Htup l
  | PSet l => Hset l ((fix all l : Forall P l :=
      match l with [] => Forall_nil _ | x :: l' => Forall_cons x (pyval_induction x) (all l') end) l)
  | PDict d => Hdict d ((fix all d : Forall (fun q => P (snd q)) d :=
      match d with
      | [] => Forall_nil _
      | (k, x) :: d' => Forall_cons (k, x) (pyval_induction x : P (snd (k, x))) (all d')
      end) d)
  end.
End Ind.

Fixpoint all_ok (l : list (pyval V)) : res (list (mval V)) :=
  match l with
  | [] => Ok []
  | x :: l' => match to_matlab x with
               | Raise e => Raise e
               | Ok m => match all_ok l' with Raise e => Raise e | Ok ms => Ok (m :: ms) end
               end
  end.
Fixpoint entries_ok (d : list (string * pyval V)) : res (list (string * mval V)) :=
  match d with
  | [] => Ok []
  | (k, x) :: d' => match to_matlab x with
                    | Raise e => Raise e
                    | Ok m => match entries_ok d' with Raise e => Raise e | Ok ms => Ok ((k, m) :: ms) end
                    end
  end.
Lemma to_matlab_list (l : list (pyval V)) :
  to_matlab (PList l) = match all_ok l with Raise e => Raise e | Ok ms => Ok (MList ms) end.
Proof. reflexivity. Qed.
Lemma to_matlab_set (l : list (pyval V)) :
  to_matlab (PSet l) = match all_ok l with Raise e => Raise e | Ok ms => Ok (MSet ms) end.
Proof. reflexivity. Qed.
Lemma to_matlab_dict (d : list (string * pyval V)) :
  to_matlab (PDict d) = match entries_ok d with Raise e => Raise e | Ok ms => Ok (MDict ms) end.
Proof. reflexivity. Qed.
Lemma all_ok_nth : forall l ms, all_ok l = Ok ms ->
  Forall2 (fun x m => to_matlab x = Ok m) l ms.
Proof.
  induction l as [|x l IH]; cbn; intros ms H.
  - injection H as <-. constructor.
  - destruct (to_matlab x) as [m|] eqn:E; [|discriminate]. destruct (all_ok l) as [ms'|] eqn:E2; [|discriminate].
    injection H as <-. constructor; auto.
Qed.
Lemma entries_ok_nth : forall d ms, entries_ok d = Ok ms ->
  Forall2 (fun x m => fst x = fst m /\ to_matlab (snd x) = Ok (snd m)) d ms.
Proof.
  induction d as [|[k x] d IH]; cbn; intros ms H.
  - injection H as <-. constructor.
  - destruct (to_matlab x) as [m|] eqn:E; [|discriminate]. destruct (entries_ok d) as [ms'|] eqn:E2; [|discriminate].
    injection H as <-. constructor; auto.
Qed.
Lemma all_ok_raise : forall l e, all_ok l = Raise e -> exists n x, nth_error l n = Some x /\ to_matlab x = Raise e.
Proof.
  induction l as [|x l IH]; cbn; intros e H; [discriminate|].
  destruct (to_matlab x) as [m|e'] eqn:E.
  - destruct (all_ok l) as [ms'|e'] eqn:E2; [discriminate|]. injection H as <-.
    destruct (IH e' eq_refl) as (n & y & N & T). exists (S n), y. auto.
  - injection H as <-. exists 0, x. auto.
Qed.
Lemma entries_ok_raise : forall d e, entries_ok d = Raise e -> exists k x, In (k, x) d /\ to_matlab x = Raise e.
Proof.
  induction d as [|[k x] d IH]; cbn; intros e H; [discriminate|].
  destruct (to_matlab x) as [m|e'] eqn:E.
  - destruct (entries_ok d) as [ms'|e'] eqn:E2; [discriminate|]. injection H as <-.
    destruct (IH e' eq_refl) as (k' & y & N & T). exists k', y. auto.
  - injection H as <-. exists k, x. auto.
Qed.
Lemma Forall2_nth_l (A B : Type) (R : A -> B -> Prop) l l' : Forall2 R l l' ->
  forall n x, nth_error l n = Some x -> exists y, nth_error l' n = Some y /\ R x y.
Proof. induction 1; intros [|n] z N; cbn in *; try discriminate; eauto. injection N as <-. eauto. Qed.
Lemma Forall2_nth_r (A B : Type) (R : A -> B -> Prop) l l' : Forall2 R l l' ->
  forall n y, nth_error l' n = Some y -> exists x, nth_error l n = Some x /\ R x y.
Proof. induction 1; intros [|n] z N; cbn in *; try discriminate; eauto. injection N as <-. eauto. Qed.
Lemma Forall2_In_l (A B : Type) (R : A -> B -> Prop) l l' : Forall2 R l l' ->
  forall x, In x l -> exists y, In y l' /\ R x y.
Proof. induction 1; intros z N; cbn in *; [tauto|]. destruct N as [->|N]; eauto. destruct (IHForall2 z N) as (w & ? & ?). eauto. Qed.
Lemma Forall2_In_r (A B : Type) (R : A -> B -> Prop) l l' : Forall2 R l l' ->
  forall y, In y l' -> exists x, In x l /\ R x y.
Proof. induction 1; intros z N; cbn in *; [tauto|]. destruct N as [->|N]; eauto. destruct (IHForall2 z N) as (w & ? & ?). eauto. Qed.

Lemma labels_repeat_false ls : labels_repeat ls = false <-> NoDup ls.
Proof.
  induction ls as [|l ls IH]; cbn. { split; auto. constructor. }
  rewrite orb_false_iff, IH. split.
  - intros [A B]. constructor; auto. intros I. assert (existsb (String.eqb l) ls = true); [|congruence].
    apply existsb_exists. exists l. split; auto. apply String.eqb_refl.
  - intros N. inversion N; subst. split; auto. apply not_true_iff_false. rewrite existsb_exists.
    intros (x & I & E). apply String.eqb_eq in E. subst. auto.
Qed.

Lemma values_there : forall (v : pyval V) m, to_matlab v = Ok m -> forall p x,
  (inside p v (PNum x) \/ inside p v (PGeneric x)) -> minside p m (MNum x).
Proof.
  induction v as [y|y| |d s l|s|l IH|l|l IH|d IH] using pyval_induction; intros m H p x I.
  - injection H as <-. destruct I as [I|I]; inversion I; subst; constructor.
  - injection H as <-. destruct I as [I|I]; inversion I; subst; constructor.
  - discriminate.
  - destruct I as [I|I]; inversion I.
  - change (convert_series s = Ok m) in H. unfold convert_series in H. destruct (labels_repeat (map fst s)); [discriminate|]. injection H as <-.
    destruct I as [I|I]; inversion I; subst. econstructor; [|constructor].
    apply in_map_iff. exists (k, x). auto.
  - rewrite to_matlab_list in H. destruct (all_ok l) as [ms|] eqn:E; [|discriminate]. injection H as <-.
    apply all_ok_nth in E.
    assert (G : forall w, (w = PNum x \/ w = PGeneric x) -> inside p (PList l) w -> minside p (MList ms) (MNum x)).
    { intros w Hw J. inversion J; subst; [destruct Hw; discriminate|].
      match goal with N : nth_error l _ = Some _ |- _ => rename N into H end.
      destruct (Forall2_nth_l _ _ _ _ _ E n u H) as (mu & Mn & T). econstructor; eauto.
      rewrite Forall_forall in IH. apply (IH u (nth_error_In _ _ H) mu T). destruct Hw; subst; auto. }
    destruct I as [I|I]; (eapply G; [|exact I]); auto.
  - injection H as <-. destruct I as [I|I]; inversion I.
  - rewrite to_matlab_set in H. destruct (all_ok l) as [ms|] eqn:E; [|discriminate]. injection H as <-.
    apply all_ok_nth in E.
    assert (G : forall w, (w = PNum x \/ w = PGeneric x) -> inside p (PSet l) w -> minside p (MSet ms) (MNum x)).
    { intros w Hw J. inversion J; subst; [destruct Hw; discriminate|].
      match goal with N : nth_error l _ = Some _ |- _ => rename N into H end.
      destruct (Forall2_nth_l _ _ _ _ _ E n u H) as (mu & Mn & T). econstructor; eauto.
      rewrite Forall_forall in IH. apply (IH u (nth_error_In _ _ H) mu T). destruct Hw; subst; auto. }
    destruct I as [I|I]; (eapply G; [|exact I]); auto.
  - rewrite to_matlab_dict in H. destruct (entries_ok d) as [ms|] eqn:E; [|discriminate]. injection H as <-.
    apply entries_ok_nth in E.
    assert (G : forall w, (w = PNum x \/ w = PGeneric x) -> inside p (PDict d) w -> minside p (MDict ms) (MNum x)).
    { intros w Hw J. inversion J; subst; [destruct Hw; discriminate|].
      match goal with N : In (k, u) d |- _ => rename N into H end.
      destruct (Forall2_In_l _ _ _ _ _ E (k, u) H) as ([k' mu] & Mn & K & T). cbn in K, T. subst k'. econstructor; eauto.
      rewrite Forall_forall in IH. apply (IH (k, u) H mu T). destruct Hw; subst; auto. }
    destruct I as [I|I]; (eapply G; [|exact I]); auto.
Qed.

Lemma values_only : forall (v : pyval V) m, to_matlab v = Ok m -> forall p x, minside p m (MNum x) ->
  inside p v (PNum x) \/ inside p v (PGeneric x).
Proof.
  induction v as [y|y| |d s l|s|l IH|l|l IH|d IH] using pyval_induction; intros m H p x I.
  - injection H as <-. inversion I; subst; auto. left. constructor.
  - injection H as <-. inversion I; subst; auto. right. constructor.
  - discriminate.
  - change (convert_array d s l = Ok m) in H. unfold convert_array in H. destruct (supported d); [|discriminate].
    cbv zeta in H. destruct (m_reshape l _) as [a|]; [|discriminate].
    destruct (m_transpose a) as [[dims en]|]; [|discriminate]. injection H as <-. inversion I.
  - change (convert_series s = Ok m) in H. unfold convert_series in H. destruct (labels_repeat (map fst s)); [discriminate|]. injection H as <-.
    inversion I as [|? ? ? ? ? A2 A3|? ? ? ? ? A2 A3|? ? ? ? ? A2 A3]; subst. rename A2 into H2; rename A3 into H3. apply in_map_iff in H2. destruct H2 as ([k' z] & E & J). injection E as <- <-. 
    inversion H3; subst. right. constructor. auto.
  - rewrite to_matlab_list in H. destruct (all_ok l) as [ms|] eqn:E; [|discriminate]. injection H as <-.
    apply all_ok_nth in E. inversion I as [|? ? ? ? ? A2 A3|? ? ? ? ? A2 A3|? ? ? ? ? A2 A3]; subst. rename A2 into H2; rename A3 into H3.
    destruct (Forall2_nth_r _ _ _ _ _ E n u H2) as (w & Mn & T).
    rewrite Forall_forall in IH. destruct (IH w (nth_error_In _ _ Mn) u T p0 x H3); [left|right]; econstructor; eauto.
  - injection H as <-. inversion I.
  - rewrite to_matlab_set in H. destruct (all_ok l) as [ms|] eqn:E; [|discriminate]. injection H as <-.
    apply all_ok_nth in E. inversion I as [|? ? ? ? ? A2 A3|? ? ? ? ? A2 A3|? ? ? ? ? A2 A3]; subst. rename A2 into H2; rename A3 into H3.
    destruct (Forall2_nth_r _ _ _ _ _ E n u H2) as (w & Mn & T).
    rewrite Forall_forall in IH. destruct (IH w (nth_error_In _ _ Mn) u T p0 x H3); [left|right]; econstructor; eauto.
  - rewrite to_matlab_dict in H. destruct (entries_ok d) as [ms|] eqn:E; [|discriminate]. injection H as <-.
    apply entries_ok_nth in E. inversion I as [|? ? ? ? ? A2 A3|? ? ? ? ? A2 A3|? ? ? ? ? A2 A3]; subst. rename A2 into H2; rename A3 into H3.
    destruct (Forall2_In_r _ _ _ _ _ E (k, u) H2) as ([k' w] & Mn & K & T). cbn in K, T. subst k'.
    rewrite Forall_forall in IH. destruct (IH (k, w) Mn u T p0 x H3); [left|right]; econstructor; eauto.
Qed.

Lemma sound_list (l : list (pyval V)) : sound (PList l) -> Forall sound l.
Proof. induction l; cbn; intros H; constructor; tauto. Qed.
Lemma sound_set (l : list (pyval V)) : sound (PSet l) -> Forall sound l.
Proof. induction l; cbn; intros H; constructor; tauto. Qed.
Lemma sound_dict (d : list (string * pyval V)) : sound (PDict d) -> Forall (fun q => sound (snd q)) d.
Proof. induction d as [|[k x] d IH]; cbn; intros H; constructor; cbn; tauto. Qed.

Lemma refused_there : forall (v : pyval V) e, sound v -> to_matlab v = Raise e -> exists p w, inside p v w /\ unfit w.
Proof.
  induction v as [y|y| |d s l|s|l IH|l|l IH|d IH] using pyval_induction; intros e Hs H; try discriminate.
  - exists [], POther. split; constructor.
  - exists [], (PArray d s l). split; [constructor|]. cbn. intros C.
    destruct (proj2 (convert_array_iff d s l Hs) C) as [m M]. change (convert_array d s l = Raise e) in H. congruence.
  - exists [], (PSeries s). split; [constructor|]. change (convert_series s = Raise e) in H. unfold convert_series in H. destruct (labels_repeat (map fst s)) eqn:E; [|discriminate].
    cbn. rewrite <- labels_repeat_false. congruence.
  - rewrite to_matlab_list in H. destruct (all_ok l) as [ms|e'] eqn:E; [discriminate|]. injection H as <-.
    destruct (all_ok_raise _ _ E) as (n & x & N & T). apply sound_list in Hs.
    rewrite Forall_forall in IH, Hs. pose proof (nth_error_In _ _ N) as I.
    destruct (IH x I e' (Hs x I) T) as (p & w & W & U). exists (At n :: p), w. split; auto. econstructor; eauto.
  - rewrite to_matlab_set in H. destruct (all_ok l) as [ms|e'] eqn:E; [discriminate|]. injection H as <-.
    destruct (all_ok_raise _ _ E) as (n & x & N & T). apply sound_set in Hs.
    rewrite Forall_forall in IH, Hs. pose proof (nth_error_In _ _ N) as I.
    destruct (IH x I e' (Hs x I) T) as (p & w & W & U). exists (At n :: p), w. split; auto. econstructor; eauto.
  - rewrite to_matlab_dict in H. destruct (entries_ok d) as [ms|e'] eqn:E; [discriminate|]. injection H as <-.
    destruct (entries_ok_raise _ _ E) as (k & x & N & T). apply sound_dict in Hs.
    rewrite Forall_forall in IH, Hs.
    destruct (IH (k, x) N e' (Hs _ N) T) as (p & w & W & U). exists (Key k :: p), w. split; auto. econstructor; eauto.
Qed.
Lemma unfit_raise (w : pyval V) : unfit w -> forall m, to_matlab w <> Ok m.
Proof.
  destruct w; cbn [unfit]; intros U m H; try contradiction; try discriminate.
  - change (convert_array d shape data = Ok m) in H. apply U. eapply convert_array_shape; eauto.
  - change (convert_series s = Ok m) in H. apply U. unfold convert_series in H. destruct (labels_repeat (map fst s)) eqn:E; [discriminate|].
    apply labels_repeat_false. auto.
Qed.
Lemma ok_inside : forall p (v w : pyval V), inside p v w -> forall m, to_matlab v = Ok m -> exists m', to_matlab w = Ok m'.
Proof.
  induction 1; intros m Hm; eauto.
  - rewrite to_matlab_list in Hm. destruct (all_ok l) as [ms|] eqn:E; [|discriminate].
    apply all_ok_nth in E. destruct (Forall2_nth_l _ _ _ _ _ E n u H) as (mu & _ & T). eauto.
  - rewrite to_matlab_set in Hm. destruct (all_ok l) as [ms|] eqn:E; [|discriminate].
    apply all_ok_nth in E. destruct (Forall2_nth_l _ _ _ _ _ E n u H) as (mu & _ & T). eauto.
  - rewrite to_matlab_dict in Hm. destruct (entries_ok d) as [ms|] eqn:E; [|discriminate].
    apply entries_ok_nth in E. destruct (Forall2_In_l _ _ _ _ _ E (k, u) H) as ([k' mu] & _ & _ & T). eauto.
  - eexists. reflexivity.
Qed.
End Proofs.

(** Registry. *)
Lemma key_eqb_eq a b : key_eqb a b = true <-> a = b.
Proof.
  destruct a as [p|s], b as [q|t]; cbn; split; intros H; try discriminate.
  - apply Nat.eqb_eq in H. congruence.
  - injection H as ->. apply Nat.eqb_refl.
  - apply String.eqb_eq in H. congruence.
  - injection H as ->. apply String.eqb_refl.
Qed.
Lemma put_key_In k p l : In (k, p) (put_key k p l).
Proof.
  induction l as [|[k' q] l IH]; cbn; auto. destruct (key_eqb k k'); cbn; auto.
Qed.
Lemma put_key_keys k p l x : In x (map fst (put_key k p l)) <-> x = k \/ In x (map fst l).
Proof.
  induction l as [|[k' q] l IH]; cbn. { intuition. }
  destruct (key_eqb k k') eqn:E; cbn. { apply key_eqb_eq in E. subst. intuition. }
  rewrite IH. intuition.
Qed.
Lemma put_key_old k p l k' q : In (k', q) (put_key k p l) -> (k', q) = (k, p) \/ In (k', q) l.
Proof.
  induction l as [|[k2 q2] l IH]; cbn. { intuition. }
  destruct (key_eqb k k2); cbn; intuition.
Qed.
Lemma find_key_None k l : find_key k l = None <-> ~ In k (map fst l).
Proof.
  induction l as [|[k' q] l IH]; cbn. { intuition. }
  destruct (key_eqb k k') eqn:E. { apply key_eqb_eq in E. subst. split; [discriminate|intuition]. }
  rewrite IH. assert (k' <> k) by (intros ->; rewrite (proj2 (key_eqb_eq k k) eq_refl) in E; discriminate). intuition.
Qed.
Lemma find_key_In k l e : find_key k l = Some e -> In (k, e) l.
Proof.
  induction l as [|[k' q] l IH]; cbn; [discriminate|].
  destruct (key_eqb k k') eqn:E. { apply key_eqb_eq in E. subst. intros [= ->]. auto. } auto.
Qed.
Lemma find_put_key k p l : find_key k (put_key k p l) = Some p.
Proof.
  assert (R : key_eqb k k = true) by (apply key_eqb_eq; reflexivity).
  induction l as [|[k' q] l IH]; cbn [put_key find_key]. { rewrite R. reflexivity. }
  destruct (key_eqb k k') eqn:K; cbn [find_key]; rewrite ?R, ?K; auto.
Qed.

Section RegistryProofs.
Variable name : nat -> string.
(** Every connected session is registered under its process id or its name,
    and the entries under process ids were started. *)
Definition registered (qs : list request) (r : registry) : Prop :=
  (forall p, In p (r_connected r) -> In (KPid p, p) (r_engines r) \/ In (KName (name p), p) (r_engines r)) /\
  (forall q p, In (KPid q, p) (r_engines r) -> q = p /\ In (Start p) qs) /\
  (forall s p, In (KName s, p) (r_engines r) -> s = name p) /\
  (forall k p, In (k, p) (r_engines r) -> In p (r_connected r)) /\
  (forall p, In p (r_twice r) -> In (Start p) qs).
Definition proper (q : request) : Prop := match q with ConnectName s p => s = name p | _ => True end.

Lemma put_key_kept k p l k' q : In (k', q) l -> k' <> k -> In (k', q) (put_key k p l).
Proof.
  induction l as [|[k2 q2] l IH]; cbn; [tauto|]. intros H N. destruct (key_eqb k k2) eqn:E; cbn.
  - apply key_eqb_eq in E. subst k2. destruct H as [H|H]; auto. congruence.
  - destruct H; auto.
Qed.
Lemma connect_registered qs r p :
  registered qs r -> (r_engines r = [] \/ find_key (KName (name p)) (r_engines r) = None) ->
  registered qs (fst (connect_to name p r)).
Proof.
  intros (A & B & C & D & E) F. unfold connect_to. destruct (existsb (Nat.eqb p) (r_connected r)) eqn:X; cbn [fst].
  - apply existsb_exists in X. destruct X as (q & I & Q). apply Nat.eqb_eq in Q. subst q.
    repeat split; cbn; auto; try (eapply B; eauto). intros q [<-|Q]; auto.
    destruct (A p I) as [H|H]. { apply (B p p H). }
    destruct F as [F|F]. { rewrite F in H. contradiction. }
    apply find_key_None in F. exfalso. apply F. apply (in_map fst) in H. exact H.
  - assert (N : forall q, In q (r_connected r) -> q <> p).
    { intros q I ->. assert (existsb (Nat.eqb p) (r_connected r) = true); [|congruence].
      apply existsb_exists. exists p. split; auto. apply Nat.eqb_refl. }
    assert (K : forall q, In (KName (name p), q) (r_engines r) -> False).
    { intros q I. destruct F as [F|F]. { rewrite F in I. contradiction. }
      apply find_key_None in F. apply F. apply (in_map fst) in I. exact I. }
    split; [|split; [|split; [|split]]]; cbn.
    + intros q [<-|I]. { right. apply put_key_In. }
      destruct (A q I) as [H|H]; [left|right]; apply put_key_kept; auto; try discriminate.
      intros Q. injection Q as Q. rewrite Q in H. eapply K; eauto.
    + intros q p0 I. apply put_key_old in I. destruct I as [I|I]; [discriminate|]. apply (B q p0 I).
    + intros s q I. apply put_key_old in I. destruct I as [I|I]; [congruence|]. apply (C s q I).
    + intros k q I. apply put_key_old in I. destruct I as [I|I]; [injection I as -> ->; auto|]. right. apply (D k q I).
    + exact E.
Qed.
Lemma registered_more qs q r : registered qs r -> registered (qs ++ [q]) r.
Proof.
  intros (A & B & C & D & E). split; [|split; [|split; [|split]]]; auto.
  - intros k p I. destruct (B k p I). split; auto. apply in_or_app. auto.
  - intros p I. apply in_or_app. auto.
Qed.
Lemma serve_registered qs q r : registered qs r -> proper q -> registered (qs ++ [q]) (fst (serve name q r)).
Proof.
  intros H P. pose proof (registered_more qs q r H) as M. destruct q as [p|p|s p|p]; cbn [serve].
  - destruct M as (A & B & C & D & E). cbn [fst]. split; [|split; [|split; [|split]]]; cbn.
    + intros q [<-|I]. { left. apply put_key_In. }
      destruct (A q I) as [J|J]; [|right; apply put_key_kept; auto; discriminate].
      left. destruct (Nat.eq_dec q p) as [->|N]; [apply put_key_In|]. apply put_key_kept; auto. congruence.
    + intros q p0 I. apply put_key_old in I. destruct I as [I|I].
      * injection I as -> ->. split; auto. apply in_or_app. right. left. reflexivity.
      * apply (B q p0 I).
    + intros s q I. apply put_key_old in I. destruct I as [I|I]; [discriminate|]. apply (C s q I).
    + intros k q I. apply put_key_old in I. destruct I as [I|I]; [injection I as -> ->; auto|]. right. apply (D k q I).
    + exact E.
  - destruct (r_engines r) as [|[k e] l] eqn:E; [|exact M]. apply connect_registered; auto.
  - cbn in P. subst s. destruct (find_key (KName (name p)) (r_engines r)) eqn:E; [exact M|]. apply connect_registered; auto.
  - destruct M as (A & B & C & D & E). cbn [fst]. split; [|split; [|split; [|split]]]; cbn.
    + intros q I. apply filter_In in I. destruct I as [I N].
      destruct (A q I) as [J|J]; [left|right]; apply filter_In; auto.
    + intros q p0 I. apply filter_In in I. destruct I as [I _]. apply (B q p0 I).
    + intros s q I. apply filter_In in I. destruct I as [I _]. apply (C s q I).
    + intros k q I. apply filter_In in I. destruct I as [I N]. apply filter_In. split; auto. apply (D k q I).
    + exact E.
Qed.
Lemma serve_all_registered : forall qs done r, registered done r -> Forall proper qs ->
  registered (done ++ qs) (serve_all name qs r).
Proof.
  induction qs as [|q qs IH]; intros done r H P. { rewrite app_nil_r. exact H. }
  inversion P; subst. cbn. rewrite (app_assoc done [q] qs : done ++ q :: qs = (done ++ [q]) ++ qs).
  apply IH; auto. apply serve_registered; auto.
Qed.
Lemma registered_empty : registered [] (mk_registry [] [] []).
Proof. split; [|split; [|split; [|split]]]; cbn; intros; contradiction. Qed.
End RegistryProofs.
