From Verif Require Import PyBase TargetModel TunerModel TunerSpec SeriesLemmas SolverModel NelderMeadModel NelderMeadSpec NelderMeadProofs.
From Coq Require Import Lra Permutation.
Local Open Scope nat_scope.

Lemma index_reindex ls s : index (reindex ls s) = ls.
Proof. unfold index, reindex. rewrite map_map. apply map_id. Qed.
Lemma select_reindex ls s r : select ls s = Ok r -> r = reindex ls s.
Proof. unfold select. destruct ls as [|l ls]; [injection 1; auto|]. destruct (existsb _ _); [injection 1; auto|discriminate]. Qed.
Lemma select_index ls s r : select ls s = Ok r -> index r = ls.
Proof. intros H. rewrite (select_reindex _ _ _ H). apply index_reindex. Qed.
Lemma select_exn ls s e : select ls s = Raise e -> e = KeyError.
Proof. unfold select. destruct ls as [|l ls]; [discriminate|]. destruct (existsb _ _); congruence. Qed.

Section Runs.
Variable cost : series -> num.
Variable ortho : list (list num) -> res (list num).
Local Notation ins st := (insert_into cost (nm_target st)).

(** What one update does to a simplex. *)
Lemma step_effect st p v st' r : nm_step cost p v st = (st', r) ->
  let new := (p, v) in let n := length (nm_pos st) in
  (nm_target st' = nm_target st /\ nm_span st' = nm_span st /\ nm_pos st' = nm_pos st /\ nm_vals st' = nm_vals st) /\
  (nm_refl st' = nm_refl st \/ nm_refl st' = Some new) /\
  (forall e, In e (nm_shrunk st') -> In e (nm_shrunk st) \/ e = new) /\
  ((length (nm_simplex st) < n + 1 /\ r = Ok tt /\ nm_shrunk st' = nm_shrunk st /\
    ((S (length (nm_simplex st)) = n + 1 /\ nm_simplex st' = sorted_simplex cost (nm_target st) (nm_simplex st ++ [new]) /\ nm_phase_ st' = StartIteration) \/
     (S (length (nm_simplex st)) < n + 1 /\ nm_simplex st' = nm_simplex st ++ [new] /\ nm_phase_ st' = nm_phase_ st))) \/
   (n + 1 <= length (nm_simplex st) /\
    exists es, nm_simplex st' = fold_left (ins st) es (nm_simplex st) /\
               forall e, In e es -> e = new \/ nm_refl st = Some e \/ In e (nm_shrunk st))).
Proof.
  unfold nm_step. cbv zeta. destruct (Nat.ltb_spec (length (nm_simplex st)) (length (nm_pos st) + 1)) as [Hl|Hl].
  - rewrite app_length. cbn [length]. destruct (Nat.eqb_spec (length (nm_simplex st) + 1) (length (nm_pos st) + 1)) as [He|He];
      injection 1; intros <- <-; cbn; repeat split; auto; left; repeat split; auto; [left|right]; repeat split; auto; lia.
  - assert (Hr : forall (A B C D : Prop), A /\ B /\ C /\ D -> A /\ B /\ C /\ ((length (nm_simplex st) < length (nm_pos st) + 1 /\ r = Ok tt /\ nm_shrunk st' = nm_shrunk st /\
      ((S (length (nm_simplex st)) = length (nm_pos st) + 1 /\ nm_simplex st' = sorted_simplex cost (nm_target st) (nm_simplex st ++ [(p, v)]) /\ nm_phase_ st' = StartIteration) \/
       (S (length (nm_simplex st)) < length (nm_pos st) + 1 /\ nm_simplex st' = nm_simplex st ++ [(p, v)] /\ nm_phase_ st' = nm_phase_ st))) \/ D)) by tauto.
    intros H. apply Hr. clear Hr. revert H.
    destruct (nm_phase_ st) eqn:Ep;
    repeat match goal with
           | |- context [match nm_refl st with _ => _ end] => destruct (nm_refl st) eqn:?
           | |- context [if nltb ?a ?b then _ else _] => destruct (nltb a b) eqn:?
           | |- context [if nleb ?a ?b then _ else _] => destruct (nleb a b) eqn:?
           | |- context [if Nat.ltb ?a ?b then _ else _] => destruct (Nat.ltb a b) eqn:?
           | |- context [if Nat.eqb ?a ?b then _ else _] => destruct (Nat.eqb a b) eqn:?
           end; injection 1; intros; subst st' r; cbn;
    (split; [repeat split; congruence|]); (split; [solve [auto | left; congruence]|]);
    (split; [try solve [auto | intros e0 []]; intros e0 He; apply in_app_iff in He; destruct He as [He|[He|[]]]; auto|]);
    (split; [assumption|]).
    all: try solve [exists []; split; [reflexivity|intros e0 []]].
    all: try solve [exists [(p, v)]; split; [reflexivity|intros e0 [<-|[]]; auto]].
    all: try match goal with H : nm_refl _ = Some ?e |- _ => solve [exists [e]; split; [reflexivity|intros e0 [<-|[]]; auto]] end.
    exists (nm_shrunk st ++ [(p, v)]). split; [reflexivity|].
    intros e He. apply in_app_iff in He. destruct He as [He|[He|[]]]; auto.
Qed.

Lemma update_inv st p v st' r : nm_update cost p v st = (st', r) ->
  (r = Raise KeyError /\ st' = st) \/
  exists p' v' st1, p' = reindex (index (nm_pos st)) p /\ v' = reindex (index (nm_vals st)) v /\
    nm_step cost p' v' st = (st1, r) /\
    nm_target st' = nm_target st1 /\ nm_simplex st' = nm_simplex st1 /\ nm_span st' = nm_span st1 /\ nm_refl st' = nm_refl st1 /\
    nm_shrunk st' = nm_shrunk st1 /\ nm_phase_ st' = nm_phase_ st1 /\
    index (nm_pos st') = index (nm_pos st) /\ index (nm_vals st') = index (nm_vals st).
Proof.
  unfold nm_update. destruct (select (index (nm_pos st)) p) as [p'|e] eqn:E1.
  2:{ injection 1; intros <- <-. left. rewrite (select_exn _ _ _ E1). auto. }
  destruct (select (index (nm_vals st)) v) as [v'|e] eqn:E2.
  2:{ injection 1; intros <- <-. left. rewrite (select_exn _ _ _ E2). auto. }
  destruct (nm_step cost p' v' st) as [st1 [[]|e]] eqn:E3; injection 1; intros <- <-; right; exists p', v', st1;
    (split; [exact (select_reindex _ _ _ E1)|]); (split; [exact (select_reindex _ _ _ E2)|]); (split; [exact E3|]); cbn; repeat split; auto.
  all: try solve [exact (select_index _ _ _ E1) | exact (select_index _ _ _ E2)].
  all: destruct (step_effect _ _ _ _ _ E3) as [[_ [_ [H1 H2]]] _]; rewrite ?H1, ?H2; reflexivity.
Qed.

Lemma suggest_inv st st' r : nm_suggest ortho st = (st', r) ->
  nm_target st' = nm_target st /\ nm_simplex st' = nm_simplex st /\ nm_span st' = nm_span st /\ nm_refl st' = nm_refl st /\
  nm_shrunk st' = nm_shrunk st /\ nm_pos st' = nm_pos st /\ nm_vals st' = nm_vals st /\
  (nm_phase_ st' = nm_phase_ st \/
   (length (nm_simplex st) < length (nm_pos st) + 1 /\ nm_phase_ st' = BuildUp) \/
   (length (nm_pos st) + 1 <= length (nm_simplex st) /\ nm_phase_ st = StartIteration /\ nm_phase_ st' = Reflect)).
Proof.
  unfold nm_suggest. destruct (map fst (nm_simplex st)) as [|p0 ps] eqn:Ep; [injection 1; intros <- <-; auto 10|].
  cbv zeta. destruct (Nat.ltb_spec (length (nm_simplex st)) (length (nm_pos st) + 1)) as [Hl|Hl].
  - destruct (ortho _); injection 1; intros <- <-; cbn; auto 12.
  - destruct (nm_phase_ st) eqn:E; [| | |injection 1; intros <- <-; auto 10..|].
    1, 3: injection 1; intros <- <-; cbn; auto 12.
    1: injection 1; intros <- <-; auto 10.
    destruct (Nat.eqb _ _); [injection 1; intros <- <-; auto 10|]. destruct (nth_error _ _); injection 1; intros <- <-; auto 10.
Qed.

Lemma length_index (s s' : series) : index s' = index s -> length s' = length s.
Proof. intros H. rewrite <- (map_length fst s'), <- (map_length fst s). unfold index in H. rewrite H. reflexivity. Qed.

Lemma call_frame st o : let st' := nm_call cost ortho st o in
  nm_target st' = nm_target st /\ index (nm_pos st') = index (nm_pos st) /\ index (nm_vals st') = index (nm_vals st).
Proof.
  destruct o as [|p v]; cbn.
  - destruct (nm_suggest ortho st) as [st' r] eqn:E. apply suggest_inv in E. cbn. intuition congruence.
  - destruct (nm_update cost p v st) as [st' r] eqn:E. cbn. apply update_inv in E.
    destruct E as [[_ ->]|[p' [v' [st1 [_ [_ [E [-> [_ [_ [_ [_ [_ [-> ->]]]]]]]]]]]]]]; [auto|].
    destruct (step_effect _ _ _ _ _ E) as [[-> _] _]. auto.
Qed.
Lemma run_frame ops : forall st, let st' := nm_run cost ortho st ops in
  nm_target st' = nm_target st /\ index (nm_pos st') = index (nm_pos st) /\ index (nm_vals st') = index (nm_vals st).
Proof.
  induction ops as [|o ops IH]; intros st; [cbn; auto|].
  destruct (IH (nm_call cost ortho st o)) as [H1 [H2 H3]]. destruct (call_frame st o) as [H4 [H5 H6]].
  cbv zeta. change (nm_run cost ortho st (o :: ops)) with (nm_run cost ortho (nm_call cost ortho st o) ops).
  rewrite H1, H2, H3. auto.
Qed.
Lemma call_pos st o : length (nm_pos (nm_call cost ortho st o)) = length (nm_pos st).
Proof. apply length_index. apply call_frame. Qed.

Lemma fold_insert_length t es : forall sx, length (fold_left (insert_into cost t) es sx) = length sx.
Proof. induction es as [|e es IH]; intros sx; cbn; [reflexivity|]. rewrite IH. apply insert_into_length. Qed.

(** C23: number of points. *)
Lemma update_size st p v : length (nm_simplex st) <= S (length (nm_pos st)) ->
  length (nm_simplex (fst (nm_update cost p v st))) =
  Nat.min (S (length (nm_pos st))) (length (nm_simplex st) + match snd (nm_update cost p v st) with Ok _ => 1 | Raise _ => 0 end).
Proof.
  intros Hl. destruct (nm_update cost p v st) as [st' r] eqn:E. cbn [fst snd]. apply update_inv in E.
  destruct E as [[-> ->]|[p' [v' [st1 [_ [_ [E [_ [-> _]]]]]]]]]; [lia|].
  destruct (step_effect _ _ _ _ _ E) as [_ [_ [_ [[H1 [-> [_ [[H2 [-> _]]|[H2 [-> _]]]]]]|[H1 [es [-> _]]]]]]].
  - rewrite (Permutation_length (sorted_perm _ _ _)), app_length. cbn [length]. lia.
  - rewrite app_length. cbn [length]. lia.
  - rewrite fold_insert_length. destruct r; lia.
Qed.
Lemma run_size ops : forall st, length (nm_simplex st) <= S (length (nm_pos st)) ->
  length (nm_simplex (nm_run cost ortho st ops)) =
  Nat.min (S (length (nm_pos st))) (length (nm_simplex st) + accepted cost ortho st ops).
Proof.
  induction ops as [|o ops IH]; intros st Hl; [cbn [nm_run fold_left accepted]; lia|].
  change (nm_run cost ortho st (o :: ops)) with (nm_run cost ortho (nm_call cost ortho st o) ops).
  destruct o as [|p v].
  - assert (E : nm_simplex (nm_call cost ortho st OSuggest) = nm_simplex st).
    { cbn. destruct (nm_suggest ortho st) as [st' r] eqn:E. apply suggest_inv in E. intuition. }
    rewrite IH; rewrite ?E, ?call_pos; auto.
  - assert (E := update_size st p v Hl). rewrite IH; rewrite call_pos; cbn [nm_call accepted] in *; rewrite E; lia.
Qed.

Section Ordered.
Hypothesis Hc : ordered cost.

Lemma asc_ascending t l : asc cost t l -> ascending (map (fun e => cost (deviation t (snd e))) l).
Proof.
  induction 1 as [|x l Hx Hl IH]; intros i j a b Hij Ha Hb.
  - destruct i; discriminate.
  - destruct j; [lia|]. cbn in Hb. destruct i; cbn in Ha.
    + injection Ha as <-. apply nth_error_In, in_map_iff in Hb. destruct Hb as [y [<- Hy]]. apply Hx. exact Hy.
    + eapply IH; [|exact Ha|exact Hb]. lia.
Qed.
Lemma ascending_asc t l : ascending (map (fun e => cost (deviation t (snd e))) l) -> asc cost t l.
Proof.
  induction l as [|x l IH]; intros H; constructor.
  - intros y Hy. apply In_nth_error in Hy. destruct Hy as [k Hk].
    apply (H 0 (S k)); [lia|reflexivity|]. cbn. apply (map_nth_error (fun e => cost (deviation t (snd e)))). exact Hk.
  - apply IH. intros i j a b Hij Ha Hb. apply (H (S i) (S j)); [lia|exact Ha|exact Hb].
Qed.

Lemma fold_insert_asc t es : forall sx, asc cost t sx -> asc cost t (fold_left (insert_into cost t) es sx).
Proof. induction es as [|e es IH]; intros sx Hsx; cbn; [assumption|]. apply IH. apply insert_into_asc. exact Hc. Qed.

Definition tidy (st : nm) : Prop := length (nm_simplex st) <= length (nm_pos st) \/ asc cost (nm_target st) (nm_simplex st).
Lemma call_tidy st o : tidy st -> tidy (nm_call cost ortho st o).
Proof.
  unfold tidy. destruct (call_frame st o) as [Ht [_ _]]. rewrite Ht, call_pos. destruct o as [|p v]; cbn.
  - destruct (nm_suggest ortho st) as [st' r] eqn:E. apply suggest_inv in E. cbn. destruct E as [_ [-> _]]. auto.
  - destruct (nm_update cost p v st) as [st' r] eqn:E. cbn. apply update_inv in E.
    destruct E as [[_ ->]|[p' [v' [st1 [_ [_ [E [_ [-> _]]]]]]]]]; [auto|].
    destruct (step_effect _ _ _ _ _ E) as [_ [_ [_ [[H1 [_ [_ [[H2 [-> _]]|[H2 [-> _]]]]]]|[H1 [es [-> _]]]]]]].
    + right. apply sorted_asc. exact Hc.
    + left. rewrite app_length. cbn. lia.
    + intros [H|H]; [lia|]. right. apply fold_insert_asc. exact H.
Qed.
Lemma run_tidy ops : forall st, tidy st -> tidy (nm_run cost ortho st ops).
Proof. induction ops as [|o ops IH]; intros st H; [exact H|]. apply IH. apply call_tidy. exact H. Qed.

(** C24: thresholds. *)
Lemma fold_insert_below t es c : forall sx, below cost t c sx <= below cost t c (fold_left (insert_into cost t) es sx).
Proof.
  induction es as [|e es IH]; intros sx; cbn; [auto|].
  eapply Nat.le_trans; [apply (insert_into_below cost Hc t sx e c)|apply IH].
Qed.
Lemma at_most_below c st : at_most c (costs cost st) = below cost (nm_target st) c (nm_simplex st).
Proof.
  unfold at_most, below, costs. induction (nm_simplex st) as [|e l IH]; cbn; [reflexivity|].
  change (entry_cost cost (nm_target st) e) with (cost (deviation (nm_target st) (snd e))).
  destruct (nleb _ c); cbn; rewrite IH; reflexivity.
Qed.
Lemma below_sub t c l l' : below cost t c l <= below cost t c (l ++ l').
Proof. rewrite below_app. lia. Qed.
Lemma call_below st o c : at_most c (costs cost st) <= at_most c (costs cost (nm_call cost ortho st o)).
Proof.
  rewrite !at_most_below. destruct (call_frame st o) as [-> _]. destruct o as [|p v]; cbn.
  - destruct (nm_suggest ortho st) as [st' r] eqn:E. apply suggest_inv in E. cbn. destruct E as [_ [-> _]]. auto.
  - destruct (nm_update cost p v st) as [st' r] eqn:E. cbn. apply update_inv in E.
    destruct E as [[_ ->]|[p' [v' [st1 [_ [_ [E [_ [-> _]]]]]]]]]; [auto|].
    destruct (step_effect _ _ _ _ _ E) as [_ [_ [_ [[H1 [_ [_ [[H2 [-> _]]|[H2 [-> _]]]]]]|[H1 [es [-> _]]]]]]].
    + rewrite (below_perm _ _ _ _ _ (sorted_perm _ _ _)). apply below_sub.
    + apply below_sub.
    + apply fold_insert_below.
Qed.
Lemma run_below ops c : forall st, at_most c (costs cost st) <= at_most c (costs cost (nm_run cost ortho st ops)).
Proof.
  induction ops as [|o ops IH]; intros st; [auto|].
  eapply Nat.le_trans; [apply (call_below st o c)|apply IH].
Qed.
End Ordered.

(** C24: where the points come from. *)
Definition known (st : nm) (e : entry) : Prop := In e (nm_simplex st) \/ nm_refl st = Some e \/ In e (nm_shrunk st).
Lemma fold_insert_in t es x : forall sx, In x (fold_left (insert_into cost t) es sx) -> In x sx \/ In x es.
Proof.
  induction es as [|e es IH]; intros sx H; cbn in *; [auto|].
  apply IH in H. destruct H as [H|H]; [|auto]. apply insert_into_in in H. destruct H as [H|H]; auto.
Qed.
Lemma call_known st o e : known (nm_call cost ortho st o) e ->
  known st e \/ exists p v, o = OUpdate p v /\ e = (reindex (index (nm_pos st)) p, reindex (index (nm_vals st)) v).
Proof.
  unfold known. destruct o as [|p v]; cbn.
  - destruct (nm_suggest ortho st) as [st' r] eqn:E. apply suggest_inv in E. cbn. destruct E as [_ [-> [_ [-> [-> _]]]]]. auto.
  - destruct (nm_update cost p v st) as [st' r] eqn:E. cbn. apply update_inv in E.
    destruct E as [[_ ->]|[p' [v' [st1 [Hp [Hv [E [_ [-> [_ [-> [-> _]]]]]]]]]]]]; [auto|].
    assert (G : forall P, P \/ e = (p', v') -> P \/ exists p0 v0, OUpdate p v = OUpdate p0 v0 /\ e = (reindex (index (nm_pos st)) p0, reindex (index (nm_vals st)) v0)).
    { intros P [H|H]; [auto|]. right. exists p, v. rewrite <- Hp, <- Hv. auto. }
    intros H. apply G. clear G. destruct (step_effect _ _ _ _ _ E) as [_ [Hr [Hs Hx]]].
    destruct H as [H|[H|H]].
    + destruct Hx as [[_ [_ [_ [[_ [Hx _]]|[_ [Hx _]]]]]]|[_ [es [Hx He]]]]; rewrite Hx in H.
      * apply (Permutation_in _ (sorted_perm _ _ _)) in H. apply in_app_iff in H. destruct H as [H|[H|[]]]; auto.
      * apply in_app_iff in H. destruct H as [H|[H|[]]]; auto.
      * apply fold_insert_in in H. destruct H as [H|H]; [auto|]. destruct (He _ H) as [->|[H1|H1]]; auto.
    + destruct Hr as [Hr|Hr]; rewrite Hr in H; [auto|]. injection H as <-. auto.
    + destruct (Hs _ H) as [H1|H1]; auto.
Qed.
Lemma run_known ops : forall st e, known (nm_run cost ortho st ops) e ->
  known st e \/ exists p v, In (OUpdate p v) ops /\ e = (reindex (index (nm_pos st)) p, reindex (index (nm_vals st)) v).
Proof.
  induction ops as [|o ops IH]; intros st e H; [auto|].
  apply IH in H. destruct H as [H|[p [v [H1 H2]]]].
  - apply call_known in H. destruct H as [H|[p [v [-> H2]]]]; [auto|]. right. exists p, v. split; [left|]; auto.
  - right. exists p, v. split; [right; exact H1|]. destruct (call_frame st o) as [_ [<- <-]]. exact H2.
Qed.
End Runs.
