From Verif Require Import PyBase TargetModel TunerModel TunerSpec SeriesLemmas SolverModel NelderMeadModel NelderMeadSpec NelderMeadProofs NelderMeadRuns NelderMeadPoints.
From Coq Require Import Lra Permutation.
Local Open Scope nat_scope.

Section Box.
Variable cost : series -> num.
Variable ortho : list (list num) -> res (list num).
Variables (ls : list label) (lo hi : label -> R).
Local Notation boxl := (fun es : list entry => forall e, In e es -> in_box ls lo hi (fst e)).

Definition boxed (st : nm) : Prop :=
  index (nm_pos st) = ls /\ (nm_phase_ st = ContractInside \/ nm_phase_ st = Shrink) /\
  length (nm_pos st) < length (nm_simplex st) /\ boxl (nm_simplex st) /\ boxl (nm_shrunk st).

Lemma boxed_suggest st : boxed st -> fst (nm_suggest ortho st) = st /\
  forall p, snd (nm_suggest ortho st) = Ok p -> in_box ls lo hi p.
Proof.
  intros [Hi [Hp [Hl [Hs Hsh]]]]. unfold nm_suggest.
  assert (Hb : forall p, In p (map fst (nm_simplex st)) -> in_box ls lo hi p).
  { intros p H. apply in_map_iff in H. destruct H as [e [<- He]]. auto. }
  destruct (map fst (nm_simplex st)) as [|p0 ps] eqn:Ep; [cbn; split; [reflexivity|discriminate]|].
  cbv zeta. rewrite (proj2 (Nat.ltb_ge _ _)) by lia.
  assert (Hm : in_box ls lo hi (mean (p0 :: ps))) by (apply in_box_mean; [congruence|exact Hb]).
  assert (Hw : in_box ls lo hi (last (p0 :: ps) p0)).
  { apply Hb. rewrite (app_removelast_last p0 (l := p0 :: ps)) at 2 by congruence. apply in_or_app. right. left. reflexivity. }
  destruct Hp as [Hp|Hp]; rewrite Hp.
  - split; [reflexivity|]. injection 1 as <-. apply in_box_mid; assumption.
  - destruct (Nat.eqb _ _); [split; [reflexivity|discriminate]|].
    destruct (nth_error (p0 :: ps) _) as [q|] eqn:En; [|split; [reflexivity|discriminate]].
    split; [reflexivity|]. injection 1 as <-. apply in_box_mid; apply Hb; [left; reflexivity|]. eapply nth_error_In. exact En.
Qed.

Lemma insert_into_box t sx e : boxl sx -> in_box ls lo hi (fst e) -> boxl (insert_into cost t sx e).
Proof. intros H He x Hx. apply insert_into_in in Hx. destruct Hx as [Hx| ->]; auto. Qed.
Lemma fold_insert_box t es : forall sx, boxl sx -> boxl es -> boxl (fold_left (insert_into cost t) es sx).
Proof.
  intros sx H He x Hx. apply fold_insert_in in Hx. destruct Hx as [Hx|Hx]; auto.
Qed.

Lemma boxed_update st p v : boxed st -> in_box ls lo hi p -> boxed (fst (nm_update cost p v st)).
Proof.
  intros [Hi [Hp [Hl [Hs Hsh]]]] Hbp. destruct (nm_update cost p v st) as [st' r] eqn:E. cbn [fst].
  apply update_inv in E.
  destruct E as [[_ ->]|[p' [v' [st1 [Hp' [_ [E [_ [E2 [_ [_ [E5 [E6 [E7 _]]]]]]]]]]]]]]; [repeat split; assumption|].
  assert (Hnew : p' = p).
  { rewrite Hp', Hi. destruct Hbp as [f [-> _]]. apply reindex_vec. }
  clear Hp'. subst p'. unfold boxed. rewrite E2, E5, E6. rewrite (length_index _ _ E7). split; [rewrite E7; exact Hi|].
  assert (Hls : length (nm_simplex st1) = length (nm_simplex st)).
  { destruct (step_effect _ _ _ _ _ _ E) as [_ [_ [_ [[H _]|[_ [es [-> _]]]]]]]; [lia|]. apply fold_insert_length. }
  rewrite Hls. revert E. unfold nm_step. cbv zeta. rewrite (proj2 (Nat.ltb_ge _ _)) by lia.
  destruct Hp as [Hp|Hp]; rewrite Hp.
  - destruct (nltb _ _); injection 1; intros; subst st1 r; cbn; repeat split; auto.
    apply insert_into_box; assumption.
  - assert (Hn : boxl (nm_shrunk st ++ [(p, v')])).
    { intros e He. apply in_app_iff in He. destruct He as [He|[<-|[]]]; auto. }
    destruct (Nat.eqb _ _); injection 1; intros; subst st1 r; cbn; repeat split; auto.
    + apply fold_insert_box; assumption.
    + intros e [].
Qed.

Lemma boxed_rounds vs : forall st, boxed st -> boxed (nm_rounds cost ortho st vs).
Proof.
  induction vs as [|v vs IH]; intros st H; [exact H|]. apply IH. unfold nm_round.
  destruct (boxed_suggest st H) as [H1 H2]. destruct (nm_suggest ortho st) as [st' [p|e]]; cbn [fst snd] in *; subst; [|exact H].
  apply boxed_update; auto.
Qed.
End Box.

(** *** No exception from a solver started from scratch *)
Section NoBug.
Variable cost : series -> num.
Variable ortho : list (list num) -> res (list num).

Definition sane (st : nm) : Prop :=
  let n := length (nm_pos st) in
  1 <= n /\ 1 <= length (nm_simplex st) <= n + 1 /\ length (nm_shrunk st) < n /\
  (length (nm_simplex st) < n + 1 <-> nm_phase_ st = BuildUp) /\
  (nm_phase_ st = Expand \/ nm_phase_ st = ContractOutside -> nm_refl st <> None).

Lemma sane_suggest st : sane st -> sane (fst (nm_suggest ortho st)).
Proof.
  intros H. destruct (nm_suggest ortho st) as [st' r] eqn:E. apply suggest_inv in E. cbn [fst].
  destruct E as [_ [E1 [_ [E2 [E3 [E4 [_ E5]]]]]]]. unfold sane in *. rewrite E1, E2, E3, E4.
  destruct H as [H1 [H2 [H3 [H4 H5]]]]. split; [exact H1|]. split; [exact H2|]. split; [exact H3|].
  destruct E5 as [->|[[E5 E6]|[E5 [E6 E7]]]]; [auto| |].
  - rewrite E6. split; [tauto|]. intros [H|H]; discriminate.
  - rewrite E7. split; [split; [lia|discriminate]|]. intros [H|H]; discriminate.
Qed.

Lemma sane_update st p v : sane st -> sane (fst (nm_update cost p v st)) /\
  forall e, snd (nm_update cost p v st) = Raise e -> e = KeyError.
Proof.
  intros H. destruct (nm_update cost p v st) as [st' r] eqn:E. cbn [fst snd]. apply update_inv in E.
  destruct E as [[-> ->]|[p' [v' [st1 [_ [_ [E [_ [E2 [_ [E4 [E5 [E6 [E7 _]]]]]]]]]]]]]]; [split; [exact H|congruence]|].
  assert (Hls : length (nm_simplex st1) = length (nm_simplex st) \/ length (nm_simplex st) < length (nm_pos st) + 1).
  { destruct (step_effect _ _ _ _ _ _ E) as [_ [_ [_ [[G _]|[_ [es [-> _]]]]]]]; [auto|]. left. apply fold_insert_length. }
  unfold sane in *. rewrite E2, E4, E5, E6, (length_index _ _ E7). destruct H as [H1 [H2 [H3 [H4 H5]]]].
  destruct (Nat.lt_ge_cases (length (nm_simplex st)) (length (nm_pos st) + 1)) as [Hlt|Hge].
  - assert (Hb := proj1 H4 Hlt).
    destruct (step_effect _ _ _ _ _ _ E) as [_ [_ [_ [[_ [-> [-> G]]]|[G _]]]]]; [|lia].
    split; [|discriminate]. destruct G as [[G1 [-> ->]]|[G1 [-> ->]]].
    + rewrite (Permutation_length (sorted_perm _ _ _)), app_length. cbn [length].
      repeat split; try lia; try discriminate. intros [H|H]; discriminate.
    + rewrite app_length. cbn [length]. repeat split; try lia; auto. rewrite Hb. intros [H|H]; discriminate.
  - destruct Hls as [Hls|Hls]; [|lia]. rewrite Hls.
    revert E. unfold nm_step. cbv zeta. rewrite (proj2 (Nat.ltb_ge _ _)) by lia. rewrite map_length.
    destruct (nm_phase_ st) eqn:Ep.
    2:{ exfalso. destruct H4 as [_ H4]. specialize (H4 eq_refl). lia. }
    all: repeat match goal with
           | |- context [match ?x with Some _ => _ | None => _ end] => destruct x eqn:?
           | |- context [if nltb ?a ?b then _ else _] => destruct (nltb a b) eqn:?
           | |- context [if nleb ?a ?b then _ else _] => destruct (nleb a b) eqn:?
           | |- context [if Nat.ltb ?a ?b then _ else _] => destruct (Nat.ltb_spec a b)
           | |- context [if Nat.eqb ?a ?b then _ else _] => destruct (Nat.eqb_spec a b) as [?|Hsh]
           end; injection 1; intros; subst st1 r; cbn [nm_phase_ with_phase with_simplex nm_shrunk nm_refl length];
      rewrite ?Ep; try lia; try (exfalso; apply H5; auto; fail);
      try rewrite app_length in Hsh; cbn [length] in *;
      (split; [repeat split; try lia; try discriminate; try congruence; try (intros [G|G]; congruence); try rewrite app_length; cbn [length]; try lia|discriminate]).
Qed.

Lemma sane_run ops : forall st, sane st -> sane (nm_run cost ortho st ops).
Proof.
  induction ops as [|o ops IH]; intros st H; [exact H|]. apply IH.
  destruct o as [|p v]; cbn [nm_call]; [apply sane_suggest|apply sane_update]; exact H.
Qed.

Lemma sane_full st : sane st -> length (nm_simplex st) = length (nm_pos st) + 1 -> exists p, snd (nm_suggest ortho st) = Ok p.
Proof.
  intros [H1 [H2 [H3 [H4 H5]]]] Hf. unfold nm_suggest.
  assert (Hlen : length (map fst (nm_simplex st)) = length (nm_simplex st)) by apply map_length.
  destruct (map fst (nm_simplex st)) as [|p0 ps]; [cbn in Hlen; lia|].
  cbv zeta. rewrite (proj2 (Nat.ltb_ge _ _)) by lia. destruct (nm_phase_ st) eqn:Ep; try (eexists; reflexivity).
  - exfalso. destruct H4 as [_ H4]. specialize (H4 eq_refl). lia.
  - rewrite (proj2 (Nat.eqb_neq _ _)) by lia.
    destruct (nth_error (p0 :: ps) (length (nm_shrunk st) + 1)) eqn:E; [eexists; reflexivity|].
    apply nth_error_None in E. lia.
Qed.

Lemma sane_scratch t span pos vals st : nm_from_scratch t span pos vals = Ok st -> pos <> [] -> sane st.
Proof.
  unfold nm_from_scratch. destruct (select (t_index t) vals) as [v|] eqn:E1; [|discriminate].
  destruct (select (index pos) span) as [s|] eqn:E2; [|discriminate]. unfold nm_init.
  destruct (select (t_index t) v) as [v1|]; [|discriminate]. destruct (select (index pos) s) as [s1|]; [|discriminate].
  cbn [phase_of find phases phase_value String.eqb]. cbn. injection 1 as <-. intros Hne.
  unfold sane. cbn. destruct pos as [|a pos]; [congruence|]. cbn. repeat split; try lia. intros [G|G]; discriminate.
Qed.
End NoBug.

(** *** The best point stays *)
Section Best.
Variable cost : series -> num.
Variable ortho : list (list num) -> res (list num).
Hypothesis Hc : ordered cost.

Lemma place_ne t e l : place cost t e l <> [].
Proof. destruct l; cbn; [discriminate|]. destruct (nltb _ _); discriminate. Qed.
Lemma place_keeps t e new l : asc cost t l -> In e l -> nleb (entry_cost cost t e) (entry_cost cost t new) = true ->
  In e (removelast (place cost t new l)).
Proof.
  intros Ha. induction Ha as [|x l Hx Hl IH]; intros Hin Hle; [destruct Hin|]. cbn [place].
  destruct (nltb _ _) eqn:E.
  - exfalso. rewrite nltb_nleb in E by (apply ec_nan; exact Hc). apply negb_true_iff in E.
    destruct Hin as [->|Hin]; [congruence|].
    rewrite (nleb_trans _ _ _ (Hx e Hin) Hle) in E. discriminate.
  - assert (Hr : removelast (x :: place cost t new l) = x :: removelast (place cost t new l)).
    { cbn [removelast]. destruct (place cost t new l) eqn:Ep; [exfalso; eapply place_ne; exact Ep|reflexivity]. }
    rewrite Hr. destruct Hin as [->|Hin]; [left; reflexivity|right; auto].
Qed.
Lemma fold_insert_keeps t es e : (forall x, nleb (entry_cost cost t e) (entry_cost cost t x) = true) ->
  forall sx, asc cost t sx -> In e sx -> In e (fold_left (insert_into cost t) es sx).
Proof.
  intros Hm. induction es as [|x es IH]; intros sx Ha Hin; [exact Hin|]. cbn. apply IH.
  - apply insert_into_asc. exact Hc.
  - rewrite insert_into_place by assumption. apply place_keeps; auto.
Qed.
Lemma call_keeps st o e : tidy cost st -> (forall x, nleb (entry_cost cost (nm_target st) e) (entry_cost cost (nm_target st) x) = true) ->
  In e (nm_simplex st) -> In e (nm_simplex (nm_call cost ortho st o)).
Proof.
  intros Ht Hm Hin. destruct o as [|p v]; cbn [nm_call].
  - destruct (nm_suggest ortho st) as [st' r] eqn:E. apply suggest_inv in E. cbn. destruct E as [_ [-> _]]. exact Hin.
  - destruct (nm_update cost p v st) as [st' r] eqn:E. cbn. apply update_inv in E.
    destruct E as [[_ ->]|[p' [v' [st1 [_ [_ [E [_ [-> _]]]]]]]]]; [exact Hin|].
    destruct (step_effect _ _ _ _ _ _ E) as [_ [_ [_ [[H1 [_ [_ [[H2 [-> _]]|[H2 [-> _]]]]]]|[H1 [es [-> _]]]]]]].
    + apply (Permutation_in _ (Permutation_sym (sorted_perm _ _ _))). apply in_or_app. auto.
    + apply in_or_app. auto.
    + destruct Ht as [Ht|Ht]; [lia|]. apply fold_insert_keeps; assumption.
Qed.
Lemma run_keeps ops e : forall st, tidy cost st -> (forall x, nleb (entry_cost cost (nm_target st) e) (entry_cost cost (nm_target st) x) = true) ->
  In e (nm_simplex st) -> In e (nm_simplex (nm_run cost ortho st ops)).
Proof.
  induction ops as [|o ops IH]; intros st Ht Hm Hin; [exact Hin|]. apply IH.
  - apply call_tidy; assumption.
  - destruct (call_frame cost ortho st o) as [-> _]. exact Hm.
  - apply call_keeps; assumption.
Qed.
End Best.

Lemma default_cost_cases v : default_cost v = PInf \/ exists r, default_cost v = Fin r /\ (0 <= r)%R.
Proof.
  unfold default_cost. induction v as [|[l x] v IH]; cbn; [right; exists 0%R; split; [reflexivity|lra]|].
  assert (Hx : exists y, (if isna x then Fin 0 else nmul x x) = y /\ (y = PInf \/ exists r, y = Fin r /\ (0 <= r)%R)).
  { eexists. split; [reflexivity|]. destruct x; cbn; auto; right; eexists; split; try reflexivity; [lra|].
    apply Rle_0_sqr. }
  destruct Hx as [y [-> Hy]]. destruct Hy as [->|[r [-> Hr]]], IH as [->|[r' [-> Hr']]]; cbn; auto.
  right. eexists. split; [reflexivity|]. lra.
Qed.
Lemma default_cost_ordered : ordered default_cost.
Proof. intros v. destruct (default_cost_cases v) as [->|[r [-> _]]]; discriminate. Qed.
Lemma default_cost_least v : nleb (Fin 0) (default_cost v) = true.
Proof. destruct (default_cost_cases v) as [->|[r [-> H]]]; cbn; [reflexivity|]. apply Rleb_true. exact H. Qed.
Lemma default_cost_nan v : (forall l x, In (l, x) v -> x = NaN) -> default_cost v = Fin 0.
Proof.
  unfold default_cost. induction v as [|[l x] v IH]; cbn; intros H; [reflexivity|].
  rewrite IH by (intros; eapply H; right; eassumption). rewrite (H l x) by (left; reflexivity). cbn. f_equal. lra.
Qed.
Lemma lookup_In l s x : lookup l s = Some x -> exists k, In (k, x) s.
Proof.
  induction s as [|[k y] s IH]; cbn; [discriminate|]. destruct (label_eqb l k).
  - injection 1 as <-. exists k. left. reflexivity.
  - intros H. destruct (IH H) as [k' H']. exists k'. right. exact H'.
Qed.
Lemma deviation_nan t v : (forall l x, In (l, x) v -> x = NaN) -> forall l x, In (l, x) (deviation t v) -> x = NaN.
Proof.
  intros H l x Hin. unfold deviation in Hin. apply in_map_iff in Hin. destruct Hin as [k [Hk _]]. injection Hk as <- <-.
  assert (G : get k v = NaN).
  { unfold get. destruct (lookup k v) as [y|] eqn:E; [|reflexivity]. destruct (lookup_In _ _ _ E) as [k' Hk']. eapply H. exact Hk'. }
  rewrite G. reflexivity.
Qed.
