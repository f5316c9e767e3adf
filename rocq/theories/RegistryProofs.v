From Coq Require Import String Ascii List Bool Arith Lia Permutation.
From Verif Require Import PyExn StorageModel StorageSpec StorageProofs RegistryModel RegistrySpec.
Import ListNotations.
Local Open Scope string_scope.
Local Open Scope list_scope.

Lemma loaded_In m s : loaded m s = true <-> In m (py_loaded s).
Proof.
  unfold loaded. rewrite existsb_exists. split.
  - intros [x [H1 H2]]. apply String.eqb_eq in H2. subst. exact H1.
  - intros H. exists m. split; [exact H|apply String.eqb_refl].
Qed.

Section I.
Variable prog : list (string * module).
Variable installed : string -> bool.
Variable rank : string -> nat.
Hypothesis Hrank : ranked prog rank.
Hypothesis Hown : all_own prog.

(** What holds after any number of imports. *)
Record inv (s : python) : Prop := mk_inv {
  inv_ok : forall m, In m (py_loaded s) -> importable prog installed m;
  inv_closed : forall m b, In m (py_loaded s) -> imports prog m b -> In b (py_loaded s);
  inv_from : forall c m, In (c, m) (py_classes s) -> In m (py_loaded s) /\ defines prog m c;
  inv_to : forall c m, In m (py_loaded s) -> defines prog m c -> In (c, m) (py_classes s) }.

Lemma define_all_spec m : forall cs s, (forall c, In c cs -> snd c = true) ->
  exists s', define_all m cs s = (s', Ok tt) /\ py_loaded s' = py_loaded s /\
  forall c x, In (c, x) (py_classes s') <-> In (c, x) (py_classes s) \/ (x = m /\ In (c, true) cs).
Proof.
  induction cs as [|[c b] cs IH]; intros s H; cbn.
  - exists s. repeat split; auto. intros [H1|[_ []]]; exact H1.
  - pose proof (H (c, b) (or_introl eq_refl)) as Hb. cbn in Hb. subst b.
    destruct (IH (mk_python (py_loaded s) ((c, m) :: py_classes s)
       (match named c (py_classes s) with Some _ => c :: py_warned s | None => py_warned s end))) as [s' [H1 [H2 H3]]].
    { intros c' Hc. apply H. right. exact Hc. }
    exists s'. split; [exact H1|]. split; [exact H2|]. intros c' x. rewrite H3. cbn. split.
    + intros [[E|H4]|[H4 H5]]; [injection E as <- <-; auto|auto|auto].
    + intros [H4|[-> [E|H4]]]; [auto|injection E as <-; auto|auto].
Qed.

Definition good (m : string) (s s' : python) (r : res unit) : Prop :=
  inv s' /\ incl (py_loaded s) (py_loaded s') /\
  (forall x, In x (py_loaded s') -> In x (py_loaded s) \/ reaches prog m x) /\
  (r = Ok tt -> In m (py_loaded s')) /\ (importable prog installed m -> r = Ok tt).

Lemma importable_inv m md : importable prog installed m -> named m prog = Some md ->
  (forall x, In (Inside x) (md_imports md) -> importable prog installed x) /\
  (forall p, In (Outside p) (md_imports md) -> installed p = true) /\
  (forall x n, ~ In (Missing x n) (md_imports md)).
Proof. intros H Hm. inversion H as [m' md' H1 H2 H3 H4]; subst. rewrite Hm in H1. injection H1 as <-. auto. Qed.

Lemma import_good : forall fuel m s, rank m < fuel -> inv s ->
  good m s (fst (import_module prog installed fuel m s)) (snd (import_module prog installed fuel m s)).
Proof.
  induction fuel as [|fuel IH]; intros m s Hr Hi; [lia|].
  cbn [import_module]. destruct (loaded m s) eqn:Hl.
  { apply loaded_In in Hl. cbn. split; [exact Hi|]. split; [apply incl_refl|]. split; [auto|]. auto. }
  destruct (named m prog) as [md|] eqn:Hm.
  2:{ cbn. split; [exact Hi|]. split; [apply incl_refl|]. split; [auto|]. split; [discriminate|].
      intros H. inversion H; subst. congruence. }
  (* the import statements *)
  assert (Hrun : forall is s, inv s -> incl is (md_imports md) ->
     let s' := fst (run_imports installed (import_module prog installed fuel) is s) in
     let r := snd (run_imports installed (import_module prog installed fuel) is s) in
     inv s' /\ incl (py_loaded s) (py_loaded s') /\
     (forall x, In x (py_loaded s') -> In x (py_loaded s) \/ exists b, imports prog m b /\ reaches prog b x) /\
     (r = Ok tt -> (forall x, In (Inside x) is -> In x (py_loaded s')) /\ (forall p, In (Outside p) is -> installed p = true) /\
        (forall x n, ~ In (Missing x n) is)) /\
     (importable prog installed m -> r = Ok tt)).
  { clear Hl Hi s. induction is as [|i is IHis]; intros s Hi Hin; cbn.
    - split; [exact Hi|]. split; [apply incl_refl|]. split; [auto|]. split; [|auto]. intros _. repeat split; cbn; tauto.
    - assert (Hin' : incl is (md_imports md)) by (intros x Hx; apply Hin; right; exact Hx).
      assert (Hi0 : In i (md_imports md)) by (apply Hin; left; reflexivity).
      destruct i as [b|p|b n].
      + assert (Hb : imports prog m b) by (exists md; auto).
        destruct (IH b s) as (G1 & G2 & G3 & G4 & G5); [pose proof (Hrank _ _ Hb); lia|exact Hi|].
        destruct (import_module prog installed fuel b s) as [s1 [[]|e]]; cbn in *.
        * destruct (IHis s1 G1 Hin') as (R1 & R2 & R3 & R4 & R5). split; [exact R1|]. split; [eapply incl_tran; eauto|].
          split; [|split; [|exact R5]].
          -- intros x Hx. destruct (R3 x Hx) as [H|H]; [|auto]. destruct (G3 x H) as [H'|H']; [auto|right; eauto].
          -- intros Hok. destruct (R4 Hok) as (A1 & A2 & A3). repeat split.
             ++ intros x [E|Hx]; [injection E as <-; apply R2, G4; reflexivity|auto].
             ++ intros p [E|Hp]; [discriminate|auto].
             ++ intros x n [E|Hx]; [discriminate|eapply A3; eauto].
        * split; [exact G1|]. split; [exact G2|]. split; [|split; [discriminate|]].
          -- intros x Hx. destruct (G3 x Hx) as [H'|H']; [auto|right; eauto].
          -- intros Himp. apply G5. destruct (importable_inv _ _ Himp Hm) as [A _]. auto.
      + destruct (installed p) eqn:Hp; cbn.
        * destruct (IHis s Hi Hin') as (R1 & R2 & R3 & R4 & R5). repeat (split; [assumption|]). split; [|exact R5].
          intros Hok. destruct (R4 Hok) as (A1 & A2 & A3). repeat split.
          -- intros x [E|Hx]; [discriminate|auto].
          -- intros q [E|Hq]; [injection E as <-; exact Hp|auto].
          -- intros x n [E|Hx]; [discriminate|eapply A3; eauto].
        * split; [exact Hi|]. split; [apply incl_refl|]. split; [auto|]. split; [discriminate|].
          intros Himp. destruct (importable_inv _ _ Himp Hm) as [_ [A _]]. rewrite (A p Hi0) in Hp. discriminate.
      + assert (Hb : imports prog m b) by (exists md; split; [exact Hm|right; eauto]).
        assert (Hno : ~ importable prog installed m).
        { intros Himp. destruct (importable_inv _ _ Himp Hm) as [_ [_ A]]. exact (A _ _ Hi0). }
        destruct (IH b s) as (G1 & G2 & G3 & G4 & G5); [pose proof (Hrank _ _ Hb); lia|exact Hi|].
        destruct (import_module prog installed fuel b s) as [s1 [[]|e]]; cbn in *;
          (split; [exact G1|]; split; [exact G2|]; split; [|split; [discriminate|contradiction]];
           intros x Hx; destruct (G3 x Hx) as [H'|H']; [auto|right; eauto]). }
  destruct (Hrun (md_imports md) s Hi (incl_refl _)) as (R1 & R2 & R3 & R4 & R5). clear Hrun.
  destruct (run_imports _ _ _ _) as [s1 [[]|e]]; cbn in R1, R2, R3, R4, R5.
  2:{ cbn. split; [exact R1|]. split; [exact R2|]. split; [|split; [discriminate|exact R5]].
      intros x Hx. destruct (R3 x Hx) as [H|[b [H1 H2]]]; [auto|right; econstructor; eauto]. }
  destruct (R4 eq_refl) as (A1 & A2 & A3).
  destruct (define_all_spec m (md_classes md) s1) as [s2 [D1 [D2 D3]]]; [intros c Hc; eapply Hown; eauto|].
  rewrite D1. cbn. split.
  { constructor; cbn; rewrite ?D2.
    - intros x [<-|Hx]; [|apply R1; exact Hx]. econstructor; eauto. intros x Hx. apply R1. auto.
    - intros x b [<-|Hx] Hb; right; [|eapply R1; eauto]. destruct Hb as [md' [E [Hb|[y Hb]]]]; rewrite Hm in E; injection E as <-; [auto|].
      destruct (A3 _ _ Hb).
    - intros c x Hc. apply D3 in Hc. destruct Hc as [Hc|[-> Hc]].
      + apply R1 in Hc. destruct Hc. auto.
      + split; [auto|]. exists md. auto.
    - intros c x [<-|Hx] Hd; apply D3.
      + right. split; [reflexivity|]. destruct Hd as [md' [E Hd]]. rewrite Hm in E. injection E as <-. exact Hd.
      + left. apply R1; assumption. }
  split; [rewrite D2; intros x Hx; right; apply R2; exact Hx|]. split; [|split; [|auto]].
  { intros x [<-|Hx]; [right; constructor|]. rewrite D2 in Hx. destruct (R3 x Hx) as [H|[b [H1 H2]]]; [auto|right; econstructor; eauto]. }
  intros _. left. reflexivity.
Qed.

Lemma reaches_loaded s a b : inv s -> In a (py_loaded s) -> reaches prog a b -> In b (py_loaded s).
Proof. intros Hi H R. induction R; [exact H|]. apply IHR. eapply Hi; eauto. Qed.

Lemma user_imports_good fuel : forall ms s, (forall m, In m ms -> rank m < fuel) -> inv s ->
  inv (user_imports prog installed fuel ms s) /\ incl (py_loaded s) (py_loaded (user_imports prog installed fuel ms s)) /\
  (forall x, In x (py_loaded (user_imports prog installed fuel ms s)) -> In x (py_loaded s) \/ exists m, In m ms /\ reaches prog m x) /\
  (forall m x, In m ms -> importable prog installed m -> reaches prog m x -> In x (py_loaded (user_imports prog installed fuel ms s))).
Proof.
  induction ms as [|m ms IH]; intros s Hr Hi; cbn.
  - split; [exact Hi|]. split; [apply incl_refl|]. split; [auto|]. intros m x [].
  - destruct (import_good fuel m s) as (G1 & G2 & G3 & G4 & G5); [apply Hr; left; reflexivity|exact Hi|].
    destruct (IH (fst (import_module prog installed fuel m s))) as (I1 & I2 & I3 & I4); [intros x Hx; apply Hr; right; exact Hx|exact G1|].
    split; [exact I1|]. split; [eapply incl_tran; eauto|]. split.
    + intros x Hx. destruct (I3 x Hx) as [H|[y [H1 H2]]]; [|right; eauto]. destruct (G3 x H) as [H'|H']; [auto|right; eauto].
    + intros y x [<-|Hy] Himp Hx; [|eapply I4; eauto]. eapply reaches_loaded; [exact I1| |exact Hx]. apply I2, G4, G5. exact Himp.
Qed.

Lemma inv_fresh : inv fresh_python.
Proof. constructor; cbn; intros; contradiction. Qed.

Lemma named_In {A} k (l : list (string * A)) a : named k l = Some a -> In (k, a) l.
Proof.
  induction l as [|[j b] l IH]; cbn; [discriminate|]. destruct (String.eqb_spec k j) as [->|]; [|auto].
  intros H. injection H as ->. auto.
Qed.
Lemma In_named {A} k (l : list (string * A)) a : In (k, a) l -> exists b, named k l = Some b.
Proof.
  induction l as [|[j b] l IH]; cbn; [contradiction|]. destruct (String.eqb_spec k j) as [->|Hne]; [eauto|].
  intros [E|H]; [injection E as -> ->; congruence|auto].
Qed.

Lemma named_class s c m : inv s -> distinct_names prog -> named c (py_classes s) = Some m <-> In m (py_loaded s) /\ defines prog m c.
Proof.
  intros Hi Hd. split.
  - intros H. apply named_In in H. apply Hi in H. exact H.
  - intros [H1 H2]. pose proof (inv_to s Hi c m H1 H2) as H. apply In_named in H. destruct H as [m' H]. rewrite H.
    apply named_In in H. apply (inv_from s Hi) in H. destruct H as [_ [md' [E1 E2]]]. destruct H2 as [md [E3 E4]].
    f_equal. eapply Hd; eauto.
Qed.
End I.

(** *** The package *)
Definition order : list string := map fst package.
Fixpoint place (m : string) (l : list string) : nat :=
  match l with [] => 0 | x :: l' => if String.eqb m x then 0 else S (place m l') end.
Definition package_rank (m : string) : nat := place m order.

Definition import_target (i : import) : option string :=
  match i with Inside b => Some b | Missing b _ => Some b | Outside _ => None end.
(** Every import of a module is listed before it. *)
Definition sorted_package : bool :=
  forallb (fun e => forallb (fun i => match import_target i with
                                      | Some b => Nat.ltb (package_rank b) (package_rank (fst e))
                                      | None => true end) (md_imports (snd e))) package.
Lemma package_ranked : ranked package package_rank.
Proof.
  intros a b [md [Hm Hb]]. apply named_In in Hm.
  assert (H : sorted_package = true) by (vm_compute; reflexivity).
  unfold sorted_package in H. rewrite forallb_forall in H. specialize (H _ Hm). cbn in H. rewrite forallb_forall in H.
  apply Nat.ltb_lt. destruct Hb as [Hb|[x Hb]]; apply (H _ Hb).
Qed.
Lemma package_own : all_own package.
Proof.
  intros m md c Hm Hc. apply named_In in Hm.
  assert (H : forallb (fun e => forallb (fun c : string * bool => snd c) (md_classes (snd e))) package = true) by (vm_compute; reflexivity).
  rewrite forallb_forall in H. specialize (H _ Hm). cbn in H. rewrite forallb_forall in H. apply H. exact Hc.
Qed.
Definition package_classes : list (string * string) :=
  flat_map (fun e => map (fun c => (fst c, fst e)) (md_classes (snd e))) package.
Lemma defines_package m c : defines package m c <-> In (c, m) package_classes.
Proof.
  split.
  - intros [md [Hm Hc]]. apply named_In in Hm. apply in_flat_map. exists (m, md). split; [exact Hm|].
    apply in_map_iff. exists (c, true). auto.
  - intros H. apply in_flat_map in H. destruct H as [[m' md] [H1 H2]]. cbn in H2. apply in_map_iff in H2.
    destruct H2 as [[c' b] [E H2]]. cbn in E. injection E as -> ->. exists md.
    assert (Hn : NoDup (map fst package)).
    { vm_compute. repeat (constructor; [cbn; intuition discriminate|]). constructor. }
    assert (Hm : named m package = Some md).
    { clear H2. revert H1 Hn. generalize package. induction l as [|[j x] l IH]; cbn; [contradiction|].
      intros [E|H1] Hn.
      - injection E as -> ->. rewrite String.eqb_refl. reflexivity.
      - inversion Hn; subst. destruct (String.eqb_spec m j) as [->|]; [|auto].
        exfalso. apply H2. apply in_map_iff. exists (j, md). auto. }
    split; [exact Hm|]. rewrite (package_own m md (c, b) Hm H2) in H2 || (pose proof (package_own m md (c, b) Hm H2) as Hb; cbn in Hb; subst b).
    exact H2.
Qed.
Lemma package_distinct : distinct_names package.
Proof.
  intros m md m' md' c H1 H2 H3 H4.
  assert (A : In (c, m) package_classes) by (apply defines_package; exists md; auto).
  assert (B : In (c, m') package_classes) by (apply defines_package; exists md'; auto).
  assert (Hn : NoDup (map fst package_classes)).
  { vm_compute. repeat (constructor; [cbn; intuition discriminate|]). constructor. }
  revert A B Hn. generalize package_classes. clear. induction l as [|[j x] l IH]; cbn; [contradiction|].
  intros A B Hn. inversion Hn; subst. destruct A as [E|A], B as [E'|B]; auto.
  - congruence.
  - injection E as -> ->. exfalso. apply H1. apply in_map_iff. exists (c, m'). auto.
  - injection E' as -> ->. exfalso. apply H1. apply in_map_iff. exists (c, m). auto.
Qed.

(** The modules reached from a module, computed. *)
Definition targets (m : string) : list string :=
  match named m package with
  | Some md => flat_map (fun i => match import_target i with Some b => [b] | None => [] end) (md_imports md)
  | None => []
  end.
Fixpoint closure (fuel : nat) (m : string) : list string :=
  m :: match fuel with 0 => [] | S f => flat_map (closure f) (targets m) end.
Lemma imports_targets a b : imports package a b <-> In b (targets a).
Proof.
  unfold imports, targets. split.
  - intros [md [-> H]]. apply in_flat_map. destruct H as [H|[x H]]; eexists; (split; [exact H|]); cbn; auto.
  - destruct (named a package) as [md|] eqn:E; [|contradiction]. intros H. exists md. split; [reflexivity|].
    apply in_flat_map in H. destruct H as [[y|p|y n] [H1 H2]]; cbn in H2; [|contradiction|]; destruct H2 as [<-|[]]; eauto.
Qed.
Lemma closure_reaches fuel : forall a b, In b (closure fuel a) -> reaches package a b.
Proof.
  induction fuel as [|f IH]; intros a b; cbn.
  - intros [<-|[]]. constructor.
  - intros [<-|H]; [constructor|]. apply in_flat_map in H. destruct H as [x [H1 H2]].
    econstructor; [apply imports_targets; exact H1|]. apply IH. exact H2.
Qed.
(** A list that has with a module everything it imports. *)
Lemma reaches_closed (l : list string) a b :
  forallb (fun m => forallb (fun t => existsb (String.eqb t) l) (targets m)) l = true -> In a l -> reaches package a b -> In b l.
Proof.
  intros H Ha R. induction R as [|a b c Hab R IH]; [exact Ha|]. apply IH.
  rewrite forallb_forall in H. specialize (H _ Ha). rewrite forallb_forall in H.
  apply imports_targets in Hab. specialize (H _ Hab). apply existsb_exists in H. destruct H as [x [H1 H2]].
  apply String.eqb_eq in H2. subst. exact H1.
Qed.

Section P.
Variable installed : string -> bool.
Hypothesis Hlib : forall p, In p libraries -> installed p = true.
Notation imp := (importable package installed).

Ltac lib := apply Hlib; cbn; tauto.
Ltac an_import :=
  econstructor; [reflexivity|..]; cbn;
  [intros xq Hq; repeat match type of Hq with _ \/ _ => destruct Hq as [Hq|Hq] end; try discriminate; try contradiction; injection Hq as <-; assumption
  |intros pq Hq; repeat match type of Hq with _ \/ _ => destruct Hq as [Hq|Hq] end; try discriminate; try contradiction; injection Hq as <-; (lib || assumption)
  |intros xq nq Hq; repeat match type of Hq with _ \/ _ => destruct Hq as [Hq|Hq] end; try discriminate; contradiction].
Definition core_modules : list string := ["autotuner"; "evaluator"; "experiment"; "gradient"; "solver"].
Definition all_core : list string :=
  ["util"; "storage"; "experiment"; "evaluator"; "kalman_gradient"; "gradient"; "solver"; "parameter_tuner"; "autotuner"; "basic_dqd"; "history"].
Lemma core_importable : forall m, In m all_core -> imp m.
Proof.
  assert (U : imp "util") by an_import.
  assert (St : imp "storage") by an_import.
  assert (Ex : imp "experiment") by an_import.
  assert (Ev : imp "evaluator") by an_import.
  assert (Kg : imp "kalman_gradient") by an_import.
  assert (Gr : imp "gradient") by an_import.
  assert (So : imp "solver") by an_import.
  assert (Pt : imp "parameter_tuner") by an_import.
  assert (At : imp "autotuner") by an_import.
  assert (Bd : imp "basic_dqd") by an_import.
  assert (Hi : imp "history") by an_import.
  intros m H. cbn in H. repeat destruct H as [<-|H]; try assumption. contradiction.
Qed.
Lemma sm_importable : installed "matlab.engine" = true -> imp "sm" /\ imp "mat2py" /\ imp "sm_tune_qqd".
Proof.
  intros Hm.
  assert (H1 : forall m, In m all_core -> imp m) by exact core_importable.
  pose proof (H1 "experiment" ltac:(cbn; tauto)). pose proof (H1 "util" ltac:(cbn; tauto)). pose proof (H1 "basic_dqd" ltac:(cbn; tauto)).
  pose proof (H1 "evaluator" ltac:(cbn; tauto)). pose proof (H1 "history" ltac:(cbn; tauto)).
  assert (imp "sm") by an_import. assert (imp "mat2py") by an_import. assert (imp "sm_tune_qqd") by an_import. auto.
Qed.
Lemma sm_needs_matlab m : In m ["sm"; "sm_tune_qqd"] -> imp m -> installed "matlab.engine" = true.
Proof.
  assert (A : imp "sm" -> installed "matlab.engine" = true).
  { intros H. destruct (importable_inv package installed "sm" _ H eq_refl) as [_ [B _]]. apply B. cbn. tauto. }
  intros [<-|[<-|[]]] H; [auto|]. apply A.
  destruct (importable_inv package installed "sm_tune_qqd" _ H eq_refl) as [B _]. apply B. cbn. tauto.
Qed.

Lemma rank_small m : package_rank m <= 16.
Proof.
  unfold package_rank. change 16 with (length order). generalize order. clear Hlib. induction l as [|x l IH]; cbn; [lia|].
  destruct (String.eqb m x); lia.
Qed.

Lemma run_core fuel ms s : 17 <= fuel -> inv package installed s -> (forall m, In m ms -> imp m) ->
  run_imports installed (import_module package installed fuel) (map Inside ms) s = (user_imports package installed fuel ms s, Ok tt).
Proof.
  intros Hf. revert s. induction ms as [|m ms IH]; intros s Hi H; cbn; [reflexivity|].
  destruct (import_good package installed package_rank package_ranked package_own fuel m s) as (G1 & G2 & G3 & G4 & G5);
    [pose proof (rank_small m); lia|exact Hi|].
  specialize (G5 (H m (or_introl eq_refl))).
  destruct (import_module package installed fuel m s) as [s1 r]. cbn in *. subst r. apply IH; [exact G1|].
  intros x Hx. apply H. right. exact Hx.
Qed.

(** A module whose first import names something that does not exist. *)
Lemma heuristics_loads fuel s : 17 <= fuel -> inv package installed s -> imp "sm" ->
  In "sm" (py_loaded (fst (import_module package installed fuel "kalman_heuristics" s))).
Proof.
  intros Hf Hi Hsm. destruct fuel as [|fuel]; [lia|]. cbn [import_module].
  destruct (loaded "kalman_heuristics" s) eqn:Hl.
  - cbn. apply loaded_In in Hl. eapply inv_closed; [exact Hi|exact Hl|]. apply imports_targets. cbn. tauto.
  - change (named "kalman_heuristics" package) with (Some (mk_module [Missing "sm" "ChargeDiagram"; Outside "numpy"] [])).
    cbn [md_imports run_imports].
    destruct (import_good package installed package_rank package_ranked package_own fuel "sm" s) as (G1 & G2 & G3 & G4 & G5).
    { change (package_rank "sm") with 12. lia. }
    { exact Hi. }
    specialize (G5 Hsm). destruct (import_module package installed fuel "sm" s) as [s1 r]. cbn in *. subst r. cbn. auto.
Qed.

Definition after (fuel : nat) (ms : list string) : python := user_imports package installed fuel (ms ++ core_modules) fresh_python.

Lemma after_spec fuel ms : 17 <= fuel ->
  import_all installed fuel (user_imports package installed fuel ms fresh_python) = (after fuel ms, Ok tt) /\
  inv package installed (after fuel ms) /\
  (forall x, In x (py_loaded (after fuel ms)) -> imp x /\ exists m, In m (ms ++ core_modules) /\ reaches package m x) /\
  (forall m x, In m (ms ++ core_modules) -> imp m -> reaches package m x -> In x (py_loaded (after fuel ms))).
Proof.
  intros Hf.
  assert (Hr : forall l m, In m l -> package_rank m < fuel) by (intros l m _; pose proof (rank_small m); lia).
  destruct (user_imports_good package installed package_rank package_ranked package_own fuel (ms ++ core_modules) fresh_python)
    as (A1 & A2 & A3 & A4); [apply Hr|apply inv_fresh|].
  split.
  - unfold import_all, after. rewrite (run_core fuel core_modules _ Hf).
    + unfold user_imports. rewrite fold_left_app. reflexivity.
    + apply (user_imports_good package installed package_rank package_ranked package_own); [apply Hr|apply inv_fresh].
    + intros m Hm. apply core_importable. cbn in Hm. cbn. intuition.
  - split; [exact A1|]. split; [|exact A4]. intros x Hx. split; [apply (inv_ok _ _ _ A1); exact Hx|].
    destruct (A3 x Hx) as [[]|H]. exact H.
Qed.

(** Everything but the modules that lead to MATLAB. *)
Definition without_sm : list string :=
  ["util"; "storage"; "experiment"; "evaluator"; "kalman_gradient"; "gradient"; "solver"; "parameter_tuner"; "autotuner"; "basic_dqd";
   "history"; "mat2py"; "gui"].
Lemma reaches_sm m x : In x ["sm"; "sm_tune_qqd"] -> reaches package m x -> In m ["sm"; "sm_tune_qqd"; "kalman_heuristics"].
Proof.
  intros Hx Hr. destruct (in_dec string_dec m ["sm"; "sm_tune_qqd"; "kalman_heuristics"]) as [H|H]; [exact H|]. exfalso.
  destruct (in_dec string_dec m without_sm) as [H'|H'].
  - pose proof (reaches_closed without_sm m x eq_refl H' Hr) as Hc. destruct Hx as [<-|[<-|[]]]; cbn in Hc; intuition discriminate.
  - assert (Hn : named m package = None).
    { destruct (named m package) eqn:E; [|reflexivity]. exfalso. apply named_In in E.
      assert (Hm : In m (map fst package)) by (apply in_map_iff; eexists; split; [|exact E]; reflexivity).
      cbn in Hm, H, H'. intuition congruence. }
    inversion Hr as [a Ha|a b c [md [Hm _]] _]; subst; [|congruence].
    destruct Hx as [<-|[<-|[]]]; cbn in H; tauto.
Qed.
Lemma reaches_qqd m : reaches package m "sm_tune_qqd" -> m = "sm_tune_qqd".
Proof.
  intros Hr. pose proof (reaches_sm m "sm_tune_qqd" (or_intror (or_introl eq_refl)) Hr) as H.
  destruct H as [<-|[<-|[<-|[]]]]; [|reflexivity|].
  - pose proof (reaches_closed ("sm" :: without_sm) "sm" _ eq_refl (or_introl eq_refl) Hr) as Hc. cbn in Hc. intuition discriminate.
  - pose proof (reaches_closed ("kalman_heuristics" :: "sm" :: without_sm) "kalman_heuristics" _ eq_refl (or_introl eq_refl) Hr) as Hc.
    cbn in Hc. intuition discriminate.
Qed.

Lemma loaded_sm fuel ms : 17 <= fuel ->
  In "sm" (py_loaded (after fuel ms)) <->
  installed "matlab.engine" = true /\ exists m, In m ms /\ In m ["sm"; "sm_tune_qqd"; "kalman_heuristics"].
Proof.
  intros Hf. destruct (after_spec fuel ms Hf) as (_ & Hi & A1 & A2). split.
  - intros H. destruct (A1 _ H) as [H1 [m [H2 H3]]]. split; [apply (sm_needs_matlab "sm"); [left; reflexivity|exact H1]|].
    exists m. pose proof (reaches_sm m "sm" (or_introl eq_refl) H3) as H4. split; [|exact H4].
    apply in_app_or in H2. destruct H2 as [H2|H2]; [exact H2|]. exfalso. cbn in H2, H4. intuition congruence.
  - intros [Hm [m [H1 H2]]]. destruct (sm_importable Hm) as [B1 [B2 B3]].
    destruct H2 as [<-|[<-|[<-|[]]]].
    + apply (A2 "sm" "sm"); [apply in_or_app; left; exact H1|exact B1|constructor].
    + apply (A2 "sm_tune_qqd" "sm"); [apply in_or_app; left; exact H1|exact B3|].
      apply (closure_reaches 1). cbn. tauto.
    + apply in_split in H1. destruct H1 as [l1 [l2 ->]]. unfold after, user_imports. rewrite <- app_assoc, fold_left_app. cbn [app fold_left].
      assert (Hr : forall l m, In m l -> package_rank m < fuel) by (intros l m _; pose proof (rank_small m); lia).
      set (s1 := fold_left _ l1 fresh_python).
      assert (I1 : inv package installed s1).
      { apply (user_imports_good package installed package_rank package_ranked package_own fuel l1 fresh_python); [apply Hr|apply inv_fresh]. }
      pose proof (heuristics_loads fuel s1 Hf I1 B1) as Hh.
      destruct (import_good package installed package_rank package_ranked package_own fuel "kalman_heuristics" s1) as (G1 & _);
        [pose proof (rank_small "kalman_heuristics"); lia|exact I1|].
      destruct (user_imports_good package installed package_rank package_ranked package_own fuel (l2 ++ core_modules) _ (Hr _) G1)
        as (_ & U2 & _). apply U2. exact Hh.
Qed.
Lemma loaded_qqd fuel ms : 17 <= fuel ->
  In "sm_tune_qqd" (py_loaded (after fuel ms)) <-> installed "matlab.engine" = true /\ In "sm_tune_qqd" ms.
Proof.
  intros Hf. destruct (after_spec fuel ms Hf) as (_ & Hi & A1 & A2). split.
  - intros H. destruct (A1 _ H) as [H1 [m [H2 H3]]].
    split; [apply (sm_needs_matlab "sm_tune_qqd"); [right; left; reflexivity|exact H1]|].
    apply reaches_qqd in H3. subst m. apply in_app_or in H2. destruct H2 as [H2|H2]; [exact H2|]. exfalso. cbn in H2. intuition discriminate.
  - intros [Hm H1]. destruct (sm_importable Hm) as [B1 [B2 B3]].
    apply (A2 "sm_tune_qqd" "sm_tune_qqd"); [apply in_or_app; left; exact H1|exact B3|constructor].
Qed.
Lemma loaded_core fuel ms m : 17 <= fuel ->
  In m ["util"; "storage"; "experiment"; "evaluator"; "kalman_gradient"; "gradient"; "solver"; "parameter_tuner"; "autotuner"] ->
  In m (py_loaded (after fuel ms)).
Proof.
  intros Hf Hm. destruct (after_spec fuel ms Hf) as (_ & Hi & A1 & A2).
  assert (At : In "autotuner" (py_loaded (after fuel ms))).
  { apply (A2 "autotuner" "autotuner"); [apply in_or_app; right; cbn; tauto|apply core_importable; cbn; tauto|constructor]. }
  apply (reaches_loaded package installed (after fuel ms) "autotuner" m Hi At). apply (closure_reaches 5).
  cbn in Hm. repeat destruct Hm as [<-|Hm]; try contradiction; vm_compute; tauto.
Qed.

Lemma known_loaded fuel ms c : 17 <= fuel -> known (after fuel ms) c = true <-> exists m, In (c, m) package_classes /\ In m (py_loaded (after fuel ms)).
Proof.
  intros Hf. destruct (after_spec fuel ms Hf) as (_ & Hi & _). unfold known.
  pose proof (fun m => named_class package installed (after fuel ms) c m Hi package_distinct) as Hn. split.
  - destruct (named c (py_classes (after fuel ms))) as [m|] eqn:E; [|discriminate]. intros _.
    destruct (proj1 (Hn m) eq_refl) as [H1 H2]. exists m. rewrite <- defines_package. tauto.
  - intros [m [H1 H2]]. apply defines_package in H1. rewrite (proj2 (Hn m)); auto.
Qed.
End P.

Lemma package_known installed fuel ms c :
  (forall p, In p libraries -> installed p = true) -> 17 <= fuel ->
  known (after installed fuel ms) c = true <->
  In c core_classes \/
  (installed "matlab.engine" = true /\ c = "MatlabEvaluator" /\ exists m, In m ms /\ In m ["sm"; "sm_tune_qqd"; "kalman_heuristics"]) \/
  (installed "matlab.engine" = true /\ In c qqd_classes /\ In "sm_tune_qqd" ms).
Proof.
  intros Hlib Hf. rewrite known_loaded by assumption.
  pose proof (loaded_sm installed Hlib fuel ms Hf) as Hsm. pose proof (loaded_qqd installed Hlib fuel ms Hf) as Hq.
  pose proof (fun m => loaded_core installed Hlib fuel ms m Hf) as Hc.
  set (L := py_loaded (after installed fuel ms)) in *. split.
  - intros [m [H1 H2]].
    assert (Hcase : In c core_classes \/ (c = "MatlabEvaluator" /\ m = "sm") \/ (In c qqd_classes /\ m = "sm_tune_qqd")).
    { clear - H1. vm_compute in H1. repeat destruct H1 as [H1|H1]; try contradiction; injection H1 as <- <-;
        ((left; cbn; tauto) || (right; left; split; reflexivity) || (right; right; cbn; tauto)). }
    destruct Hcase as [H|[[-> ->]|[H ->]]]; [auto|right; left|right; right].
    + apply Hsm in H2. tauto.
    + apply Hq in H2. tauto.
  - intros [H|[[H1 [-> H2]]|[H1 [H2 H3]]]].
    + assert (Hm : exists m, In (c, m) package_classes /\
        In m ["util"; "storage"; "experiment"; "evaluator"; "kalman_gradient"; "gradient"; "solver"; "parameter_tuner"; "autotuner"]).
      { clear - H. assert (A : forallb (fun c => existsb (fun q => String.eqb c (fst q) && existsb (String.eqb (snd q))
          ["util"; "storage"; "experiment"; "evaluator"; "kalman_gradient"; "gradient"; "solver"; "parameter_tuner"; "autotuner"]) package_classes)
          core_classes = true) by (vm_compute; reflexivity).
        rewrite forallb_forall in A. specialize (A _ H). apply existsb_exists in A. destruct A as [[c' m] [A1 A2]].
        apply andb_true_iff in A2. destruct A2 as [A2 A3]. apply String.eqb_eq in A2. cbn in A2. subst c'. exists m. split; [exact A1|].
        apply existsb_exists in A3. destruct A3 as [x [A3 A4]]. apply String.eqb_eq in A4. cbn [snd] in A4. subst x. exact A3. }
      destruct Hm as [m [A1 A2]]. exists m. auto.
    + exists "sm". split; [vm_compute; tauto|]. apply Hsm. auto.
    + exists "sm_tune_qqd". split; [|apply Hq; auto]. clear - H2. cbn in H2.
      repeat destruct H2 as [<-|H2]; try contradiction; vm_compute; tauto.
Qed.

(** *** Class statements *)
Lemma statements_last name : forall cs s,
  named name (py_classes (statements cs s)) =
  match last_statement name cs with Some m => Some m | None => named name (py_classes s) end.
Proof.
  unfold last_statement. intros cs s.
  assert (G : forall acc cs s, named name (py_classes s) = match acc with Some m => Some m | None => named name (py_classes s) end ->
    (acc = None \/ named name (py_classes s) = acc) ->
    named name (py_classes (statements cs s)) =
    match fold_left (fun acc (c : statement) => if String.eqb name (fst (fst c)) then Some (snd (fst c)) else acc) cs acc with
    | Some m => Some m | None => named name (py_classes s) end).
  { intros acc cs0. revert acc. induction cs0 as [|[[c m] b] cs0 IH]; intros acc s0 H H'; cbn; [exact H|].
    unfold statements in *. cbn [fold_left]. rewrite (IH (if String.eqb name c then Some m else acc)).
    - cbn. destruct (String.eqb name c) eqn:E; [|reflexivity].
      destruct (fold_left _ cs0 (Some m)) eqn:F; [reflexivity|]. exfalso. clear - F.
      assert (Q : forall cs (a : string), fold_left (fun acc (c : statement) => if String.eqb name (fst (fst c)) then Some (snd (fst c)) else acc) cs (Some a) <> None).
      { induction cs as [|x cs IH]; intros a; cbn; [discriminate|]. destruct (String.eqb name (fst (fst x))); apply IH. }
      exact (Q _ _ F).
    - cbn. destruct (String.eqb name c); [reflexivity|exact H].
    - cbn. destruct (String.eqb name c); [right; reflexivity|exact H']. }
  apply (G None); auto.
Qed.

(** *** Files *)
Section F.
Context {payload : Type}.
Variable storable scalar : payload -> bool.
Variable serializables : string -> bool.
Variable construct : string -> list (string * pyval payload) -> option exn.

Lemma in_insert_link {A} (x e : string * A) l : In x (insert_link e l) <-> x = e \/ In x l.
Proof.
  induction l as [|f l IH]; cbn; [intuition|]. destruct (String.leb (fst e) (fst f)); cbn; [intuition|]. rewrite IH. intuition.
Qed.
Lemma in_by_name {A} (x : string * A) l : In x (by_name l) <-> In x l.
Proof. induction l as [|f l IH]; cbn; [reflexivity|]. rewrite in_insert_link, IH. intuition. Qed.

Lemma read_entries_dataset fuel supplied ls key k ty c :
  In (key, HData k ty c) ls -> hidden key = false -> exists e, read_entries scalar serializables construct fuel supplied ls = Raise e.
Proof.
  induction ls as [|[key' h] ls IH]; cbn; [contradiction|]. intros [E|H] Hk.
  - injection E as -> ->. rewrite Hk. cbn. eauto.
  - destruct (hidden key'); [apply IH; auto|]. destruct (from_hdf5 _ _ _ _ _ _ _ _); [|eauto].
    destruct (IH H Hk) as [e ->]. eauto.
Qed.
Lemma read_files_dataset fuel supplied fs f key k ty c :
  In f fs -> In (key, HData k ty c) (f_links f) -> hidden key = false ->
  exists e, read_files scalar serializables construct fuel supplied fs = Raise e.
Proof.
  intros Hf Hk Hh. unfold read_files.
  assert (G : exists e, read_all scalar serializables construct fuel supplied fs = Raise e).
  { induction fs as [|f' fs IH]; [contradiction|]. cbn. destruct Hf as [->|Hf].
    - destruct (read_entries_dataset fuel supplied (by_name (f_links f)) key k ty c) as [e ->]; [apply in_by_name; exact Hk|exact Hh|eauto].
    - destruct (read_entries _ _ _ _ _ _); [|eauto]. destruct (IH Hf) as [e ->]. eauto. }
  destruct G as [e ->]. eauto.
Qed.

Lemma put_plain name r ls ls' s' : plain name -> put payload name r ls = Ok (ls', s') -> exists h, ls' = (ls ++ [(name, h)])%list.
Proof.
  intros Hp. unfold put. destruct r as [[h s]|e]; [|discriminate]. unfold link. rewrite path_plain by exact Hp. cbn.
  destruct (named name ls); [discriminate|]. intros H. injection H as <- <-. eauto.
Qed.
Lemma save_reserved_links : forall rs ls s ls' s', Forall plain (map fst rs) -> save_reserved payload rs ls s = Ok (ls', s') ->
  incl ls ls' /\ forall key, In key (map fst rs) -> exists k, In (key, HData k (Some "#reserved") CEmpty) ls'.
Proof.
  clear construct scalar storable serializables. induction rs as [|[key i] rs IH]; intros ls s ls' s' Hp; cbn.
  - intros H. injection H as <- <-. split; [apply incl_refl|contradiction].
  - cbn in Hp. inversion Hp as [|? ? P1 P2]; subst. unfold link. rewrite path_plain by exact P1. cbn.
    destruct (named key ls); [discriminate|]. intros H. apply IH in H; [|exact P2]. destruct H as [H1 H2]. split.
    + intros x Hx. apply H1. apply in_or_app. left. exact Hx.
    + intros k [<-|Hk]; [|auto]. eexists. apply H1. apply in_or_app. right. left. reflexivity.
Qed.
Lemma saved_reserved ls n name obj reserved k ty ls' :
  Forall plain (name :: map fst reserved) -> to_hdf5 payload storable serializables ls n name obj reserved = Ok (HGroup k ty ls') ->
  forall key, In key (map fst reserved) -> exists k', In (key, HData k' (Some "#reserved") CEmpty) ls'.
Proof.
  intros Hp. inversion Hp as [|? ? P1 P2]; subst. unfold to_hdf5.
  destruct (save_reserved _ _ _ _) as [[l1 s1]|] eqn:Hs; [|discriminate].
  destruct (put _ _ _ _) as [[l2 s2]|] eqn:Hq; [|discriminate]. intros H. injection H as <- <- <-. intros key Hk.
  apply save_reserved_links in Hs; [|exact P2]. destruct Hs as [_ Hs]. destruct (Hs key Hk) as [k' Hk']. exists k'.
  apply put_plain in Hq; [|exact P1]. destruct Hq as [h ->]. apply in_or_app. left. exact Hk'.
Qed.

(** *** Version of a file *)
Lemma named_app {A} k (a b : list (string * A)) : named k a = None -> named k (a ++ b) = named k b.
Proof. induction a as [|[j x] a IH]; cbn; [reflexivity|]. destruct (String.eqb k j); [discriminate|exact IH]. Qed.
Lemma save_reserved_names x : forall rs ls s ls' s', Forall plain (map fst rs) -> save_reserved payload rs ls s = Ok (ls', s') ->
  ~ In x (map fst rs) -> named x ls = None -> named x ls' = None.
Proof.
  clear construct scalar storable serializables. induction rs as [|[key i] rs IH]; intros ls s ls' s' Hp; cbn.
  - intros H. injection H as <- <-. auto.
  - cbn in Hp. inversion Hp as [|? ? P1 P2]; subst. unfold link. rewrite path_plain by exact P1. cbn.
    destruct (named key ls); [discriminate|]. intros H Hx Hn. eapply IH; [exact P2|exact H|tauto|].
    rewrite named_app by exact Hn. cbn. destruct (String.eqb_spec x key) as [->|]; [tauto|reflexivity].
Qed.
Lemma write_names v n name obj reserved f :
  Forall plain (name :: map fst reserved) -> ~ In "#version" (name :: map fst reserved) -> named "#version" (f_links f) = None ->
  named "#version" (f_links (fst (write storable serializables v n name obj reserved f))) = None /\
  f_version (fst (write storable serializables v n name obj reserved f)) = match v with Ok w => Some w | Raise _ => f_version f end.
Proof.
  clear construct scalar. intros Hp Hx Hn. unfold write. rewrite Hn. destruct v as [w|e]; [|cbn; auto].
  inversion Hp as [|? ? P1 P2]; subst. cbn [f_links f_version].
  unfold to_hdf5. destruct (save_reserved _ _ _ _) as [[l1 s1]|] eqn:Hs; [|cbn; auto].
  destruct (put _ _ _ _) as [[l2 s2]|] eqn:Hq; cbn; [|auto]. split; [|reflexivity].
  apply put_plain in Hq; [|exact P1]. destruct Hq as [h ->].
  rewrite named_app by (eapply save_reserved_names; eauto; cbn in Hx; tauto). cbn -[String.eqb].
  destruct (String.eqb_spec "#version" name) as [<-|]; [cbn in Hx; tauto|reflexivity].
Qed.
Lemma writes_version (ws : list (writing payload)) : forall f,
  Forall (fun w : writing payload => match w with (_, _, name, _, reserved) =>
            Forall plain (name :: map fst reserved) /\ ~ In "#version" (name :: map fst reserved) end) ws ->
  named "#version" (f_links f) = None ->
  f_version (writes storable serializables ws f) = last_version ws (f_version f).
Proof.
  clear construct scalar. induction ws as [|[[[[v n] name] obj] reserved] ws IH]; intros f Hw Hn; [reflexivity|].
  inversion Hw as [|? ? W W3]; subst. cbv beta iota in W. destruct W as [W1 W2]. unfold writes, last_version in *. cbn [fold_left].
  destruct (write_names v n name obj reserved f W1 W2 Hn) as [A1 A2]. rewrite IH; [|exact W3|exact A1]. rewrite A2.
  destruct v; reflexivity.
Qed.
End F.
