(** The live plot of the main window. *)
From Coq Require Import String List Bool Arith Ascii ZArith Lia.
From Verif Require Import PyExn OrganizerModel OrganizerSpec OrganizerProofs.
Import ListNotations.
Local Open Scope string_scope.
Local Open Scope nat_scope.
Local Open Scope list_scope.

Section Statements.
Variable D : Type.
Variable twice twice_root : D -> D.
(** Any sequence of actions, each with the history of its time, from the start. *)
Definition after (T0 : tree) (l : list (source D * action)) : tree * view D :=
  fold_left (fun s a => act D twice twice_root (fst a) s (snd a)) l (T0, empty_view).
End Statements.

Lemma after_sane D twice twice_root T0 l : well_named T0 ->
  same_names (fst (after D twice twice_root T0 l)) T0 /\ sane D (slots T0) (snd (after D twice twice_root T0 l)).
Proof.
  intros W. unfold after. assert (F : forall s, same_names (fst s) T0 -> sane D (slots T0) (snd s) ->
    same_names (fst (fold_left (fun s a => act D twice twice_root (fst a) s (snd a)) l s)) T0 /\ sane D (slots T0) (snd (fold_left (fun s a => act D twice twice_root (fst a) s (snd a)) l s))).
  { induction l as [|a l IH]; intros s N S; [auto|]. cbn [fold_left]. destruct (act_keep D twice twice_root (fst a) (snd a) T0 s W N S). apply IH; assumption. }
  apply F; [repeat split|apply sane_empty].
Qed.
Lemma refresh_from D twice twice_root T0 T v H : well_named T0 -> same_names T T0 -> sane D (slots T0) v ->
  exists v' done rest, refresh D twice twice_root T H v = (v', snd (the_plan D twice twice_root T H)) /\ sane D (slots T) v' /\
    names T = done ++ rest /\ (snd (the_plan D twice twice_root T H) = None -> rest = []) /\
    (forall n it, In n done -> In (n, it) (plots v') -> wanted D twice twice_root T H n it) /\
    (forall n it, In n rest -> (In (n, it) (plots v') <-> In (n, it) (plots v))) /\
    (snd (the_plan D twice twice_root T H) = None -> forall n it, In (n, it) (plots v') <-> wanted D twice twice_root T H n it).
Proof.
  intros W N S. pose proof (same_well T0 T (same_names_sym _ _ N) W) as W'.
  destruct (plan_sane D twice twice_root T H v) as [v' [d [r [E [S' [K1 [K2 [K3 [K4 K5]]]]]]]]]; [rewrite slots_names; apply names_nodup, W'|rewrite (same_slots _ _ N); exact S|].
  rewrite slots_names in K1.
  assert (Hd : forall n it, In n d -> In (n, it) (plots v') -> wanted D twice twice_root T H n it).
  { intros n it Hn Hs. rewrite K3 in Hn. apply in_map_iff in Hn as [[i o] [<- Hn]]. cbn [fst] in *. apply (plan_wanted _ _ _ T H i o it Hn). apply (K4 i o it Hn). exact Hs. }
  exists v', d, r. repeat (split; [assumption|]). intros K n it. split.
  - intros Hs. apply Hd; [|exact Hs]. rewrite (K2 K), app_nil_r in K1. rewrite <- K1, <- slots_names. destruct S' as [_ SS _]. destruct (SS n it Hs) as [i [k [Hi [Ht _]]]].
    apply in_map_iff. exists (i, k). auto.
  - intros Hw. destruct (wanted_plan D twice twice_root T H n it K Hw) as [i [o [Hi [<- R]]]]. apply (K4 i o it Hi). exact R.
Qed.

(** C124: after any actions, a refresh in which the history answers shows what is chosen, and the legend names the curves. *)
Theorem organizer_shows : forall D twice twice_root gates params grads acts H, let T0 := new_tree gates params grads in well_named T0 ->
  let s := after D twice twice_root T0 acts in let (v, e) := refresh D twice twice_root (fst s) H (snd s) in
  (answers D (fst s) H -> e = None) /\
  (e = None -> forall n it, In (n, it) (plots v) <-> wanted D twice twice_root (fst s) H n it) /\
  NoDup (map fst (plots v)) /\ NoDup (legend v) /\ (forall n, In n (legend v) <-> exists pen d, In (n, Curve pen d) (plots v)).
Proof.
  intros D twice twice_root gates params grads acts H T0 W s. destruct (after_sane D twice twice_root T0 acts W) as [N S]. fold s in N, S.
  destruct (refresh_from D twice twice_root T0 (fst s) (snd s) H W N S) as [v [d [r [E [[S1 _ [S3 S4]] [_ [_ [_ [_ K]]]]]]]]]. rewrite E.
  split; [apply plan_complete|]. split; [exact K|]. auto.
Qed.
Print Assumptions organizer_shows.

(** At the start nothing is chosen, and refreshing shows nothing. *)
Theorem organizer_start : forall D twice twice_root gates params grads H, let T0 := new_tree gates params grads in well_named T0 ->
  (forall n it, ~ wanted D twice twice_root T0 H n it) /\ plots (fst (refresh D twice twice_root T0 H empty_view)) = [] /\
  map fst (t_gates T0) = gates /\ map fst (t_params T0) = params /\ map (fun e => (fst (fst e), map fst (snd e))) (t_grads T0) = grads.
Proof.
  intros D twice twice_root gates params grads H T0 W.
  assert (NW : forall n it, ~ wanted D twice twice_root T0 H n it).
  { assert (G : forall A B C (c : C) (l : list A) (f : A -> B) k b x, nth_error (map (fun a => (f a, c)) l) k = Some (b, x) -> x = c).
    { intros A B C c l f k b x E. apply nth_error_In, in_map_iff in E as (a & E & _). congruence. }
    assert (G2 : forall k p pm gs j g m, nth_error (t_grads T0) k = Some (p, pm, gs) -> nth_error gs j = Some (g, m) -> m = Off).
    { intros k p pm gs j g m E E2. apply nth_error_In, in_map_iff in E as ([a l] & E & _). injection E as _ _ <-. exact (G _ _ _ Off _ (fun g => g) _ _ _ E2). }
    intros n it Wd. destruct Wd as [k g d E _|k p m d E Nm _|k p d sd E _ _|k p pm gs j g m df d E E2 Nm _ _|k p pm gs j g df d dv sd E E2 _ _ _ _].
    - pose proof (G _ _ _ false _ (fun g => g) _ _ _ E). discriminate.
    - apply Nm. exact (G _ _ _ Off _ (fun g => g) _ _ _ E).
    - pose proof (G _ _ _ Off _ (fun g => g) _ _ _ E). discriminate.
    - apply Nm. exact (G2 _ _ _ _ _ _ _ E E2).
    - pose proof (G2 _ _ _ _ _ _ _ E E2). discriminate. }
  split; [exact NW|]. split; [|split; [|split]].
  - destruct (refresh_from D twice twice_root T0 T0 empty_view H W) as (v & d & r & E & [_ S _] & N & _ & K1 & K2 & _); [repeat split|apply sane_empty|].
    rewrite E. cbn [fst]. destruct (plots v) as [|[n it] l] eqn:P; [reflexivity|]. exfalso.
    assert (I : In (n, it) (plots v)) by (rewrite P; left; reflexivity). rewrite <- P in K1, K2.
    assert (In n (d ++ r)) as J.
    { rewrite <- N, <- slots_names. destruct (S n it) as [i [k [Hi [Ht _]]]]; [rewrite ?P; left; reflexivity|]. apply in_map_iff. exists (i, k). auto. }
    apply in_app_or in J as [J|J]; [exact (NW n it (K1 n it J I))|]. apply (K2 n it J) in I. exact I.
  - unfold T0, new_tree. cbn. rewrite map_map. apply map_id.
  - unfold T0, new_tree. cbn. rewrite map_map. apply map_id.
  - unfold T0, new_tree. cbn. rewrite map_map. rewrite <- (map_id grads) at 2. apply map_ext. intros [a l]. cbn. rewrite map_map, map_id. reflexivity.
Qed.
Print Assumptions organizer_start.

(** An action changes nothing, or the plot is brought up to date afterwards. *)
Theorem action_refreshes : forall D twice twice_root gates params grads acts H a, let T0 := new_tree gates params grads in well_named T0 ->
  let s := after D twice twice_root T0 acts in let s' := act D twice twice_root H s a in
  s' = s \/ (answers D (fst s') H -> forall n it, In (n, it) (plots (snd s')) <-> wanted D twice twice_root (fst s') H n it).
Proof.
  intros D twice twice_root gates params grads acts H a T0 W s s'. destruct (after_sane D twice twice_root T0 acts W) as [N S]. fold s in N, S.
  destruct (act_keep D twice twice_root H a T0 s W N S) as [N' _]. fold s' in N'.
  destruct (act_last D twice twice_root H a s) as [E|[v0 [E K]]]; [left; exact E|]. right. intros A n it. fold s' in E.
  destruct (refresh_from D twice twice_root T0 (fst s') v0 H W N' (K T0 W N S)) as [v [d [r [E' [_ [_ [_ [_ [_ Q]]]]]]]]].
  replace (plots (snd s')) with (plots v); [apply Q, plan_complete, A|]. rewrite E. unfold refreshed. cbn [fst snd]. rewrite E'. reflexivity.
Qed.
Print Assumptions action_refreshes.

(** Which choice an action makes.  Choosing for a parameter gives all its gates
    this value, but not if the parameter has it already. *)
Theorem choices_made : forall D twice twice_root H s a, let s' := act D twice twice_root H s a in
  match a with
  | Press => fst s' = fst s
  | ChooseGate k b => t_params (fst s') = t_params (fst s) /\ t_grads (fst s') = t_grads (fst s) /\
      forall j, nth_error (t_gates (fst s')) j = if Nat.eqb j k then option_map (fun e => (fst e, b)) (nth_error (t_gates (fst s)) j) else nth_error (t_gates (fst s)) j
  | ChooseParam k m => t_gates (fst s') = t_gates (fst s) /\ t_grads (fst s') = t_grads (fst s) /\
      forall j, nth_error (t_params (fst s')) j = if Nat.eqb j k then option_map (fun e => (fst e, m)) (nth_error (t_params (fst s)) j) else nth_error (t_params (fst s)) j
  | ChooseGrad k j m => t_gates (fst s') = t_gates (fst s) /\ t_params (fst s') = t_params (fst s) /\
      (forall k', k' <> k -> nth_error (t_grads (fst s')) k' = nth_error (t_grads (fst s)) k') /\
      forall p pm gates, nth_error (t_grads (fst s)) k = Some (p, pm, gates) ->
        exists gates', nth_error (t_grads (fst s')) k = Some (p, pm, gates') /\
          forall i, nth_error gates' i = if Nat.eqb i j then option_map (fun e => (fst e, m)) (nth_error gates i) else nth_error gates i
  | ChooseGrads k m => t_gates (fst s') = t_gates (fst s) /\ t_params (fst s') = t_params (fst s) /\
      (forall k', k' <> k -> nth_error (t_grads (fst s')) k' = nth_error (t_grads (fst s)) k') /\
      forall p pm gates, nth_error (t_grads (fst s)) k = Some (p, pm, gates) ->
        nth_error (t_grads (fst s')) k = Some (p, m, if mode_eqb m pm then gates else map (fun e => (fst e, m)) gates)
  end.
Proof.
  intros D twice twice_root H [T v] a s'. unfold s'. clear s'. destruct a as [k b|k m|k m|k j m|]; cbn [act fst snd].
  - destruct (nth_error (t_gates T) k) as [[g b0]|] eqn:E; [destruct (Bool.eqb b b0) eqn:B|]; cbn [refreshed fst snd t_params t_grads t_gates]; repeat split; intros j; [| |].
    + destruct (Nat.eqb_spec j k) as [->|]; [|reflexivity]. rewrite E. apply Bool.eqb_prop in B. subst. reflexivity.
    + apply change_nth_get.
    + destruct (Nat.eqb_spec j k) as [->|]; [|reflexivity]. rewrite E. reflexivity.
  - destruct (nth_error (t_params T) k) as [[p m0]|] eqn:E; [destruct (mode_eqb m m0) eqn:B|]; cbn [refreshed fst snd t_params t_grads t_gates]; repeat split; intros j; [| |].
    + destruct (Nat.eqb_spec j k) as [->|]; [|reflexivity]. rewrite E. destruct m, m0; try discriminate; reflexivity.
    + apply change_nth_get.
    + destruct (Nat.eqb_spec j k) as [->|]; [|reflexivity]. rewrite E. reflexivity.
  - destruct (nth_error (t_grads T) k) as [[[p m0] gates]|] eqn:E.
    2:{ cbn [fst]. repeat split. intros p pm gates K. congruence. }
    destruct (mode_eqb m m0) eqn:B.
    { cbn [fst]. repeat split. intros p' pm' gates' K. injection K as <- <- <-. rewrite B, E. destruct m, m0; try discriminate; reflexivity. }
    match goal with |- context [fold_left ?f ?l ?s] => set (T1 := s) end.
    assert (F : forall l s g1, nth_error (t_grads (fst s)) k = Some (p, m, g1) ->
      let s2 := fold_left (choose_grad D twice twice_root H k m) l s in
      t_gates (fst s2) = t_gates (fst s) /\ t_params (fst s2) = t_params (fst s) /\ (forall k', k' <> k -> nth_error (t_grads (fst s2)) k' = nth_error (t_grads (fst s)) k') /\
      nth_error (t_grads (fst s2)) k = Some (p, m, fold_left (fun g j => change_nth j (fun e => (fst e, m)) g) l g1)).
    { induction l as [|j l IH]; intros s g1 K; cbn [fold_left]; [auto|]. destruct (choose_grad_get D twice twice_root H k m s j p m g1 K) as [K1 [K2 [K3 K4]]].
      destruct (IH _ _ K1) as [J1 [J2 [J3 J4]]]. cbv zeta. rewrite J1, J2. repeat split; auto. intros k' Hk. rewrite J3, K4 by exact Hk. reflexivity. }
    assert (E1 : nth_error (t_grads (fst T1)) k = Some (p, m, gates)) by (unfold T1; cbn [fst t_grads]; rewrite change_nth_get, Nat.eqb_refl, E; reflexivity).
    destruct (F (seq 0 (length gates)) T1 gates E1) as [J1 [J2 [J3 J4]]].
    unfold refreshed. cbn [fst]. split; [rewrite J1; reflexivity|]. split; [rewrite J2; reflexivity|]. split.
    + intros k' Hk. rewrite J3 by exact Hk. unfold T1. cbn [fst t_grads]. rewrite change_nth_get, (proj2 (Nat.eqb_neq _ _) Hk). reflexivity.
    + intros p' pm' gates' K. injection K as <- <- <-. rewrite B, J4. do 2 f_equal. clear. generalize (fun e : string * mode => (fst e, m)). intros f.
      assert (G : forall l pre, fold_left (fun g j => change_nth j f g) (seq (length pre) (length l)) (pre ++ l) = pre ++ map f l).
      { induction l as [|a l IH]; intros pre; cbn [length seq fold_left map]; [reflexivity|].
        assert (C : change_nth (length pre) f (pre ++ a :: l) = (pre ++ [f a]) ++ l).
        { clear. induction pre as [|b pre IH]; cbn; [reflexivity|]. f_equal. exact IH. }
        rewrite C. replace (S (length pre)) with (length (pre ++ [f a])) by (rewrite app_length; cbn; lia). rewrite IH, <- app_assoc. reflexivity. }
      apply (G gates []).
  - destruct (nth_error (t_grads T) k) as [[[p pm] gates]|] eqn:E.
    + destruct (choose_grad_get D twice twice_root H k m (T, v) j p pm gates E) as [K1 [K2 [K3 K4]]]. repeat split; try assumption.
      intros p' pm' gates' K. injection K as <- <- <-. eexists. split; [exact K1|]. intros i. apply change_nth_get.
    + unfold choose_grad. cbn [fst snd]. rewrite E. cbn [fst]. repeat split. intros p pm gates K. congruence.
  - reflexivity.
Qed.
Print Assumptions choices_made.

(** Naively: an entry that cannot be read affects this entry only.  False: what comes later in the tree stays as it was. *)
Theorem organizer_failure_refuted : forall D twice twice_root gates params grads acts H x v, let T0 := new_tree gates params grads in well_named T0 ->
  let s := after D twice twice_root T0 acts in refresh D twice twice_root (fst s) H (snd s) = (v, Some x) ->
  exists done rest, names (fst s) = done ++ rest /\
    (forall n it, In n done -> In (n, it) (plots v) -> wanted D twice twice_root (fst s) H n it) /\
    (forall n it, In n rest -> (In (n, it) (plots v) <-> In (n, it) (plots (snd s)))).
Proof.
  intros D twice twice_root gates params grads acts H x v T0 W s R. destruct (after_sane D twice twice_root T0 acts W) as [N S]. fold s in N, S.
  destruct (refresh_from D twice twice_root T0 (fst s) (snd s) H W N S) as [v' [d [r [E [_ [K1 [_ [K2 [K3 _]]]]]]]]]. rewrite E in R. injection R as -> _. exists d, r. auto.
Qed.
Print Assumptions organizer_failure_refuted.

(** Naively: gates and parameters have different colours.  False: the last
    parameter has the colour of the first gate, the only such pair. *)
Theorem organizer_colours_refuted : forall D twice twice_root T H, well_named T ->
  (forall g d p m d', nth_error (t_gates T) 0 = Some (g, true) -> nth_error (t_params T) (length (t_params T) - 1) = Some (p, m) -> m <> Off ->
     gate_values H g = Ok d -> parameter_values H p = Ok d' ->
     exists pen, wanted D twice twice_root T H g (Curve pen d) /\ wanted D twice twice_root T H p (Curve pen d')) /\
  (forall n n' pen d d', In n (gate_names T ++ param_names T) -> In n' (gate_names T ++ param_names T) -> n <> n' ->
     wanted D twice twice_root T H n (Curve pen d) -> wanted D twice twice_root T H n' (Curve pen d') ->
     let first := nth_error (gate_names T) 0 in let last := nth_error (param_names T) (length (param_names T) - 1) in
     (Some n = first /\ Some n' = last) \/ (Some n' = first /\ Some n = last)).
Proof.
  intros D twice twice_root T H W. split.
  - intros g d p m d' Hg Hp Hm Hd Hd'. exists 0.
    assert (LG : 0 < length (t_gates T)) by (apply nth_error_Some; congruence).
    assert (LP : length (t_params T) - 1 < length (t_params T)) by (apply nth_error_Some; congruence).
    split.
    + pose proof (WantGate D twice twice_root T H 0 g d Hg Hd) as K. rewrite Nat.mod_0_l in K by (unfold hues; lia). exact K.
    + pose proof (WantParam D twice twice_root T H _ p m d' Hp Hm Hd') as K. replace (length (t_gates T) + 1 + (length (t_params T) - 1)) with (hues T) in K by (unfold hues; lia).
      rewrite Nat.mod_same in K by (unfold hues; lia). exact K.
  - assert (V : forall n pen d, In n (gate_names T ++ param_names T) -> wanted D twice twice_root T H n (Curve pen d) ->
      (exists k, nth_error (gate_names T) k = Some n /\ pen = k) \/
      (exists k, nth_error (param_names T) k = Some n /\ pen = if Nat.eqb k (length (param_names T) - 1) then 0 else length (gate_names T) + 1 + k)).
    { intros n pen d Hn Hw. assert (PL : plain n).
      { destruct W as [[_ G] [_ P] _ _ _]. rewrite Forall_forall in G, P. apply in_app_or in Hn as [Hn|Hn]; auto. }
      inversion Hw as [k g d0 Hk Hd|k p m d0 Hk Hm Hd| |k p pm gates j g m df d0 Hk Hj Hm Hf Hd|]; subst.
      - left. exists k. unfold gate_names. rewrite nth_error_map, Hk. split; [reflexivity|]. apply Nat.mod_small. assert (k < length (t_gates T)) by (apply nth_error_Some; congruence). unfold hues. lia.
      - right. exists k. unfold param_names, gate_names. rewrite nth_error_map, Hk, !map_length. split; [reflexivity|]. assert (k < length (t_params T)) by (apply nth_error_Some; congruence).
        destruct (Nat.eqb_spec k (length (t_params T) - 1)).
        + replace (length (t_gates T) + 1 + k) with (hues T) by (unfold hues; lia). apply Nat.mod_same. unfold hues. lia.
        + apply Nat.mod_small. unfold hues. lia.
      - exfalso. exact (plain_app _ _ PL). }
    intros n n' pen d d' Hn Hn' Hne W1 W2. cbv zeta.
    assert (U : forall k, nth_error (param_names T) k = Some n \/ nth_error (param_names T) k = Some n' -> k < length (param_names T)) by (intros k [K|K]; apply nth_error_Some; congruence).
    assert (U' : forall k, nth_error (gate_names T) k = Some n \/ nth_error (gate_names T) k = Some n' -> k < length (gate_names T)) by (intros k [K|K]; apply nth_error_Some; congruence).
    destruct (V n pen d Hn W1) as [[k [A B]]|[k [A B]]], (V n' pen d' Hn' W2) as [[k' [A' B']]|[k' [A' B']]].
    + exfalso. apply Hne. congruence.
    + left. pose proof (U' k (or_introl A)). destruct (Nat.eqb_spec k' (length (param_names T) - 1)) as [->|]; [|lia]. replace k with 0 in A by congruence. auto.
    + right. pose proof (U' k' (or_intror A')). destruct (Nat.eqb_spec k (length (param_names T) - 1)) as [->|]; [|lia]. replace k' with 0 in A' by congruence. auto.
    + exfalso. pose proof (U k (or_introl A)). pose proof (U k' (or_intror A')). apply Hne.
      destruct (Nat.eqb_spec k (length (param_names T) - 1)), (Nat.eqb_spec k' (length (param_names T) - 1)); try lia; assert (k = k') by lia; congruence.
Qed.
Print Assumptions organizer_colours_refuted.

(** ** A tree with two gates, two parameters and gradients of one of them *)
Definition ex_tree : tree := new_tree ["a"; "b"] ["p"; "q"] [("p", ["a"; "b"])].
Definition ex_history (n : nat) : source nat := mk_source
  (fun g => if String.eqb g "a" then Ok (n + 1) else if String.eqb g "b" then Ok (n + 2) else Raise KeyError)
  (fun p => if String.eqb p "p" then Ok (n + 3) else if String.eqb p "q" then Ok (n + 4) else Raise KeyError)
  (fun p => if String.eqb p "p" then Ok (n + 5) else Raise KeyError)
  (fun p => Ok [("a", n + 6); ("b", n + 7)]) (fun p => Ok [("a", n + 8)]).
Definition ex_after (l : list (source nat * action)) := after nat (Nat.mul 2) (Nat.mul 3) ex_tree l.
Lemma plain_check s : forallb (fun c => negb (Ascii.eqb c "#")) (list_ascii_of_string s) = true -> plain s.
Proof. intros K I. rewrite forallb_forall in K. specialize (K _ I). discriminate. Qed.
Lemma distinct_two (a b : string) : a <> b -> NoDup [a; b].
Proof. intros K. constructor; [intros [E|[]]; congruence|]. constructor; [intros []|constructor]. Qed.
Example ex_well_named : well_named ex_tree.
Proof.
  constructor; cbn.
  - split; [apply distinct_two; discriminate|repeat constructor; apply plain_check; reflexivity].
  - split; [apply distinct_two; discriminate|repeat constructor; apply plain_check; reflexivity].
  - intros n [<-|[<-|[]]] [K|[K|[]]]; discriminate.
  - split; [constructor; [intros []|constructor]|repeat constructor; apply plain_check; reflexivity].
  - intros p gs [K|[]]. injection K as <- <-. split; [apply distinct_two; discriminate|]. split; [repeat constructor; apply plain_check; reflexivity|intros [K|[K|[]]]; discriminate].
Qed.
(** The gate a, the parameter p with errors and both gradients with errors: no
    variance of the gradient in b, no bars. *)
Definition ex_acts : list (source nat * action) := [(ex_history 0, ChooseGate 0 true); (ex_history 10, ChooseParam 0 PlotError); (ex_history 20, ChooseGrads 0 PlotError)].
Example ex_answers : answers nat (fst (ex_after ex_acts)) (ex_history 30).
Proof.
  split; [|split; [|split]]; cbn.
  - intros g [K|[K|[]]]; [|discriminate]. injection K as <-. eexists. reflexivity.
  - intros p m [K|[K|[]]] Hm; injection K as <- <-; [eexists; reflexivity|contradiction].
  - intros p [K|[K|[]]]; [|discriminate]. injection K as <-. eexists. reflexivity.
  - intros p pm gates [K|[]]. injection K as <- <- <-. eexists _, _. split; [reflexivity|]. split; [reflexivity|].
    intros g m [K|[K|[]]] _; injection K as <- <-; eexists; reflexivity.
Qed.
Example ex_shown : refresh nat (Nat.mul 2) (Nat.mul 3) (fst (ex_after ex_acts)) (ex_history 30) (snd (ex_after ex_acts)) =
  (mk_view [("a", Curve 0 31); ("p", Curve 3 33); ("p#err_bar", Bars 33 70); ("p#a", Curve 2 36); ("p#a#err_bar", Bars 36 114); ("p#b", Curve 3 37)] ["a"; "p"; "p#a"; "p#b"], None).
Proof. vm_compute. reflexivity. Qed.
(** Taking the parameter away again *)
Example ex_taken : snd (ex_after (ex_acts ++ [(ex_history 30, ChooseParam 0 Off); (ex_history 30, ChooseGrad 0 1 Plot)])) =
  mk_view [("a", Curve 0 31); ("p#a", Curve 2 36); ("p#a#err_bar", Bars 36 114); ("p#b", Curve 3 37)] ["a"; "p#a"; "p#b"].
Proof. vm_compute. reflexivity. Qed.
(** The parameter's own choice stays when a gate is changed; choosing it again changes nothing. *)
Example ex_again : let s := ex_after (ex_acts ++ [(ex_history 30, ChooseGrad 0 0 Off)]) in
  act nat (Nat.mul 2) (Nat.mul 3) (ex_history 30) s (ChooseGrads 0 PlotError) = s /\
  nth_error (t_grads (fst s)) 0 = Some ("p", PlotError, [("a", Off); ("b", PlotError)]).
Proof. vm_compute. auto. Qed.
(** The parameter q has no standard deviation: its curve is new, the gradients are those of before. *)
Example ex_failure : refresh nat (Nat.mul 2) (Nat.mul 3) (fst (ex_after (ex_acts ++ [(ex_history 20, ChooseParam 1 PlotError)]))) (ex_history 30) (snd (ex_after ex_acts)) =
  (mk_view [("a", Curve 0 31); ("p", Curve 3 33); ("p#err_bar", Bars 33 70); ("p#a", Curve 2 26); ("p#a#err_bar", Bars 26 84); ("p#b", Curve 3 27); ("q", Curve 0 34)] ["a"; "p"; "p#a"; "p#b"; "q"], Some KeyError).
Proof. vm_compute. reflexivity. Qed.
