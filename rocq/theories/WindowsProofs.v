(** Invariants of the windows. *)
From Coq Require Import List Bool Arith Lia.
From Verif Require Import WindowsModel WindowsSpec.
Import ListNotations.

Lemma run_snoc g l a : run g (l ++ [a]) = do a (run g l).
Proof. unfold run. rewrite fold_left_app. reflexivity. Qed.
Lemma run_ind g (P : state -> Prop) : P (start g) -> (forall s a, P s -> P (do a s)) -> forall l, P (run g l).
Proof. intros H0 HS l. induction l as [|a l IH] using rev_ind; [exact H0|]. rewrite run_snoc. apply HS, IH. Qed.
Ltac cases_of_do s a :=
  unfold do; destruct a as [k|w|w o|w o|b];
  [destruct (swap_due s) as [v|] eqn:?| destruct (swap_due s) as [v|] eqn:?| destruct (swap_due s) as [v|] eqn:?| destruct (swap_due s) as [v|] eqn:?| ].

(** Updating a child. *)
Lemma nth_set w c l v : w < length l -> nth_error (set_child w c l) v = if v =? w then Some c else nth_error l v.
Proof.
  revert w v. induction l as [|x l IH]; intros w v H; [cbn in H; lia|]. destruct w as [|w].
  - unfold set_child. cbn. destruct v; reflexivity.
  - unfold set_child. cbn. destruct v as [|v]; [reflexivity|]. cbn. apply IH. cbn in H. lia.
Qed.
Lemma length_set w c l : w < length l -> length (set_child w c l) = length l.
Proof. intros H. unfold set_child. rewrite app_length, firstn_length. cbn [length]. rewrite skipn_length. lia. Qed.
Lemma some_lt {A} (l : list A) n x : nth_error l n = Some x -> n < length l.
Proof. intros H. apply nth_error_Some. congruence. Qed.

(** Lists of numbers of windows. *)
Definition from (p : child -> bool) (n : nat) (l : list child) : list nat := map fst (filter (fun q => p (snd q)) (combine (seq n (length l)) l)).
Lemma from_app p n l c : from p n (l ++ [c]) = from p n l ++ if p c then [n + length l] else [].
Proof.
  revert n. induction l as [|x l IH]; intros n.
  - unfold from. cbn. destruct (p c); cbn; [rewrite Nat.add_0_r|]; reflexivity.
  - unfold from in *. cbn. specialize (IH (S n)). destruct (p x); cbn; rewrite IH; rewrite Nat.add_succ_r; reflexivity.
Qed.
Lemma from_in p n l x : In x (from p n l) <-> n <= x /\ exists c, nth_error l (x - n) = Some c /\ p c = true.
Proof.
  revert n. induction l as [|a l IH]; intros n.
  - cbn. split; [intros []|]. intros (_ & c & H & _). destruct (x - n); discriminate.
  - assert (E : from p n (a :: l) = (if p a then [n] else []) ++ from p (S n) l) by (unfold from; cbn; destruct (p a); reflexivity).
    rewrite E, in_app_iff, IH. split.
    + intros [H|[H (c & Hc & Hp)]].
      * destruct (p a) eqn:Pa; [|destruct H]. destruct H as [->|[]]. split; [lia|]. rewrite Nat.sub_diag. exists a. auto.
      * split; [lia|]. exists c. replace (x - n) with (S (x - S n)) by lia. auto.
    + intros (H & c & Hc & Hp). destruct (Nat.eq_dec x n) as [->|Hne].
      * left. rewrite Nat.sub_diag in Hc. injection Hc as ->. rewrite Hp. left. reflexivity.
      * right. split; [lia|]. exists c. replace (x - n) with (S (x - S n)) in Hc by lia. auto.
Qed.
Lemma from_S p n a l : from p n (a :: l) = (if p a then [n] else []) ++ from p (S n) l.
Proof. unfold from. cbn. destruct (p a); reflexivity. Qed.
Lemma filter_none n (l : list nat) : ~ In n l -> filter (fun x => negb (x =? n)) l = l.
Proof.
  induction l as [|x l IH]; intros H; [reflexivity|]. cbn. destruct (x =? n) eqn:E.
  - apply Nat.eqb_eq in E. exfalso. apply H. left. exact E.
  - cbn. rewrite IH; [reflexivity|]. intros C. apply H. right. exact C.
Qed.
(** A child that does not count afterwards. *)
Lemma from_closed p n l w c : w < length l -> p c = false ->
  from p n (set_child w c l) = filter (fun x => negb (x =? n + w)) (from p n l).
Proof.
  revert n w. induction l as [|a l IH]; intros n w H Hc; [cbn in H; lia|]. destruct w as [|w].
  - unfold set_child. cbn [firstn skipn app]. rewrite !from_S, Hc, filter_app, Nat.add_0_r. cbn [app].
    rewrite (filter_none n (from p (S n) l)) by (rewrite from_in; lia). destruct (p a); cbn; [rewrite Nat.eqb_refl|]; reflexivity.
  - change (set_child (S w) c (a :: l)) with (a :: set_child w c l). rewrite !from_S, filter_app, IH by (cbn in H; lia || exact Hc).
    rewrite Nat.add_succ_r. f_equal. destruct (p a); [|reflexivity]. cbn. destruct (n =? S (n + w)) eqn:E; [|reflexivity]. apply Nat.eqb_eq in E. lia.
Qed.
(** A child that counts as before. *)
Lemma from_same p n l w c c' : nth_error l w = Some c -> p c' = p c -> from p n (set_child w c' l) = from p n l.
Proof.
  revert n w. induction l as [|a l IH]; intros n w H Hc; [destruct w; discriminate|]. destruct w as [|w].
  - injection H as ->. unfold set_child. cbn [firstn skipn app]. rewrite !from_S, Hc. reflexivity.
  - change (set_child (S w) c' (a :: l)) with (a :: set_child w c' l). rewrite !from_S. f_equal. apply IH; assumption.
Qed.
Lemma remove1_none w l : remove1 w l = None <-> ~ In w l.
Proof.
  induction l as [|x l IH]; cbn; [tauto|]. destruct (x =? w) eqn:E.
  - apply Nat.eqb_eq in E. split; [discriminate|]. intros H. exfalso. apply H. left. exact E.
  - apply Nat.eqb_neq in E. destruct (remove1 w l); split; try discriminate; intros H.
    + exfalso. assert (C : Some l0 = None) by (apply IH; tauto). discriminate.
    + pose proof (proj1 IH eq_refl). tauto.
    + reflexivity.
Qed.
Lemma from_sorted p n l : NoDup (from p n l).
Proof.
  revert n. induction l as [|a l IH]; intros n; [constructor|]. rewrite from_S. destruct (p a); [|apply IH]. cbn. constructor; [|apply IH].
  rewrite from_in. lia.
Qed.
Lemma remove1_some w l : NoDup l -> In w l -> remove1 w l = Some (filter (fun x => negb (x =? w)) l).
Proof.
  induction l as [|x l IH]; intros ND H; [destruct H|]. inversion ND; subst. cbn. destruct (x =? w) eqn:E; cbn.
  - apply Nat.eqb_eq in E. subst. rewrite filter_none by assumption. reflexivity.
  - apply Nat.eqb_neq in E. rewrite IH; [reflexivity|assumption|]. destruct H; [contradiction|assumption].
Qed.

Definition is_plots k := match k with Plots => true | _ => false end.
Definition is_parameters k := match k with Parameters | Gradients => true | _ => false end.
Definition is_raw k := match k with Raw => true | _ => false end.
Definition is_reload k := match k with Reload => true | _ => false end.
Definition is_live k := match k with Raw => false | _ => true end.
Definition opn (f : kind -> bool) (c : child) : bool := c_open c && f (c_kind c).
Definition lists_right (s : state) : Prop :=
  l_plots s = from (opn is_plots) 0 (children s) /\ l_parameters s = from (opn is_parameters) 0 (children s) /\
  l_gradients s = [] /\ l_raw s = from (opn is_raw) 0 (children s) /\
  l_reload s = from (fun c => is_reload (c_kind c)) 0 (children s) /\ connected s = from (opn is_live) 0 (children s).

Lemma not_in_from (f : kind -> bool) s w c : nth_error (children s) w = Some c -> opn f c = false -> ~ In w (from (opn f) 0 (children s)).
Proof. intros H F. rewrite from_in, Nat.sub_0_r. intros (_ & c' & H' & F'). congruence. Qed.
Lemma in_from (f : kind -> bool) s w c : nth_error (children s) w = Some c -> opn f c = true -> In w (from (opn f) 0 (children s)).
Proof. intros H F. rewrite from_in, Nat.sub_0_r. split; [lia|]. exists c. auto. Qed.
Lemma lists_run g l : lists_right (run g l).
Proof.
  apply run_ind; [unfold lists_right; destruct g; repeat split|]. intros s a H. cases_of_do s a.
  all: try (unfold swap; destruct (nth_error (children s) v) as [[? ? [t|]]|]; exact H).
  - destruct H as (H1 & H2 & H3 & H4 & H5 & H6). unfold lists_right, spawn. cbn [children l_plots l_parameters l_gradients l_raw l_reload connected].
    rewrite !from_app, H1, H2, H3, H4, H5, H6. cbn [plus]. unfold opn. cbn [c_open c_kind andb]. destruct k; cbn; rewrite ?app_nil_r; repeat split; reflexivity.
  - unfold close_child. destruct (nth_error (children s) w) as [[k [|] t]|] eqn:E; try exact H. destruct H as (H1 & H2 & H3 & H4 & H5 & H6).
    pose proof (some_lt _ _ _ E) as L.
    assert (C : forall f, from (opn f) 0 (set_child w (mk_child k false t) (children s)) = filter (fun x => negb (x =? w)) (from (opn f) 0 (children s)))
      by (intros f; apply (from_closed (opn f) 0 (children s) w (mk_child k false t) L); reflexivity).
    assert (R : from (fun c => is_reload (c_kind c)) 0 (set_child w (mk_child k false t) (children s)) = from (fun c => is_reload (c_kind c)) 0 (children s))
      by (apply (from_same _ _ _ _ _ _ E); reflexivity).
    assert (N : forall f, f k = false -> filter (fun x => negb (x =? w)) (from (opn f) 0 (children s)) = from (opn f) 0 (children s) /\ remove1 w (from (opn f) 0 (children s)) = None).
    { intros f Hf. assert (X : ~ In w (from (opn f) 0 (children s))) by (apply (not_in_from f s w _ E); unfold opn; cbn; exact Hf).
      split; [apply filter_none, X|apply remove1_none, X]. }
    assert (Y : forall f, f k = true -> remove1 w (from (opn f) 0 (children s)) = Some (filter (fun x => negb (x =? w)) (from (opn f) 0 (children s)))).
    { intros f Hf. apply remove1_some; [apply from_sorted|]. apply (in_from f s w _ E). unfold opn. cbn. exact Hf. }
    unfold close_lists. rewrite H1, H2, H3, H4, H5, H6. unfold lists_right.
    destruct k; cbn [children l_plots l_parameters l_gradients l_raw l_reload connected];
      repeat match goal with
      | |- context [remove1 w (from (opn ?f) 0 (children s))] =>
          first [rewrite (proj2 (N f eq_refl)) | rewrite (Y f eq_refl)]
      end; cbn [remove1 children l_plots l_parameters l_gradients l_raw l_reload connected]; rewrite !C, R;
      repeat split; try reflexivity; try (symmetry; apply N; reflexivity).
  - unfold reload_voltages. destruct (nth_error (children s) w) as [[[| | | |] [|] [t|]]|]; try exact H. destruct o; exact H.
  - unfold reload_state. destruct (nth_error (children s) w) as [[[| | | |] [|] [t|]]|] eqn:E; try exact H. destruct o; [exact H| |];
      destruct H as (H1 & H2 & H3 & H4 & H5 & H6); unfold lists_right; cbn -[from set_child is_reload];
      repeat match goal with |- context [from ?p 0 (set_child w ?c (children s))] => rewrite (from_same p 0 (children s) w _ c E) by reflexivity end; repeat split; assumption.
  - unfold worker_step. destruct (main s); [|exact H]. destruct (work s), b; exact H.
Qed.

(** The autotuners. *)
Definition inv (s : state) : Prop :=
  main s = Some (taken_over (log s)) /\ taken_over (log s) < tuners s /\
  (forall w c, nth_error (children s) w = Some c -> c_kind c = Reload -> exists t, c_tuner c = Some t /\ t < tuners s /\
     (up_to_date w (log s) = true -> t = taken_over (log s)) /\
     (up_to_date w (log s) = false -> t <> taken_over (log s))) /\
  (forall w, swap_due s = Some w -> exists o t, nth_error (children s) w = Some (mk_child Reload o (Some t)) /\
     forall w' c', nth_error (children s) w' = Some c' -> c_kind c' = Reload -> c_tuner c' = Some t -> w' = w).

(** Steps after which windows, autotuners and what is told of them are the same. *)
Lemma inv_same s s' : inv s -> main s' = main s -> taken_over (log s') = taken_over (log s) -> tuners s' = tuners s ->
  (forall w, up_to_date w (log s') = up_to_date w (log s)) ->
  (forall w c', nth_error (children s') w = Some c' -> exists c, nth_error (children s) w = Some c /\ c_kind c = c_kind c' /\ c_tuner c = c_tuner c') ->
  (swap_due s' = None \/ swap_due s' = swap_due s /\ children s' = children s) -> inv s'.
Proof.
  intros (H1 & H2 & H3 & H4) Em El Et Eu Ec Es. unfold inv. rewrite Em, El, Et. split; [exact H1|]. split; [exact H2|]. split.
  - intros w c' Hc' K. destruct (Ec w c' Hc') as (c & Hc & K1 & K2). rewrite <- K2, Eu. apply (H3 w c Hc). congruence.
  - intros w Hw. destruct Es as [Es|[Es Ech]]; [congruence|]. rewrite Es in Hw. rewrite Ech. apply H4, Hw.
Qed.
Lemma nth_app_cases {A} (l : list A) x w c : nth_error (l ++ [x]) w = Some c -> (w < length l /\ nth_error l w = Some c) \/ (w = length l /\ c = x).
Proof.
  intros H. destruct (lt_dec w (length l)) as [L|L].
  - left. rewrite nth_error_app1 in H by exact L. auto.
  - right. rewrite nth_error_app2 in H by lia. destruct (w - length l) as [|k] eqn:E; [|destruct k; discriminate]. injection H as <-. split; [lia|reflexivity].
Qed.
Lemma inv_swap s v : inv s -> swap_due s = Some v -> inv (swap v s).
Proof.
  intros (H1 & H2 & H3 & H4) D. destruct (H4 v D) as (o & t & Hv & Hu). unfold swap. rewrite Hv. unfold inv. cbn [main log taken_over tuners children swap_due up_to_date].
  destruct (H3 v _ Hv eq_refl) as (t' & Et & Lt & _). injection Et as <-. split; [reflexivity|]. split; [exact Lt|]. split; [|discriminate].
  intros w c Hc K. destruct (H3 w c Hc K) as (tw & Ew & Lw & _). exists tw. split; [exact Ew|]. split; [exact Lw|]. split.
  - intros E. apply Nat.eqb_eq in E. subst w. rewrite Hv in Hc. injection Hc as <-. injection Ew as <-. reflexivity.
  - intros E Ht. subst tw. apply Nat.eqb_neq in E. apply E. symmetry. apply (Hu w c Hc K Ew).
Qed.
Lemma inv_spawn s k : inv s -> swap_due s = None -> inv (spawn k s).
Proof.
  intros (H1 & H2 & H3 & H4) D. unfold inv, spawn. cbn [main log taken_over tuners children swap_due up_to_date]. split; [exact H1|]. split; [exact H2|].
  split; [|rewrite D; discriminate]. intros w c Hc K. apply nth_app_cases in Hc as [[L Hc]|[-> ->]].
  - rewrite (proj2 (Nat.eqb_neq (length (children s)) w)) by lia. apply (H3 w c Hc K).
  - rewrite Nat.eqb_refl. cbn in K. subst k. cbn. rewrite H1. exists (taken_over (log s)). repeat split; [exact H2|discriminate].
Qed.
Lemma inv_loaded s w t0 due : inv s -> nth_error (children s) w = Some (mk_child Reload true (Some t0)) -> due = None \/ due = Some w ->
  inv (mk_state (main s) (set_child w (mk_child Reload true (Some (tuners s))) (children s)) (l_plots s) (l_parameters s) (l_gradients s) (l_raw s) (l_reload s)
         (connected s) (S (tuners s)) due (work s) (Loaded w (tuners s) :: log s)).
Proof.
  intros (H1 & H2 & H3 & H4) Hw Hd. pose proof (some_lt _ _ _ Hw) as L. unfold inv. cbn [main log taken_over tuners children swap_due up_to_date].
  split; [exact H1|]. split; [lia|]. split.
  - intros v c Hc K. rewrite nth_set in Hc by exact L. destruct (v =? w) eqn:E.
    + apply Nat.eqb_eq in E. subst v. injection Hc as <-. cbn. rewrite Nat.eqb_refl. exists (tuners s). split; [reflexivity|]. split; [lia|]. split; [discriminate|lia].
    + rewrite (Nat.eqb_sym w v), E. destruct (H3 v c Hc K) as (t & Et & Lt & U). exists t. split; [exact Et|]. split; [lia|exact U].
  - intros v Hv. destruct Hd as [->| ->]; [discriminate|]. injection Hv as <-. exists true, (tuners s). rewrite nth_set, Nat.eqb_refl by exact L. split; [reflexivity|].
    intros v c Hc K Hc'. rewrite nth_set in Hc by exact L. destruct (v =? w) eqn:E; [apply Nat.eqb_eq, E|].
    destruct (H3 v c Hc K) as (t & Et & Lt & _). rewrite Hc' in Et. injection Et as <-. lia.
Qed.
Lemma inv_run l : inv (run true l).
Proof.
  apply run_ind.
  - unfold inv. cbn. repeat split; try lia; try discriminate. intros w c H. destruct w; discriminate.
  - intros s a H. cases_of_do s a; try (apply inv_swap; assumption).
    + apply inv_spawn; assumption.
    + unfold close_child. destruct (nth_error (children s) w) as [[k [|] t]|] eqn:E; try exact H.
      destruct (close_lists w s) as [[[p q] g] r].
      apply (inv_same s _ H); try reflexivity; [|left; exact Heqo]. intros w' c'. cbn [children]. rewrite nth_set by (eapply some_lt; exact E).
      destruct (w' =? w) eqn:Ew; intros Hc.
      * apply Nat.eqb_eq in Ew. subst. injection Hc as <-. eexists. split; [exact E|]. split; reflexivity.
      * exists c'. auto.
    + unfold reload_voltages. destruct (nth_error (children s) w) as [[[| | | |] [|] [t|]]|]; try exact H.
      destruct o; [exact H| |]; apply (inv_same s _ H); try reflexivity; eauto; intros w' c' Hc; exists c'; auto.
    + unfold reload_state. destruct (nth_error (children s) w) as [[[| | | |] [|] [t|]]|] eqn:E; try exact H. destruct o; [exact H| |].
      * apply (inv_loaded s w t None H E). left. reflexivity.
      * assert (K := inv_loaded s w t (Some w) H E (or_intror eq_refl)).
        apply (inv_same _ _ K); try reflexivity; [intros w' c' Hc; exists c'; auto|right; split; reflexivity].
    + unfold worker_step. destruct (main s) as [t|] eqn:Em; [|exact H].
      destruct (work s), b; apply (inv_same s _ H); try reflexivity; try exact Em; try (intros w' c' Hc; exists c'; auto); right; split; reflexivity.
Qed.

(** What the worker does, told at the time. *)
Fixpoint told (l : list event) : Prop :=
  match l with
  | [] => True
  | (Checked t | Iterated t | Appended t) :: b => t = taken_over b /\ told b
  | _ :: b => told b
  end.
Lemma told_run l : told (log (run true l)).
Proof.
  induction l as [|a l IH] using rev_ind; [exact I|]. rewrite run_snoc. pose proof (inv_run l) as (H1 & _). set (s := run true l) in *. clearbody s.
  cases_of_do s a.
  all: try (unfold swap; destruct (nth_error (children s) v) as [[? ? [t|]]|]; exact IH).
  - exact IH.
  - unfold close_child. destruct (nth_error (children s) w) as [[k [|] t]|] eqn:E; try exact IH.
    destruct (close_lists w s) as [[[p q] g] r]. exact IH.
  - unfold reload_voltages. destruct (nth_error (children s) w) as [[[| | | |] [|] [t|]]|]; try exact IH. destruct o; exact IH.
  - unfold reload_state. destruct (nth_error (children s) w) as [[[| | | |] [|] [t|]]|]; try exact IH. destruct o; exact IH.
  - unfold worker_step. rewrite H1. destruct (work s), b; cbn; auto.
Qed.
Lemma told_split a e b : told (a ++ e :: b) -> told (e :: b).
Proof. induction a as [|x a IH]; [auto|]. cbn [app]. intros H. apply IH. destruct x; cbn in H; tauto. Qed.

(** The order of the worker. *)
Fixpoint newest (l : list event) : option event :=
  match l with [] => None | (Checked t) :: _ => Some (Checked t) | Iterated t :: _ => Some (Iterated t) | Appended t :: _ => Some (Appended t) | _ :: b => newest b end.
Fixpoint ordered (l : list event) : Prop :=
  match l with
  | [] => True
  | Appended _ :: b => (exists t, newest b = Some (Iterated t)) /\ ordered b
  | Iterated _ :: b => (exists t, newest b = Some (Checked t)) /\ ordered b
  | _ :: b => ordered b
  end.
Definition place (k : worker) (l : list event) : Prop :=
  match k with Idle => True | ToIterate => exists t, newest l = Some (Checked t) | ToAppend => exists t, newest l = Some (Iterated t) end.
Lemma ordered_run g l : let s := run g l in ordered (log s) /\ place (work s) (log s).
Proof.
  apply (run_ind g (fun s => ordered (log s) /\ place (work s) (log s))).
  - split; exact I.
  - intros s a [H1 H2]. cases_of_do s a.
    all: try (unfold swap; destruct (nth_error (children s) v) as [[? ? [t|]]|]; split; assumption).
    + split; assumption.
    + unfold close_child. destruct (nth_error (children s) w) as [[k [|] t]|] eqn:E; try (split; assumption).
      destruct (close_lists w s) as [[[p q] g'] r]. split; assumption.
    + unfold reload_voltages. destruct (nth_error (children s) w) as [[[| | | |] [|] [t|]]|]; try (split; assumption). destruct o; split; assumption.
    + unfold reload_state. destruct (nth_error (children s) w) as [[[| | | |] [|] [t|]]|]; try (split; assumption). destruct o; split; assumption.
    + unfold worker_step. destruct (main s) as [t|]; [|split; assumption]. destruct (work s) eqn:W, b; cbn in *; rewrite ?W; try (split; [auto|]; cbn; eauto; fail).
Qed.
Lemma ordered_split a e b : ordered (a ++ e :: b) -> ordered (e :: b).
Proof. induction a as [|x a IH]; [auto|]. cbn [app]. intros H. apply IH. destruct x; cbn in H; tauto. Qed.

(** Without an autotuner. *)
Definition none_inv (s : state) : Prop :=
  main s = None /\ swap_due s = None /\ (forall w c, nth_error (children s) w = Some c -> c_tuner c = None) /\ forall e, In e (log s) -> exists w, e = Opened w.
Lemma none_run l : none_inv (run false l).
Proof.
  apply run_ind.
  - unfold none_inv. cbn. repeat split; [|tauto]. intros w c H. destruct w; discriminate.
  - intros s a (H1 & H2 & H3 & H4). cases_of_do s a; try congruence.
    + unfold spawn, none_inv. cbn. rewrite H1. repeat split; try assumption.
      * intros w c Hc. apply nth_app_cases in Hc as [[_ Hc]|[_ ->]]; [apply (H3 w c Hc)|]. destruct k; reflexivity.
      * intros e [<-|He]; [eauto|auto].
    + unfold close_child. destruct (nth_error (children s) w) as [[k [|] t]|] eqn:E; try (repeat split; assumption).
      destruct (close_lists w s) as [[[p q] g] r]. unfold none_inv. cbn. repeat split; try assumption.
      intros v c. rewrite nth_set by (eapply some_lt; exact E). destruct (v =? w); [|apply H3]. intros Hc. injection Hc as <-. apply (H3 w _ E).
    + unfold reload_voltages. destruct (nth_error (children s) w) as [[[| | | |] [|] [t|]]|] eqn:E; try (repeat split; assumption). apply H3 in E. discriminate.
    + unfold reload_state. destruct (nth_error (children s) w) as [[[| | | |] [|] [t|]]|] eqn:E; try (repeat split; assumption). apply H3 in E. discriminate.
    + unfold worker_step. rewrite H1. repeat split; assumption.
Qed.

(** Other windows have no autotuner. *)
Lemma other_none l w c : nth_error (children (run true l)) w = Some c -> c_kind c <> Reload -> c_tuner c = None.
Proof.
  revert w c. apply (run_ind true (fun s => forall w c, nth_error (children s) w = Some c -> c_kind c <> Reload -> c_tuner c = None)).
  - intros w c H. destruct w; discriminate.
  - intros s a H. cases_of_do s a.
    all: try (unfold swap; destruct (nth_error (children s) v) as [[? ? [t|]]|]; exact H).
    + intros w c Hc. apply nth_app_cases in Hc as [[_ Hc]|[_ ->]]; [apply (H w c Hc)|]. destruct k; cbn; intros K; try reflexivity. contradiction.
    + unfold close_child. destruct (nth_error (children s) w) as [[k [|] t]|] eqn:E; try exact H. destruct (close_lists w s) as [[[p q] g] r].
      intros v c. cbn [children]. rewrite nth_set by (eapply some_lt; exact E). destruct (v =? w); [|apply H]. intros Hc. injection Hc as <-. apply (H w _ E).
    + unfold reload_voltages. destruct (nth_error (children s) w) as [[[| | | |] [|] [t|]]|]; try exact H. destruct o; exact H.
    + unfold reload_state. destruct (nth_error (children s) w) as [[[| | | |] [|] [t|]]|] eqn:E; try exact H. pose proof (some_lt _ _ _ E) as L.
      destruct o; [exact H| |]; intros v c; cbn [with_log with_child children]; rewrite nth_set by exact L; (destruct (v =? w); [|apply H]); intros Hc; injection Hc as <-; cbn; contradiction.
    + unfold worker_step. destruct (main s); [|exact H]. destruct (work s), b; exact H.
Qed.
