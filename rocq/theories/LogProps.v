(** Messages in the main window. *)
From Coq Require Import String List Bool Arith Lia.
From Verif Require Import PyExn LogModel LogSpec.
Import ListNotations.
Local Open Scope string_scope.
Local Open Scope nat_scope.
Local Open Scope list_scope.

Lemma name_eqb_eq a b : name_eqb a b = true <-> a = b.
Proof.
  revert b. induction a as [|x a IH]; intros [|y b]; cbn; split; try discriminate; auto.
  - intros H. apply andb_prop in H as [H1 H2]. apply String.eqb_eq in H1. apply IH in H2. congruence.
  - intros H. injection H as -> ->. rewrite String.eqb_refl. apply IH. reflexivity.
Qed.
Lemma name_eqb_neq a b : a <> b -> name_eqb a b = false.
Proof. intros H. destruct (name_eqb a b) eqn:E; [|reflexivity]. apply name_eqb_eq in E. contradiction. Qed.
Lemma put_same n l st : put n l st n = l.
Proof. unfold put. rewrite (proj2 (name_eqb_eq n n) eq_refl). reflexivity. Qed.
Lemma put_other n l st m : m <> n -> put n l st m = st m.
Proof. intros H. unfold put. rewrite name_eqb_neq by congruence. reflexivity. Qed.
Lemma longer a (n : name) m : List.length m <= List.length n -> m <> a :: n.
Proof. intros H ->. cbn in H. lia. Qed.
Lemma reaches_length st n m : reaches st n m -> List.length m <= List.length n.
Proof. induction 1; cbn; lia. Qed.
Lemma reaches_ext st st' n m : (forall k, propagate (st' k) = propagate (st k)) -> reaches st n m -> reaches st' n m.
Proof. intros H. induction 1 as [|a n m P R IH]; [constructor|]. apply reach_parent; [rewrite H; exact P|exact IH]. Qed.

Lemma has_handlers_iff st n : has_handlers st n = true <-> exists m h, reaches st n m /\ In h (handlers (st m)).
Proof.
  induction n as [|a n IH]; cbn [has_handlers].
  - destruct (handlers (st [])) as [|h hs] eqn:E.
    + split; [destruct (propagate (st [])); discriminate|]. intros (m & h & R & Hh). inversion R; subst. rewrite E in Hh. destruct Hh.
    + split; [|reflexivity]. intros _. exists [], h. split; [constructor|rewrite E; left; reflexivity].
  - destruct (handlers (st (a :: n))) as [|h hs] eqn:E.
    + destruct (propagate (st (a :: n))) eqn:P.
      * rewrite IH. split; intros (m & h & R & Hh).
        -- exists m, h. split; [apply reach_parent; assumption|exact Hh].
        -- inversion R; subst; [rewrite E in Hh; destruct Hh|]. exists m, h. auto.
      * split; [discriminate|]. intros (m & h & R & Hh). inversion R; subst; [rewrite E in Hh; destruct Hh|congruence].
    + split; [|reflexivity]. intros _. exists (a :: n), h. split; [constructor|rewrite E; left; reflexivity].
Qed.
Lemma called_none st n l : has_handlers st n = false -> called st n l = [].
Proof.
  induction n as [|a n IH]; cbn [has_handlers called].
  - destruct (handlers (st [])); [|discriminate]. intros _. cbn. destruct (propagate (st [])); reflexivity.
  - destruct (handlers (st (a :: n))); [|discriminate]. cbn. destruct (propagate (st (a :: n))); auto.
Qed.
Lemma above_same st st' a n : others_same st st' (a :: n) -> forall k, List.length k <= List.length n -> st' k = st k.
Proof. intros H k Hk. apply H. apply longer. exact Hk. Qed.
Lemma has_handlers_same st st' n : (forall k, List.length k <= List.length n -> st' k = st k) -> has_handlers st' n = has_handlers st n.
Proof.
  induction n as [|a n IH]; intros H; cbn [has_handlers]; rewrite H by (cbn; lia); [reflexivity|]. destruct (handlers (st (a :: n))); [|reflexivity].
  rewrite IH; [reflexivity|]. intros k Hk. apply H. cbn. lia.
Qed.
Lemma called_same st st' n l : (forall k, List.length k <= List.length n -> st' k = st k) -> called st' n l = called st n l.
Proof.
  induction n as [|a n IH]; intros H; cbn [called]; rewrite H by (cbn; lia); [reflexivity|]. rewrite IH; [reflexivity|]. intros k Hk. apply H. cbn. lia.
Qed.
Lemma inherits_iff st n : inherits st n <-> match n with [] => False | _ :: p => propagate (st n) = true /\ has_handlers st p = true end.
Proof.
  unfold inherits. destruct n as [|a n].
  - split; [|intros []]. intros (m & h & Hm & R & _). inversion R; subst. contradiction.
  - rewrite has_handlers_iff. split.
    + intros (m & h & Hm & R & Hh). inversion R; subst; [contradiction|]. split; [assumption|]. exists m, h. auto.
    + intros (P & m & h & R & Hh). exists m, h. split; [apply longer, (reaches_length st), R|]. split; [apply reach_parent; assumption|exact Hh].
Qed.
(** The loop that removes handlers. *)
Lemma clear_spec n st hs : handlers (st n) = hs ->
  exists st', clear hs n st = (st', if has_handlers st' n then Raise stop_iteration else Ok tt) /\ others_same st st' n /\
    st' n = mk_logger [] (level (st n)) (propagate (st n)).
Proof.
  revert st. induction hs as [|h hs IH]; intros st E; cbn [clear].
  - exists st. split; [reflexivity|]. split; [intros m _; reflexivity|]. rewrite <- E. destruct (st n); reflexivity.
  - destruct (IH (put n (mk_logger hs (level (st n)) (propagate (st n))) st)) as (st' & E1 & E2 & E3); [rewrite put_same; reflexivity|].
    exists st'. split; [exact E1|]. split.
    + intros m Hm. rewrite (E2 m Hm), put_other by exact Hm. reflexivity.
    + rewrite E3, put_same. reflexivity.
Qed.
Lemma has_handlers_emptied st st' n : others_same st st' n -> st' n = mk_logger [] (level (st n)) (propagate (st n)) ->
  (has_handlers st' n = true <-> inherits st n).
Proof.
  intros O E. rewrite inherits_iff. destruct n as [|a n].
  - cbn [has_handlers]. rewrite E. cbn. destruct (propagate (st [])); split; discriminate || intros [].
  - cbn [has_handlers]. rewrite E. cbn [handlers propagate]. rewrite (has_handlers_same st st' n) by (apply (above_same st st' a n O)).
    destruct (propagate (st (a :: n))); split; [auto|intros [_ H]; exact H|discriminate|intros [H _]; exact H].
Qed.

(** C125: configure_logging raises StopIteration exactly if a logger above has a
    handler; the logger has lost its own handlers then, so that its messages do
    not appear in the window.  Otherwise the window alone receives every message
    of the logger that has the level. *)
Theorem configure_logging (n : name) (st : loggers) (w : window) : let '((st', w'), r) := configure n (st, w) in
  others_same st st' n /\ w_connected w' = w_connected w ++ [n] /\ w_index w' = w_index w /\
  level (st' n) = level (st n) /\ propagate (st' n) = propagate (st n) /\
  (inherits st n -> r = Raise stop_iteration /\ handlers (st' n) = []) /\
  (~ inherits st n -> r = Ok tt /\ handlers (st' n) = [mk_handler (Window (w_id w)) 0] /\
     forall l, message st' n l = if effective st n <=? l then [Window (w_id w)] else []).
Proof.
  unfold configure. destruct (clear_spec n st _ eq_refl) as (st1 & E & O & E1). rewrite E. pose proof (has_handlers_emptied st st1 n O E1) as HI.
  destruct (has_handlers st1 n) eqn:HH.
  - rewrite E1. cbn [w_connected w_index level propagate handlers]. split; [exact O|]. repeat (split; [reflexivity|]).
    split; [intros _; split; reflexivity|]. intros C. exfalso. apply C, HI. reflexivity.
  - set (st' := put n _ st1). cbn [w_connected w_index]. assert (O' : others_same st st' n) by (intros m Hm; unfold st'; rewrite put_other by exact Hm; apply O, Hm).
    assert (E' : st' n = mk_logger [mk_handler (Window (w_id w)) 0] (level (st n)) (propagate (st n))) by (unfold st'; rewrite put_same, E1; reflexivity).
    rewrite E'. split; [exact O'|]. repeat (split; [reflexivity|]). split.
    { intros C. exfalso. apply HI in C. discriminate. }
    intros _. split; [reflexivity|]. split; [reflexivity|]. intros l. unfold message.
    assert (EL : effective st' n = effective st n).
    { assert (G : forall m, (forall k, level (st' k) = level (st k)) -> effective st' m = effective st m).
      { induction m as [|a m IH]; intros K; cbn [effective]; rewrite K; [reflexivity|]. rewrite (IH K). reflexivity. }
      apply G. intros k. destruct (list_eq_dec string_dec k n) as [->|Hk]; [rewrite E'; reflexivity|rewrite O' by exact Hk; reflexivity]. }
    rewrite EL. destruct (effective st n <=? l); [|reflexivity].
    assert (C : called st1 n l = []) by (apply called_none, HH).
    destruct n as [|a p]; cbn [called] in *; rewrite E'; cbn [handlers filter h_level Nat.leb map h_target propagate app] in *; rewrite E1 in C; cbn [handlers propagate filter map app] in C.
    + destruct (propagate (st [])); reflexivity.
    + rewrite (called_same st1 st' p l), C; [reflexivity|]. intros k Hk. unfold st'. apply put_other, longer, Hk.
Qed.
Print Assumptions configure_logging.

(** A logger with two handlers of its own below a root without any; and one
    below a root with a handler. *)
Definition bare : loggers := fun _ => mk_logger [] 0 true.
Definition busy : loggers := put ["qtune"] (mk_logger [mk_handler (Elsewhere 1) 0; mk_handler (Elsewhere 2) 30] 10 true) bare.
Definition basic : loggers := put [] (mk_logger [mk_handler (Elsewhere 0) 0] 30 true) bare.
Example configure_example :
  message (fst (fst (configure ["qtune"] (busy, new_window 7)))) ["qtune"] 20 = [Window 7] /\ message busy ["qtune"] 20 = [Elsewhere 1] /\
  ~ inherits busy ["qtune"] /\ inherits basic ["qtune"] /\ snd (configure ["qtune"] (basic, new_window 7)) = Raise stop_iteration.
Proof.
  split; [reflexivity|]. split; [reflexivity|]. split; [rewrite inherits_iff; cbn; intros [_ H]; discriminate|].
  split; [rewrite inherits_iff; split; reflexivity|reflexivity].
Qed.

(** The window receives the messages of a logger below as well, next to the
    handlers of that logger whose level they have. *)
Theorem child_logger_messages (n : name) (a : string) (st : loggers) (w : window) : ~ inherits st n -> propagate (st (a :: n)) = true ->
  let st' := fst (fst (configure n (st, w))) in
  forall l t, In t (message st' (a :: n) l) <->
    effective st (a :: n) <= l /\ (t = Window (w_id w) \/ exists h, In h (handlers (st (a :: n))) /\ h_target h = t /\ h_level h <= l).
Proof.
  intros NI P st' l t. pose proof (configure_logging n st w) as C. unfold st'. clear st'. destruct (configure n (st, w)) as [[st' w'] r]. cbn [fst].
  destruct C as (O & _ & _ & L & _ & _ & C). destruct (C NI) as (_ & Hh & M). clear C.
  assert (EL : forall m, effective st' m = effective st m).
  { assert (K : forall k, level (st' k) = level (st k)) by (intros k; destruct (list_eq_dec string_dec k n) as [->|Hk]; [exact L|rewrite O by exact Hk; reflexivity]).
    induction m as [|b m IH]; cbn [effective]; rewrite K; [reflexivity|]. rewrite IH. reflexivity. }
  assert (EC : called st' n l = [Window (w_id w)]).
  { specialize (M (Nat.max l (effective st n))). rewrite (proj2 (Nat.leb_le _ _) (Nat.le_max_r _ _)) in M. unfold message in M.
    rewrite EL, (proj2 (Nat.leb_le _ _) (Nat.le_max_r _ _)) in M.
    assert (G : forall st l1 l2 n, l1 <= l2 -> List.length (called st n l1) <= List.length (called st n l2)).
    { clear. intros st l1 l2 n H.
      assert (F : forall hs, List.length (filter (fun h => h_level h <=? l1) hs) <= List.length (filter (fun h => h_level h <=? l2) hs)).
      { induction hs as [|h hs IH]; [reflexivity|]. cbn [filter]. destruct (Nat.leb_spec (h_level h) l1); destruct (Nat.leb_spec (h_level h) l2); cbn [List.length]; lia. }
      induction n as [|b n IH]; cbn [called]; rewrite !app_length, !map_length.
      - destruct (propagate (st [])); pose proof (F (handlers (st []))); cbn [List.length]; lia.
      - destruct (propagate (st (b :: n))); pose proof (F (handlers (st (b :: n)))); cbn [List.length] in *; lia. }
    pose proof (G st' l (Nat.max l (effective st n)) n (Nat.le_max_l _ _)) as G1. rewrite M in G1.
    assert (A : exists r, called st' n l = Window (w_id w) :: r) by (destruct n; cbn [called]; rewrite Hh; cbn [filter h_level Nat.leb map h_target app]; eexists; reflexivity).
    destruct A as [r' A]. rewrite A in *. cbn [List.length] in G1. destruct r'; [reflexivity|cbn [List.length] in G1; lia]. }
  assert (NN : a :: n <> n) by (intros E; apply (f_equal (@List.length _)) in E; cbn in E; lia).
  unfold message. rewrite EL. destruct (Nat.leb_spec (effective st (a :: n)) l) as [Hl|Hl].
  - cbn [called]. rewrite (O (a :: n) NN), P, EC. rewrite in_app_iff, in_map_iff. split.
    + intros [(h & <- & Hf)|[<-|[]]]; (split; [exact Hl|]); [right|left; reflexivity].
      apply filter_In in Hf as [Hi Hb]. exists h. split; [exact Hi|]. split; [reflexivity|]. apply Nat.leb_le, Hb.
    + intros [_ [->|(h & Hi & <- & Hb)]]; [right; left; reflexivity|left]. exists h. split; [reflexivity|]. apply filter_In. split; [exact Hi|]. apply Nat.leb_le, Hb.
  - split; [intros []|intros [H _]; lia].
Qed.
Print Assumptions child_logger_messages.
Definition below : loggers := put ["autotuner"; "qtune"] (mk_logger [mk_handler (Elsewhere 1) 30] 0 true) bare.
Example child_logger_example : let st' := fst (fst (configure ["qtune"] (below, new_window 7))) in
  message st' ["autotuner"; "qtune"] 20 = [Window 7] /\ message st' ["autotuner"; "qtune"] 30 = [Elsewhere 1; Window 7].
Proof. split; reflexivity. Qed.

(** The level chosen in a window. *)
Lemma fold_levels ns l st : let st' := fold_left (fun st n => put n (mk_logger (handlers (st n)) l (propagate (st n))) st) ns st in
  forall m, st' m = if in_dec (list_eq_dec string_dec) m ns then mk_logger (handlers (st m)) l (propagate (st m)) else st m.
Proof.
  revert st. induction ns as [|n ns IH]; intros st; cbn [fold_left]; cbv zeta; intros m; [reflexivity|]. rewrite IH.
  destruct (list_eq_dec string_dec m n) as [->|Hm].
  - rewrite put_same. cbn [handlers propagate]. destruct (in_dec (list_eq_dec string_dec) n ns); destruct (in_dec (list_eq_dec string_dec) n (n :: ns)) as [|X]; try reflexivity; exfalso; apply X; left; reflexivity.
  - rewrite put_other by exact Hm. destruct (in_dec (list_eq_dec string_dec) m ns) as [a|a]; destruct (in_dec (list_eq_dec string_dec) m (n :: ns)) as [b|b]; try reflexivity; exfalso.
    + apply b. right. exact a.
    + destruct b as [b|b]; [congruence|contradiction].
Qed.
Theorem level_chosen i (st : loggers) (w : window) : let '(st', w') := choose i (st, w) in
  w_index w' = i /\ w_connected w' = w_connected w /\
  (forall n, handlers (st' n) = handlers (st n) /\ propagate (st' n) = propagate (st n)) /\
  (i <> w_index w -> forall n, In n (w_connected w) -> level (st' n) = nth i levels 0) /\
  (forall n, ~ In n (w_connected w) \/ i = w_index w -> level (st' n) = level (st n)).
Proof.
  unfold choose. destruct (w_index w =? i) eqn:E.
  - apply Nat.eqb_eq in E. repeat split; auto. intros C. congruence.
  - apply Nat.eqb_neq in E. cbn [w_index w_connected]. pose proof (fold_levels (w_connected w) (nth i levels 0) st) as F. cbv zeta in F.
    split; [reflexivity|]. split; [reflexivity|]. split; [|split].
    + intros n. rewrite F. destruct (in_dec (list_eq_dec string_dec) n (w_connected w)); split; reflexivity.
    + intros _ n Hn. rewrite F. destruct (in_dec (list_eq_dec string_dec) n (w_connected w)); [reflexivity|contradiction].
    + intros n H. rewrite F. destruct (in_dec (list_eq_dec string_dec) n (w_connected w)); [|reflexivity]. destruct H; [contradiction|congruence].
Qed.
Print Assumptions level_chosen.
Example chosen_example : let s := choose 2 (busy, mk_window 1 [["qtune"]; ["plotting"]] 5) in
  level (fst s ["qtune"]) = 30 /\ level (fst s ["plotting"]) = 30 /\ level (fst s ["other"]) = 0 /\
  level (fst (choose 5 (busy, mk_window 1 [["qtune"]] 5)) ["qtune"]) = 10.
Proof. repeat split; reflexivity. Qed.

(** The default window, if the root logger has no handler: both loggers have the
    level INFO, and the window receives each of their messages of that level or
    above once, and nothing else does. *)
Theorem default_gui_messages i (st : loggers) : handlers (st []) = [] ->
  let '((st', w), r) := setup_default_gui i st in
  r = Ok tt /\ nth_error levels (w_index w) = Some 20 /\
  (forall n, n = ["plotting"] \/ n = ["qtune"] -> forall l, message st' n l = if 20 <=? l then [Window i] else []) /\
  (forall n, n <> ["plotting"] -> n <> ["qtune"] -> st' n = st n).
Proof.
  intros H0. unfold setup_default_gui.
  assert (N : forall (st1 : loggers) a, handlers (st1 []) = [] -> ~ inherits st1 [a]).
  { intros st1 a K. rewrite inherits_iff. cbn. rewrite K. destruct (propagate (st1 [])); intros [_ C]; discriminate. }
  pose proof (configure_logging ["plotting"] st (new_window i)) as C1. destruct (configure ["plotting"] (st, new_window i)) as [[st1 w1] r1] eqn:E1.
  cbv beta iota in C1. destruct C1 as (O1 & W1 & I1 & L1 & P1 & _ & C1). destruct (C1 (N st "plotting" H0)) as (-> & HH1 & _).
  assert (H1 : handlers (st1 []) = []) by (rewrite O1 by discriminate; exact H0).
  pose proof (configure_logging ["qtune"] st1 w1) as C2. destruct (configure ["qtune"] (st1, w1)) as [[st2 w2] r2] eqn:E2.
  cbv beta iota in C2. destruct C2 as (O2 & W2 & I2 & L2 & P2 & _ & C2). destruct (C2 (N st1 "qtune" H1)) as (-> & HH2 & _).
  pose proof (level_chosen 3 st2 w2) as C3. destruct (choose 3 (st2, w2)) as [st3 w3] eqn:E3. cbv beta iota in C3. destruct C3 as (I3 & W3 & HP3 & L3 & S3).
  assert (ID : w_id w1 = i) by (unfold configure in E1; destruct (clear _ _ _) as [s [|]]; injection E1 as _ <-; reflexivity || discriminate).
  rewrite I2, I1 in L3. rewrite W2, W1 in L3, S3. cbn [new_window w_index w_connected app] in L3, S3, HH1. rewrite ID in HH2.
  split; [reflexivity|]. split; [rewrite I3; reflexivity|].
  assert (R : st3 [] = st []).
  { destruct (st3 []) as [h l p] eqn:E. pose proof (HP3 []) as [K1 K2]. assert (K3 : level (st3 []) = level (st2 [])) by (apply S3; left; intros [C|[C|[]]]; discriminate).
    rewrite E in K1, K2, K3. cbn in K1, K2, K3. rewrite O2, O1 in K1, K2, K3 by discriminate. rewrite K1, K2, K3. destruct (st []); reflexivity. }
  split.
  - assert (G : forall a, handlers (st3 [a]) = [mk_handler (Window i) 0] -> level (st3 [a]) = 20 -> forall l, message st3 [a] l = if 20 <=? l then [Window i] else []).
    { intros a Ha La l. unfold message. cbn [effective called]. rewrite La, Ha. cbn [filter h_level Nat.leb map h_target app]. rewrite R, H0. cbn [filter map app].
      destruct (propagate (st3 [a])), (propagate (st [])); reflexivity. }
    intros n Hn; destruct Hn; subst n; apply G.
    + rewrite (proj1 (HP3 ["plotting"])), O2 by discriminate. exact HH1.
    + apply L3; [discriminate|left; reflexivity].
    + rewrite (proj1 (HP3 ["qtune"])). exact HH2.
    + apply L3; [discriminate|right; left; reflexivity].
  - intros n N1 N2. destruct (st3 n) as [h l p] eqn:E. pose proof (HP3 n) as [K1 K2].
    assert (K3 : level (st3 n) = level (st2 n)) by (apply S3; left; intros [C|[C|[]]]; congruence).
    rewrite E in K1, K2, K3. cbn in K1, K2, K3. rewrite O2, O1 in K1, K2, K3 by assumption. rewrite K1, K2, K3. destruct (st n); reflexivity.
Qed.
Print Assumptions default_gui_messages.
Example default_gui_example : let s := fst (fst (setup_default_gui 4 busy)) in
  message s ["qtune"] 20 = [Window 4] /\ message s ["qtune"] 10 = [] /\ message s ["plotting"] 30 = [Window 4] /\
  message s ["parameter"; "qtune"] 40 = [Window 4] /\ message s [] 40 = [].
Proof. repeat split; reflexivity. Qed.

(** After logging.basicConfig the default window cannot be set up: the first
    logger has lost its handlers, the second one is as before. *)
Theorem default_gui_refuted : exists st, forall i, let '((st', w), r) := setup_default_gui i st in
  r = Raise stop_iteration /\ handlers (st ["plotting"]) <> [] /\ handlers (st' ["plotting"]) = [] /\ st' ["qtune"] = st ["qtune"] /\ w_index w = 5.
Proof.
  exists (put ["plotting"] (mk_logger [mk_handler (Elsewhere 3) 0] 0 true) basic). intros i. cbn. repeat split; discriminate.
Qed.
Print Assumptions default_gui_refuted.
(** A second window takes the messages of the first one, which still changes the
    levels; what the new one shows is not the level in force. *)
Theorem second_window_refuted : exists st, let '((st1, w1), _) := setup_default_gui 1 st in
  let '((st2, w2), _) := configure ["qtune"] (st1, new_window 2) in
  message st2 ["qtune"] 20 = [Window 2] /\ nth (w_index w2) levels 99 = 0 /\ effective st2 ["qtune"] = 20 /\
  message (fst (choose 0 (st2, w1))) ["qtune"] 20 = [].
Proof. exists bare. repeat split; reflexivity. Qed.
Print Assumptions second_window_refuted.
(** The last choice, NOTSET, shows less than DEBUG: the level of the root logger
    counts then. *)
Theorem lowest_level_refuted : exists st, let '((st', w), _) := setup_default_gui 1 st in
  let debug := fst (choose 4 (st', w)) in let notset := fst (choose 5 (st', w)) in
  message debug ["qtune"] 20 = [Window 1] /\ message notset ["qtune"] 20 = [] /\ message notset ["qtune"] 30 = [Window 1].
Proof. exists (put [] (mk_logger [] 30 true) bare). repeat split; reflexivity. Qed.
Print Assumptions lowest_level_refuted.
(** No argument [logger] serves both the main window and those opened from it. *)
Theorem logger_argument_refuted : forall a, main_message a <> Ok tt \/ child_message a <> Ok tt.
Proof. intros [|]; [left|right]; discriminate. Qed.
Print Assumptions logger_argument_refuted.
Example logger_argument_example : main_message GivenName = Raise AttributeError /\ child_message GivenLogger = Raise TypeError.
Proof. split; reflexivity. Qed.
