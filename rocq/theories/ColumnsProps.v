(** C105. *)
From Coq Require Import String Ascii List Bool Arith Lia.
From Verif Require Import ColumnsModel ColumnsSpec ColumnsProofs.
Import ListNotations.
Local Open Scope string_scope.
Local Open Scope list_scope.

(** No column overwrites another one, apart from gates, parameters and the index
    that carry the same name. *)
Theorem column_names_distinct : forall c c',
  plain_column c -> plain_column c' -> c <> c' -> col_name c = col_name c' -> bare c /\ bare c'.
Proof.
  intros c c' H H' Hn E. destruct (col_name_injective c c' H H' E) as [->|HB]; [contradiction Hn; reflexivity|exact HB].
Qed.
(** With the separator inside a name they do. *)
Example column_names_refuted_ex :
  col_name (CVar "a#b") = "a#b#var" /\ col_name (CCov "p" "g#h" "k") = col_name (CCov "p" "g" "h#k") /\
  CCov "p" "g#h" "k" <> CCov "p" "g" "h#k".
Proof. repeat split. intros H; inversion H. Qed.
Example column_names_ex : plain_column (CCov "parameter_time_load" "gate A" "gate B") /\ plain_column (CVar "parameter_time_load").
Proof. cbn. unfold plain; cbn. intuition discriminate. Qed.

(** What [get_gradients] returns: the gradients of all parameters that end with
    the name, and covariances with a gate that starts with "grad". *)
Theorem get_gradients_exact : forall p cols g n,
  plain p -> Forall plain_column cols ->
  (In (g, n) (get_gradients p (map col_name cols)) <->
   wordlike g /\ exists c, In c cols /\ n = col_name c /\
     ((exists q, c = CGrad q g /\ ends_with p q) \/
      (exists q g2, c = CCov q g g2 /\ ends_with p q /\ starts_with "grad" g2))).
Proof.
  intros p cols g n Hp Hc. rewrite Forall_forall in Hc. unfold get_gradients. rewrite matching_in, in_map_iff. split.
  - intros [[c [<- Hin]] Hs]. apply grad_search in Hs; [|exact Hp|apply Hc; exact Hin]. destruct Hs as [Hw Hk].
    split; [exact Hw|]. exists c. split; [exact Hin|]. split; [reflexivity|exact Hk].
  - intros [Hw [c [Hin [-> Hk]]]]. split; [exists c; split; [reflexivity|exact Hin]|].
    apply grad_search; [exact Hp|apply Hc; exact Hin|]. split; assumption.
Qed.

(** It is the gradient of the parameter if no other parameter ends with its name,
    gates consist of word characters and none starts with "grad". *)
Theorem get_gradients_right : forall p cols g n,
  plain p -> Forall plain_column cols ->
  (forall q g', In (CGrad q g') cols -> ends_with p q -> q = p) ->
  (forall q g', In (CGrad q g') cols -> wordlike g') ->
  (forall q g1 g2, In (CCov q g1 g2) cols -> ~ starts_with "grad" g2) ->
  (In (g, n) (get_gradients p (map col_name cols)) <-> In (CGrad p g) cols /\ n = col_name (CGrad p g)).
Proof.
  intros p cols g n Hp Hc Hq Hw Hg. rewrite (get_gradients_exact p cols g n Hp Hc). split.
  - intros [_ [c [Hin [-> [[q [-> He]]|[q [g2 [-> [_ Hs]]]]]]]]].
    + pose proof (Hq q g Hin He). subst q. split; [exact Hin|reflexivity].
    + destruct (Hg _ _ _ Hin Hs).
  - intros [Hin ->]. split; [exact (Hw _ _ Hin)|]. exists (CGrad p g). split; [exact Hin|]. split; [reflexivity|].
    left. exists p. split; [reflexivity|]. exists "". reflexivity.
Qed.
Definition ex_columns : list column :=
  [CGate "A"; CGate "B"; CPar "tc"; CPar "load"; CVar "tc"; CVar "load"; CGrad "tc" "A"; CGrad "tc" "B"; CGrad "load" "A";
   CCov "tc" "A" "A"; CCov "tc" "A" "B"; CCov "tc" "B" "A"; CCov "tc" "B" "B"; CCov "load" "A" "A"; CIndex].
Example get_gradients_ex :
  get_gradients "tc" (map col_name ex_columns) = [("A", "tc#A#grad"); ("B", "tc#B#grad")] /\
  get_gradient_variances "tc" (map col_name ex_columns) = [("A", "tc#A#A#cov"); ("B", "tc#B#B#cov")].
Proof. split; reflexivity. Qed.

(** The search is not anchored: a parameter "x" gets the gradients of "max_x", under
    the same gate names; a gate "gradient" adds a covariance; a gate with other
    characters is not found. *)
Theorem get_gradients_refuted :
  get_gradients "x" (map col_name [CGrad "x" "A"; CGrad "max_x" "A"]) = [("A", "x#A#grad"); ("A", "max_x#A#grad")] /\
  get_gradients "x" (map col_name [CCov "x" "A" "gradient"]) = [("A", "x#A#gradient#cov")] /\
  get_gradients "x" (map col_name [CGrad "x" "A-1"]) = [].
Proof. repeat split. Qed.

(** The diagonal of the covariance. *)
Theorem get_gradient_variances_exact : forall p cols g n,
  plain p -> Forall plain_column cols ->
  (In (g, n) (get_gradient_variances p (map col_name cols)) <->
   wordlike g /\ exists q, ends_with p q /\ In (CCov q g g) cols /\ n = col_name (CCov q g g)).
Proof.
  intros p cols g n Hp Hc. rewrite Forall_forall in Hc. unfold get_gradient_variances. rewrite matching_in, in_map_iff. split.
  - intros [[c [<- Hin]] Hs]. apply var_search in Hs; [|exact Hp|apply Hc; exact Hin]. destruct Hs as [Hw [q [-> He]]].
    split; [exact Hw|]. exists q. split; [exact He|]. split; [exact Hin|reflexivity].
  - intros [Hw [q [He [Hin ->]]]]. split; [eexists; split; [reflexivity|exact Hin]|].
    apply var_search; [exact Hp|apply Hc; exact Hin|]. split; [exact Hw|]. exists q. split; [reflexivity|exact He].
Qed.

(** [get_gradient_covariances] never returns a number: it raises if there is no
    covariance, and otherwise every column is empty, with a column for each
    covariance of a parameter that ends with the name, labelled by both gates. *)
Theorem get_gradient_covariances_refuted : forall p cols,
  plain p -> Forall plain_column cols ->
  let found g1 g2 := wordlike g1 /\ wordlike g2 /\ exists q, ends_with p q /\ In (CCov q g1 g2) cols in
  (get_gradient_covariances p (map col_name cols) = None <-> forall g1 g2, ~ found g1 g2) /\
  forall out, get_gradient_covariances p (map col_name cols) = Some out ->
  forall l v, In (l, v) out <-> v = None /\ exists g1 g2, l = LTup [(g1, g2)] /\ found g1 g2.
Proof.
  intros p cols Hp Hc found. rewrite Forall_forall in Hc.
  assert (M : forall g1 g2, (exists n, In ((g1, g2), n) (matching (cov_regex p) (map col_name cols))) <-> found g1 g2).
  { intros g1 g2. unfold found. split.
    - intros [n H]. apply matching_in in H. destruct H as [H Hs]. apply in_map_iff in H. destruct H as [c [<- Hin]].
      apply cov_search in Hs; [|exact Hp|apply Hc; exact Hin]. destruct Hs as [H1 [H2 [q [-> He]]]]. eauto.
    - intros [H1 [H2 [q [He Hin]]]]. exists (col_name (CCov q g1 g2)). apply matching_in. split; [apply in_map; exact Hin|].
      apply cov_search; [exact Hp|apply Hc; exact Hin|]. eauto. }
  unfold get_gradient_covariances. destruct (matching (cov_regex p) (map col_name cols)) as [|x l].
  - split; [|discriminate]. split; [|reflexivity]. intros _ g1 g2 H. apply M in H. destruct H as [n []].
  - split.
    + split; [discriminate|]. intros H. exfalso. destruct x as [[g1 g2] n]. apply (H g1 g2), M. exists n. left. reflexivity.
    + intros out H. assert (Ho : out = reindex (map (fun c : (string * string) * string => LTup [fst c]) (x :: l)) (map snd (x :: l))) by congruence.
      subst out. clear H. intros lb v. unfold reindex. rewrite in_map_iff. split.
      * intros [lb' [E Hl]]. apply in_map_iff in Hl. destruct Hl as [[[g1 g2] n] [<- Hn]]. cbn [fst] in E. injection E as <- <-.
        split; [reflexivity|]. exists g1, g2. split; [reflexivity|]. apply M. eauto.
      * intros [-> [g1 [g2 [-> Hf]]]]. apply M in Hf. destruct Hf as [n Hn]. exists (LTup [(g1, g2)]). split; [reflexivity|].
        apply in_map_iff. exists ((g1, g2), n). split; [reflexivity|exact Hn].
Qed.
Example get_gradient_covariances_ex :
  get_gradient_covariances "load" (map col_name ex_columns) = Some [(LTup [("A", "A")], None)] /\
  get_gradient_covariances "x" (map col_name ex_columns) = None.
Proof. split; reflexivity. Qed.

Print Assumptions column_names_distinct.
Print Assumptions get_gradients_exact.
Print Assumptions get_gradients_right.
Print Assumptions get_gradients_refuted.
Print Assumptions get_gradient_variances_exact.
Print Assumptions get_gradient_covariances_refuted.
