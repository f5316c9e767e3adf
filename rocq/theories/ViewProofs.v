(** Lemmas for ViewProps.v. *)
From Coq Require Import String Ascii List Bool Arith ZArith Lia.
From Verif Require Import PyExn ViewModel ViewSpec.
Import ListNotations.
Local Open Scope string_scope.
Local Open Scope list_scope.

Lemma get_put {A} k k' (a : A) l : get k (put k' a l) = if String.eqb k k' then Some a else get k l.
Proof.
  induction l as [|[k1 b] l IH]; cbn.
  - reflexivity.
  - destruct (String.eqb_spec k' k1) as [->|E].
    + cbn. destruct (String.eqb k k1); reflexivity.
    + cbn. rewrite IH. destruct (String.eqb_spec k k1) as [->|E1]; [|reflexivity].
      destruct (String.eqb_spec k1 k'); [congruence|reflexivity].
Qed.
Lemma get_drop {A} k k' (l : dict A) : get k (drop k' l) = if String.eqb k k' then None else get k l.
Proof.
  induction l as [|[k1 b] l IH]; cbn; [destruct (String.eqb k k'); reflexivity|].
  destruct (String.eqb_spec k' k1) as [->|E].
  - rewrite IH. destruct (String.eqb k k1); reflexivity.
  - cbn. rewrite IH. destruct (String.eqb_spec k k1) as [->|E1]; [|reflexivity]. destruct (String.eqb_spec k1 k'); [congruence|reflexivity].
Qed.
(** Only the variable at the beginning matters. *)
Lemma meval_var ws ws' x t : begins x t -> get x ws' = get x ws -> meval ws' t = meval ws t.
Proof. induction t; cbn; intros H E; [subst; rewrite E; reflexivity|rewrite IHt by assumption; reflexivity..]. Qed.
Lemma begins_one x y t : begins x t -> begins y t -> x = y.
Proof. induction t; cbn; intros H1 H2; [congruence|auto..]. Qed.
Lemma begins_ex t : exists x, begins x t.
Proof. induction t as [x|t [y IH] f|t [y IH] i|t [y IH] f]; [exists x; reflexivity|exists y; exact IH..]. Qed.
(** A text about a call needs only the field. *)
Definition entry (ws : dict mval) (id : string) : res mval := meval ws (Dot (Var base_path) id).
Lemma meval_dot ws t f : meval ws (Dot t f) = bind (meval ws t) (fun v => field_of v f).
Proof. reflexivity. Qed.
Lemma meval_about ws ws' id t : about id t -> entry ws' id = entry ws id -> meval ws' t = meval ws t.
Proof.
  induction t as [x|t IH f|t IH i|t IH f]; intros H E.
  - destruct H.
  - destruct t as [x|t' f'|t' i'|t' f'].
    + destruct H as [-> ->]. exact E.
    + rewrite (meval_dot ws' _ f), (meval_dot ws _ f), (IH H E). reflexivity.
    + rewrite (meval_dot ws' _ f), (meval_dot ws _ f), (IH H E). reflexivity.
    + rewrite (meval_dot ws' _ f), (meval_dot ws _ f), (IH H E). reflexivity.
  - cbn [about] in H. cbn [meval]. rewrite (IH H E). reflexivity.
  - cbn [about] in H. cbn [meval]. rewrite (IH H E). reflexivity.
Qed.

(** What a call may change. *)
Definition frame (id : string) (ws ws' : dict mval) : Prop :=
  (forall x, x <> "temp" -> x <> base_path -> get x ws' = get x ws) /\
  (forall id', id' <> id -> entry ws' id' = entry ws id').
Lemma frame_refl id ws : frame id ws ws.
Proof. split; auto. Qed.
Lemma frame_trans id a b c : frame id a b -> frame id b c -> frame id a c.
Proof. intros [H1 H2] [H3 H4]. split; intros; [rewrite H3, H1 by assumption|rewrite H4, H2 by assumption]; reflexivity. Qed.
Lemma frame_elsewhere id ws ws' t : frame id ws ws' -> elsewhere id t -> meval ws' t = meval ws t.
Proof.
  intros [H1 H2] [E1 E2]. destruct (begins_ex t) as [x Hx]. destruct (String.eqb_spec x base_path) as [->|Hn].
  - destruct (E2 Hx) as [id' [Hi Ha]]. apply (meval_about _ _ id'); [exact Ha|apply H2, Hi].
  - apply (meval_var _ _ x); [exact Hx|]. apply H1; [|exact Hn]. intros ->. apply E1, Hx.
Qed.
Lemma frame_temp id v ws : frame id ws (put "temp" v ws).
Proof.
  split.
  - intros x Hx _. rewrite get_put. destruct (String.eqb_spec x "temp"); [contradiction|reflexivity].
  - intros id' _. unfold entry. cbn [meval]. rewrite get_put. reflexivity.
Qed.
Lemma set_call_frame id v ws ws' : set_call id v ws = Ok ws' -> frame id ws ws' /\ entry ws' id = Ok v /\ exists e, get base_path ws' = Some (MStruct [e]).
Proof.
  unfold set_call. destruct (get base_path ws) as [[z|[|e [|e' es]]|l|l]|] eqn:E; try discriminate. intros [= <-].
  assert (G : get base_path (put base_path (MStruct [put id v e]) ws) = Some (MStruct [put id v e])) by (rewrite get_put, String.eqb_refl; reflexivity).
  split; [split|split; [|exists (put id v e); exact G]].
  - intros x _ Hx. rewrite get_put. destruct (String.eqb_spec x base_path); [contradiction|reflexivity].
  - intros id' Hi. unfold entry. cbn [meval]. rewrite G, E. cbn. rewrite get_put. destruct (String.eqb_spec id' id); [contradiction|reflexivity].
  - unfold entry. cbn [meval]. rewrite G. cbn. rewrite get_put, String.eqb_refl. reflexivity.
Qed.
Lemma set_call_ok id v ws e : get base_path ws = Some (MStruct [e]) -> exists ws', set_call id v ws = Ok ws'.
Proof. intros E. unfold set_call. rewrite E. eauto. Qed.
Lemma set_call_kept id v ws ws' : set_call id v ws = Ok ws' -> kept ws' = if existsb (String.eqb id) (kept ws) then kept ws else kept ws ++ [id].
Proof.
  unfold set_call, kept. change "MATLABViewFromPythonData" with base_path.
  destruct (get base_path ws) as [[z|[|e [|e' es]]|l|l]|] eqn:E; try discriminate. intros [= <-]. rewrite get_put, String.eqb_refl.
  clear E. induction e as [|[k b] e IH]; cbn; [reflexivity|]. destruct (String.eqb_spec id k) as [->|Hn]; cbn; [reflexivity|].
  rewrite IH. destruct (existsb (String.eqb id) (map fst e)); reflexivity.
Qed.
Lemma kept_temp v ws : kept (put "temp" v ws) = kept ws.
Proof. unfold kept. rewrite get_put. reflexivity. Qed.

Lemma put_args_frame id args : forall done ws ws' r, put_args id args done ws = (ws', r) -> frame id ws ws'.
Proof.
  induction args as [|a args IH]; intros done ws ws' r; cbn [put_args].
  - intros [= <- _]. apply frame_refl.
  - destruct a as [v|t].
    + assert (F := frame_temp id v ws). cbn [meval]. rewrite get_put, String.eqb_refl.
      destruct (set_call id _ _) as [ws2|e] eqn:E2; [|intros [= <- _]; exact F]. intros H. apply IH in H.
      apply set_call_frame in E2. eapply frame_trans; [exact F|]. eapply frame_trans; [apply E2|exact H].
    + destruct (meval ws t) as [v|e]; [|intros [= <- _]; apply frame_refl].
      destruct (set_call id _ ws) as [ws2|e] eqn:E2; [|intros [= <- _]; apply frame_refl]. intros H. apply IH in H.
      apply set_call_frame in E2. eapply frame_trans; [apply E2|exact H].
Qed.
Lemma put_args_base id args : forall done ws ws' r e, put_args id args done ws = (ws', r) -> get base_path ws = Some (MStruct [e]) ->
  exists e', get base_path ws' = Some (MStruct [e']).
Proof.
  induction args as [|a args IH]; intros done ws ws' r e; cbn [put_args].
  - intros [= <- _]. eauto.
  - destruct a as [v|t]; intros H He.
    + cbn [meval] in H. rewrite get_put, String.eqb_refl in H.
      assert (He' : get base_path (put "temp" v ws) = Some (MStruct [e])) by (rewrite get_put; exact He).
      destruct (set_call_ok id (empty_call (done ++ [v]) empty_value) _ e He') as [ws2 E2]. rewrite E2 in H.
      apply set_call_frame in E2. destruct E2 as [_ [_ [e2 E2]]]. exact (IH _ _ _ _ e2 H E2).
    + destruct (meval ws t) as [v|x]; [|injection H as <- _; eauto].
      destruct (set_call_ok id (empty_call (done ++ [v]) empty_value) _ e He) as [ws2 E2]. rewrite E2 in H.
      apply set_call_frame in E2. destruct E2 as [_ [_ [e2 E2]]]. exact (IH _ _ _ _ e2 H E2).
Qed.
Lemma put_args_exact id args vals : forall done ws e, get base_path ws = Some (MStruct [e]) -> entry ws id = Ok (empty_call done empty_value) ->
  Forall2 (argument_value ws id) args vals ->
  exists ws', put_args id args done ws = (ws', Ok (done ++ vals)) /\ entry ws' id = Ok (empty_call (done ++ vals) empty_value).
Proof.
  intros done ws e He Hd HF. revert done ws e He Hd HF. revert vals. induction args as [|a args IH]; intros vals done ws e He Hd HF; inversion HF as [|? v ? vals' Ha HF']; subst; cbn [put_args].
  - rewrite app_nil_r. eauto.
  - assert (HG : forall ws1 ws2, frame id ws ws1 -> set_call id (empty_call (done ++ [v]) empty_value) ws1 = Ok ws2 ->
              exists ws', put_args id args (done ++ [v]) ws2 = (ws', Ok (done ++ v :: vals')) /\ entry ws' id = Ok (empty_call (done ++ v :: vals') empty_value)).
    { intros ws1 ws2 F1 E2. apply set_call_frame in E2. destruct E2 as [F2 [E2 [e2 B2]]].
      destruct (IH vals' (done ++ [v]) ws2 e2 B2 E2) as [ws' [H1 H2]].
      - assert (F := frame_trans _ _ _ _ F1 F2). clear - HF' F. induction HF' as [|a w l l' H HF IH]; [constructor|]. constructor; [|exact IH].
        destruct a as [x|t]; [exact H|]. destruct H as [H1 H2]. split; [exact H1|]. rewrite (frame_elsewhere _ _ _ _ F H1). exact H2.
      - rewrite <- app_assoc in H1, H2. cbn in H1, H2. eauto. }
    destruct a as [x|t].
    + cbn in Ha. subst x. cbn [meval]. rewrite get_put, String.eqb_refl.
      assert (He' : get base_path (put "temp" v ws) = Some (MStruct [e])) by (rewrite get_put; exact He).
      destruct (set_call_ok id (empty_call (done ++ [v]) empty_value) _ e He') as [ws2 E2]. rewrite E2. exact (HG _ _ (frame_temp id v ws) E2).
    + destruct Ha as [Ht Hv]. rewrite Hv. destruct (set_call_ok id (empty_call (done ++ [v]) empty_value) _ e He) as [ws2 E2]. rewrite E2.
      exact (HG _ _ (frame_refl id ws) E2).
Qed.

Section Calls.
Variables (W : Type) (path : functions W).
Definition start (ws : dict mval) : dict mval := match get base_path ws with None => put base_path (MStruct [[]]) ws | Some _ => ws end.
Lemma start_frame id ws : frame id ws (start ws).
Proof.
  unfold start. destruct (get base_path ws) eqn:E; [apply frame_refl|]. split.
  - intros x _ Hx. rewrite get_put. destruct (String.eqb_spec x base_path); [contradiction|reflexivity].
  - intros id' _. unfold entry. cbn [meval]. rewrite get_put, String.eqb_refl, E. reflexivity.
Qed.
Lemma start_base ws : reserved ws -> exists e, get base_path (start ws) = Some (MStruct [e]).
Proof.
  intros H. unfold start. destruct (get base_path ws) as [v|] eqn:E.
  - destruct (H v E) as [e ->]. eauto.
  - rewrite get_put, String.eqb_refl. eauto.
Qed.
Lemma call_frame name id args ws w : frame id ws (fst (fst (call W path name id args (ws, w)))).
Proof.
  unfold call. fold (start ws). assert (F0 := start_frame id ws).
  destruct (set_call id _ (start ws)) as [ws1|e] eqn:E1; [|exact F0]. apply set_call_frame in E1. destruct E1 as [F1 _].
  assert (F01 := frame_trans _ _ _ _ F0 F1).
  destruct (put_args id args [] ws1) as [ws2 r] eqn:E2. apply put_args_frame in E2. assert (F2 := frame_trans _ _ _ _ F01 E2).
  destruct r as [vals|e]; [|exact F2]. destruct (path name) as [f|]; [|exact F2]. destruct (f vals w) as [[r|e] w']; [|exact F2].
  destruct (set_call id (empty_call vals r) ws2) as [ws3|e] eqn:E3; [|exact F2].
  apply set_call_frame in E3. exact (frame_trans _ _ _ _ F2 (proj1 E3)).
Qed.
Lemma call_base name id args ws w : reserved ws -> exists e, get base_path (fst (fst (call W path name id args (ws, w)))) = Some (MStruct [e]).
Proof.
  intros HR. unfold call. fold (start ws). destruct (start_base ws HR) as [e0 B0].
  destruct (set_call_ok id (empty_call [] empty_value) _ e0 B0) as [ws1 E1]. rewrite E1.
  apply set_call_frame in E1. destruct E1 as [_ [_ [e1 B1]]].
  destruct (put_args id args [] ws1) as [ws2 r] eqn:E2. destruct (put_args_base _ _ _ _ _ _ _ E2 B1) as [e2 B2].
  destruct r as [vals|e]; [|eauto]. destruct (path name) as [f|]; [|eauto]. destruct (f vals w) as [[r|e] w']; [|eauto].
  destruct (set_call_ok id (empty_call vals r) ws2 e2 B2) as [ws3 E3]. rewrite E3. apply set_call_frame in E3. apply E3.
Qed.
Lemma call_reserved name id args ws w : reserved ws -> reserved (fst (fst (call W path name id args (ws, w)))).
Proof. intros HR v Hv. destruct (call_base name id args ws w HR) as [e He]. change "MATLABViewFromPythonData" with base_path in Hv. rewrite He in Hv. injection Hv as <-. eauto. Qed.
Lemma put_args_kept id args : forall done ws ws' r, put_args id args done ws = (ws', r) -> In id (kept ws) -> kept ws' = kept ws.
Proof.
  assert (S : forall v a b, set_call id v a = Ok b -> In id (kept a) -> kept b = kept a).
  { intros v a b E H. apply set_call_kept in E. rewrite E. replace (existsb (String.eqb id) (kept a)) with true; [reflexivity|].
    symmetry. apply existsb_exists. exists id. split; [exact H|apply String.eqb_refl]. }
  induction args as [|a args IH]; intros done ws ws' r; cbn [put_args].
  - intros [= <- _]. reflexivity.
  - destruct a as [v|t].
    + cbn [meval]. rewrite get_put, String.eqb_refl. destruct (set_call id _ _) as [ws2|e] eqn:E2.
      * intros H Hi. assert (K : kept ws2 = kept ws) by (rewrite (S _ _ _ E2), kept_temp; [reflexivity|rewrite kept_temp; exact Hi]).
        rewrite (IH _ _ _ _ H); [exact K|rewrite K; exact Hi].
      * intros [= <- _] _. apply kept_temp.
    + destruct (meval ws t) as [v|e]; [|intros [= <- _] _; reflexivity]. destruct (set_call id _ ws) as [ws2|e] eqn:E2.
      * intros H Hi. assert (K := S _ _ _ E2 Hi). rewrite (IH _ _ _ _ H); [exact K|rewrite K; exact Hi].
      * intros [= <- _] _. reflexivity.
Qed.
Lemma call_kept name id args ws w : reserved ws ->
  kept (fst (fst (call W path name id args (ws, w)))) = if existsb (String.eqb id) (kept ws) then kept ws else kept ws ++ [id].
Proof.
  intros HR. unfold call. fold (start ws). destruct (start_base ws HR) as [e0 B0].
  assert (K0 : kept (start ws) = kept ws).
  { unfold kept, start. change "MATLABViewFromPythonData" with base_path. destruct (get base_path ws) as [v|] eqn:E; [rewrite E; reflexivity|].
    rewrite get_put, String.eqb_refl. reflexivity. }
  destruct (set_call_ok id (empty_call [] empty_value) _ e0 B0) as [ws1 E1]. rewrite E1.
  assert (K1 := set_call_kept _ _ _ _ E1). rewrite K0 in K1. rewrite <- K1.
  assert (I1 : In id (kept ws1)).
  { rewrite K1. destruct (existsb (String.eqb id) (kept ws)) eqn:E; [|apply in_or_app; right; left; reflexivity].
    apply existsb_exists in E. destruct E as [x [Hx Ex]]. apply String.eqb_eq in Ex. subst. exact Hx. }
  destruct (put_args id args [] ws1) as [ws2 r] eqn:E2. assert (K2 := put_args_kept _ _ _ _ _ _ E2 I1).
  destruct r as [vals|e]; [|exact K2]. destruct (path name) as [f|]; [|exact K2]. destruct (f vals w) as [[r|e] w']; [|exact K2].
  destruct (set_call id (empty_call vals r) ws2) as [ws3|e] eqn:E3; [|exact K2].
  apply set_call_kept in E3. cbn [fst]. rewrite E3, K2. replace (existsb (String.eqb id) (kept ws1)) with true; [reflexivity|].
  symmetry. apply existsb_exists. exists id. split; [exact I1|apply String.eqb_refl].
Qed.

Lemma make_view_denotes ws t x : match handle t with Some s => path s = None | None => True end -> meval ws t = Ok x ->
  exists v, make_view W path ws t = Ok v /\ denotes ws v x /\ match v with VStruct t' | VCell t' | VTable t' => t' = t | _ => True end.
Proof.
  intros Hh E. unfold make_view. destruct (handle t) as [s|]; [rewrite Hh|]; rewrite E; destruct x; eexists; (split; [reflexivity|split; [first [exact E|reflexivity]|exact I || reflexivity]]).
Qed.
(** A result is always about its call. *)
Lemma call_view name id args st v : snd (call W path name id args st) = Ok v ->
  match v with VStruct t | VCell t | VTable t => t = Dot (call_text id) "result" | _ => True end.
Proof.
  destruct st as [ws w]. unfold call. destruct (set_call id _ _); [|discriminate]. destruct (put_args _ _ _ _) as [ws2 [vals|]]; [|discriminate].
  destruct (path name) as [f|]; [|discriminate]. destruct (f vals w) as [[r|] w']; [|discriminate]. destruct (set_call id _ ws2) as [ws3|]; [|discriminate].
  cbn [snd]. unfold make_view. destruct (match handle _ with Some _ => _ | None => _ end); [intros [= <-]; exact I|].
  destruct (meval ws3 _) as [[]|]; intros [= <-]; first [reflexivity|exact I].
Qed.
Lemma call_view_struct name id args st v r : snd (call W path name id args st) = Ok v -> no_function path id ->
  meval (fst (fst (call W path name id args st))) (Dot (call_text id) "result") = Ok (MStruct r) -> v = VStruct (Dot (call_text id) "result").
Proof.
  intros Hv HN. destruct st as [ws w]. revert Hv. unfold call. destruct (set_call id _ _) as [ws1|]; [|discriminate].
  destruct (put_args _ _ _ _) as [ws2 [vals|]]; [|discriminate].
  destruct (path name) as [f|]; [|discriminate]. destruct (f vals w) as [[r0|] w']; [|discriminate]. destruct (set_call id _ ws2) as [ws3|]; [|discriminate].
  cbn [fst snd]. unfold make_view.
  assert (HH : match handle (Dot (call_text id) "result") with Some s => match path s with Some _ => Some s | None => None end | None => None end = None).
  { unfold no_function in HN. cbn in HN |- *. rewrite HN. reflexivity. }
  rewrite HH. intros Hv E. rewrite E in Hv. congruence.
Qed.
Lemma result_elsewhere id id' : id <> id' -> elsewhere id' (Dot (call_text id) "result").
Proof. intros H. split; [cbn; discriminate|]. intros _. exists id. split; [exact H|]. cbn. auto. Qed.
End Calls.
