(** C140. *)
From Coq Require Import String Ascii List Bool Arith ZArith Lia.
From Verif Require Import PyExn ViewModel ViewSpec ViewProofs.
Import ListNotations.
Local Open Scope string_scope.
Local Open Scope list_scope.

(** Functions for the examples: the device is the number of measurements. *)
Definition ex_path : functions nat := fun s =>
  if String.eqb s "tune.tune" then
    Some (fun args n => (Ok (MStruct [[("data", MCell args); ("ana", MStruct [[("STp_x", MOpaque (Z.of_nat n)); ("STp_y", MOpaque (10 + Z.of_nat n))]])]]), S n))
  else if String.eqb s "error" then Some (fun _ n => (Raise matlab_error, S n)) else None.
Definition ex_ws : dict mval := [("tunedata", MStruct [[("dqd", MOpaque 7)]; [("dqd", MOpaque 8)]]); ("temp", MOpaque 5)].

(** A call: the function gets the values of the arguments at the beginning of
    the call, in order; the view that is returned shows the result; arguments and
    result are kept in the workspace; everything else but the variable [temp]
    is as before.  When the function fails, its exception is raised and the
    arguments are kept all the same. *)
Theorem call_exact : forall W (path : functions W) name id args vals f ws w,
  reserved ws -> path name = Some f -> Forall2 (argument_value ws id) args vals ->
  let out := call W path name id args (ws, w) in
  let ws' := fst (fst out) in
  snd (fst out) = snd (f vals w) /\
  meval ws' (Dot (call_text id) "args") = Ok (MCell vals) /\
  (forall t, elsewhere id t -> meval ws' t = meval ws t) /\
  match fst (f vals w) with
  | Ok r => meval ws' (Dot (call_text id) "result") = Ok r /\ (no_function path id -> exists v, snd out = Ok v /\ denotes ws' v r)
  | Raise e => snd out = Raise e
  end.
Proof.
  intros W path name id args vals f ws w HR Hp HA out ws'.
  assert (HF : forall t, elsewhere id t -> meval ws' t = meval ws t) by (intros t; apply frame_elsewhere, call_frame).
  revert HF. subst ws' out. unfold call. fold (start ws). destruct (start_base ws HR) as [e0 B0].
  destruct (set_call_ok id (empty_call [] empty_value) _ e0 B0) as [ws1 E1]. rewrite E1.
  assert (F0 := start_frame id ws). assert (S1 := set_call_frame _ _ _ _ E1). destruct S1 as [F1 [V1 [e1 B1]]].
  assert (HA1 : Forall2 (argument_value ws1 id) args vals).
  { clear - HA F0 F1. assert (F := frame_trans _ _ _ _ F0 F1). induction HA as [|a v l l' H HA IH]; constructor; [|exact IH].
    destruct a as [x|t]; [exact H|]. destruct H as [H1 H2]. split; [exact H1|]. rewrite (frame_elsewhere _ _ _ _ F H1). exact H2. }
  destruct (put_args_exact id args vals [] ws1 e1 B1 V1 HA1) as [ws2 [E2 V2]]. cbn [app] in E2, V2. rewrite E2.
  destruct (put_args_base _ _ _ _ _ _ _ E2 B1) as [e2 B2]. rewrite Hp.
  destruct (f vals w) as [[r|e] w'] eqn:Ef; cbn [fst snd].
  - destruct (set_call_ok id (empty_call vals r) ws2 e2 B2) as [ws3 E3]. rewrite E3. cbn [fst snd]. intros HF.
    assert (S3 := set_call_frame _ _ _ _ E3). destruct S3 as [_ [V3 _]]. unfold entry in V3.
    split; [reflexivity|]. split; [|split; [exact HF|]].
    + rewrite meval_dot. unfold call_text. rewrite V3. reflexivity.
    + assert (HRes : meval ws3 (Dot (call_text id) "result") = Ok r) by (rewrite meval_dot; unfold call_text; rewrite V3; reflexivity).
      split; [exact HRes|]. intros HN. destruct (make_view_denotes W path ws3 (Dot (call_text id) "result") r) as [v [Hv [Hd _]]].
      * cbn. unfold no_function in HN. cbn in HN. exact HN.
      * exact HRes.
      * exists v. split; assumption.
  - intros HF. split; [reflexivity|]. split; [|split; [exact HF|reflexivity]].
    rewrite meval_dot. unfold call_text. unfold entry in V2. rewrite V2. reflexivity.
Qed.
Example call_ex :
  let args := [Python (MOpaque 3); View (Field (Item (Var "tunedata") 1) "dqd"); Python (MOpaque 4)] in
  Forall2 (argument_value ex_ws "call_1_data") args [MOpaque 3; MOpaque 8; MOpaque 4] /\ reserved ex_ws /\
  no_function ex_path "call_1_data" /\
  match call nat ex_path "tune.tune" "call_1_data" args (ex_ws, 0) with
  | ((ws, n), Ok v) => n = 1 /\ v = VStruct (Dot (call_text "call_1_data") "result") /\
      read2 nat ex_path ws v "ana" "STp_x" = Ok (VValue (MOpaque 0)) /\ get "temp" ws = Some (MOpaque 4)
  | _ => False
  end.
Proof.
  split; [|split; [|split; [reflexivity|repeat split]]].
  - constructor; [reflexivity|]. constructor; [|constructor; [reflexivity|constructor]].
    split; [split; [cbn; discriminate|intros H; cbn in H; discriminate]|reflexivity].
  - intros v H. discriminate.
Qed.

(** Results of calls with different numbers stay what they were, whatever is
    called later and whether it fails. *)
Theorem results_stay : forall W (path : functions W) l ws w k name id args v x,
  NoDup (map (fun c => snd (fst c)) l) -> nth_error l k = Some (name, id, args) ->
  nth_error (snd (calls W path l (ws, w))) k = Some (Ok v) ->
  denotes (fst (fst (calls W path (firstn (S k) l) (ws, w)))) v x ->
  denotes (fst (fst (calls W path l (ws, w)))) v x.
Proof.
  intros W path l. induction l as [|[[name0 id0] args0] l IH]; intros ws w k name id args v x HN Hk Hv Hd.
  - destruct k; discriminate.
  - cbn [map fst snd] in HN. inversion HN as [|? ? Hi HN']; subst. cbn [calls] in Hv |- *.
    pose proof (call_view W path name0 id0 args0 (ws, w)) as CV.
    destruct k as [|k].
    + cbn [firstn] in Hd. injection Hk as -> -> ->. cbn [calls] in Hd. destruct (call W path name id args (ws, w)) as [[ws1 w1] r].
      cbn [fst] in Hd. destruct (calls W path l (ws1, w1)) as [[ws2 w2] rs] eqn:E. cbn [fst snd nth_error] in Hv |- *. injection Hv as ->.
      specialize (CV v eq_refl).
      assert (G : forall t, (forall id', In id' (map (fun c => snd (fst c)) l) -> elsewhere id' t) -> meval ws2 t = meval ws1 t).
      { clear - E. revert ws1 w1 ws2 w2 rs E. induction l as [|[[n i] a] l IH]; intros ws1 w1 ws2 w2 rs E t Ht; cbn [calls] in E.
        - injection E as -> _ _. reflexivity.
        - pose proof (call_frame W path n i a ws1 w1) as F. destruct (call W path n i a (ws1, w1)) as [[ws3 w3] r].
          cbn [fst] in F. destruct (calls W path l (ws3, w3)) as [[ws4 w4] rs'] eqn:E'. injection E as -> -> _.
          rewrite (IH _ _ _ _ _ E' t) by (intros; apply Ht; right; assumption).
          apply (frame_elsewhere i); [exact F|]. apply Ht. left. reflexivity. }
      assert (HE : meval ws2 (Dot (call_text id) "result") = meval ws1 (Dot (call_text id) "result")).
      { apply G. intros id' Hid. apply result_elsewhere. intros ->. contradiction. }
      destruct v as [t|t|t|s|y]; cbn [denotes] in *; try (subst t; rewrite HE); assumption.
    + cbn [nth_error] in Hk. change (firstn (S (S k)) ((name0, id0, args0) :: l)) with ((name0, id0, args0) :: firstn (S k) l) in Hd. cbn [calls] in Hd. destruct (call W path name0 id0 args0 (ws, w)) as [[ws1 w1] r].
      specialize (IH ws1 w1 k name id args v x HN' Hk).
      destruct (calls W path l (ws1, w1)) as [[ws2 w2] rs]. cbn [snd nth_error fst] in Hv, IH |- *. apply IH; [exact Hv|].
      destruct (calls W path (firstn (S k) l) (ws1, w1)) as [[ws3 w3] rs']. exact Hd.
Qed.
Example results_stay_ex :
  let l := [("tune.tune", "call_1_data", [Python (MOpaque 3)]); ("error", "call_2_data", []);
            ("tune.tune", "call_3_data", [View (Field (Dot (call_text "call_1_data") "result") "data")])] in
  NoDup (map (fun c => snd (fst c)) l) /\
  match calls nat ex_path l (ex_ws, 0) with
  | ((ws, n), [Ok v1; Raise e; Ok v3]) =>
      n = 3 /\ read2 nat ex_path ws v1 "ana" "STp_x" = Ok (VValue (MOpaque 0)) /\ read2 nat ex_path ws v3 "ana" "STp_x" = Ok (VValue (MOpaque 2)) /\
      meval ws (Dot (call_text "call_3_data") "args") = Ok (MCell [MCell [MOpaque 3]])
  | _ => False
  end.
Proof. split; [repeat constructor; cbn; intuition discriminate|repeat split]. Qed.

(** Nothing is ever deleted: each call with a new number, even a failing one,
    leaves one entry with its arguments (the TODO in L246); only
    [clear_all_temporary_data] deletes, and then all results at once. *)
Theorem data_pile_up : forall W (path : functions W) l ws w,
  reserved ws -> NoDup (map (fun c => snd (fst c)) l) -> (forall c, In c l -> ~ In (snd (fst c)) (kept ws)) ->
  kept (fst (fst (calls W path l (ws, w)))) = kept ws ++ map (fun c => snd (fst c)) l /\
  forall t, begins "MATLABViewFromPythonData" t -> meval (clear (fst (fst (calls W path l (ws, w))))) t = Raise matlab_error.
Proof.
  intros W path l ws w HR HN Hnew. split.
  - revert ws w HR HN Hnew. induction l as [|[[n i] a] l IH]; intros ws w HR HN Hnew; cbn [calls map fst snd].
    + symmetry. apply app_nil_r.
    + inversion HN as [|? ? Hi HN']; subst.
      pose proof (call_kept W path n i a ws w HR) as K. pose proof (call_reserved W path n i a ws w HR) as R.
      destruct (call W path n i a (ws, w)) as [[ws1 w1] r]. cbn [fst] in K, R.
      assert (Hn : existsb (String.eqb i) (kept ws) = false).
      { apply not_true_is_false. intros H. apply existsb_exists in H. destruct H as [y [Hy Ey]]. apply String.eqb_eq in Ey. subst y.
        exact (Hnew (n, i, a) (or_introl eq_refl) Hy). }
      rewrite Hn in K. specialize (IH ws1 w1 R HN'). destruct (calls W path l (ws1, w1)) as [[ws2 w2] rs]. cbn [fst] in IH |- *.
      rewrite IH, K, <- app_assoc; [reflexivity|]. intros c Hc. rewrite K. intros H. apply in_app_or in H. destruct H as [H|[H|[]]].
      * exact (Hnew c (or_intror Hc) H).
      * apply Hi. rewrite H. apply (in_map (fun c => snd (fst c))). exact Hc.
  - intros t. induction t as [y|t IH f|t IH f|t IH f]; cbn [begins]; intros H; [|cbn [meval]; rewrite (IH H); reflexivity..].
    subst y. cbn [meval]. unfold clear. rewrite get_drop. reflexivity.
Qed.
Example data_pile_up_ex :
  kept (fst (fst (calls nat ex_path [("tune.tune", "call_1_data", []); ("error", "call_2_data", [])] (ex_ws, 0)))) = ["call_1_data"; "call_2_data"].
Proof. reflexivity. Qed.

(** The auxiliary variable: a variable [temp] of the user is overwritten by the
    first argument of Python, so that a view of it given as a later argument is
    replaced by that argument.  And when two calls get the same number, both
    views show the second result. *)
Theorem call_refuted : forall W (path : functions W) name id ws w f x y,
  reserved ws -> path name = Some f -> get "temp" ws = Some y ->
  let out := call W path name id [Python x; View (Var "temp")] (ws, w) in
  (snd (fst out) = snd (f [x; x] w) /\ meval (fst (fst out)) (Var "temp") = Ok x) /\
  (forall r w' r2 w'' v, no_function path id -> f [] w = (Ok (MStruct r), w') -> f [] w' = (Ok r2, w'') ->
     let once := call W path name id [] (ws, w) in
     let twice := call W path name id [] (fst once) in
     snd once = Ok v -> denotes (fst (fst once)) v (MStruct r) /\ denotes (fst (fst twice)) v r2).
Proof.
  intros W path name id ws w f x y HR Hp Hy out. split.
  - subst out. unfold call. fold (start ws). destruct (start_base ws HR) as [e0 B0].
    destruct (set_call_ok id (empty_call [] empty_value) _ e0 B0) as [ws1 E1]. rewrite E1.
    assert (S1 := set_call_frame _ _ _ _ E1). destruct S1 as [_ [_ [e1 B1]]]. cbn [put_args meval].
    rewrite get_put, String.eqb_refl. assert (B1' : get base_path (put "temp" x ws1) = Some (MStruct [e1])) by (rewrite get_put; exact B1).
    destruct (set_call_ok id (empty_call ([] ++ [x]) empty_value) _ e1 B1') as [ws2 E2]. rewrite E2.
    assert (S2 := set_call_frame _ _ _ _ E2). destruct S2 as [_ [_ [e2 B2]]].
    assert (T : forall v a b, set_call id v a = Ok b -> get "temp" b = get "temp" a).
    { intros v a b. unfold set_call. destruct (get base_path a) as [[z|[|e [|e' es]]|l|l]|]; try discriminate. intros [= <-]. rewrite get_put. reflexivity. }
    assert (T2 : get "temp" ws2 = Some x) by (rewrite (T _ _ _ E2), get_put; reflexivity).
    rewrite T2. destruct (set_call_ok id (empty_call (([] ++ [x]) ++ [x]) empty_value) _ e2 B2) as [ws3 E3]. rewrite E3.
    assert (S3 := set_call_frame _ _ _ _ E3). destruct S3 as [_ [_ [e3 B3]]]. rewrite Hp. cbn [app] in E3 |- *.
    assert (T3 := T _ _ _ E3). destruct (f [x; x] w) as [[r|e] w']; cbn [fst snd]; [|rewrite T3, T2; split; reflexivity].
    destruct (set_call_ok id (empty_call [x; x] r) _ e3 B3) as [ws4 E4]. rewrite E4. cbn [fst snd]. rewrite (T _ _ _ E4), T3, T2. split; reflexivity.
  - intros r w' r2 w'' v HN E1 E2 once twice Hv.
    destruct (call_exact W path name id [] [] f ws w HR Hp (Forall2_nil _)) as [Hw [_ [_ H1]]]. fold once in Hw, H1. rewrite E1 in Hw, H1. cbn [fst snd] in Hw, H1.
    destruct H1 as [H0 H1]. destruct (H1 HN) as [v' [Hv' Hd]]. rewrite Hv in Hv'. injection Hv' as <-. split; [exact Hd|].
    assert (Ht : v = VStruct (Dot (call_text id) "result")).
    { apply (call_view_struct W path name id [] (ws, w) v r Hv HN). exact H0. }
    subst v. cbn [denotes]. pose proof (call_reserved W path name id [] ws w HR) as HR1. fold once in HR1.
    subst twice. destruct once as [[ws1 w1] o]. cbn [fst snd] in *. subst w1.
    destruct (call_exact W path name id [] [] f ws1 w' HR1 Hp (Forall2_nil _)) as [_ [_ [_ H2]]]. rewrite E2 in H2. cbn [fst] in H2. apply H2.
Qed.
Example call_refuted_ex :
  meval (fst (fst (call nat ex_path "tune.tune" "call_1_data" [Python (MOpaque 3); View (Var "temp")] (ex_ws, 0)))) (Dot (call_text "call_1_data") "args")
  = Ok (MCell [MOpaque 3; MOpaque 3]) /\ get "temp" ex_ws = Some (MOpaque 5).
Proof. split; reflexivity. Qed.

(** Struct views: attributes are the fields, for an array one for each element;
    names with an underscore cannot be read; a missing field is not an
    AttributeError (so that [hasattr] raises too), except for two names. *)
Theorem struct_attributes : forall W (path : functions W) ws t es f,
  meval ws t = Ok (MStruct es) ->
  (String.prefix "_" f = true -> getattr1 W path ws t f = Raise AttributeError) /\
  (String.prefix "_" f = false ->
   (forall e, es = [e] ->
      match get f e with
      | Some x => exists v, getattr1 W path ws t f = Ok (One v) /\ denotes ws v x
      | None => exists x, getattr1 W path ws t f = Raise x /\ (x = AttributeError <-> In f ["getdoc"; "next"])
      end) /\
   (length es <> 1 -> ~ In f ["getdoc"; "next"] -> exists l, getattr1 W path ws t f = Ok (Many l) /\ length l = length es /\
      forall i e, nth_error es i = Some e ->
        match get f e with
        | Some x => exists v, nth_error l i = Some (Ok v) /\ denotes ws v x
        | None => nth_error l i = Some (Raise matlab_error)
        end)).
Proof.
  intros W path ws t es f E. unfold getattr1, private. split; [intros ->; reflexivity|]. intros ->.
  assert (ES : struct_len ws t = Ok (length es)) by (unfold struct_len; rewrite E; reflexivity).
  assert (EN : field_names ws t = Ok match es with e :: _ => map fst e | [] => [] end) by (unfold field_names; rewrite E; destruct es; reflexivity).
  rewrite ES, EN. cbn [bind].
  assert (HB : (String.eqb f "getdoc" || String.eqb f "next") = true <-> In f ["getdoc"; "next"]).
  { rewrite orb_true_iff, !String.eqb_eq. cbn. intuition congruence. }
  assert (HG : forall e : dict mval, existsb (String.eqb f) (map fst e) = match get f e with Some _ => true | None => false end).
  { intros e. induction e as [|[k a] e IH]; cbn; [reflexivity|]. destruct (String.eqb f k); [reflexivity|exact IH]. }
  split.
  - intros e ->. cbn [length Nat.eqb]. rewrite HG.
    assert (EF : meval ws (Field t f) = match get f e with Some x => Ok x | None => Raise matlab_error end) by (cbn; rewrite E; reflexivity).
    destruct (get f e) as [x|].
    + replace (if String.eqb f "getdoc" || String.eqb f "next" then Ok tt else Ok tt) with (Ok tt : res unit) by (destruct (_ || _); reflexivity).
      destruct (make_view_denotes W path ws (Field t f) x I EF) as [v [-> [Hd _]]]. exists v. split; [reflexivity|exact Hd].
    + destruct (String.eqb f "getdoc" || String.eqb f "next").
      * exists AttributeError. split; [reflexivity|]. tauto.
      * exists matlab_error. split; [|split; [discriminate|intros H; apply HB in H; discriminate]].
        unfold make_view. cbn [handle]. rewrite EF. reflexivity.
  - intros HL Hf. destruct (String.eqb f "getdoc" || String.eqb f "next"); [tauto|].
    destruct (Nat.eqb_spec (length es) 1); [contradiction|]. eexists. split; [reflexivity|].
    split; [rewrite map_length, seq_length; reflexivity|]. intros i e Hi.
    assert (HI : i < length es) by (apply nth_error_Some; congruence).
    assert (EF : meval ws (Field (Item t (Z.of_nat i)) f) = match get f e with Some x => Ok x | None => Raise matlab_error end).
    { cbn [meval]. rewrite E. cbn [bind item_of]. destruct (Z.ltb_spec (Z.of_nat i) 0); [lia|]. rewrite Nat2Z.id, Hi. reflexivity. }
    assert (EM : nth_error (map (fun i => make_view W path ws (Field (Item t (Z.of_nat i)) f)) (seq 0 (length es))) i =
                 Some (make_view W path ws (Field (Item t (Z.of_nat i)) f))).
    { apply (map_nth_error (fun i => make_view W path ws (Field (Item t (Z.of_nat i)) f))). rewrite nth_error_nth' with (d := 0) by (rewrite seq_length; exact HI). rewrite seq_nth by exact HI. reflexivity. }
    rewrite EM. destruct (get f e) as [x|].
    + destruct (make_view_denotes W path ws (Field (Item t (Z.of_nat i)) f) x I EF) as [v [-> [Hd _]]]. exists v. split; [reflexivity|exact Hd].
    + unfold make_view. cbn [handle]. rewrite EF. reflexivity.
Qed.
Example struct_attributes_ex :
  getattr1 nat ex_path ex_ws (Var "tunedata") "dqd" = Ok (Many [Ok (VValue (MOpaque 7)); Ok (VValue (MOpaque 8))]) /\
  getattr1 nat ex_path ex_ws (Item (Var "tunedata") 0) "_dqd" = Raise AttributeError /\
  getattr1 nat ex_path ex_ws (Item (Var "tunedata") 0) "gate" = Raise matlab_error.
Proof. repeat split. Qed.

(** Items of a struct view: the loop over a view gives all elements in order;
    an index below 0 gives a view that cannot be read at all. *)
Theorem struct_items : forall ws t es, meval ws t = Ok (MStruct es) ->
  (exists l, iterate ws t = Ok l /\ Forall2 (fun v e => denotes ws v (MStruct [e])) l es) /\
  forall i, (i < 0)%Z -> forall x, ~ denotes ws (getitem t i) x.
Proof.
  intros ws t es E. split.
  - unfold iterate, struct_len. rewrite E. cbn [bind]. eexists. split; [reflexivity|].
    assert (H : forall k l, (forall i e, nth_error l i = Some e -> nth_error es (k + i) = Some e) ->
              Forall2 (fun v e => denotes ws v (MStruct [e])) (map (fun i => getitem t (Z.of_nat i)) (seq k (length l))) l).
    { intros k l. revert k. induction l as [|e l IH]; intros k H; [constructor|]. cbn [length seq map]. constructor.
      - cbn [getitem denotes meval]. rewrite E. cbn [bind item_of]. destruct (Z.ltb_spec (Z.of_nat k) 0); [lia|]. rewrite Nat2Z.id.
        specialize (H 0 e eq_refl). rewrite Nat.add_0_r in H. rewrite H. reflexivity.
      - apply IH. intros i x Hx. rewrite <- (H (S i) x Hx). f_equal. lia. }
    apply H. intros i e Hi. exact Hi.
  - intros i Hi x. cbn [getitem denotes meval]. rewrite E. cbn [bind item_of]. destruct (Z.ltb_spec i 0); [discriminate|lia].
Qed.
Example struct_items_ex : iterate ex_ws (Var "tunedata") = Ok [VStruct (Item (Var "tunedata") 0); VStruct (Item (Var "tunedata") 1)].
Proof. reflexivity. Qed.

(** A view of a struct follows the variable, a value that was read does not;
    a variable with the name of a function is never seen. *)
Theorem views_follow : forall W (path : functions W) ws x v v' w,
  get x ws = Some v -> make_view W path ws (Var x) = Ok w ->
  match path x, v with
  | Some _, _ => w = VFunction x
  | None, MOpaque _ => denotes (put x v' ws) w v
  | None, _ => denotes (put x v' ws) w v'
  end.
Proof.
  intros W path ws x v v' w Hv. unfold make_view. cbn [handle]. destruct (path x); [intros [= <-]; reflexivity|].
  cbn [meval]. rewrite Hv. destruct v; intros [= <-]; cbn [denotes meval]; [reflexivity|rewrite get_put, String.eqb_refl; reflexivity..].
Qed.
Example views_follow_ex : make_view nat ex_path ex_ws (Var "tunedata") = Ok (VStruct (Var "tunedata")) /\
  make_view nat ex_path ex_ws (Var "temp") = Ok (VValue (MOpaque 5)) /\ make_view nat ex_path (("error", MOpaque 1) :: ex_ws) (Var "error") = Ok (VFunction "error").
Proof. repeat split. Qed.

(** The measurements "stp" and "tl" read two numbers of the analysis in the
    result of this call; without an analysis they raise. *)
Theorem pair_measured : forall W (path : functions W) id args a b f ws w e w',
  reserved ws -> path "tune.tune" = Some f -> no_function path id -> f args w = (Ok (MStruct [e]), w') ->
  String.prefix "_" a = false -> String.prefix "_" b = false ->
  let out := measure_pair W path id args a b (ws, w) in
  snd (fst out) = w' /\
  (forall ana x y, get "ana" e = Some (MStruct [ana]) -> get a ana = Some x -> get b ana = Some y ->
     exists v1 v2, snd out = Ok (v1, v2) /\ denotes (fst (fst out)) v1 x /\ denotes (fst (fst out)) v2 y) /\
  (get "ana" e = None -> snd out = Raise matlab_error) /\
  (forall z, get "ana" e = Some (MOpaque z) -> snd out = Raise AttributeError).
Proof.
  intros W path id args a b f ws w e w' HR Hp HN Hf Ha Hb out.
  assert (HA : Forall2 (argument_value ws id) (map Python args) args) by (clear; induction args; cbn [map]; constructor; [reflexivity|assumption]).
  destruct (call_exact W path "tune.tune" id (map Python args) args f ws w HR Hp HA) as [H1 [_ [_ H2]]]. rewrite Hf in H1, H2.
  cbn [fst snd] in H1, H2. destruct H2 as [HRes H2]. destruct (H2 HN) as [v [Hv Hd]].
  pose proof (call_view_struct W path "tune.tune" id (map Python args) (ws, w) v [e] Hv HN HRes) as ->.
  subst out. unfold measure_pair. destruct (call W path "tune.tune" id (map Python args) (ws, w)) as [[ws1 w1] r]. cbn [fst snd] in *. subst r w1.
  split; [reflexivity|]. set (t := Dot (call_text id) "result") in *. cbn [bind read2].
  destruct (struct_attributes W path ws1 t [e] "ana" HRes) as [_ HS]. destruct (HS eq_refl) as [HS1 _]. specialize (HS1 e eq_refl). clear HS.
  assert (HM : forall x, get "ana" e = Some x -> getattr1 W path ws1 t "ana" =
            Ok (One match x with MOpaque _ => VValue x | MStruct _ => VStruct (Field t "ana") | MCell _ => VCell (Field t "ana") | MTable _ => VTable (Field t "ana") end)
            /\ meval ws1 (Field t "ana") = Ok x).
  { intros x Hx. assert (E : meval ws1 (Field t "ana") = Ok x) by (cbn [meval]; rewrite HRes; cbn; rewrite Hx; reflexivity).
    split; [|exact E]. unfold getattr1. cbn [private String.prefix]. change (private "ana") with false. cbn [orb String.eqb Ascii.eqb Bool.eqb]. cbv iota.
    unfold struct_len. rewrite HRes. cbn [bind length Nat.eqb]. unfold make_view. cbn [handle]. rewrite E. destruct x; reflexivity. }
  split; [|split].
  - intros ana x y Hana Hx Hy. destruct (HM _ Hana) as [HM1 HM2]. rewrite HM1. cbn [bind].
    destruct (struct_attributes W path ws1 (Field t "ana") [ana] a HM2) as [_ HA1]. destruct (HA1 Ha) as [HA2 _]. specialize (HA2 ana eq_refl). rewrite Hx in HA2.
    destruct (struct_attributes W path ws1 (Field t "ana") [ana] b HM2) as [_ HB1]. destruct (HB1 Hb) as [HB2 _]. specialize (HB2 ana eq_refl). rewrite Hy in HB2.
    destruct HA2 as [v1 [-> D1]], HB2 as [v2 [-> D2]]. cbn [bind]. exists v1, v2. auto.
  - intros Hana. rewrite Hana in HS1. destruct HS1 as [x [HS1 Hx]]. unfold getattr1 in HS1 |- *. change (private "ana") with false in *. cbn [orb String.eqb Ascii.eqb Bool.eqb] in *. cbv iota in *.
    unfold struct_len in *. rewrite HRes in *. cbn [bind length Nat.eqb] in *. unfold make_view. cbn [handle meval]. rewrite HRes. cbn [bind field_of]. rewrite Hana. reflexivity.
  - intros z Hz. destruct (HM _ Hz) as [HM1 _]. rewrite HM1. reflexivity.
Qed.
Example pair_measured_ex :
  snd (measure_pair nat ex_path "call_1_data" [MOpaque 1; MOpaque 2] "STp_x" "STp_y" (ex_ws, 4)) = Ok (VValue (MOpaque 4), VValue (MOpaque 14)) /\
  snd (measure_pair nat ex_path "call_1_data" [MOpaque 1; MOpaque 2] "Tp_x" "Tp_y" (ex_ws, 4)) = Raise matlab_error.
Proof. split; reflexivity. Qed.

Print Assumptions call_exact.
Print Assumptions results_stay.
Print Assumptions data_pile_up.
Print Assumptions call_refuted.
Print Assumptions struct_attributes.
Print Assumptions struct_items.
Print Assumptions views_follow.
Print Assumptions pair_measured.
