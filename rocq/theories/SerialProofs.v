(** Proofs for C106. *)
From Coq Require Import String List Bool Arith.
From Verif Require Import PyExn SerialModel SerialSpec.
Import ListNotations.
Local Open Scope string_scope.
Local Open Scope list_scope.

(** What is known of the attributes of an evaluator that occurs. *)
Definition base (x : pv) (lm lp : list pv) (rx ry n : pv) : obj :=
  [("_experiment", x); ("_measurements", PTup lm); ("_parameters", PTup lp); ("_raw_x_data", rx); ("_raw_y_data", ry); ("_name", n)].
Definition shape (c : cls) (o : obj) : Prop :=
  exists x lm lp rx ry n,
  match c with
  | CPrefit | CLeadScan => exists a sr fr ia, a <> PNone /\
      o = [("evaluation_arguments", a); ("sample_rate", sr); ("_fit_results", fr); ("_initial_fit_arguments", ia)] ++ base x lm lp rx ry n
  | CTC => exists ia im fr, im <> PNone /\
      o = [("_initial_fit_arguments", ia); ("intermediate_fit_arguments", im); ("_fit_results", fr)] ++ base x lm lp rx ry n
  | CLoad => exists ic fr ia, ia <> PNone /\
      o = [("initial_curvature", ic); ("_fit_results", fr); ("_initial_fit_arguments", ia)] ++ base x lm lp rx ry n
  | CLeadTrans => exists sg w tw tp,
      o = [("_shifting_gates", sg); ("_charge_diagram_width", w); ("transition_width", tw); ("transition_positions", tp)] ++ base x lm lp rx ry n
  | CSens1 => exists g cs os op rf,
      o = [("_sweeping_gate", g); ("current_signal", cs); ("optimal_signal", os); ("optimal_position", op); ("_rising_flank", rf)] ++ base x lm lp rx ry n
  | CSens2 => exists g r nv rf,
      o = [("_sweeping_gates", g); ("_scan_range", r); ("_new_voltages", nv); ("_rising_flank", rf)] ++ base x lm lp rx ry n
  | CAvg => exists i k, rx <> PNone /\ ry <> PNone /\ n <> PNone /\ find "_experiment" i = Some x /\
      (exists m, find "_measurements" i = Some m /\ py_tuple m = Ok (PTup lm)) /\
      (exists p, find "_parameters" i = Some p /\ py_tuple p = Ok (PTup lp)) /\
      o = [("_evaluator", PInst i); ("n_measurement_repetitions", k)] ++ base x lm lp rx ry n
  | CMatlab => o = base x lm lp rx ry n
  | CPass => exists er rs lf, o = base x lm lp rx ry n ++ [("_error", er); ("_reference_residual_sum", PSer rs); ("_last_file_names", lf)]
  | CLine => exists lf hi lo, o = base x lm lp rx ry n ++ [("_last_file_names", lf); ("_maximal_value", hi); ("_minimal_value", lo)]
  | CLead => exists er rs lf hi lo, o = base x lm lp rx ry n ++
      [("_error", er); ("_reference_residual_sum", rs); ("_last_file_names", lf); ("_maximal_value", hi); ("_minimal_value", lo)]
  | CQSens1 | CQSens2 => exists lf, o = base x lm lp rx ry n ++ [("_last_file_names", lf)]
  | CCharge | CDist => exists lf er, o = base x lm lp rx ry n ++ [("_last_file_names", lf); ("_error", er)]
  | CResp => exists lf er mh lo hi, map fst er = names_of (PTup lp) /\ o = base x lm lp rx ry n ++
      [("_last_file_names", lf); ("_error", PSer er); ("_min_transition_height", mh); ("_min_position", PSer lo); ("_max_position", PSer hi)]
  end.

Lemma py_tuple_tup : forall v w, py_tuple v = Ok w -> exists l, w = PTup l.
Proof. intros v w H. destruct v; cbn in H; inversion H; eauto. Qed.
Lemma or_default_some : forall v d, d <> PNone -> or_default v d <> PNone.
Proof. intros v d H. destruct v; cbn; congruence. Qed.
Lemma strings_eqb_refl : forall l, strings_eqb l l = true.
Proof. induction l as [|a l IH]; [reflexivity|]. cbn. rewrite String.eqb_refl. exact IH. Qed.
Lemma strings_eqb_eq : forall a b, strings_eqb a b = true -> a = b.
Proof.
  induction a as [|x a IH]; destruct b as [|y b]; cbn; intros H; try discriminate; [reflexivity|].
  apply andb_true_iff in H. destruct H as [E H]. apply String.eqb_eq in E. subst y. rewrite (IH _ H). reflexivity.
Qed.
Lemma map_fst_combine : forall (idx : list string) (l : list pv), length l = length idx -> map fst (combine idx l) = idx.
Proof. induction idx as [|k idx IH]; destruct l as [|v l]; cbn; intros H; try discriminate; [reflexivity|]. rewrite IH by congruence. reflexivity. Qed.
Lemma map_fst_const : forall (f : string -> pv) idx, map fst (map (fun k => (k, f k)) idx) = idx.
Proof. intros f. induction idx as [|k idx IH]; [reflexivity|]. cbn. rewrite IH. reflexivity. Qed.
Lemma series_of_index : forall d idx r, series_of d idx = Ok r -> exists s, r = PSer s /\ map fst s = idx.
Proof.
  intros d idx r H. destruct d; cbn in H;
  try (apply f_equal with (f := fun y => match y with Ok a => a | _ => PNone end) in H; cbn in H; subst r;
       eexists; split; [reflexivity|]; apply map_fst_const).
  - destruct (Nat.eqb_spec (length l) (length idx)) as [E|E]; inversion H. eexists. split; [reflexivity|]. apply map_fst_combine, E.
  - destruct (Nat.eqb_spec (length l) (length idx)) as [E|E]; inversion H. eexists. split; [reflexivity|]. apply map_fst_combine, E.
  - destruct (strings_eqb (map fst s) idx) eqn:E.
    + inversion H. exists s. split; [reflexivity|]. apply strings_eqb_eq, E.
    + destruct (has_dup (map fst s)); inversion H. eexists. split; [reflexivity|]. apply map_fst_const.
Qed.
Lemma series_arg_ser : forall d k idx r, series_arg d k idx = Ok r -> exists s, r = PSer s.
Proof.
  intros d k idx r H. unfold series_arg in H.
  destruct d; try (inversion H; subst; eexists; reflexivity); apply series_of_index in H; destruct H as [s [-> _]]; eauto.
Qed.

Local Arguments arg : simpl never.
Ltac okinv H := match type of H with
  | rbind ?a ?f = Ok _ => let E := fresh "E" in let v := fresh "v" in destruct a as [v|] eqn:E; cbn [rbind] in H; [|discriminate H]
  end.
Lemma evaluator_init_shape : forall o0 x m p rx ry n o, evaluator_init o0 x m p rx ry n = Ok o ->
  exists lm lp, py_tuple m = Ok (PTup lm) /\ py_tuple p = Ok (PTup lp) /\ o = setattrs o0 (base x lm lp rx ry n).
Proof.
  intros o0 x m p rx ry n o H. unfold evaluator_init in H. okinv H. okinv H.
  destruct (py_tuple_tup _ _ E) as [lm ->]. destruct (py_tuple_tup _ _ E0) as [lp ->].
  exists lm, lp. split; [reflexivity|]. split; [reflexivity|]. inversion H. reflexivity.
Qed.

Lemma made_shape : forall c kw o, construct c kw = Ok o -> shape c o.
Proof.
  intros c kw o H. unfold construct in H. okinv H. clear E. rename v into e. unfold shape.
  destruct c; cbn [init] in H; unfold fitting_init, qqd_init in H;
  try (apply evaluator_init_shape in H; destruct H as [lm [lp [Hm [Hp ->]]]]; do 6 eexists; cbn [setattrs setattr base String.eqb Ascii.eqb Bool.eqb app]).
  - do 4 eexists. split; [|reflexivity]. apply or_default_some; discriminate.
  - do 4 eexists. split; [|reflexivity]. apply or_default_some; discriminate.
  - do 3 eexists. split; [|reflexivity]. apply or_default_some; discriminate.
  - do 3 eexists. split; [|reflexivity]. apply or_default_some; discriminate.
  - okinv H. apply evaluator_init_shape in H. destruct H as [lm [lp [Hm [Hp ->]]]]. do 10 eexists. reflexivity.
  - do 5 eexists. reflexivity.
  - do 4 eexists. reflexivity.
  - okinv H. okinv H. okinv H. okinv H. apply evaluator_init_shape in H. destruct H as [lm [lp [Hm [Hp ->]]]].
    unfold inner in E0, E1, E2, E. destruct (arg e "evaluator") as [| | | | | | | |i] eqn:Ei; try discriminate. unfold getattr in E0, E1, E2, E.
    destruct (find "_experiment" i) eqn:F0; [|discriminate]. destruct (find "_measurements" i) eqn:F1; [|discriminate].
    destruct (find "_parameters" i) eqn:F2; [|discriminate]. inversion E0; inversion E1; inversion E2; subst.
    do 8 eexists.
    split; [|split; [|split; [|split; [exact F0|split; [eexists; split; [exact F1|exact Hm]|split; [eexists; split; [exact F2|exact Hp]|reflexivity]]]]]].
    + apply or_default_some; discriminate.
    + apply or_default_some; discriminate.
    + destruct (arg e "name"); try (inversion E; discriminate). destruct (find "_name" i) as [w|]; cbn [rbind] in E; [|discriminate].
      destruct w; inversion E; discriminate.
  - reflexivity.
  - okinv H. okinv H. apply evaluator_init_shape in E. destruct E as [lm [lp [Hm [Hp ->]]]].
    apply series_arg_ser in E0. destruct E0 as [s ->]. inversion H. do 9 eexists. reflexivity.
  - okinv H. apply evaluator_init_shape in E. destruct E as [lm [lp [Hm [Hp ->]]]]. inversion H. do 9 eexists. reflexivity.
  - okinv H. apply evaluator_init_shape in E. destruct E as [lm [lp [Hm [Hp ->]]]]. inversion H. do 11 eexists. reflexivity.
  - okinv H. apply evaluator_init_shape in E. destruct E as [lm [lp [Hm [Hp ->]]]]. inversion H. do 7 eexists. reflexivity.
  - okinv H. apply evaluator_init_shape in E. destruct E as [lm [lp [Hm [Hp ->]]]]. inversion H. do 7 eexists. reflexivity.
  - okinv H. apply evaluator_init_shape in E. destruct E as [lm [lp [Hm [Hp ->]]]]. inversion H. do 8 eexists. reflexivity.
  - okinv H. apply evaluator_init_shape in E. destruct E as [lm [lp [Hm [Hp ->]]]]. inversion H. do 8 eexists. reflexivity.
  - okinv H. apply evaluator_init_shape in E. destruct E as [lm [lp [Hm [Hp ->]]]]. rewrite Hp in H. cbn [rbind] in H.
    okinv H. apply series_of_index in E. destruct E as [s [-> Hs]]. okinv H. apply series_arg_ser in E. destruct E as [lo ->].
    okinv H. apply series_arg_ser in E. destruct E as [hi ->]. inversion H. do 11 eexists. split; [exact Hs|reflexivity].
Qed.

Ltac unshape H := unfold shape in H;
  repeat match goal with
  | h : exists _, _ |- _ => destruct h
  | h : _ /\ _ |- _ => destruct h
  end.
Lemma wrote_shape : forall c o a v, shape c o -> In a (writes c) -> v <> PNone -> shape c (setattr o a v).
Proof.
  intros c o a v H Hin Hv.
  destruct c; unshape H; subst o; cbn [writes In] in Hin;
  repeat (destruct Hin as [<-|Hin]); try contradiction;
  unfold shape; cbn [setattr app base String.eqb Ascii.eqb Bool.eqb];
  repeat match goal with |- exists _, _ => eexists end;
  repeat match goal with |- _ /\ _ => split end; try reflexivity; try eassumption;
  eexists; split; eassumption.
Qed.
Lemma inner_shape : forall o i i', shape CAvg o -> find "_evaluator" o = Some (PInst i) ->
  (forall a, In a ["_experiment"; "_measurements"; "_parameters"] -> find a i' = find a i) -> shape CAvg (setattr o "_evaluator" (PInst i')).
Proof.
  intros o i i' H Hf Hk.
  destruct H as [x [lm [lp [rx [ry [n [j [k [Hx [Hy [Hn [F0 [[m [F1 Hm]] [[p [F2 Hp]] ->]]]]]]]]]]]]]].
  cbn in Hf. injection Hf as <-.
  exists x, lm, lp, rx, ry, n, i', k. cbn [setattr app base String.eqb Ascii.eqb Bool.eqb].
  split; [exact Hx|]. split; [exact Hy|]. split; [exact Hn|]. split; [rewrite Hk; [exact F0|cbn; tauto]|].
  split; [exists m; split; [rewrite Hk; [exact F1|cbn; tauto]|exact Hm]|].
  split; [exists p; split; [rewrite Hk; [exact F2|cbn; tauto]|exact Hp]|reflexivity].
Qed.
Lemma occurs_shape : forall c o, occurs c o -> shape c o.
Proof.
  intros c o H. induction H as [kw o H|o a v H IH Hin Hv|o i i' H IH -> Hf Hk].
  - eapply made_shape; exact H.
  - apply wrote_shape; assumption.
  - eapply inner_shape; eassumption.
Qed.

Lemma or_default_id : forall v d, v <> PNone -> or_default v d = v.
Proof. intros v d H. destruct v; cbn; congruence. Qed.
Lemma shape_reload : forall c o, shape c o -> reload c o = Ok (loaded c o).
Proof.
  intros c o H.
  destruct c; unshape H; subst o.
  all: try (cbn; reflexivity).
  - destruct x5; try congruence; reflexivity.
  - destruct x5; try congruence; reflexivity.
  - destruct x6; try congruence; reflexivity.
  - destruct x7; try congruence; reflexivity.
  - rename H into Hx, H0 into Hy, H1 into Hn.
    unfold reload, to_hdf5, construct, bind, init, evaluator_init, inner, getattr, arg. cbn -[or_default py_tuple].
    rewrite !or_default_id by assumption.
    destruct x4; try congruence; cbn -[py_tuple]; rewrite H2, H3, H4; cbn -[py_tuple]; rewrite H7, H6; reflexivity.
  - unfold reload, to_hdf5, construct, bind. cbn -[series_of names_of].
    assert (Hs : series_of (PSer x6) (names_of (PTup x1)) = Ok (PSer x6)) by (rewrite <- H; unfold series_of; rewrite strings_eqb_refl; reflexivity).
    unfold arg; cbn -[series_of names_of]. rewrite Hs. reflexivity.
Qed.

Lemma setattr_twice : forall o n v, setattr (setattr o n v) n v = setattr o n v.
Proof.
  induction o as [|[k w] o IH]; intros n v; cbn.
  - rewrite String.eqb_refl. reflexivity.
  - destruct (String.eqb k n) eqn:E; cbn; rewrite E; [reflexivity|]. rewrite IH. reflexivity.
Qed.
Lemma loaded_twice : forall c o, loaded c (loaded c o) = loaded c o.
Proof. intros c o. destruct c; cbn [loaded]; try reflexivity; apply setattr_twice. Qed.

Lemma find_setattr : forall o n m v, find m (setattr o n v) = if String.eqb n m then Some v else find m o.
Proof.
  induction o as [|[k w] o IH]; intros n m v; cbn; [reflexivity|].
  destruct (String.eqb_spec k n) as [->|Hn]; cbn.
  - destruct (String.eqb n m); reflexivity.
  - rewrite IH. destruct (String.eqb_spec k m) as [->|Hm]; [|reflexivity].
    destruct (String.eqb_spec n m) as [->|]; [contradiction|reflexivity].
Qed.
Lemma filter_setattr_name : forall l n, (forall v, ~ In ("name", v) l) -> filter (fun a : string * pv => negb (String.eqb (fst a) "name")) (setattr l "name" n) = l.
Proof.
  induction l as [|[k w] l IH]; intros n H; [reflexivity|].
  cbn [setattr]. destruct (String.eqb_spec k "name") as [->|Hk]; [destruct (H w (or_introl eq_refl))|].
  cbn [filter fst]. destruct (String.eqb_spec k "name") as [->|_]; [contradiction|]. cbn [negb]. rewrite IH; [reflexivity|].
  intros v Hin. exact (H v (or_intror Hin)).
Qed.

(** ** Arguments of the constructors *)
Fixpoint default_of (sg : signature) (n : string) : option (option pv) :=
  match sg with [] => None | (k, d) :: sg' => if String.eqb k n then Some d else default_of sg' n end.
Lemma bind_args_inv : forall sg kw e, bind_args sg kw = Ok e -> forall n d, default_of sg n = Some d ->
  match find n kw, d with Some v, _ => arg e n = v | None, Some v => arg e n = v | None, None => False end.
Proof.
  induction sg as [|[k d0] sg IH]; intros kw e H n d Hd; [discriminate|]. cbn in H, Hd.
  destruct (match find k kw, d0 with Some v, _ => Ok v | None, Some v => Ok v | None, None => Raise TypeError end) as [v|] eqn:E; [|discriminate].
  cbn in H. destruct (bind_args sg kw) as [e'|] eqn:E'; [|discriminate]. injection H as <-. unfold arg. cbn [find].
  destruct (String.eqb_spec k n) as [<-|K].
  - injection Hd as <-. destruct (find k kw); [congruence|]. destruct d0; [congruence|discriminate].
  - apply (IH kw e' E' n d Hd).
Qed.
Lemma find_in : forall n (kw : obj), find n kw <> None <-> In n (map fst kw).
Proof.
  induction kw as [|[k v] kw IH]; cbn; [split; [congruence|contradiction]|]. destruct (String.eqb_spec k n) as [->|K]; [split; [auto|discriminate]|].
  rewrite IH. split; [auto|]. intros [H|H]; [contradiction|exact H].
Qed.
Lemma known_in : forall sg n, known sg n = true <-> In n (map fst sg).
Proof.
  intros sg n. unfold known. rewrite existsb_exists, in_map_iff. split.
  - intros [x [H E]]. apply String.eqb_eq in E. eauto.
  - intros [x [E H]]. exists x. split; [exact H|]. apply String.eqb_eq. exact E.
Qed.
Lemma bind_args_missing : forall sg kw n, default_of sg n = Some None -> find n kw = None -> bind_args sg kw = Raise TypeError.
Proof.
  induction sg as [|[k d] sg IH]; intros kw n Hd Hn; [discriminate|]. cbn in *. destruct (String.eqb_spec k n) as [->|K].
  - injection Hd as ->. rewrite Hn. reflexivity.
  - destruct (match find k kw, d with Some v, _ => Ok v | None, Some v => Ok v | None, None => Raise TypeError end) as [v|e] eqn:E.
    + cbn. rewrite (IH kw n Hd Hn). reflexivity.
    + cbn. destruct (find k kw); [discriminate|]. destruct d; [discriminate|]. reflexivity || (injection E as <-; reflexivity).
Qed.
Lemma signature_names : forall c n, In n (map fst (sig c)) <-> In n (map fst (arguments c)).
Proof. intros c n. destruct c; cbn; tauto. Qed.
Lemma signature_needed : forall c n r, In (n, r) (arguments c) -> needed r = true -> default_of (sig c) n = Some None.
Proof.
  intros c n r H Hn. destruct c; cbn in H; repeat (destruct H as [E|H]; [injection E as <- <-; first [discriminate Hn | reflexivity]|]); contradiction.
Qed.
Ltac field_case A :=
  match goal with Hv : find ?n ?kw <> _ |- _ =>
    let An := fresh "An" in
    pose proof (A n _ eq_refl) as An; cbn beta iota in An;
    let w := fresh "w" in destruct (find n kw) as [w|]; [|try contradiction]; cbn -[arg String.append];
    rewrite ?An in *; cbn [or_default py_tuple flank truth strs map] in *;
    first [reflexivity | congruence | destruct w; cbn [or_default py_tuple flank truth strs map] in *; congruence]
  end.
Lemma fields_of : forall c kw o n a d, construct c kw = Ok o -> In (n, Kept a d) (arguments c) -> find n kw <> Some PNone ->
  find a o = Some (as_attribute n (match find n kw, d with Some v, _ => v | None, Some v => v | None, None => PNone end)).
Proof.
  intros c kw o n a d H Hin Hv. unfold construct in H. destruct (bind (sig c) kw) as [e|] eqn:Eb; [|discriminate]. cbn [rbind] in H.
  unfold bind in Eb. destruct (forallb _ kw); [|discriminate].
  assert (A := fun n d => bind_args_inv _ _ _ Eb n d). clear Eb.
  destruct c; cbn [init] in H; unfold fitting_init, qqd_init in H.
  all: repeat match type of H with rbind _ _ = _ => okinv H end.
  all: repeat match goal with E : evaluator_init _ _ _ _ _ _ _ = Ok _ |- _ => apply evaluator_init_shape in E; destruct E as [? [? [? [? ->]]]] end.
  all: try (apply (f_equal (fun r => match r with Ok a => a | Raise _ => [] end)) in H; cbn beta iota in H; subst o).
  all: cbn in Hin.
  all: repeat (destruct Hin as [Hin|Hin]; [try discriminate Hin; try (injection Hin as <- <- <-; field_case A)|]); try contradiction.
Qed.

Lemma find_map_const : forall (f : string -> pv) idx k, In k idx -> find k (map (fun k => (k, f k)) idx) = Some (f k).
Proof.
  intros f. induction idx as [|i idx IH]; intros k H; [contradiction|]. cbn. destruct (String.eqb_spec i k) as [->|K]; [reflexivity|].
  destruct H as [H|H]; [contradiction|]. apply IH, H.
Qed.
Lemma map_snd_combine : forall (idx : list string) (l : list pv), length l = length idx -> map snd (combine idx l) = l.
Proof. induction idx as [|k idx IH]; destruct l as [|v l]; cbn; intros H; try discriminate; [reflexivity|]. rewrite IH by congruence. reflexivity. Qed.
Lemma map_snd_const : forall (v : pv) (idx : list string) w, In w (map snd (map (fun k => (k, v)) idx)) -> w = v.
Proof. intros v idx w H. rewrite map_map in H. apply in_map_iff in H. destruct H as [k [<- _]]. reflexivity. Qed.
Lemma find_member : forall k (s : obj), In k (map fst s) -> exists v, find k s = Some v.
Proof. intros k s H. apply find_in in H. destruct (find k s) as [v|]; [eauto|contradiction]. Qed.
Lemma series_of_over : forall d idx r, series_of d idx = Ok r -> exists s, r = PSer s /\ over idx d s.
Proof.
  intros d idx r H. unfold over.
  assert (C : forall v, Ok (PSer (map (fun k => (k, v)) idx)) = Ok r ->
    exists s, r = PSer s /\ map fst s = idx /\ forall w, In w (map snd s) -> w = v).
  { intros v E. injection E as <-. eexists. split; [reflexivity|]. split; [apply map_fst_const|apply map_snd_const]. }
  destruct d; cbn in H; try (apply C; exact H).
  - destruct (Nat.eqb_spec (length l) (length idx)) as [E|E]; inversion H. eexists. split; [reflexivity|]. split; [apply map_fst_combine, E|apply map_snd_combine, E].
  - destruct (Nat.eqb_spec (length l) (length idx)) as [E|E]; inversion H. eexists. split; [reflexivity|]. split; [apply map_fst_combine, E|apply map_snd_combine, E].
  - destruct (strings_eqb (map fst s) idx) eqn:E.
    + inversion H. exists s. split; [reflexivity|]. apply strings_eqb_eq in E. split; [exact E|]. intros k Hk. rewrite <- E in Hk.
      destruct (find_member _ _ Hk) as [v Hv]. rewrite Hv. reflexivity.
    + destruct (has_dup (map fst s)); inversion H. eexists. split; [reflexivity|]. split; [apply map_fst_const|].
      intros k Hk. apply (find_map_const (fun k => match find k s with Some v => v | None => PConst "nan" end)), Hk.
Qed.
Lemma series_arg_over : forall v d idx r, series_arg v d idx = Ok r -> exists s, r = PSer s /\ over_or idx v (PConst d) s.
Proof.
  intros v d idx r H. unfold series_arg in H. destruct v; try (apply series_of_over in H; exact H).
  injection H as <-. eexists. split; reflexivity.
Qed.
Lemma arg_given : forall sg kw e n d, bind sg kw = Ok e -> default_of sg n = Some (Some d) -> arg e n = given kw n d.
Proof.
  intros sg kw e n d H Hd. unfold bind in H. destruct (forallb _ kw); [|discriminate]. pose proof (bind_args_inv _ _ _ H n _ Hd) as A.
  unfold given. destruct (find n kw); exact A.
Qed.
Lemma arg_needed : forall sg kw e n, bind sg kw = Ok e -> default_of sg n = Some None -> find n kw = Some (arg e n).
Proof.
  intros sg kw e n H Hd. unfold bind in H. destruct (forallb _ kw); [|discriminate]. pose proof (bind_args_inv _ _ _ H n _ Hd) as A.
  destruct (find n kw); [congruence|contradiction].
Qed.
Lemma names_strings : forall ps, names_of (PTup (map PStr ps)) = ps.
Proof. intros ps. cbn. rewrite map_map. rewrite <- (map_id ps) at 2. apply map_ext. reflexivity. Qed.
