(** C106. *)
From Coq Require Import String List Bool.
From Verif Require Import PyExn SerialModel SerialSpec SerialProofs.
Import ListNotations.
Local Open Scope string_scope.
Local Open Scope list_scope.

(** Every evaluator that occurs in a program can be saved and loaded, and comes
    back with the same attributes, except for the sampling rate, the transition
    width and the flank, which return to the default. *)
Theorem evaluator_reload : forall c o, occurs c o -> reload c o = Ok (loaded c o).
Proof. intros c o H. apply shape_reload, occurs_shape, H. Qed.

(** Saving and loading again changes nothing further. *)
Theorem evaluator_reload_again : forall c o, occurs c o ->
  occurs c (loaded c o) /\ reload c (loaded c o) = Ok (loaded c o).
Proof.
  intros c o H. assert (Ho : occurs c (loaded c o)).
  { pose proof (evaluator_reload c o H) as E. unfold reload in E. destruct (to_hdf5 c o) as [kw|]; [|discriminate E].
    exact (occurs_made c kw _ E). }
  split; [exact Ho|]. rewrite (evaluator_reload c _ Ho). rewrite loaded_twice. reflexivity.
Qed.

(** An averaging evaluator of two measurements that has been evaluated. *)
Definition ex_inner : obj :=
  [("_experiment", PVal 1 true); ("_measurements", PTup [PVal 2 true]); ("_parameters", PTup [PStr "tc"]); ("_raw_x_data", PNone);
   ("_raw_y_data", PNone); ("_name", PStr "TC")].
Definition ex_avg : obj :=
  [("_evaluator", PInst ex_inner); ("n_measurement_repetitions", PVal 3 true)] ++
  [("_experiment", PVal 1 true); ("_measurements", PTup [PVal 2 true]); ("_parameters", PTup [PStr "tc"]);
   ("_raw_x_data", PLst [PVal 4 true; PVal 5 true]); ("_raw_y_data", PLst []); ("_name", PStr "AveragingTC")].
Example evaluator_reload_ex : occurs CAvg ex_avg /\ reload CAvg ex_avg = Ok ex_avg.
Proof.
  assert (H : occurs CAvg ex_avg).
  { change ex_avg with (setattr (setattrs ex_avg [("_raw_x_data", PLst [])]) "_raw_x_data" (PLst [PVal 4 true; PVal 5 true])).
    apply occurs_wrote; [|cbn; tauto|discriminate].
    apply occurs_made with (kw := [("evaluator", PInst ex_inner); ("n_measurement_repetitions", PVal 3 true)]). reflexivity. }
  split; [exact H|]. exact (evaluator_reload CAvg ex_avg H).
Qed.

(** The lost attributes matter: with another sampling rate, or with the falling
    flank, the loaded evaluator is a different one. *)
Theorem evaluator_reload_refuted :
  (forall o v, occurs CPrefit o -> find "sample_rate" o = Some v -> v <> PConst "1e8" -> reload CPrefit o <> Ok o) /\
  (forall c o, c = CSens1 \/ c = CSens2 -> occurs c o -> find "_rising_flank" o = Some (PBool false) ->
     exists o', reload c o = Ok o' /\ find "_rising_flank" o' = Some (PBool true)).
Proof.
  split.
  - intros o v H Hv Hn E. rewrite (evaluator_reload _ _ H) in E. cbn [loaded] in E. injection E as E.
    pose proof (find_setattr o "sample_rate" "sample_rate" (PConst "1e8")) as F. rewrite E, Hv in F. cbn in F. congruence.
  - intros c o Hc H Hf. exists (loaded c o). split; [exact (evaluator_reload c o H)|].
    destruct Hc as [->| ->]; cbn [loaded]; rewrite find_setattr; reflexivity.
Qed.
Example evaluator_reload_refuted_ex :
  (exists o, construct CPrefit [("experiment", PVal 1 true); ("sample_rate", PConst "2e8")] = Ok o /\ find "sample_rate" o = Some (PConst "2e8")) /\
  (exists o, construct CSens1 [("experiment", PVal 1 true); ("rising_flank", PBool false)] = Ok o /\ find "_rising_flank" o = Some (PBool false)).
Proof. split; eexists; split; reflexivity. Qed.
(** The default of the flank is a typing object, which counts as True. *)
Example sensing_1d_default_flank :
  exists o, construct CSens1 [("experiment", PVal 1 true)] = Ok o /\ find "_rising_flank" o = Some (PBool true).
Proof. eexists; split; reflexivity. Qed.

(** A Measurement comes back with the same name and options. *)
Theorem measurement_reload : forall kw o, measurement_init kw = Ok o ->
  exists kw', measurement_to_hdf5 o = Ok kw' /\ measurement_init kw' = Ok o.
Proof.
  intros kw o H. unfold measurement_init in H. destruct (find "name" kw) as [n|] eqn:E; [|discriminate H]. injection H as <-.
  cbn. eexists. split; [reflexivity|]. unfold measurement_init. rewrite find_setattr. cbn [String.eqb].
  rewrite filter_setattr_name; [reflexivity|].
  intros v Hin. apply filter_In in Hin. destruct Hin as [_ Hin]. discriminate Hin.
Qed.
Example measurement_reload_ex :
  measurement_init [("name", PStr "line_scan"); ("center", PVal 0 false); ("gate", PStr "RFA")] =
  Ok [("_name", PStr "line_scan"); ("options", PSer [("center", PVal 0 false); ("gate", PStr "RFA")])].
Proof. reflexivity. Qed.

(** A QQDMeasurement can never be saved. *)
Theorem qqd_measurement_refuted : forall kw o, qqd_measurement_init kw = Ok o -> measurement_to_hdf5 o = Raise AttributeError.
Proof. intros kw o H. unfold qqd_measurement_init in H. destruct (find "name" kw); [injection H as <-; reflexivity|discriminate H]. Qed.
Example qqd_measurement_ex : exists o, qqd_measurement_init [("name", PStr "line"); ("index", PVal 1 true)] = Ok o.
Proof. eexists; reflexivity. Qed.

(** A constructor takes exactly the arguments of the table, and raises a
    TypeError for any other and for a missing one. *)
Theorem constructor_call : forall c kw,
  (forall n, In n (map fst kw) -> ~ In n (map fst (arguments c)) -> construct c kw = Raise TypeError) /\
  (forall n r, In (n, r) (arguments c) -> needed r = true -> ~ In n (map fst kw) -> construct c kw = Raise TypeError).
Proof.
  intros c kw. split.
  - intros n H Hn. unfold construct, bind. destruct (forallb (fun a => known (sig c) (fst a)) kw) eqn:E; [|reflexivity]. exfalso. apply Hn.
    apply signature_names, known_in. rewrite forallb_forall in E. apply in_map_iff in H. destruct H as [a [<- H]]. exact (E a H).
  - intros n r H Hr Hn. unfold construct, bind. destruct (forallb _ kw); [|reflexivity].
    rewrite (bind_args_missing _ _ n); [reflexivity|exact (signature_needed c n r H Hr)|].
    destruct (find n kw) eqn:E; [|reflexivity]. exfalso. apply Hn, find_in. congruence.
Qed.
Example constructor_call_ex :
  construct CLoad [("experiment", PVal 1 true); ("sample_rate", PVal 2 true)] = Raise TypeError /\ construct CLine [("experiment", PVal 1 true)] = Raise TypeError.
Proof. split; reflexivity. Qed.

(** The attributes of a new evaluator are the arguments, or the defaults of the
    table for those that are missing. *)
Theorem constructor_fields : forall c kw o n a d, construct c kw = Ok o -> In (n, Kept a d) (arguments c) -> find n kw <> Some PNone ->
  match find n kw, d with
  | Some v, _ => find a o = Some (as_attribute n v)
  | None, Some v => find a o = Some (as_attribute n v)
  | None, None => False
  end.
Proof.
  intros c kw o n a d H Hin Hv. pose proof (fields_of c kw o n a d H Hin Hv) as F.
  destruct (find n kw) eqn:E; [exact F|]. destruct d; [exact F|].
  assert (T : construct c kw = Raise TypeError); [|congruence].
  apply (proj2 (constructor_call c kw) n _ Hin eq_refl). intros K. apply find_in in K. contradiction.
Qed.
Example constructor_fields_ex :
  exists o, construct CSens1 [("experiment", PVal 1 true); ("measurements", PLst [PVal 2 true]); ("rising_flank", PVal 0 false)] = Ok o /\
  find "_measurements" o = Some (PTup [PVal 2 true]) /\ find "_rising_flank" o = Some (PBool false) /\ find "_sweeping_gate" o = Some (PStr "SDB2").
Proof. eexists. repeat split; reflexivity. Qed.

(** The lead transition measures one line scan for each sweeping gate, unless it
    is given measurements. *)
Theorem transition_scans : forall kw o, construct CLeadTrans kw = Ok o ->
  match given kw "measurements" PNone with
  | PNone => exists l, (given kw "sweeping_gates" (PTup [PStr "RFA"; PStr "RFB"]) = PTup l \/ given kw "sweeping_gates" (PTup [PStr "RFA"; PStr "RFB"]) = PLst l) /\
      find "_measurements" o = Some (PTup (map (fun g => PSer [("line_scan", g)]) l))
  | v => find "_measurements" o = Some (as_attribute "measurements" v)
  end.
Proof.
  intros kw o H. unfold construct in H. okinv H. cbn [init] in H.
  rewrite (arg_given _ _ _ "measurements" PNone E eq_refl), (arg_given _ _ _ "sweeping_gates" (PTup [PStr "RFA"; PStr "RFB"]) E eq_refl) in H.
  set (g := given kw "sweeping_gates" _) in *. okinv H. apply evaluator_init_shape in H. destruct H as [lm [lp [Hm [Hp ->]]]]. cbn -[given arg].
  destruct (given kw "measurements" PNone); try (injection E0 as <-; cbn in Hm; congruence).
  destruct g as [| | | | |l|l| |]; try discriminate E0; exists l; injection E0 as <-; injection Hm as <-; auto.
Qed.
Example transition_scans_ex : exists o, construct CLeadTrans [("experiment", PVal 1 true); ("sweeping_gates", PLst [PStr "A"; PStr "B"])] = Ok o /\
  find "_measurements" o = Some (PTup [PSer [("line_scan", PStr "A")]; PSer [("line_scan", PStr "B")]]).
Proof. eexists. split; reflexivity. Qed.

(** An averaging evaluator measures what the averaged one measures. *)
Theorem averaging_made : forall kw o, construct CAvg kw = Ok o ->
  exists i m p, find "evaluator" kw = Some (PInst i) /\ find "_experiment" o = find "_experiment" i /\
    find "_measurements" i = Some m /\ find "_measurements" o = Some (as_attribute "measurements" m) /\
    find "_parameters" i = Some p /\ find "_parameters" o = Some (as_attribute "parameters" p) /\
    match given kw "name" PNone with
    | PNone => exists s, find "_name" i = Some (PStr s) /\ find "_name" o = Some (PStr ("Averaging" ++ s)%string)
    | v => find "_name" o = Some v
    end.
Proof.
  intros kw o H. unfold construct in H. okinv H. cbn [init] in H.
  rewrite (arg_given _ _ _ "name" PNone E eq_refl) in H. pose proof (arg_needed _ _ _ "evaluator" E eq_refl) as Ae.
  okinv H. okinv H. okinv H. okinv H. unfold inner, getattr in *. destruct (arg v "evaluator") as [| | | | | | | |i]; try discriminate.
  destruct (find "_experiment" i) as [x|] eqn:F0; [|discriminate]. destruct (find "_measurements" i) as [m|] eqn:F1; [|discriminate].
  destruct (find "_parameters" i) as [p|] eqn:F2; [|discriminate]. injection E1 as <-. injection E2 as <-. injection E3 as <-.
  apply evaluator_init_shape in H. destruct H as [lm [lp [Hm [Hp ->]]]]. exists i, m, p. split; [exact Ae|]. cbn -[given arg String.append].
  split; [congruence|]. split; [exact F1|]. split; [destruct m; cbn in Hm |- *; congruence|]. split; [exact F2|].
  split; [destruct p; cbn in Hp |- *; congruence|].
  destruct (given kw "name" PNone); try congruence. destruct (find "_name" i) as [w|]; [|discriminate]. cbn -[String.append] in E0. destruct w; try discriminate. exists s.
  split; [reflexivity|]. congruence.
Qed.
Example averaging_made_ex : exists o, construct CAvg [("evaluator", PInst ex_inner); ("n_measurement_repetitions", PVal 3 true)] = Ok o /\
  find "_name" o = Some (PStr "AveragingTC") /\ find "_parameters" o = Some (PTup [PStr "tc"]).
Proof. eexists. repeat split; reflexivity. Qed.

(** Limits and errors for each parameter.  The upper limit of the position that
    nobody gives is minus infinity. *)
Theorem response_series : forall kw o ps, construct CResp kw = Ok o ->
  find "parameters" kw = Some (PTup (map PStr ps)) \/ find "parameters" kw = Some (PLst (map PStr ps)) ->
  exists er lo hi, find "_error" o = Some (PSer er) /\ over ps (given kw "error" (PConst "1")) er /\
    find "_min_position" o = Some (PSer lo) /\ over_or ps (given kw "min_position" PNone) (PConst "-inf") lo /\
    find "_max_position" o = Some (PSer hi) /\ over_or ps (given kw "max_position" PNone) (PConst "-inf") hi.
Proof.
  intros kw o ps H Hps. unfold construct in H. okinv H. cbn [init] in H. unfold qqd_init in H.
  pose proof (arg_needed _ _ _ "parameters" E eq_refl) as Ap.
  rewrite (arg_given _ _ _ "error" (PConst "1") E eq_refl), (arg_given _ _ _ "min_position" PNone E eq_refl), (arg_given _ _ _ "max_position" PNone E eq_refl) in H.
  assert (T : py_tuple (arg v "parameters") = Ok (PTup (map PStr ps))) by (rewrite Ap in Hps; destruct Hps as [K|K]; injection K as ->; reflexivity).
  okinv H. apply evaluator_init_shape in E0. destruct E0 as [lm [lp [Hm [Hp ->]]]]. rewrite T in H. cbn [rbind] in H. rewrite names_strings in H.
  okinv H. okinv H. okinv H. apply series_of_over in E0. destruct E0 as [er [-> H1]]. apply series_arg_over in E1, E2. destruct E1 as [lo [-> H2]], E2 as [hi [-> H3]].
  injection H as <-. exists er, lo, hi. repeat (split; [first [assumption|reflexivity]|]). exact H3.
Qed.
Example response_series_ex : exists o, construct CResp [("experiment", PVal 1 true); ("measurements", PTup []); ("parameters", strs ["a"; "b"]); ("name", PStr "r");
    ("error", PSer [("b", PVal 2 true)]); ("min_position", PVal 3 true)] = Ok o /\
  find "_error" o = Some (PSer [("a", PConst "nan"); ("b", PVal 2 true)]) /\ find "_min_position" o = Some (PSer [("a", PVal 3 true); ("b", PVal 3 true)]).
Proof. eexists. repeat split; reflexivity. Qed.
(** The residuals of passed through values. *)
Theorem passthru_series : forall kw o ps, construct CPass kw = Ok o ->
  find "parameters" kw = Some (PTup (map PStr ps)) \/ find "parameters" kw = Some (PLst (map PStr ps)) ->
  exists rs, find "_reference_residual_sum" o = Some (PSer rs) /\ over_or ps (given kw "reference_residual_sum" PNone) (PConst "nan") rs.
Proof.
  intros kw o ps H Hps. unfold construct in H. okinv H. cbn [init] in H. unfold qqd_init in H.
  pose proof (arg_needed _ _ _ "parameters" E eq_refl) as Ap.
  rewrite (arg_given _ _ _ "reference_residual_sum" PNone E eq_refl) in H. rewrite Ap in Hps.
  assert (T : names_of (arg v "parameters") = ps).
  { destruct Hps as [K|K]; injection K as ->; [apply names_strings|exact (names_strings ps)]. }
  okinv H. apply evaluator_init_shape in E0. destruct E0 as [lm [lp [Hm [Hp ->]]]]. rewrite T in H.
  okinv H. apply series_arg_over in E0. destruct E0 as [rs [-> H2]]. injection H as <-. exists rs. split; [reflexivity|exact H2].
Qed.
Example passthru_series_ex : exists o, construct CPass [("experiment", PVal 1 true); ("measurements", PTup []); ("parameters", strs ["a"]); ("name", PStr "r")] = Ok o /\
  find "_reference_residual_sum" o = Some (PSer [("a", PConst "nan")]).
Proof. eexists. split; reflexivity. Qed.

Print Assumptions evaluator_reload.
Print Assumptions evaluator_reload_again.
Print Assumptions evaluator_reload_refuted.
Print Assumptions measurement_reload.
Print Assumptions qqd_measurement_refuted.
Print Assumptions constructor_call.
Print Assumptions constructor_fields.
Print Assumptions transition_scans.
Print Assumptions averaging_made.
Print Assumptions response_series.
Print Assumptions passthru_series.
