(** Calls of MATLAB functions by the experiments. *)
From Coq Require Import List Arith Bool String ZArith Lia.
From Verif Require Import PyExn EngineModel EngineSpec EngineProofs TuneModel.
Import ListNotations.
Local Open Scope string_scope.

(** The number in an option, if it is one. *)
Definition number_of {V : Type} (o : option_value V) : option V :=
  match o with ONumber x => Some x | OGeneric x => Some x | OText _ => None end.
Definition not_index {V : Type} (l : list (string * option_value V)) := filter (fun q => negb (String.eqb (fst q) "index")) l.

Lemma find_option_map (V : Type) (k : string) (l : list (string * option_value V)) :
  find_option k (map (fun q => (fst q, plain (snd q))) l) = option_map plain (find_option k l).
Proof. induction l as [|[k' o] l IH]; cbn; auto. destruct (String.eqb k k'); auto. Qed.
Lemma filter_map_plain (V : Type) (l : list (string * option_value V)) :
  filter (fun q => negb (String.eqb (fst q) "index")) (map (fun q => (fst q, plain (snd q))) l) =
  map (fun q => (fst q, plain (snd q))) (not_index l).
Proof. unfold not_index. induction l as [|[k o] l IH]; cbn; auto. destruct (negb (String.eqb k "index")); cbn; rewrite IH; reflexivity. Qed.
Lemma pairs_nth (V : Type) : forall (l : list (string * option_value V)) j k o, nth_error l j = Some (k, o) ->
  let args := flat_map (fun q => [AText (fst q); value_argument (snd q)]) l in
  nth_error args (2 * j) = Some (AText k) /\ nth_error args (2 * j + 1) = Some (value_argument o).
Proof.
  induction l as [|q l IH]; intros [|j] k o H; cbn in H; try discriminate.
  - injection H as ->. cbn. auto.
  - specialize (IH j k o H). cbv zeta in *. cbn [flat_map app].
    replace (2 * S j) with (S (S (2 * j))) by lia. replace (S (S (2 * j)) + 1) with (S (S (2 * j + 1))) by lia. exact IH.
Qed.
Lemma pairs_length (V : Type) (l : list (string * option_value V)) :
  List.length (flat_map (fun q => [AText (fst q); value_argument (snd q)]) l) = 2 * List.length l.
Proof. induction l as [|q l IH]; cbn in *; lia. Qed.
Lemma not_index_length (V : Type) : forall (l : list (string * option_value V)) o,
  NoDup (map fst l) -> find_option "index" l = Some o -> S (List.length (not_index l)) = List.length l.
Proof.
  assert (A : forall l : list (string * option_value V), ~ In "index" (map fst l) -> not_index l = l).
  { unfold not_index. induction l as [|[k o] l IH]; cbn [filter map fst]; auto. intros N. destruct (String.eqb_spec k "index").
    - exfalso. apply N. left. exact e.
    - cbn [negb]. rewrite IH; auto. intros I. apply N. right. exact I. }
  induction l as [|[k o'] l IH]; intros o N F; cbn [find_option] in F; [discriminate|]. inversion N; subst.
  unfold not_index. cbn [filter fst]. destruct (String.eqb_spec "index" k) as [<-|D].
  - change (negb ("index" =? "index")) with false. fold (not_index l). rewrite A by assumption. reflexivity.
  - destruct (String.eqb_spec k "index") as [->|_]; [congruence|]. cbn [negb List.length]. f_equal. eapply IH; eauto.
Qed.

(** A measurement with an index becomes the call tune.tune(name, index, key,
    value, ...): every other option once, in order, numbers as doubles. *)
Theorem tune_call (V : Type) (m : measurement V) i ix :
  In (m_name m) known_measurements -> NoDup (map fst (m_options m)) ->
  find_option "index" (m_options m) = Some i -> number_of i = Some ix ->
  ~ In "measurement_name" (map fst (m_options m)) -> ~ In "self" (map fst (m_options m)) ->
  exists args kind,
    snd (measure m) = Ok (args, kind) /\
    nth_error args 0 = Some (AText (m_name m)) /\ nth_error args 1 = Some (ADouble ix) /\
    List.length args = 2 * List.length (m_options m) /\
    forall j k o, nth_error (not_index (m_options m)) j = Some (k, o) ->
      nth_error args (2 + 2 * j) = Some (AText k) /\
      nth_error args (3 + 2 * j) = Some (match o with OText s => AText s | ONumber x | OGeneric x => ADouble x end).
Proof.
  intros K ND F I N1 N2. unfold measure.
  assert (E : existsb (String.eqb (m_name m)) known_measurements = true).
  { apply existsb_exists. exists (m_name m). split; auto. apply String.eqb_refl. }
  rewrite E. unfold pytune, plain_options. cbn [m_options m_name]. rewrite find_option_map, F. cbn [option_map].
  rewrite filter_map_plain. unfold tune.
  assert (X : existsb (fun q : string * option_value V => String.eqb (fst q) "measurement_name" || String.eqb (fst q) "self")
                (map (fun q => (fst q, plain (snd q))) (not_index (m_options m))) = false).
  { apply not_true_iff_false. intros H. apply existsb_exists in H. destruct H as (q & Q & H).
    apply in_map_iff in Q. destruct Q as (q' & <- & Q). unfold not_index in Q. apply filter_In in Q. destruct Q as [Q _].
    apply (in_map fst) in Q. cbn [fst] in H. apply orb_true_iff in H. destruct H as [H|H]; apply String.eqb_eq in H; rewrite H in Q; auto. }
  rewrite X.
  assert (Fl : as_float (plain i) = Ok ix) by (destruct i; cbn in I |- *; congruence). rewrite Fl.
  assert (R : exists kind, result_of (m_name m) = Ok kind).
  { cbn in K. repeat (destruct K as [<-|K]; [eexists; reflexivity|]). contradiction. }
  destruct R as [kind R]. rewrite R. do 2 eexists. split; [reflexivity|]. split; [reflexivity|]. split; [reflexivity|]. split.
  - cbn [List.length]. rewrite pairs_length, map_length. rewrite <- (not_index_length V (m_options m) i ND F). lia.
  - intros j k o J.
    assert (J' : nth_error (map (fun q => (fst q, plain (snd q))) (not_index (m_options m))) j = Some (k, plain o)).
    { rewrite nth_error_map, J. reflexivity. }
    destruct (pairs_nth V _ j k (plain o) J') as [A B]. cbn [plus Nat.add] in *.
    replace (2 * j + 1) with (S (2 * j)) in B by lia.
    split; [exact A|]. transitivity (Some (value_argument (plain o))); [exact B|destruct o; reflexivity].
Qed.
Print Assumptions tune_call.
Example tune_call_ex :
  snd (measure (mk_measurement "lead" [("gate", OText "RFA"); ("index", OGeneric 2%Z); ("range", OGeneric 5%Z)])) =
  Ok ([AText "lead"; ADouble 2%Z; AText "gate"; AText "RFA"; AText "range"; ADouble 5%Z], Whole) /\
  exists args kind, snd (measure (mk_measurement "tl" [("index", ONumber 1%Z); ("n", ONumber 7%Z)])) = Ok (args, kind) /\
    nth_error args 3 = Some (ADouble 7%Z).
Proof.
  split; [reflexivity|].
  destruct (tune_call Z (mk_measurement "tl" [("index", ONumber 1%Z); ("n", ONumber 7%Z)]) (ONumber 1%Z) 1%Z) as (args & kind & H & _ & _ & _ & P).
  - cbn. intuition.
  - repeat constructor; cbn; intuition discriminate.
  - reflexivity.
  - reflexivity.
  - cbn. intuition discriminate.
  - cbn. intuition discriminate.
  - exists args, kind. split; [exact H|]. apply (P 0 "n" (ONumber 7%Z) eq_refl).
Qed.

(** Measuring changes the options of the measurement once: keys and numbers
    stay, and the next measurement sends the same call. *)
Theorem tune_repeat (V : Type) (m : measurement V) :
  let m' := fst (measure m) in
  measure m' = (m', snd (measure m)) /\ m_name m' = m_name m /\
  map (fun q => (fst q, number_of (snd q))) (m_options m') = map (fun q => (fst q, number_of (snd q))) (m_options m) /\
  (In (m_name m) known_measurements -> forall k x, ~ In (k, OGeneric x) (m_options m')).
Proof.
  assert (P3 : forall k x, ~ In (k, OGeneric x) (m_options (plain_options m))).
  { intros k x H. unfold plain_options in H. cbn [m_options] in H. apply in_map_iff in H as ([k' o] & H & _). destruct o; discriminate. }
  assert (P2 : plain_options (plain_options m) = plain_options m).
  { unfold plain_options. cbn. f_equal. rewrite map_map. apply map_ext. intros [k []]; reflexivity. }
  cbv zeta. unfold measure. destruct (existsb (String.eqb (m_name m)) known_measurements) eqn:E; cbn [fst snd].
  - assert (F : forall (r : res (list (argument V) * result_kind)), fst (plain_options m, r) = plain_options m) by reflexivity.
    assert (N : m_name (plain_options m) = m_name m) by reflexivity.
    destruct (pytune (plain_options m)) as [args|e] eqn:Py; [destruct (result_of (m_name m)) as [k|e] eqn:R|]; cbn [fst snd];
      rewrite N, E, P2, Py, ?R; (split; [reflexivity|]); (split; [reflexivity|]);
      (split; [unfold plain_options; cbn [m_options]; rewrite map_map; apply map_ext; intros [kk []]; reflexivity|intros _; exact P3]).
  - rewrite E. repeat (split; [reflexivity|]). intros I. exfalso. rewrite <- not_true_iff_false in E. apply E, existsb_exists.
    exists (m_name m). split; [exact I|apply String.eqb_refl].
Qed.
Print Assumptions tune_repeat.
Example tune_repeat_ex :
  let m := mk_measurement "stp" [("index", OGeneric 2%Z); ("file", OText "a")] in
  fst (measure m) = mk_measurement "stp" [("index", ONumber 2%Z); ("file", OText "a")] /\
  snd (measure (fst (measure m))) = Ok ([AText "stp"; ADouble 2%Z; AText "file"; AText "a"], Pair "STp_x" "STp_y").
Proof. split; [reflexivity|]. destruct (tune_repeat Z (mk_measurement "stp" [("index", OGeneric 2%Z); ("file", OText "a")])) as [H _]. cbv zeta in H. rewrite H. reflexivity. Qed.

(** A measurement of tune.tune is never carried out in vain: for every known
    name the result is understood, and unknown names are refused before. *)
Theorem tune_understood (V : Type) (m : measurement V) args :
  (In (m_name m) known_measurements -> pytune (plain_options m) = Ok args -> exists kind, snd (measure m) = Ok (args, kind)) /\
  (~ In (m_name m) known_measurements -> measure m = (m, Raise ValueError)).
Proof.
  split.
  - intros K P. unfold measure. replace (existsb (String.eqb (m_name m)) known_measurements) with true.
    2: { symmetry. apply existsb_exists. exists (m_name m). split; auto. apply String.eqb_refl. }
    rewrite P. assert (R : exists kind, result_of (m_name m) = Ok kind).
    { cbn in K. repeat (destruct K as [<-|K]; [eexists; reflexivity|]). contradiction. }
    destruct R as [kind R]. rewrite R. exists kind. reflexivity.
  - intros N. unfold measure. destruct (existsb (String.eqb (m_name m)) known_measurements) eqn:E; auto.
    apply existsb_exists in E. destruct E as (n & I & E). apply String.eqb_eq in E. subst. contradiction.
Qed.
Print Assumptions tune_understood.
Example tune_understood_ex : snd (measure (mk_measurement "line scan" [("index", ONumber 1%Z)])) = Raise ValueError.
Proof. rewrite (proj2 (tune_understood Z (mk_measurement "line scan" [("index", ONumber 1%Z)]) [])); [reflexivity|]. cbn. intuition discriminate. Qed.

(** The names that are known and what is returned for each of them. *)
Theorem tune_result_kind (V : Type) (m : measurement V) :
  (In (m_name m) ["sensor 2d"; "sensor"; "chrg"; "resp"; "line"; "lead"; "load"; "load pos"; "chrg rnd"; "chrg s"] ->
     forall args kind, snd (measure m) = Ok (args, kind) -> kind = Whole) /\
  (m_name m = "stp" -> forall args kind, snd (measure m) = Ok (args, kind) -> kind = Pair "STp_x" "STp_y") /\
  (m_name m = "tl" -> forall args kind, snd (measure m) = Ok (args, kind) -> kind = Pair "Tp_x" "Tp_y") /\
  ((forall i x, find_option "index" (m_options m) = Some i -> number_of i = Some x -> ~ In "measurement_name" (map fst (m_options m)) ->
     ~ In "self" (map fst (m_options m)) -> NoDup (map fst (m_options m)) ->
     (In (m_name m) ["sensor 2d"; "sensor"; "chrg"; "resp"; "line"; "lead"; "load"; "load pos"; "chrg rnd"; "chrg s"; "stp"; "tl"] <->
      exists args kind, snd (measure m) = Ok (args, kind)))).
Proof.
  assert (R : forall args kind, snd (measure m) = Ok (args, kind) -> result_of (m_name m) = Ok kind /\ In (m_name m) known_measurements).
  { intros args kind H. unfold measure in H. destruct (existsb (String.eqb (m_name m)) known_measurements) eqn:E; [|discriminate].
    destruct (pytune (plain_options m)); [|discriminate]. destruct (result_of (m_name m)) eqn:Q; [|discriminate]. injection H as _ <-. split; [reflexivity|].
    apply existsb_exists in E as (n & I & E). apply String.eqb_eq in E. subst. exact I. }
  split; [|split; [|split]].
  - intros K args kind H. apply R in H as [H _]. cbn in K. repeat (destruct K as [K|K]; [rewrite <- K in H; injection H as <-; reflexivity|]). contradiction.
  - intros K args kind H. apply R in H as [H _]. rewrite K in H. injection H as <-. reflexivity.
  - intros K args kind H. apply R in H as [H _]. rewrite K in H. injection H as <-. reflexivity.
  - intros i x F I N1 N2 ND. split.
    + intros K. destruct (tune_call V m i x K ND F I N1 N2) as (args & kind & H & _). exists args, kind. exact H.
    + intros (args & kind & H). apply (R args kind H).
Qed.
Print Assumptions tune_result_kind.
Example tune_result_kind_ex : snd (measure (mk_measurement "tl" [("index", ONumber 1%Z)])) = Ok ([AText "tl"; ADouble 1%Z], Pair "Tp_x" "Tp_y").
Proof. reflexivity. Qed.

(** The measurements an SMTuneQQD offers have no index: none of them can be
    measured. *)
Theorem offered_refuted (V : Type) name (options : list (string * option_value V)) :
  In name known_measurements -> ~ In "index" (map fst options) ->
  snd (measure (mk_measurement name options)) = Raise KeyError.
Proof.
  intros K N. unfold measure. cbn [m_name]. replace (existsb (String.eqb name) known_measurements) with true.
  2: { symmetry. apply existsb_exists. exists name. split; auto. apply String.eqb_refl. }
  unfold pytune, plain_options. cbn [m_options m_name]. rewrite find_option_map.
  replace (find_option "index" options) with (@None (option_value V)); [reflexivity|].
  symmetry. induction options as [|[k o] l IH]; auto. cbn [find_option]. destruct (String.eqb_spec "index" k) as [<-|].
  - exfalso. apply N. left. reflexivity.
  - apply IH. intros I. apply N. right. exact I.
Qed.
Print Assumptions offered_refuted.
Example offered_refuted_ex :
  forall name, In name known_measurements -> snd (measure (mk_measurement (V := Z) name [])) = Raise KeyError.
Proof. intros name I. apply offered_refuted; auto. Qed.

(** Scans of LegacyDQDRefactored. *)
Lemma convert_some_ok (V : Type) ks : forall (l : list (string * pyval V)) r, convert_some ks l = Ok r ->
  map fst r = map fst l /\
  forall k v, In (k, v) l -> (existsb (String.eqb k) ks = true -> exists w, to_matlab v = Ok w /\ In (k, Converted w) r) /\
                             (existsb (String.eqb k) ks = false -> In (k, Raw v) r).
Proof.
  induction l as [|[k v] l IH]; intros r H; cbn [convert_some] in H.
  - injection H as <-. split; auto. intros k v [].
  - destruct (existsb (String.eqb k) ks) eqn:E; [destruct (to_matlab v) as [w|] eqn:T; [|discriminate]|];
      (destruct (convert_some ks l) as [r'|] eqn:C; [|discriminate]); injection H as <-; destruct (IH r' eq_refl) as [A B];
      (split; [cbn; rewrite A; reflexivity|]); intros k' v' [Q|I].
    + injection Q as <- <-. split; [intros _; exists w; split; auto; left; auto|congruence].
    + destruct (B k' v' I) as [B1 B2]. split; [intros X; destruct (B1 X) as (w' & ? & ?); exists w'; split; auto; right; auto|right; auto].
    + injection Q as <- <-. split; [congruence|left; auto].
    + destruct (B k' v' I) as [B1 B2]. split; [intros X; destruct (B1 X) as (w' & ? & ?); exists w'; split; auto; right; auto|right; auto].
Qed.
Lemma convert_some_raise (V : Type) ks : forall (l : list (string * pyval V)),
  (exists e, convert_some ks l = Raise e) <-> exists k v e, In (k, v) l /\ existsb (String.eqb k) ks = true /\ to_matlab v = Raise e.
Proof.
  induction l as [|[k v] l IH]; cbn [convert_some].
  - split; [intros [e H]; discriminate|intros (k & v & e & [] & _)].
  - split.
    + intros [e H]. destruct (existsb (String.eqb k) ks) eqn:E; [destruct (to_matlab v) as [w|e'] eqn:T|].
      * destruct (convert_some ks l) as [r|e'] eqn:C; [discriminate|].
        destruct (proj1 IH (ex_intro _ e' eq_refl)) as (k0 & v0 & e0 & I & X & Y). exists k0, v0, e0. split; [right; auto|auto].
      * exists k, v, e'. split; [left; auto|auto].
      * destruct (convert_some ks l) as [r|e'] eqn:C; [discriminate|].
        destruct (proj1 IH (ex_intro _ e' eq_refl)) as (k0 & v0 & e0 & I & X & Y). exists k0, v0, e0. split; [right; auto|auto].
    + intros (k0 & v0 & e0 & [Q|I] & X & Y).
      * injection Q as -> ->. rewrite X, Y. eauto.
      * destruct (proj2 IH) as [e C]. { exists k0, v0, e0. auto. }
        destruct (existsb (String.eqb k) ks); [destruct (to_matlab v)|]; rewrite ?C; eauto.
Qed.
Lemma set_key_In (V : Type) k (v : pyval V) k' w : forall l, In (k', w) (set_key k v l) -> (k', w) = (k, v) \/ (k' <> k -> In (k', w) l).
Proof.
  induction l as [|[k2 u] l IH]; cbn [set_key].
  - intros [Q|[]]. left. congruence.
  - destruct (String.eqb_spec k k2) as [<-|N]; intros [Q|I].
    + left. congruence.
    + right. right. exact I.
    + right. intros _. left. exact Q.
    + destruct (IH I) as [Q|J]; [left; exact Q|right; intros X; right; apply J; exact X].
Qed.
Lemma set_key_kept (V : Type) k (v : pyval V) k' w : forall l, In (k', w) l -> k' <> k -> In (k', w) (set_key k v l).
Proof.
  induction l as [|[k2 u] l IH]; cbn [set_key]; [intros []|]. intros [Q|I] N; destruct (String.eqb_spec k k2) as [<-|D].
  - congruence.
  - left. exact Q.
  - right. exact I.
  - right. auto.
Qed.
Lemma set_key_there (V : Type) k (v : pyval V) : forall l, In (k, v) (set_key k v l).
Proof. induction l as [|[k2 u] l IH]; cbn; auto. destruct (String.eqb_spec k k2) as [<-|]; [left|right]; auto. Qed.

(** The line, detuning, lead and load scans: MATLAB receives every option; the
    five numbers of line and detuning scans are converted, everything else is
    sent as it is; the file name is the one of this measurement. *)
Definition scan_function (name : string) : option (string * bool) :=
  if String.eqb name "line_scan" then Some ("PythonChargeLineScan", true)
  else if String.eqb name "detune_scan" then Some ("PythonLineScan", true)
  else if String.eqb name "lead_scan" then Some ("LeadScan", false)
  else if String.eqb name "load_scan" then Some ("LoadScan", false) else None.
Theorem legacy_scan (V : Type) name f conv (options : list (string * pyval V)) file :
  scan_function name = Some (f, conv) ->
  (forall sent_options, legacy_call name options file = Ok (f, sent_options) ->
     In ("file_name", Raw file) sent_options /\
     forall k v, In (k, v) options -> k <> "file_name" ->
       if conv && existsb (String.eqb k) ["N_points"; "N_average"; "center"; "range"; "ramptime"]
       then exists w, to_matlab v = Ok w /\ In (k, Converted w) sent_options
       else In (k, Raw v) sent_options) /\
  ((exists e, legacy_call name options file = Raise e) <->
     conv = true /\ exists k v e, In (k, v) options /\ In k ["N_points"; "N_average"; "center"; "range"; "ramptime"] /\ to_matlab v = Raise e) /\
  (forall g l, legacy_call name options file = Ok (g, l) -> g = f).
Proof.
  intros S.
  assert (C : legacy_call name options file =
              match convert_some (if conv then scan_options else []) (set_key "file_name" file options) with Raise e => Raise e | Ok l => Ok (f, l) end).
  { unfold scan_function in S. unfold legacy_call. destruct (String.eqb_spec name "line_scan"); [injection S as <- <-; reflexivity|].
    destruct (String.eqb_spec name "detune_scan"); [injection S as <- <-; reflexivity|].
    destruct (String.eqb_spec name "lead_scan"); [injection S as <- <-; reflexivity|].
    destruct (String.eqb_spec name "load_scan"); [injection S as <- <-; reflexivity|discriminate]. }
  rewrite C. clear C S. split; [|split].
  - intros so H. destruct (convert_some _ _) as [l|] eqn:E; [|discriminate]. injection H as <-.
    apply convert_some_ok in E. destruct E as [_ E]. split.
    + apply (E "file_name" file (set_key_there V _ _ _)). destruct conv; reflexivity.
    + intros k v I N. destruct (E k v (set_key_kept V _ _ _ _ _ I N)) as [E1 E2].
      destruct conv; cbn [andb]; [|apply E2; reflexivity]. fold scan_options. destruct (existsb (String.eqb k) scan_options); auto.
  - transitivity (exists e, convert_some (if conv then scan_options else []) (set_key "file_name" file options) = Raise e).
    { split; intros [e H]; destruct (convert_some _ _) as [l|e'] eqn:E; try discriminate; eauto. }
    rewrite convert_some_raise. split.
    + intros (k & v & e & I & X & T). destruct conv; [|discriminate]. split; auto.
      apply set_key_In in I. destruct I as [Q|I]; [injection Q as -> ->; discriminate|].
      apply existsb_exists in X. destruct X as (k' & J & Q). apply String.eqb_eq in Q. subst k'.
      exists k, v, e. split; [|split; auto]. apply I. intros ->. cbn in J. intuition discriminate.
    + intros (-> & k & v & e & I & J & T). exists k, v, e. split; [|split; auto].
      * apply set_key_kept; auto. intros ->. cbn in J. intuition discriminate.
      * apply existsb_exists. exists k. split; auto. apply String.eqb_refl.
  - intros g l H. destruct (convert_some _ _); [|discriminate]. injection H as <- _. reflexivity.
Qed.
Print Assumptions legacy_scan.
Example legacy_scan_ex :
  legacy_call "line_scan" [("center", PGeneric 0%Z); ("gate", POther); ("N_points", PNum 1280%Z)] POther =
    Ok ("PythonChargeLineScan", [("center", Converted (MNum 0%Z)); ("gate", Raw POther); ("N_points", Converted (MNum 1280%Z)); ("file_name", Raw POther)]) /\
  (exists e, legacy_call "detune_scan" [("center", @POther Z)] POther = Raise e) /\
  ~ (exists e, legacy_call "lead_scan" [("center", @POther Z)] POther = Raise e).
Proof.
  split; [reflexivity|]. split.
  - apply (legacy_scan Z "detune_scan" "PythonLineScan" true _ _ eq_refl). split; auto.
    exists "center", POther, not_implemented. cbn. intuition.
  - intros H. apply (legacy_scan Z "lead_scan" "LeadScan" false _ _ eq_refl) in H. destruct H as [H _]. discriminate.
Qed.

(** The two dimensional scan sends the range, the name of the file and the number
    of points, and nothing else. *)
Theorem legacy_scan_2d (V : Type) (options : list (string * pyval V)) file r n :
  find_py "range" options = Some r -> find_py "n_points" options = Some n ->
  (forall r' n', to_matlab r = Ok r' -> to_matlab n = Ok n' -> exists l, legacy_call "2d_scan" options file = Ok ("PythonQPCScan2D", l) /\
     (forall k v, In (k, v) l <-> (k = "range" /\ v = Converted r') \/ (k = "n_points" /\ v = Converted n') \/ (k = "file_name" /\ v = Raw file)) /\ NoDup (map fst l)) /\
  ((exists e, legacy_call "2d_scan" options file = Raise e) <-> exists v e, (v = r \/ v = n) /\ to_matlab v = Raise e).
Proof.
  intros Hr Hn. unfold legacy_call. cbn [String.eqb Ascii.eqb Bool.eqb]. rewrite Hr, Hn. split.
  - intros r' n' -> ->. eexists. split; [reflexivity|]. split.
    + intros k v. cbn [In]. split; [intros [H|[H|[H|[]]]]; injection H as <- <-; auto|intros [[-> ->]|[[-> ->]|[-> ->]]]; auto].
    + cbn. repeat constructor; cbn; intuition discriminate.
  - destruct (to_matlab r) as [r'|e] eqn:Er; [destruct (to_matlab n) as [n'|e] eqn:En|]; split; eauto.
    + intros [e H]. discriminate.
    + intros (v & e & [->| ->] & H); congruence.
Qed.
Print Assumptions legacy_scan_2d.
Example legacy_scan_2d_ex : exists l, legacy_call "2d_scan" [("n_points", PNum 7%Z); ("gate", POther); ("range", PGeneric 4%Z)] POther = Ok ("PythonQPCScan2D", l) /\
  In ("range", Converted (MNum 4%Z)) l /\ In ("n_points", Converted (MNum 7%Z)) l.
Proof. eexists. split; [reflexivity|]. cbn. auto. Qed.
