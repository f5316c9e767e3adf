(** C131: classes that can be loaded, versions, readers of files. *)
From Coq Require Import String Ascii List Bool Arith Lia Permutation.
From Verif Require Import PyExn StorageModel StorageSpec StorageProofs StorageProps RegistryModel RegistrySpec RegistryProofs.
Import ListNotations.
Local Open Scope string_scope.
Local Open Scope list_scope.

(** Class statements, successful or not (a class without its own to_hdf5 is
    refused but stays registered): the name belongs to the last statement. *)
Theorem class_statements :
  forall cs name, named name (py_classes (statements cs fresh_python)) = last_statement name cs.
Proof. intros cs name. rewrite statements_last. destruct (last_statement name cs); reflexivity. Qed.
Print Assumptions class_statements.
Example statements_case :
  let cs := [("Tuner", "a", true); ("Solver", "a", true); ("Tuner", "b", false)] in
  named "Tuner" (py_classes (statements cs fresh_python)) = Some "b" /\ py_warned (statements cs fresh_python) = ["Tuner"] /\
  snd (define "b" ("Tuner", false) fresh_python) = Raise AttributeError.
Proof. vm_compute. auto. Qed.

(** Imports in any program without circular imports: what is loaded afterwards
    can be imported and was asked for, and everything that was asked for and
    can be imported is loaded, with all that it imports; the registered classes are those of the
    loaded modules. *)
Theorem imports_registered :
  forall prog installed rank fuel ms, ranked prog rank -> all_own prog -> distinct_names prog ->
  (forall m, In m ms -> rank m < fuel) ->
  let s := user_imports prog installed fuel ms fresh_python in
  (forall x, In x (py_loaded s) -> importable prog installed x) /\
  (forall x, In x (py_loaded s) -> exists m, In m ms /\ reaches prog m x) /\
  (forall m x, In m ms -> importable prog installed m -> reaches prog m x -> In x (py_loaded s)) /\
  forall c m, named c (py_classes s) = Some m <-> In m (py_loaded s) /\ defines prog m c.
Proof.
  intros prog installed rank fuel ms H1 H2 H3 H4 s.
  destruct (user_imports_good prog installed rank H1 H2 fuel ms fresh_python H4 (inv_fresh prog installed)) as (A1 & _ & A3 & A4).
  split; [apply A1|]. split.
  - intros x Hx. destruct (A3 x Hx) as [[]|A]. exact A.
  - split; [exact A4|]. intros c m. apply (named_class prog installed); assumption.
Qed.
Print Assumptions imports_registered.
(** The package itself is such a program; a small one where an import fails
    after another one in the same module succeeded. *)
Example imports_case : ranked package package_rank /\ all_own package /\ distinct_names package.
Proof. split; [exact package_ranked|split; [exact package_own|exact package_distinct]]. Qed.
Example imports_fail :
  let prog := [("a", mk_module [] [own "A"]); ("b", mk_module [Inside "a"; Outside "missing"] [own "B"])] in
  let s := user_imports prog (fun _ => false) 3 ["b"] fresh_python in
  py_loaded s = ["a"] /\ py_classes s = [("A", "a")].
Proof. vm_compute. auto. Qed.

(** A load can construct the classes of the core, whatever the user imported;
    the evaluators for MATLAB only if the user imported their module before. *)
Theorem package_classes_known :
  forall installed fuel ms, (forall p, In p libraries -> installed p = true) -> 17 <= fuel ->
  exists s, import_all installed fuel (user_imports package installed fuel ms fresh_python) = (s, Ok tt) /\
  forall c, known s c = true <->
    In c core_classes \/
    (installed "matlab.engine" = true /\ c = "MatlabEvaluator" /\ exists m, In m ms /\ In m ["sm"; "sm_tune_qqd"; "kalman_heuristics"]) \/
    (installed "matlab.engine" = true /\ In c qqd_classes /\ In "sm_tune_qqd" ms).
Proof.
  intros installed fuel ms H1 H2. exists (after installed fuel ms). split; [apply (after_spec installed H1 fuel ms H2)|].
  intros c. apply package_known; assumption.
Qed.
Print Assumptions package_classes_known.
Example package_case :
  let run ms := fst (import_all (fun _ => true) 17 (user_imports package (fun _ => true) 17 ms fresh_python)) in
  known (run ["gui"]) "Autotuner" = true /\ known (run ["gui"]) "QQDLine" = false /\ known (run ["gui"; "sm_tune_qqd"]) "QQDLine" = true /\
  known (run ["kalman_heuristics"]) "MatlabEvaluator" = true /\ known (run ["sm_tune_qqd"]) "TestExperiment" = false.
Proof. vm_compute. repeat split. Qed.

(** The module kalman_heuristics cannot be imported: sm has no ChargeDiagram. *)
Theorem kalman_heuristics_refuted :
  forall installed fuel ms, exists e, snd (import_module package installed fuel "kalman_heuristics" (user_imports package installed fuel ms fresh_python)) = Raise e.
Proof.
  intros installed fuel ms.
  assert (G : forall fuel m s, ~ In "kalman_heuristics" (py_loaded s) -> ~ In "kalman_heuristics" (py_loaded (fst (import_module package installed fuel m s)))).
  { clear. induction fuel as [|fuel IH]; intros m s Hs; cbn [import_module]; destruct (loaded m s); [exact Hs|exact Hs|exact Hs|].
    destruct (named m package) as [md|] eqn:Hm; [|exact Hs].
    assert (R : forall is s, ~ In "kalman_heuristics" (py_loaded s) ->
              ~ In "kalman_heuristics" (py_loaded (fst (run_imports installed (import_module package installed fuel) is s))) /\
              ((exists a b, In (Missing a b) is) -> exists e, snd (run_imports installed (import_module package installed fuel) is s) = Raise e)).
    { induction is as [|[b|p|a x] is IHi]; intros s0 H0; cbn [run_imports].
      - split; [exact H0|]. intros [? [? []]].
      - pose proof (IH b s0 H0) as H1. destruct (import_module package installed fuel b s0) as [s1 [[]|e]]; cbn [fst snd] in *.
        + destruct (IHi s1 H1) as [I1 I2]. split; [exact I1|]. intros [a [n [E|Ha]]]; [discriminate|]. apply I2. eauto.
        + split; [exact H1|]. eauto.
      - destruct (installed p); [|cbn; split; [exact H0|eauto]].
        destruct (IHi s0 H0) as [I1 I2]. split; [exact I1|]. intros [a [n [E|Ha]]]; [discriminate|]. apply I2. eauto.
      - pose proof (IH a s0 H0) as H1. destruct (import_module package installed fuel a s0) as [s1 [[]|e]]; cbn [fst snd] in *; split; eauto. }
    destruct (R (md_imports md) s Hs) as [R1 R2].
    destruct (run_imports _ _ _ _) as [s1 [[]|e]] eqn:Er; cbn [fst snd] in *; [|exact R1].
    assert (D : forall cs s, py_loaded (fst (define_all m cs s)) = py_loaded s).
    { induction cs as [|[c b] cs IHc]; intros s0; cbn; [reflexivity|]. destruct b; [|reflexivity]. rewrite IHc. reflexivity. }
    specialize (D (md_classes md) s1). destruct (define_all m (md_classes md) s1) as [s2 [[]|e]]; cbn [fst py_loaded] in *; [|rewrite D; exact R1].
    intros [E|H]; [|rewrite D in H; exact (R1 H)]. subst m. destruct R2 as [e He]; [|discriminate].
    vm_compute in Hm. injection Hm as <-. exists "sm", "ChargeDiagram". left. reflexivity. }
  assert (U : forall ms s, ~ In "kalman_heuristics" (py_loaded s) -> ~ In "kalman_heuristics" (py_loaded (user_imports package installed fuel ms s))).
  { clear ms. induction ms as [|m ms' IH]; intros s Hs; cbn; [exact Hs|]. apply IH. apply G. exact Hs. }
  specialize (U ms fresh_python (fun H => H)).
  set (s := user_imports package installed fuel ms fresh_python) in *.
  destruct fuel as [|fuel]; cbn [import_module]; destruct (loaded "kalman_heuristics" s) eqn:El;
    try (apply loaded_In in El; contradiction).
  - cbn. eauto.
  - destruct (named "kalman_heuristics" package) as [md|] eqn:Em; [|cbn; eauto].
    vm_compute in Em. injection Em as <-. cbn [md_imports run_imports md_classes].
    destruct (import_module package installed fuel "sm" s) as [s1 [[]|e]]; cbn; eauto.
Qed.
Print Assumptions kalman_heuristics_refuted.
Example heuristics_case :
  snd (import_module package (fun _ => true) 17 "kalman_heuristics" fresh_python) = Raise ImportError /\
  snd (import_module package (fun _ => true) 17 "sm" fresh_python) = Ok tt.
Proof. vm_compute. auto. Qed.

(** An object of a class that the loading process does not know is loaded as
    None, without an error and without its members. *)
Theorem unknown_class_refuted :
  forall (payload : Type) (storable scalar : payload -> bool) (saver loader : string -> bool) construct i cls kvs name file fuel n,
  plain name -> saver cls = true -> loader cls = false -> ~ In cls ["dict"; "list"; "tuple"; "#reserved"] -> 2 <= fuel ->
  to_hdf5 payload storable saver [] 1 name (PInst i cls kvs) [] = Ok file ->
  from_hdf5 payload scalar loader construct fuel file [] n = Ok (PDict n [(name, PNone 0)]).
Proof.
  intros payload storable scalar saver loader construct i cls kvs name file fuel n Hp Hs Hl Hc Hf.
  unfold to_hdf5. cbn [save_reserved].
  destruct (put payload name (save payload storable saver (PInst i cls kvs) (mk_saving [] 1)) []) as [[ls s1]|e] eqn:Hq; [|discriminate].
  intros E. injection E as <-. unfold put in Hq.
  destruct (save payload storable saver (PInst i cls kvs) (mk_saving [] 1)) as [[h s]|e] eqn:Hv; [|discriminate].
  unfold link in Hq. rewrite path_plain in Hq by exact Hp. cbn in Hq. injection Hq as <- <-.
  assert (exists k ls, h = HGroup k (Some cls) ls /\ k <> 0) as [k [ls [-> Hk]]].
  { cbn in Hv. rewrite Hs in Hv. cbn in Hv.
    destruct (save_fields _ _ _ _ _) as [[ls s2]|e]; [|discriminate]. injection Hv as <- _. do 2 eexists. split; [reflexivity|discriminate]. }
  destruct fuel as [|[|fuel]]; try lia. unfold from_hdf5.
  assert (Hr : load_reserved payload [] (by_name [(name, HGroup k (Some cls) ls)]) [] = Ok []).
  { cbn. destruct (String.eqb_spec cls "#reserved") as [->|]; [exfalso; apply Hc; cbn; tauto|reflexivity]. }
  rewrite Hr. clear Hr. cbn.
  destruct (String.eqb_spec cls "dict") as [->|]; [exfalso; apply Hc; cbn; tauto|]. rewrite Hl.
  destruct (String.eqb_spec cls "list") as [->|]; [exfalso; apply Hc; cbn; tauto|].
  destruct (String.eqb_spec cls "tuple") as [->|]; [exfalso; apply Hc; cbn; tauto|]. reflexivity.
Qed.
Print Assumptions unknown_class_refuted.
(** An evaluator of sm_tune_qqd in a process that only imported the gui. *)
Example unknown_case :
  let knows ms := known (fst (import_all (fun _ => true) 17 (user_imports package (fun _ => true) 17 ms fresh_python))) in
  let obj := PInst 1 "QQDLine" [("name", PStr 2 "line"); ("value", PNum 3 false 5)] in
  match to_hdf5 nat case_storable (knows ["sm_tune_qqd"]) [] 1 "evaluator" obj [] with
  | Ok file => from_hdf5 nat case_scalar (knows ["gui"]) case_accept 9 file [] 10 = Ok (PDict 10 [("evaluator", PNone 0)]) /\
               from_hdf5 nat case_scalar (knows ["sm_tune_qqd"]) case_accept 9 file [] 10 =
                 Ok (PDict 13 [("evaluator", PInst 12 "QQDLine" [("name", PStr 10 "line"); ("value", PNum 11 true 5)])])
  | Raise _ => False
  end.
Proof. vm_compute. auto. Qed.

(** The version: with gitpython the commit of the package, otherwise the
    commit of the repository at the current directory, otherwise the version
    number alone; a time of 0 counts as no commit. *)
Theorem version_cases :
  forall base sy,
  (sy_has_git sy = false -> get_version base sy = Ok base) /\
  (forall t h, sy_has_git sy = true -> sy_python sy (sy_root sy) = GitCommit t h ->
     get_version base sy = Ok (if Nat.eqb t 0 then base else (base ++ "+" ++ digits t ++ "+" ++ h)%string)) /\
  (sy_has_git sy = true -> sy_python sy (sy_root sy) = NotInstalled ->
     get_version base sy = Ok match sy_program sy (sy_cwd sy) with
                              | Reports t h => if Nat.eqb t 0 then base else (base ++ "+" ++ digits t ++ "+" ++ h)%string
                              | Fails => base
                              end) /\
  (forall e, get_version base sy = Raise e <-> sy_has_git sy = true /\ sy_python sy (sy_root sy) = GitRaises e /\
     ~ In e [RuntimeError; RecursionError; EvaluationError]).
Proof.
  intros base sy. unfold get_version, get_git_info.
  split; [intros ->; reflexivity|]. split; [intros t h -> ->; destruct t; reflexivity|].
  split; [intros -> ->; destruct (sy_program _ _) as [|[|t] h]; reflexivity|]. intros e. split.
  - destruct (sy_has_git sy); [|discriminate]. 
    destruct (sy_python sy (sy_root sy)) as [|e'|[|t] h]; try discriminate.
    + destruct (sy_program _ _) as [|[|t] h]; discriminate.
    + destruct e'; try (destruct (sy_program _ _) as [|[|t] h]; discriminate);
        intros H; injection H as <-; (split; [reflexivity|split; [reflexivity|]]); cbn; intuition discriminate.
  - intros (-> & -> & H). destruct e; try reflexivity; exfalso; apply H; cbn; tauto.
Qed.
Print Assumptions version_cases.
(** Without gitpython the hash can be that of another repository. *)
Theorem version_other_repository_refuted :
  forall (base h h' : string) (t t' : nat), exists sy,
  sy_has_git sy = true /\ sy_program sy (sy_root sy) = Reports (S t) h /\
  get_version base sy = Ok (base ++ "+" ++ digits (S t') ++ "+" ++ h')%string.
Proof.
  intros base h h' t t'.
  exists (mk_system "/package" "/work" true (fun _ => NotInstalled) (fun d => if String.eqb d "/package" then Reports (S t) h else Reports (S t') h')).
  repeat split.
Qed.
Print Assumptions version_other_repository_refuted.
Example version_case :
  get_version "0.1" (mk_system "/package" "/work" true (fun _ => GitCommit 15 "abc") (fun _ => Fails)) = Ok "0.1+15+abc" /\
  get_version "0.1" (mk_system "/package" "/work" true (fun _ => GitRaises ValueError) (fun _ => Reports 3 "d")) = Raise ValueError /\
  get_version "0.1" (mk_system "/package" "/work" true (fun _ => GitCommit 0 "abc") (fun _ => Fails)) = Ok "0.1".
Proof. vm_compute. auto. Qed.

(** The attribute is written by every save, also into a file that has one: it
    is the version of the last save that found its version, even if this save
    failed afterwards. *)
Theorem version_of_file :
  forall (payload : Type) (storable : payload -> bool) serializables (ws : list (writing payload)) f,
  Forall (fun w : writing payload => match w with (_, _, name, _, reserved) =>
            Forall plain (name :: map fst reserved) /\ ~ In "#version" (name :: map fst reserved) end) ws ->
  ~ In "#version" (map fst (f_links f)) ->
  f_version (writes storable serializables ws f) = last_version ws (f_version f).
Proof. intros payload storable serializables ws f H1 H2. apply writes_version; [exact H1|]. apply named_none. exact H2. Qed.
Print Assumptions version_of_file.
(** The second write fails because the name exists; the version has changed. *)
Example file_case :
  let f0 := mk_file (payload := nat) [] None in
  let f1 := fst (write case_storable case_classes (Ok "1") 1 "data" (PStr 1 "x") [] f0) in
  let r := write case_storable case_classes (Ok "2") 5 "data" (PStr 1 "y") [] f1 in
  f_version f1 = Some "1" /\ f_version (fst r) = Some "2" /\ (exists e, snd r = Raise e) /\ f_links (fst r) = f_links f1.
Proof. cbn -[write]. vm_compute. split; [reflexivity|split; [reflexivity|split; [eauto|reflexivity]]]. Qed.

(** A failure to find the version makes the save fail. *)
Theorem version_needed :
  forall (payload : Type) (storable : payload -> bool) serializables e n name obj reserved (f : @file payload),
  ~ In "#version" (map fst (f_links f)) -> write storable serializables (Raise e) n name obj reserved f = (f, Raise e).
Proof. intros payload storable serializables e n name obj reserved f H. unfold write. rewrite named_none by exact H. reflexivity. Qed.
Print Assumptions version_needed.
Example needed_case : ~ In "#version" (map fst (f_links (mk_file (payload := nat) [("data", HData 1 None CEmpty)] None))).
Proof. cbn. intuition discriminate. Qed.

(** read_files never returns entries, and raises as soon as one of the files
    was saved with a reserved object. *)
Theorem read_files_refuted :
  forall (payload : Type) (storable scalar : payload -> bool) serializables construct fuel supplied fs,
  (forall r, read_files scalar serializables construct fuel supplied fs <> Ok (Some r)) /\
  forall f saver ls n name obj reserved key k ty,
  In f fs -> to_hdf5 payload storable saver ls n name obj reserved = Ok (HGroup k ty (f_links f)) ->
  Forall plain (name :: map fst reserved) -> In key (map fst reserved) -> (forall s, key <> ("#" ++ s)%string) ->
  exists e, read_files scalar serializables construct fuel supplied fs = Raise e.
Proof.
  intros payload storable scalar serializables construct fuel supplied fs. split.
  - intros r. unfold read_files. destruct (read_all _ _ _ _ _ _); discriminate.
  - intros f saver ls n name obj reserved key k ty Hf Hs Hp Hk Hh.
    destruct (saved_reserved storable saver ls n name obj reserved k ty (f_links f) Hp Hs key Hk) as [k' Hk'].
    eapply read_files_dataset; [exact Hf|exact Hk'|]. destruct key as [|c s]; [reflexivity|]. cbn.
    destruct (Ascii.eqb_spec c "#"%char) as [->|]; [|reflexivity]. exfalso. apply (Hh s). reflexivity.
Qed.
Print Assumptions read_files_refuted.
(** The file of the tuners, which share the experiment; a file without
    reserved objects is read and the entries are lost. *)
Example read_case :
  let file := mk_file match case_file with HGroup _ _ ls => ls | HData _ _ _ => [] end None in
  read_files case_scalar case_classes case_accept 20 [("experiment", POther 7 3)] [file] = Raise ValueError /\
  read_files case_scalar case_classes case_accept 20 [("experiment", POther 7 3)] [mk_file [("experiment", HData 1 (Some "#reserved") CEmpty)] None] = Raise TypeError /\
  read_files case_scalar case_classes case_accept 20 [] [mk_file [("data", HGroup 1 (Some "dict") [("x", HData 2 (Some "str") (CStr "y"))])] None] = Ok None /\
  read_entries case_scalar case_classes case_accept 20 [] [("data", HGroup 1 (Some "dict") [("x", HData 2 (Some "str") (CStr "y"))])] =
    Ok [("data", PDict 1 [("x", PStr 0 "y")])].
Proof. vm_compute. auto. Qed.

(** load_auto_tuner on a file saved with the experiment as reserved object: the
    saved object comes back if it was saved under the name "autotuner". *)
Theorem load_auto_tuner_round_trip :
  forall (payload : Type) (storable scalar : payload -> bool) (serializables : string -> bool)
         (construct : string -> list (string * pyval payload) -> option exn)
         (reserved : list (string * nat)) (supplied : list (string * pyval payload)) name obj n fuel version,
  NoDup (name :: map fst reserved) -> Forall plain (name :: map fst reserved) -> NoDup (map snd reserved) ->
  (forall key, In key (map fst reserved) -> named key supplied <> None) ->
  (forall t, In t ["dict"; "list"; "tuple"; "#reserved"] -> serializables t = false) ->
  let rsv i := In i (map snd reserved) in let R := replacements reserved supplied in
  ids_unique rsv obj ->
  (forall t, reached rsv t obj -> ~ rsv (pid t) -> can_save storable scalar serializables t) ->
  (forall i cls kvs kvs' l loc, reached rsv (PInst i cls kvs) obj -> Permutation l kvs' -> match_fields (copy scalar loc R) kvs l ->
    construct cls kvs' = None) ->
  2 * depth obj + 3 <= fuel ->
  exists f, write storable serializables (Ok version) 1 name obj reserved (mk_file [] None) = (f, Ok tt) /\ f_version f = Some version /\
  (In "experiment" (map fst supplied) -> name = "autotuner" ->
    exists v loc, load_auto_tuner scalar serializables construct fuel n f supplied = Ok v /\ copy scalar loc R obj v /\ one_to_one loc) /\
  (In "experiment" (map fst supplied) -> ~ In "autotuner" (name :: map fst reserved) ->
    load_auto_tuner scalar serializables construct fuel n f supplied = Raise KeyError) /\
  (~ In "experiment" (map fst supplied) -> load_auto_tuner scalar serializables construct fuel n f supplied = Raise AssertionError).
Proof.
  intros payload storable scalar serializables construct reserved supplied name obj n fuel version H1 H2 H3 H4 H5 rsv R H6 H7 H8 H9.
  destruct (hdf5_round_trip payload storable scalar serializables construct reserved supplied name obj n fuel H1 H2 H3 H4 H5 H6 H7 H8 H9)
    as (file & j & kvs & v & loc & A1 & A2 & A3 & A4 & A5 & A6 & A7 & A8).
  assert (exists ls, file = HGroup 0 None ls) as [ls ->].
  { unfold to_hdf5 in A1. destruct (save_reserved _ _ _ _) as [[l1 s1]|]; [|discriminate].
    destruct (put _ _ _ _) as [[l2 s2]|]; [|discriminate]. injection A1 as <-. eauto. }
  exists (mk_file ls (Some version)). unfold write. cbn [f_links named]. rewrite A1. cbn [f_version].
  split; [reflexivity|]. split; [reflexivity|].
  assert (E : forall x (l : list (string * pyval payload)), In x (map fst l) -> named x l <> None).
  { intros x l. induction l as [|[y a] l IH]; cbn; [contradiction|]. destruct (String.eqb_spec x y) as [->|]; [discriminate|].
    intros [->|H]; [contradiction|auto]. }
  unfold load_auto_tuner. cbn [f_links]. rewrite A2. repeat split.
  - intros He ->. specialize (E _ _ He). destruct (named "experiment" supplied); [|contradiction]. rewrite A4. eauto.
  - intros He Hn. specialize (E _ _ He). destruct (named "experiment" supplied); [|contradiction].
    rewrite named_none; [reflexivity|]. intros H. apply Hn. eapply Permutation_in; eassumption.
  - intros He. rewrite named_none by exact He. reflexivity.
Qed.
Print Assumptions load_auto_tuner_round_trip.
(** The object of [case_hypotheses]. *)
Example load_auto_tuner_case :
  let f := fst (write case_storable case_classes (Ok "0.1") 1 "autotuner" case_obj [("experiment", 99)] (mk_file [] None)) in
  f_version f = Some "0.1" /\
  load_auto_tuner case_scalar case_classes case_accept 20 21 f [("experiment", POther 7 3)] =
    Ok (PSeq 29 true
        [PInst 26 "Tuner" [("experiment", POther 7 3); ("solver", case_loaded_solver); ("value", PNum 25 true 17)];
         PInst 28 "Tuner" [("experiment", POther 7 3); ("solver", case_loaded_solver); ("value", PNum 27 true 18)]]) /\
  load_auto_tuner case_scalar case_classes case_accept 20 21 f [] = Raise AssertionError.
Proof. vm_compute. auto. Qed.
