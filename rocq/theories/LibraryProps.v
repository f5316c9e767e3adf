(** Properties C121 and C122: file names of a library and loading it. *)
From Coq Require Import Reals String Ascii List Bool Arith NArith ZArith Sorted Lia Lra.
From Verif Require Import PyExn PyBase HistoryModel FitStartModel FitStartProofs LibraryModel LibrarySpec LibraryProofs.
Import ListNotations.
Local Open Scope N_scope.
Local Open Scope list_scope.

(** ** C121: names *)
(** A moment [n] microseconds later is what the calendar says. *)
Theorem later_calendar : forall t n, valid t -> valid (later n t) /\ micros (later n t) = micros t + n.
Proof. intros t n H. split; [apply later_valid, H|apply later_micros, H]. Qed.
(** Names sort like the times, to the microsecond; names are equal only for
    the same microsecond. *)
Theorem names_chronological : forall t n n', valid t -> year (later n' t) <= 9999 -> n <= n' ->
  (String.ltb (file_name (later n t)) (file_name (later n' t)) = true <-> n < n') /\
  (file_name (later n t) = file_name (later n' t) <-> n = n') /\
  (time_string (later n t) = time_string (later n' t) <-> n = n').
Proof.
  intros t n n' Ht Hy Hn.
  assert (L : n < n' -> forall u v, String.ltb (time_string (later n t) ++ u) (time_string (later n' t) ++ v) = true).
  { intros H u v. apply before_ltb, time_before; [apply later_valid, Ht|apply later_valid, Ht|exact Hy|apply later_less, H]. }
  assert (A : forall s, (s ++ "" = s)%string) by (induction s as [|a s IH]; cbn; [reflexivity|rewrite IH; reflexivity]).
  destruct (N.eq_dec n n') as [->|K].
  - unfold file_name. split; [rewrite ltb_irrefl; split; [discriminate|lia]|]. split; tauto.
  - pose proof (L ltac:(lia)) as L'. split; [split; [intros; lia|intros; apply L']|]. split; split; try congruence; intros E; exfalso.
    + unfold file_name in E. pose proof (L' ".hdf5"%string ".hdf5"%string) as Q. rewrite E, ltb_irrefl in Q. discriminate.
    + pose proof (L' ""%string ""%string) as Q. rewrite !A, E, ltb_irrefl in Q. discriminate.
Qed.
Definition ex_start : moment := mk_moment 2020 2 28 23 59 59 999999.
Example names_ex : file_name (later 1 ex_start) = "2020_02_29_00_00_00_000000.hdf5"%string /\
  time_string (later 2 (mk_moment 2019 12 31 23 59 59 999999)) = "2020_01_01_00_00_00_000001"%string /\ valid ex_start.
Proof. split; [vm_compute; reflexivity|]. split; [vm_compute; reflexivity|]. unfold valid. cbn. lia. Qed.

(** Within one process the names follow the performance counter, whatever the
    clock of the computer does, and are off by at most half a microsecond; times
    more than a microsecond apart have different names. *)
Theorem clock_names : forall start_perf start p p', valid start -> (start_perf <= p)%R -> (p <= p')%R ->
  let t := high_res_datetime start_perf start in year (t p') <= 9999 ->
  (file_name (t p) = file_name (t p') \/ String.ltb (file_name (t p)) (file_name (t p')) = true) /\
  ((p' - p > 1 / 1000000)%R -> String.ltb (file_name (t p)) (file_name (t p')) = true) /\
  (Rabs (IZR (Z.of_N (micros (t p)) - Z.of_N (micros start)) - (p - start_perf) * 1000000) <= 1 / 2)%R.
Proof.
  intros sp start p p' Hs H0 H t Hy. unfold t, high_res_datetime in *.
  set (x := ((p - sp) * 1000000)%R) in *. set (x' := ((p' - sp) * 1000000)%R) in *.
  assert (X0 : (0 <= x)%R) by (unfold x; lra). assert (X1 : (x <= x')%R) by (unfold x, x'; lra).
  pose proof (round_near x) as A. pose proof (round_near x') as B.
  assert (R0 : (0 <= py_round x)%Z).
  { destruct (Z_lt_le_dec (py_round x) 0) as [K|K]; [|exact K]. assert (L : (py_round x <= -1)%Z) by lia. apply IZR_le in L. lra. }
  pose proof (round_mono x x' X1) as M.
  destruct (names_chronological start (Z.to_N (py_round x)) (Z.to_N (py_round x')) Hs Hy ltac:(lia)) as [C1 [C2 _]]. split; [|split].
  - destruct (N.eq_dec (Z.to_N (py_round x)) (Z.to_N (py_round x'))) as [K|K]; [left; apply C2, K|right; apply C1; lia].
  - intros K. apply C1. assert (x' > x + 1)%R by (unfold x, x'; lra).
    assert (Q : (IZR (py_round x) < IZR (py_round x'))%R) by lra. apply lt_IZR in Q. lia.
  - rewrite later_micros by exact Hs. rewrite N2Z.inj_add, Z2N.id by exact R0. replace (Z.of_N (micros start) + py_round x - Z.of_N (micros start))%Z with (py_round x) by lia.
    apply Rabs_le. lra.
Qed.
Example clock_names_ex : high_res_datetime 0 ex_start (1/1000000) = mk_moment 2020 2 29 0 0 0 0.
Proof.
  unfold high_res_datetime. replace ((1 / 1000000 - 0) * 1000000)%R with 1%R by field. rewrite (round_cases 1) by lra. vm_compute. reflexivity.
Qed.

(** ** C122: loading a library *)
(** The library of one autotuner gives the history that appending its states in
    the order in which they were saved gives, whatever the order of the listing
    and whatever else is on the disk. *)
Theorem library_loaded : forall d t saves others listdir, valid t -> StronglySorted N.lt (map fst saves) ->
  Forall (fun s => year (later (fst s) t) <= 9999) saves -> saves <> [] -> Forall (fun f => below d (fst f) = false) others -> NoDup (map fst others) ->
  let fs := others ++ library d t saves in
  lists fs d (listdir d) ->
  history_init fs listdir (Some d) =
    match hist_run empty_hist (appended d t saves) with (h, Ok _) => Ok h | (_, Raise e) => Raise e end.
Proof.
  intros d t saves others listdir Ht Hs Hy Hn Ho No fs [Nl Hl].
  set (named := map (fun s => (file_name (later (fst s) t), snd s)) saves : list (string * snap)).
  assert (Inc : increasing (map fst named)).
  { replace (map fst named) with (map (fun n => file_name (later n t)) (map fst saves)) by (unfold named; rewrite !map_map; reflexivity).
    apply names_increasing; [exact Ht|exact Hs|]. apply Forall_map. exact Hy. }
  assert (Lib : library d t saves = map (fun s => (d ++ [fst s], Ok (snd s))) named) by (unfold library, named; rewrite map_map; reflexivity).
  assert (App : appended d t saves = map (fun s => (snd s, text (d ++ [fst s]))) named) by (unfold appended, named; rewrite map_map; reflexivity).
  assert (Nfs : NoDup (map fst fs)).
  { unfold fs. rewrite map_app. pose proof (increasing_nodup _ Inc) as Nn. rewrite Lib. clear - No Nn Ho. induction others as [|[p r] others IH]; cbn [map app].
    - rewrite map_map. cbn [fst]. induction named as [|[n a] l IHl]; cbn in *; [constructor|]. inversion Nn; subst. constructor; [|apply IHl; assumption].
      intros K. apply in_map_iff in K. destruct K as [[m b] [E K]]. apply app_inj_tail in E. destruct E as [_ E]. cbn in E. subst m. apply H1. exact (in_map fst _ _ K).
    - inversion No; inversion Ho; subst. constructor; [|apply IH; assumption]. cbn [fst] in *. intros K. apply in_app_iff in K. destruct K as [K|K]; [contradiction|].
      rewrite map_map in K. apply in_map_iff in K. destruct K as [[m b] [E K]]. cbn in E. subst p. apply Bool.not_true_iff_false in H5. apply H5, below_iff. eauto. }
  assert (Rd : Forall (fun s => read fs (d ++ [fst s]) = Ok (snd s)) named).
  { apply Forall_forall. intros s Hin. unfold read. rewrite (content_in fs _ (Ok (snd s)) Nfs); [reflexivity|]. unfold fs. apply in_or_app. right. rewrite Lib. apply in_map_iff. eauto. }
  assert (Srt : sort_labels (listdir d) = map fst named).
  { apply sort_listing; [exact Inc|exact Nl|]. intros n. rewrite Hl. unfold fs. rewrite Lib. split.
    - intros [rest [r K]]. apply in_app_iff in K. destruct K as [K|K].
      + rewrite Forall_forall in Ho. specialize (Ho _ K). cbn in Ho. apply Bool.not_true_iff_false in Ho. exfalso. apply Ho, below_iff. eauto.
      + apply in_map_iff in K. destruct K as [[m a] [E K]]. cbn in E. injection E as E _. apply app_inv_head in E. injection E as <- _. exact (in_map fst _ _ K).
    - intros K. apply in_map_iff in K. destruct K as [[m a] [<- K]]. exists [], (Ok a). apply in_or_app. right. apply in_map_iff. exists (m, a). split; [reflexivity|exact K]. }
  unfold history_init. assert (D : is_dir fs d = true).
  { unfold is_dir. apply existsb_exists. destruct saves as [|s0 saves']; [contradiction|]. exists (d ++ [file_name (later (fst s0) t)], Ok (snd s0)).
    split; [unfold fs; apply in_or_app; right; left; reflexivity|]. apply below_iff. eexists _, []. reflexivity. }
  rewrite D. unfold load_directory. rewrite Srt, (load_sorted_all fs d named _ Rd), App. destruct (hist_run _ _) as [h [u|e]]; reflexivity.
Qed.

(** Two states saved over midnight, with another file on the disk; the
    directory is listed in the wrong order. *)
Definition ex_snap (i : nat) : snap := mk_snap i false false [].
Definition ex_saves : list (N * snap) := [(0, ex_snap 0); (1, ex_snap 1)].
Definition ex_others : files := [(["lib2"; "x.hdf5"]%string, Raise KeyError)].
Definition ex_listing : list string := ["2020_02_29_00_00_00_000000.hdf5"; "2020_02_28_23_59_59_999999.hdf5"]%string.
Example library_loaded_ex : let d := ["lib"]%string in
  StronglySorted N.lt (map fst ex_saves) /\ Forall (fun s => year (later (fst s) ex_start) <= 9999) ex_saves /\
  Forall (fun f => below d (fst f) = false) ex_others /\ lists (ex_others ++ library d ex_start ex_saves) d ex_listing /\
  sort_labels ex_listing = rev ex_listing.
Proof.
  intros d. split; [repeat constructor|]. split; [apply Forall_forall; intros s [<-|[<-|[]]]; vm_compute; discriminate|].
  split; [apply Forall_cons; [vm_compute; reflexivity|constructor]|]. split; [|vm_compute; reflexivity].
  assert (E : ex_others ++ library d ex_start ex_saves = [(["lib2"; "x.hdf5"]%string, Raise KeyError);
    (["lib"; "2020_02_28_23_59_59_999999.hdf5"]%string, Ok (ex_snap 0)); (["lib"; "2020_02_29_00_00_00_000000.hdf5"]%string, Ok (ex_snap 1))]) by (vm_compute; reflexivity).
  rewrite E. split.
  - apply NoDup_cons; [intros [K|[]]; discriminate K|]. apply NoDup_cons; [intros []|constructor].
  - intros n. cbn [In d app]. split.
    + intros [<-|[<-|[]]]; exists []; eexists; [right; right; left; reflexivity|right; left; reflexivity].
    + intros [rest [r [K|[K|[K|[]]]]]]; [discriminate K| |]; injection K as <- _ _; [right; left; reflexivity|left; reflexivity].
Qed.

(** The first entry that cannot be read ends the loading: an existing history
    keeps what was loaded before it, a new one is lost. *)
Theorem library_until : forall fs listdir d pre bad post e h, sort_labels (listdir d) = map fst pre ++ bad :: post ->
  Forall (fun s => read fs (d ++ [fst s]) = Ok (snd s)) pre -> read fs (d ++ [bad]) = Raise e -> is_dir fs d = true ->
  (forall h', hist_run h (map (fun s => (snd s, text (d ++ [fst s]))) pre) = (h', Ok tt) -> load_directory fs d (listdir d) h = (h', Raise e)) /\
  exists e', history_init fs listdir (Some d) = Raise e'.
Proof.
  intros fs listdir d pre bad post e h Hl Hp Hb Hd. unfold history_init, load_directory. rewrite Hd, Hl. split.
  - intros h' Hr. apply load_sorted_until; assumption.
  - destruct (load_sorted_bad fs d (map fst pre ++ bad :: post) bad e Hb ltac:(apply in_or_app; right; left; reflexivity) empty_hist) as [h' [e' ->]]. eauto.
Qed.

(** An autotuner that is loaded saves below its library: every loading adds a
    directory. *)
Theorem reload_nested : forall d t0 ts, d <> [] ->
  fold_left (fun p now => reloaded_path p now) ts (storage_path d true t0) = Some (d ++ map time_string (t0 :: ts)).
Proof.
  intros d t0 ts Hd. replace (storage_path d true t0) with (Some (d ++ [time_string t0])) by (destruct d; [contradiction|reflexivity]).
  cbn [map]. change (d ++ time_string t0 :: map time_string ts) with (d ++ [time_string t0] ++ map time_string ts). rewrite app_assoc.
  assert (N : d ++ [time_string t0] <> []) by (destruct d; discriminate). revert N. generalize (d ++ [time_string t0]). clear. induction ts as [|t ts IH]; intros p N.
  - rewrite app_nil_r. reflexivity.
  - cbn [fold_left]. replace (reloaded_path (Some p) t) with (Some (p ++ [time_string t])) by (destruct p; [contradiction|reflexivity]).
    rewrite IH by (destruct p; discriminate). rewrite <- app_assoc. reflexivity.
Qed.

(** As soon as such an autotuner has saved, the library it came from cannot be
    loaded as a history any more. *)
Theorem library_after_reload_refuted : forall d t saves loaded now a listdir, d <> [] ->
  let fs := save (reloaded_path (Some d) loaded) now a (library d t saves) in
  lists fs d (listdir d) -> exists e, history_init fs listdir (Some d) = Raise e.
Proof.
  intros d t saves loaded now a listdir Hd fs [_ Hl]. unfold fs in *. replace (reloaded_path (Some d) loaded) with (Some (d ++ [time_string loaded])) in * by (destruct d; [contradiction|reflexivity]).
  unfold save in *. set (new := (d ++ [time_string loaded]) ++ [file_name now]) in *.
  assert (K : In (time_string loaded) (listdir d)).
  { apply Hl. exists [file_name now], (Ok a). apply in_or_app. right. left. unfold new. rewrite <- app_assoc. reflexivity. }
  assert (D : is_dir (library d t saves ++ [(new, Ok a)]) d = true).
  { unfold is_dir. apply existsb_exists. exists (new, Ok a). split; [apply in_or_app; right; left; reflexivity|]. apply below_iff. unfold new. rewrite <- app_assoc. eexists _, _. reflexivity. }
  assert (R : read (library d t saves ++ [(new, Ok a)]) (d ++ [time_string loaded]) = Raise os_error).
  { unfold read. rewrite content_none; [reflexivity|]. intros r Hin. apply in_app_iff in Hin. destruct Hin as [Hin|[Hin|[]]].
    - apply in_map_iff in Hin. destruct Hin as [s [E _]]. injection E as E _. apply app_inv_head in E. exact (file_not_time _ _ (f_equal (hd ""%string) E)).
    - injection Hin as E _. unfold new in E. rewrite <- app_assoc in E. apply app_inv_head in E. discriminate. }
  unfold history_init, load_directory. rewrite D.
  destruct (load_sorted_bad _ d (sort_labels (listdir d)) (time_string loaded) _ R) with (h := empty_hist) as [h' [e' ->]]; [|eauto].
  apply HistoryProofs.sort_in. exact K.
Qed.
(** The library of the example, loaded at noon and continued. *)
Example library_after_reload_ex : let d := ["lib"]%string in let noon := mk_moment 2020 2 29 12 0 0 0 in
  let fs := save (reloaded_path (Some d) noon) (later 7 noon) (ex_snap 1) (library d ex_start ex_saves) in
  map fst fs = [["lib"; "2020_02_28_23_59_59_999999.hdf5"]; ["lib"; "2020_02_29_00_00_00_000000.hdf5"];
                ["lib"; "2020_02_29_12_00_00_000000"; "2020_02_29_12_00_00_000007.hdf5"]]%string /\
  read fs ["lib"; "2020_02_29_12_00_00_000000"]%string = Raise os_error /\
  is_dir fs d = true /\ history_init fs (fun _ => []) (Some ["elsewhere"]%string) = Raise runtime_warning.
Proof. vm_compute. repeat split. Qed.
(** A path that is neither a directory nor a file is refused; a history made
    from one file is that file, appended to nothing. *)
Theorem history_source : forall fs listdir,
  history_init fs listdir None = Ok empty_hist /\
  (forall p, ~ In p (map fst fs) -> (forall f, In f fs -> below p (fst f) = false) -> history_init fs listdir (Some p) = Raise runtime_warning) /\
  (forall p a, NoDup (map fst fs) -> In (p, Ok a) fs -> (forall f, In f fs -> below p (fst f) = false) ->
     history_init fs listdir (Some p) = match hist_append empty_hist a (text p) with (h, Ok _) => Ok h | (_, Raise e) => Raise e end) /\
  (forall p e, NoDup (map fst fs) -> In (p, Raise e) fs -> (forall f, In f fs -> below p (fst f) = false) ->
     history_init fs listdir (Some p) = Raise e).
Proof.
  intros fs listdir. assert (D : forall p, (forall f, In f fs -> below p (fst f) = false) -> is_dir fs p = false).
  { intros p B. unfold is_dir. apply Bool.not_true_iff_false. intros K. apply existsb_exists in K as [f [Hf K]]. rewrite (B f Hf) in K. discriminate. }
  split; [reflexivity|]. split; [|split].
  - intros p N B. unfold history_init. rewrite (D p B). destruct (content fs p) eqn:E; [|reflexivity]. exfalso. apply N. clear - E.
    unfold content in E. destruct (find _ fs) as [f|] eqn:F; [|discriminate]. apply find_some in F as [F Q].
    apply path_eqb_eq in Q. subst. exact (in_map fst _ _ F).
  - intros p a N I B. unfold history_init, load_file, read. rewrite (D p B), (content_in fs p _ N I). reflexivity.
  - intros p a N I B. unfold history_init, load_file, read. rewrite (D p B), (content_in fs p _ N I). reflexivity.
Qed.
Example history_source_ex : let fs := [(["lib"; "a.hdf5"], Ok (mk_snap 0 true false [mk_ts (Some [("g", NaN)]) [] [] None [] []])); (["lib"; "b.hdf5"], Raise os_error)]%string in
  history_init fs (fun _ => []) (Some ["lib"; "c.hdf5"]%string) = Raise runtime_warning /\
  history_init fs (fun _ => []) (Some ["lib"; "b.hdf5"]%string) = Raise os_error /\
  exists h, history_init fs (fun _ => []) (Some ["lib"; "a.hdf5"]%string) = Ok h /\ h_paths h = ["lib/a.hdf5"]%string /\ h_gates h = ["g"]%string.
Proof. vm_compute. repeat split. eexists. repeat split. Qed.
Print Assumptions history_source.
Print Assumptions later_calendar.
Print Assumptions names_chronological.
Print Assumptions clock_names.
Print Assumptions library_loaded.
Print Assumptions library_until.
Print Assumptions reload_nested.
Print Assumptions library_after_reload_refuted.
