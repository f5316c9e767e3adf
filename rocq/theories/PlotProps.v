(** Plots of stored evaluator data (PlotModel.v). *)
From Coq Require Import String List Bool Arith ZArith Lia.
From Verif Require Import PyExn PlotModel PlotProofs.
Import ListNotations.
Local Open Scope string_scope.
Local Open Scope list_scope.

(** ** C111: figures of several evaluators *)
(** The unknown names are removed from a list while it is iterated over: the
    known names stay in their order, but unknown names stay too iff two of them
    follow each other.  The caller's own list is shortened. *)
Theorem plot_names : forall cols names f start stop, cols = f_columns f ->
  exists rest, fst (plot_evaluator_data f start stop (NamesList names)) = NamesList rest /\
    filter (fun n => existsb (String.eqb n) cols) rest = filter (fun n => existsb (String.eqb n) cols) names /\
    ((forall n, In n rest -> In n cols) <-> ~ (exists l a b r, names = l ++ a :: b :: r /\ ~ In a cols /\ ~ In b cols)).
Proof.
  intros cols names f start stop ->. exists (discard (length names) 0 (f_columns f) names). split; [reflexivity|]. split; [apply discard_filter|].
  destruct (discard_adjacent (f_columns f) (length names) [] names) as [H1 H2]; [intros a []|lia|]. cbn [length app] in *. split.
  - intros H K. destruct (H1 K) as [a [Ha Ka]]. apply H, known_in in Ha. congruence.
  - intros H n Hn. apply known_in. apply H2; assumption.
Qed.
(** Two unknown names in a row are a KeyError as soon as a row is plotted; a
    tuple with an unknown name and the default argument fail at once. *)
Theorem plot_names_refuted : forall f start stop names, (start < stop)%Z -> (0 <= start)%Z -> (Z.to_nat start < length (f_rows f))%nat ->
  ((exists l a b r, names = l ++ a :: b :: r /\ ~ In a (f_columns f) /\ ~ In b (f_columns f)) ->
     snd (plot_evaluator_data f start (Some stop) (NamesList names)) = Raise KeyError) /\
  ((exists n, In n names /\ ~ In n (f_columns f)) -> plot_evaluator_data f start (Some stop) (NamesTuple names) = (NamesTuple names, Raise AttributeError)) /\
  plot_evaluator_data f start (Some stop) NoNames = (NoNames, Raise TypeError).
Proof.
  intros f start stop names H1 H2 H3. split; [|split; [|reflexivity]].
  - intros K. destruct (discard_adjacent (f_columns f) (length names) [] names) as [D _]; [intros a []|lia|]. destruct (D K) as [a [Ha Ka]]. cbn [length app] in Ha.
    unfold plot_evaluator_data. cbn [checked_names]. cbn zeta. cbn [snd]. destruct (Z.to_nat (stop - start)) as [|m] eqn:M; [lia|]. cbn [seq map plot_rows].
    replace (start + Z.of_nat 0)%Z with start by lia. rewrite (proj2 (Z.ltb_ge start 0) H2). destruct (nth_error (f_rows f) (Z.to_nat start)) as [row|] eqn:R; [|apply nth_error_None in R; lia].
    unfold plot_row. assert (E : relevant (f_columns f) row (discard (length names) 0 (f_columns f) names) = Raise KeyError).
    { revert Ha. generalize (discard (length names) 0 (f_columns f) names) as l. induction l as [|b l IH]; intros Ha; [destruct Ha|]. cbn [relevant]. destruct (known (f_columns f) b) eqn:B; [|reflexivity].
      destruct Ha as [->|Ha]; [congruence|]. rewrite (IH Ha). destruct (cell_at row b) as [|k c]; [reflexivity|]. destruct c; reflexivity. }
    rewrite E. reflexivity.
  - intros [n [Hn K]]. unfold plot_evaluator_data, checked_names. replace (forallb (known (f_columns f)) names) with false; [reflexivity|]. symmetry.
    apply not_true_is_false. intros E. rewrite forallb_forall in E. apply K, known_in, E, Hn.
Qed.

(** Every figure that is made shows exactly the requested evaluators with data
    in that row.  They get consecutive fields, without gap or overlap, as many
    as they have measurements; at most one field stays empty. *)
Theorem plot_layout : forall f start stop names rest figs,
  plot_evaluator_data f start (Some stop) (NamesList names) = (NamesList rest, Ok figs) ->
  length figs = Z.to_nat (stop - start) /\
  forall k fields drawn, nth_error figs k = Some (fields, drawn) ->
    exists row, nth_error (f_rows f) (Z.to_nat start + k) = Some row /\
      map fst drawn = filter (fun n => match cell_at row n with Missing => false | _ => true end) rest /\
      (exists total, (0 < total)%nat /\ concat (map snd drawn) = seq 0 total /\ (total <= fields <= total + 1)%nat) /\
      forall n ax, In (n, ax) drawn -> exists c, cell_at row n = Stored (length ax) c.
Proof.
  intros f start stop names rest figs H. unfold plot_evaluator_data in H. cbn [checked_names] in H. cbn zeta in H. injection H as <- H. apply plot_rows_ok in H as [L H].
  rewrite map_length, seq_length in L. split; [exact L|]. intros k fields drawn Hk. assert (Kl : (k < Z.to_nat (stop - start))%nat) by (rewrite <- L; apply nth_error_Some; congruence).
  destruct (H k (start + Z.of_nat k)%Z) as [P [row [fig [R [F E]]]]].
  { rewrite nth_error_map. rewrite (nth_error_nth' _ 0%nat) by (rewrite seq_length; exact Kl). rewrite seq_nth by exact Kl. reflexivity. }
  rewrite Hk in F. injection F as <-. exists row.
  destruct (H 0%nat start) as [P0 _].
  { destruct (Z.to_nat (stop - start)) eqn:M; [lia|]. cbn [seq map nth_error]. f_equal. lia. }
  split; [rewrite <- R; f_equal; lia|]. apply plot_row_ok in E as [_ [E1 [E2 E3]]]. split; [exact E1|]. split; [exact E2|].
  intros n ax Hn. rewrite Forall_forall in E3. destruct (E3 _ Hn) as [p [c [x [_ [C _]]]]]. exists c. exact C.
Qed.
(** What stops a figure: an AveragingEvaluator or a measured SensingDot1D among
    the requested evaluators with data, data under a name without plot
    function, and a row without any data. *)
Theorem plot_refuted : forall f start stop names rest figs,
  plot_evaluator_data f start (Some stop) (NamesList names) = (NamesList rest, Ok figs) ->
  forall i, (start <= i < stop)%Z -> exists row, nth_error (f_rows f) (Z.to_nat i) = Some row /\
    (exists n, In n rest /\ cell_at row n <> Missing) /\
    forall n m c, In n rest -> cell_at row n = Stored m c ->
      In n ["InterDotTCByLineScan"; "LoadTime"; "LeadTransitionRFA"; "LeadTransitionRFB"; "SensingDot1D"; "SensingDot2D"; "LeadTransition"; "LeadTunnelTimeByLeadScan"] /\
      (forall x d, c <> AverageOf x d) /\ (n = "SensingDot1D" -> c = ScanData None).
Proof.
  intros f start stop names rest figs H i Hi. unfold plot_evaluator_data in H. cbn [checked_names] in H. cbn zeta in H. injection H as <- H. apply plot_rows_ok in H as [L H].
  destruct (H (Z.to_nat (i - start)) i) as [P [row [[fields drawn] [R [F E]]]]].
  { rewrite nth_error_map. rewrite (nth_error_nth' _ 0%nat) by (rewrite seq_length; lia). rewrite seq_nth by lia. cbn [option_map]. f_equal. lia. }
  exists row. split; [exact R|]. apply plot_row_ok in E as [_ [E1 [[total [T [C _]]] E3]]]. split.
  - destruct drawn as [|[n ax] drawn]; [cbn in C; destruct total; [lia|discriminate]|]. exists n. assert (I : In n (map fst ((n, ax) :: drawn))) by (left; reflexivity). rewrite E1 in I. apply filter_In in I as [I1 I2].
    split; [exact I1|]. destruct (cell_at row n); [discriminate|]. discriminate.
  - intros n m c In1 Cn. assert (I : In n (map fst drawn)) by (rewrite E1; apply filter_In; rewrite Cn; auto). apply in_map_iff in I as [[n' ax] [En I]]. cbn in En. subst n'.
    rewrite Forall_forall in E3. destruct (E3 _ I) as [p [c' [x [Mp [Cc [A D]]]]]]. cbn [fst snd] in *. rewrite Cn in Cc. injection Cc as -> <-.
    split; [|split; [exact A|]].
    + unfold match_plot in Mp. destruct (find _ plot_function_matching) as [[q p']|] eqn:Fd; [|discriminate]. injection Mp as <-. apply find_some in Fd as [Fi Fe]. cbn [fst] in Fe. apply String.eqb_eq in Fe as <-.
      cbn [In plot_function_matching] in Fi. destruct Fi as [Fi|[Fi|[Fi|[Fi|[Fi|[Fi|[Fi|[Fi|[Fi|[Fi|[]]]]]]]]]]]; injection Fi as <- <-; try (cbn; tauto);
        (destruct c; try discriminate D; exfalso; eapply A; reflexivity).
    + intros ->. unfold match_plot in Mp. cbn in Mp. injection Mp as <-. destruct c as [| |[[points shape]|]| |]; cbn in D; try discriminate. reflexivity.
Qed.

(** ** C112: the raw data window *)
(** Every click makes a new figure.  With one measurement it hands a single Axes
    to the plot function: the load time, the two-dimensional sensing dot scan
    and a lead transition with one scan are never shown, whatever the data. *)
Theorem window_refuted : forall c, (forall x d, c <> AverageOf x d) ->
  Forall (fun name => click name (Stored 1 c) = Raise TypeError \/ click name (Stored 1 c) = Raise KeyError)
    ["LoadTime"; "SensingDot2D"; "LeadTransition"; "LeadTransitionRFA"; "LeadTransitionRFB"] /\
  click "LoadTime" (Stored 1 (FitData (Some 1%nat) (Some load_names) (Some load_names))) = Raise TypeError /\
  click "SensingDot2D" (Stored 1 (MapData true)) = Raise TypeError.
Proof.
  intros c A. split; [|split; reflexivity].
  destruct c; try (exfalso; eapply A; reflexivity); repeat (apply Forall_cons || apply Forall_nil); first [left; vm_compute; reflexivity | right; vm_compute; reflexivity].
Qed.
(** With [n] > 1 scans of the right shape a lead transition has a field for
    every scan. *)
Theorem window_transition : forall scans, (2 <= length scans)%nat -> Forall (fun s => snd s = [fst s] /\ fst s <> 0 /\ fst s <> 2)%nat scans ->
  click "LeadTransition" (Stored (length scans) (LineData (Some scans))) = Ok (seq 0 (length scans)).
Proof.
  intros scans H F. unfold click, refresh. replace (has_prefix "Averaging" "LeadTransition") with false by reflexivity. unfold get_clear_axes.
  rewrite (proj2 (Nat.eqb_neq 0 (length scans))) by lia. unfold subplots. rewrite Nat.mul_1_r, (proj2 (Nat.eqb_neq (length scans) 0)), (proj2 (Nat.eqb_neq (length scans) 1)) by lia.
  replace (match_plot "LeadTransition") with (Some PTransition) by reflexivity. cbn [draw].
  assert (E : forall from, transitions (seq from (length scans)) scans = Ok (seq from (length scans))).
  { clear H. induction F as [|[points shape] scans [Hs [H0 H2]] F IH]; intros from; [reflexivity|]. cbn [length seq transitions fst snd] in *. subst shape.
    replace (vertical_marks points [points]) with (@Ok bool true); [rewrite IH; reflexivity|]. unfold vertical_marks. destruct points as [|[|[|p]]]; try lia; [reflexivity|]. rewrite Nat.eqb_refl. reflexivity. }
  destruct (seq 0 (length scans)) as [|a l] eqn:Q; [destruct scans; [cbn in H; lia|discriminate]|]. rewrite <- Q, E. reflexivity.
Qed.
(** A window that is refreshed: a fit of one measurement appears from the second
    time on; the two-dimensional scan every second time, because its colour
    scale counts as a field. *)
Theorem window_refresh : forall n,
  refreshes "SensingDot2D" (Stored 1 (MapData true)) 0 n = map (fun k => if Nat.even k then Raise TypeError else Ok [0%nat]) (seq 0 n) /\
  (forall y fit init r, raw_data_fit load_names y fit init = Ok r -> r = true ->
     refreshes "LoadTime" (Stored 1 (FitData y fit init)) 0 n = map (fun k => if (k =? 0)%nat then Raise TypeError else Ok [0%nat]) (seq 0 n)).
Proof.
  intros n. split.
  - assert (E : forall m from, Nat.even from = true ->
      refreshes "SensingDot2D" (Stored 1 (MapData true)) 0 m = map (fun k => if Nat.even k then Raise TypeError else Ok [0%nat]) (seq from m) /\
      refreshes "SensingDot2D" (Stored 1 (MapData true)) 2 m = map (fun k => if Nat.even k then Raise TypeError else Ok [0%nat]) (seq from m) /\
      refreshes "SensingDot2D" (Stored 1 (MapData true)) 1 m = map (fun k => if Nat.even k then Raise TypeError else Ok [0%nat]) (seq (S from) m)).
    { induction m as [m IH] using lt_wf_ind. intros from H. destruct m as [|m]; [auto|]. destruct (IH m ltac:(lia) from H) as [_ [_ I1]].
      assert (H2 : Nat.even (S (S from)) = true) by exact H. destruct (IH m ltac:(lia) (S (S from)) H2) as [_ [I2 _]].
      cbn [seq map]. rewrite H. replace (Nat.even (S from)) with false by (rewrite Nat.even_succ, <- Nat.negb_even, H; reflexivity). rewrite <- I1, <- I2. auto. }
    apply (E n 0%nat eq_refl).
  - intros y fit init r H ->. destruct n as [|n]; [reflexivity|]. cbn [refreshes]. replace (refresh "LoadTime" (Stored 1 (FitData y fit init)) 0) with (1%nat, @Raise (list nat) TypeError) by reflexivity.
    cbn [seq map Nat.eqb]. f_equal. replace (map _ (seq 1 n)) with (repeat (Ok [0%nat]) n : list (res (list nat))).
    + induction n as [|n IH]; [reflexivity|]. cbn [refreshes repeat]. replace (refresh "LoadTime" (Stored 1 (FitData y fit init)) 1) with (1%nat, Ok [0%nat]); [rewrite IH; reflexivity|].
      unfold refresh. replace (has_prefix "Averaging" "LoadTime") with false by reflexivity. cbn [get_clear_axes Nat.eqb]. replace (match_plot "LoadTime") with (Some PLoad) by reflexivity.
      unfold draw, first_axes. cbn [seq]. rewrite H. reflexivity.
    + transitivity (map (fun _ : nat => @Ok (list nat) [0%nat]) (seq 1 n)).
      * generalize 1%nat as from. induction n as [|n IH]; intros from; [reflexivity|]. cbn [repeat seq map]. rewrite <- IH. reflexivity.
      * apply map_ext_in. intros k Hk. apply in_seq in Hk. rewrite (proj2 (Nat.eqb_neq k 0)) by lia. reflexivity.
Qed.

(** ** C113: stored data that cannot be plotted *)
(** Labels of the fit of LeadTunnelTimeByLeadScan (qtune/evaluator.py L302-305)
    and of the version with prefit (L193-194); both evaluators have the name of
    the former (L141, L245). *)
Definition scan_labels : list string :=
  ["height"; "t_fall"; "t_rise"; "begin_rise"; "begin_fall"; "offset"; "slope"; "offset_linear"; "length_lin_fall"; "slope_1"; "offset_linear_1"; "length_lin_rise"].
Definition prefit_labels : list string := ["height"; "t_fall"; "t_rise"; "begin_rise"; "begin_fall"; "offset"].
(** The lead scan is drawn with the function of the other version: as soon as it
    has got to starting values, every plot is a TypeError, in the window
    and in a figure.  The version with prefit is drawn. *)
Theorem lead_plot_refuted : forall dims fit init n, (dims <= 2)%nat -> (0 < n)%nat ->
  (fit = None /\ init = Some scan_labels \/ fit = Some scan_labels -> 
     click "LeadTunnelTimeByLeadScan" (Stored n (FitData (Some dims) fit init)) = Raise TypeError /\
     plot_row ["LeadTunnelTimeByLeadScan"] [("LeadTunnelTimeByLeadScan", Stored n (FitData (Some dims) fit init))] ["LeadTunnelTimeByLeadScan"] = Raise TypeError) /\
  click "LeadTunnelTimeByLeadScan" (Stored n (FitData (Some dims) (Some prefit_labels) (Some prefit_labels))) = Ok [0%nat].
Proof.
  intros dims fit init n Hd Hn.
  assert (G : forall a c, any_axes a = Ok 0%nat -> draw PLead a (FitData (Some dims) c None) = on 0 (raw_data_fit lead_v1 (Some dims) c None)) by (intros a c E; unfold draw; rewrite E; reflexivity).
  assert (W : forall d, exists a, get_clear_axes 0 n = (n, Ok a) /\ any_axes a = Ok 0%nat /\
    click "LeadTunnelTimeByLeadScan" (Stored n (FitData (Some dims) (fst d) (snd d))) = draw PLead a (FitData (Some dims) (fst d) (snd d))).
  { intros [d1 d2]. unfold click, refresh. replace (has_prefix "Averaging" "LeadTunnelTimeByLeadScan") with false by reflexivity.
    unfold get_clear_axes, subplots. rewrite (proj2 (Nat.eqb_neq 0 n)) by lia. rewrite Nat.mul_1_r, (proj2 (Nat.eqb_neq n 0)) by lia.
    replace (match_plot "LeadTunnelTimeByLeadScan") with (Some PLead) by reflexivity. destruct (Nat.eqb_spec n 1) as [->|N]; eexists; (split; [reflexivity|]).
    - split; [reflexivity|]. cbn [fst snd]. destruct (draw PLead _ _); reflexivity.
    - split; [destruct n; [lia|reflexivity]|]. cbn [fst snd]. destruct (draw PLead _ _); reflexivity. }
  assert (F : forall fit init, fit = None /\ init = Some scan_labels \/ fit = Some scan_labels -> raw_data_fit lead_v1 (Some dims) fit init = Raise TypeError).
  { intros f i [[-> ->]| ->]; unfold raw_data_fit; rewrite (proj2 (Nat.ltb_ge 2 dims) Hd); reflexivity. }
  split.
  - intros H. split.
    + destruct (W (fit, init)) as [a [_ [A E]]]. cbn [fst snd] in E. rewrite E. unfold draw. rewrite A, (F _ _ H). reflexivity.
    + unfold plot_row.
      replace (relevant ["LeadTunnelTimeByLeadScan"] _ _) with (Ok [("LeadTunnelTimeByLeadScan", n, FitData (Some dims) fit init)]) by reflexivity.
      cbn [map fst snd]. replace (list_sum [n]) with n by (cbn; lia).
      unfold subplots. pose proof (half_up n) as U. rewrite (proj2 (Nat.eqb_neq _ 0)) by lia.
      replace (draw_all (slices 0 [("LeadTunnelTimeByLeadScan", n, FitData (Some dims) fit init)])) with (@Raise (list (string * list nat)) TypeError); [destruct (_ =? 1)%nat; reflexivity|].
      cbn [slices draw_all]. replace (match_plot "LeadTunnelTimeByLeadScan") with (Some PLead) by reflexivity.
      destruct n as [|k]; [lia|]. cbn [seq]. unfold draw, any_axes, first_axes. rewrite (F _ _ H). reflexivity.
  - destruct (W (Some prefit_labels, Some prefit_labels)) as [a [_ [A E]]]. cbn [fst snd] in E. rewrite E. unfold draw. rewrite A. unfold raw_data_fit. rewrite (proj2 (Nat.ltb_ge 2 dims) Hd). reflexivity.
Qed.
(** Line scans with exactly two rows are averaged to one number and cannot be
    drawn; neither can any other two-dimensional scan. *)
Theorem marks_refuted : forall points shape, vertical_marks points shape = Ok true <-> exists n, shape = [n] /\ points = n /\ (n = 1 \/ 3 <= n)%nat.
Proof.
  intros points shape. unfold vertical_marks. split.
  - destruct shape as [|[|[|[|n]]] [|m shape]]; try discriminate; cbn [Nat.eqb orb].
    + destruct (Nat.eqb_spec points 1) as [->|]; [|discriminate]. intros _. exists 1%nat. auto.
    + destruct (Nat.eqb_spec points (S (S (S n)))) as [->|]; [|discriminate]. intros _. exists (S (S (S n))). repeat split. right. lia.
  - intros [n [-> [-> H]]]. destruct n as [|[|[|n]]]; try lia; [reflexivity|]. rewrite Nat.eqb_refl. reflexivity.
Qed.
(** Units are known for the default parameters of all evaluators
    (qtune/evaluator.py L133, L237, L352, L454, L518, L589, L676) except the lead scans. *)
Theorem parameter_plot_refuted : 
  (forall names, plot_parameters names = Ok tt <-> names <> [] /\ forall n, In n names -> In n parameter_information) /\
  Forall (fun names => plot_parameters names = Ok tt) [["parameter_tunnel_coupling"]; ["parameter_time_load"]; ["position_RFA"; "position_RFB"]; ["position_SDB2"; "current_signal"; "optimal_signal"]; ["position_SDB1"; "position_SDB2"]] /\
  plot_parameters ["parameter_time_rise"; "parameter_time_fall"] = Raise KeyError.
Proof.
  split; [|split; [repeat constructor|reflexivity]]. intros names. unfold plot_parameters. destruct names as [|a l]; cbn [length Nat.eqb]; [split; [discriminate|intros [H _]; contradiction]|].
  destruct (forallb (known parameter_information) (a :: l)) eqn:E; split; try discriminate.
  - intros _. split; [discriminate|]. intros n Hn. rewrite forallb_forall in E. apply known_in, E, Hn.
  - reflexivity.
  - intros [_ H]. exfalso. apply not_true_iff_false in E. apply E. apply forallb_forall. intros n Hn. apply known_in, H, Hn.
Qed.
(** Gradients of a single parameter cannot be plotted, of two or more can if the units are known. *)
Theorem gradient_plot_refuted : (forall n, plot_gradients [n] = Raise TypeError) /\
  forall names, (2 <= length names)%nat -> (plot_gradients names = Ok tt <-> forall n, In n names -> In n parameter_information).
Proof.
  split; [reflexivity|]. intros names H. unfold plot_gradients, subplots. rewrite Nat.mul_1_r, (proj2 (Nat.eqb_neq _ 0)), (proj2 (Nat.eqb_neq _ 1)) by lia.
  destruct (forallb (known parameter_information) names) eqn:E; split; try discriminate.
  - intros _ n Hn. rewrite forallb_forall in E. apply known_in, E, Hn.
  - reflexivity.
  - intros K. exfalso. apply not_true_iff_false in E. apply E. apply forallb_forall. intros n Hn. apply known_in, K, Hn.
Qed.

(** ** Instances *)
Definition ex_frame : frame := mk_frame ["LeadTransition"; "LoadTime"; "InterDotTCByLineScan"; "AveragingInterDotTCByLineScan"]
  [[("LeadTransition", Stored 2 (LineData (Some [(320, [320]); (320, [320])]%nat))); ("LoadTime", Stored 1 (FitData (Some 1%nat) (Some load_names) (Some load_names)))];
   [("InterDotTCByLineScan", Stored 1 (FitData (Some 2%nat) (Some tc_names) None)); ("LoadTime", Stored 1 (FitData (Some 1%nat) (Some load_names) (Some load_names)));
    ("AveragingInterDotTCByLineScan", Stored 1 (AverageOf "InterDotTCByLineScan" (FitData (Some 1%nat) (Some tc_names) None)))]].
Example plot_names_ex : plot_evaluator_data ex_frame 0 None (NamesList ["x"; "LoadTime"; "y"]) = (NamesList ["LoadTime"], Ok [(2, [("LoadTime", [0])])])%nat /\
  fst (plot_evaluator_data ex_frame 0 None (NamesList ["x"; "y"; "LoadTime"])) = NamesList ["y"; "LoadTime"] /\
  snd (plot_evaluator_data ex_frame 0 None (NamesList ["x"; "y"; "LoadTime"])) = Raise KeyError.
Proof. repeat split. Qed.
Example plot_layout_ex : plot_evaluator_data ex_frame 0 (Some 2%Z) (NamesList ["LoadTime"; "InterDotTCByLineScan"; "LeadTransition"]) =
  (NamesList ["LoadTime"; "InterDotTCByLineScan"; "LeadTransition"], Ok [(4, [("LoadTime", [0]); ("LeadTransition", [1; 2])]); (2, [("LoadTime", [0]); ("InterDotTCByLineScan", [1])])])%nat.
Proof. reflexivity. Qed.
Example plot_refuted_ex : snd (plot_evaluator_data ex_frame 1 None (NamesList ["AveragingInterDotTCByLineScan"])) = Raise KeyError /\
  snd (plot_evaluator_data ex_frame 1 None (NamesList ["LeadTransition"])) = Raise ValueError /\
  click "AveragingInterDotTCByLineScan" (Stored 1 (AverageOf "InterDotTCByLineScan" (FitData (Some 1%nat) (Some tc_names) None))) = Ok [0%nat].
Proof. repeat split. Qed.
Example window_transition_ex : click "LeadTransition" (Stored 2 (LineData (Some [(320, [320]); (320, [320])]%nat))) = Ok [0; 1]%nat.
Proof. apply window_transition; [cbn; lia|]. repeat constructor; discriminate. Qed.
Example window_refresh_ex : refreshes "SensingDot2D" (Stored 1 (MapData true)) 0 4 = [Raise TypeError; Ok [0%nat]; Raise TypeError; Ok [0%nat]].
Proof. apply window_refresh. Qed.
Example lead_plot_ex : click "LeadTunnelTimeByLeadScan" (Stored 1 (FitData (Some 1%nat) None (Some scan_labels))) = Raise TypeError.
Proof. apply (lead_plot_refuted 1 None (Some scan_labels) 1); auto. Qed.
Example marks_ex : vertical_marks 320 [320]%nat = Ok true /\ vertical_marks 320 [2; 320]%nat = Raise ValueError.
Proof. split; reflexivity. Qed.
Example gradient_plot_ex : plot_gradients ["position_RFA"; "position_RFB"] = Ok tt.
Proof. apply gradient_plot_refuted; [cbn; lia|]. cbn. intuition (subst; auto 20). Qed.
Print Assumptions plot_names.
Print Assumptions plot_names_refuted.
Print Assumptions plot_layout.
Print Assumptions plot_refuted.
Print Assumptions window_refuted.
Print Assumptions window_transition.
Print Assumptions window_refresh.
Print Assumptions lead_plot_refuted.
Print Assumptions marks_refuted.
Print Assumptions parameter_plot_refuted.
Print Assumptions gradient_plot_refuted.
