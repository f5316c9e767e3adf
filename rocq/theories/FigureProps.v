(** C133. *)
From Coq Require Import String Ascii List Bool Arith Lia Permutation Sorted.
From Verif Require Import PyExn PyBase ColumnsModel ColumnsSpec PlotModel FigureModel FigureSpec FigureProofs.
Import ListNotations.
Local Open Scope string_scope.
Local Open Scope list_scope.

Definition ex_cols : list column :=
  [CGate "A"; CGate "B"; CPar "position_RFA"; CPar "position_RFB"; CPar "current_signal"; CVar "position_RFA"; CVar "position_RFB";
   CVar "current_signal"; CGrad "position_RFA" "A"; CGrad "position_RFA" "B"; CGrad "position_RFB" "B"; CCov "position_RFA" "A" "A";
   CCov "position_RFA" "A" "B"; CCov "position_RFB" "B" "B"; CIndex].
Definition ex_frame := map col_name ex_cols.
Definition ex_good := ["position_RFA"; "position_RFB"].
Definition ex_source := mk_source ex_frame ["B"; "A"] ["position_RFB"; "current_signal"; "position_RFA"] ["position_RFB"; "position_RFA"].
Example ex_tidy : Forall (fun n => tidy n ex_cols) ("current_signal" :: ex_good).
Proof.
  assert (E : forall p q, In p ("current_signal" :: ex_good) -> In q ex_good -> ends_with p q -> q = p).
  { intros p q Hp Hq [x ->]. assert (HL : String.length (x ++ p) <= String.length p).
    { cbn in Hp, Hq. destruct Hp as [<-|[<-|[<-|[]]]], Hq as [Hq|[Hq|[]]]; rewrite <- Hq; cbn; lia. }
    destruct x as [|c x]; [reflexivity|]. exfalso. clear - HL. cbn in HL. assert (H : String.length p <= String.length (x ++ p)); [|lia].
    clear HL. induction x; cbn; lia. }
  apply Forall_forall. intros p Hp. split; [|split; [|split]].
  - destruct Hp as [<-|[<-|[<-|[]]]]; unfold plain; cbn; intuition discriminate.
  - unfold ex_cols. repeat constructor; cbn; unfold plain; cbn; intuition discriminate.
  - intros q g H. split.
    + cbn in H. intuition (try discriminate); match goal with H : _ = CGrad _ _ |- _ => injection H as <- <- end; split; try discriminate; repeat constructor.
    + apply E; [exact Hp|]. cbn in H. intuition (try discriminate); match goal with H : _ = CGrad _ _ |- _ => injection H as <- <- end; cbn; auto.
  - intros q g1 g2 H. split; [|split].
    + cbn in H. intuition (try discriminate); match goal with H : _ = CCov _ _ _ |- _ => injection H as <- <- <- end; split; try discriminate; repeat constructor.
    + apply E; [exact Hp|]. cbn in H. intuition (try discriminate); match goal with H : _ = CCov _ _ _ |- _ => injection H as <- <- <- end; cbn; auto.
    + intros [x Hx]. cbn in H. intuition (try discriminate); match goal with H : _ = CCov _ _ _ |- _ => injection H as <- <- <- end; discriminate.
Qed.

(** A refresh of the parameter window draws every parameter with its error bars
    and labels, whatever was in the window, or draws nothing at all: an empty
    set of names, a missing column or one name without description is enough. *)
Theorem parameter_window_refresh : forall w names frame,
  let fine := names <> [] /\ incl names frame /\ incl (map (fun n => n ++ "#var")%string names) frame /\ Forall described names in
  let r := happen ParameterWindow w (Refresh names frame) in
  (fine -> snd r = Ok tt /\ exists fs, w_canvas (fst r) = Some fs /\ w_fields (fst r) = fs /\ shows_parameters true names fs) /\
  (~ fine -> (exists e, snd r = Raise e) /\ w_canvas (fst r) = w_canvas w).
Proof.
  intros w names frame fine r. subst r. unfold happen. pose proof (refill_parameters names frame (w_fields w)) as H. fold fine in H.
  destruct (refill ParameterWindow names frame (w_fields w)) as [fs [[]|e]]; cbn [fst snd w_canvas w_fields].
  - destruct H as [H1 H2]. split; [|tauto]. intros _. split; [reflexivity|]. eauto.
  - split; [tauto|]. intros _. eauto.
Qed.
Example parameter_window_ex :
  happen ParameterWindow new_window (Refresh ex_good ex_frame) =
  (let fs := [mk_field [mk_curve "position_RFA" "position_RFA" (Some "position_RFA#var")] (Some "Transition Position Lead A")
                       (Some "Transition Position Lead A (V)") None;
              mk_field [mk_curve "position_RFB" "position_RFB" (Some "position_RFB#var")] (Some "Transition Position Lead B")
                       (Some "Transition Position Lead B (V)") (Some "Measurement Number")] in
   mk_window fs (Some fs), Ok tt).
Proof. reflexivity. Qed.
(** The rise time of a lead (qtune/evaluator.py L133) has no description. *)
Example parameter_window_blank_ex :
  ~ described "parameter_time_rise" /\
  w_canvas (happenings ParameterWindow new_window (repeat (Refresh ["position_RFA"; "parameter_time_rise"]
     ["parameter_time_rise"; "parameter_time_rise#var"; "position_RFA"; "position_RFA#var"]) 5)) = None.
Proof. split; [|reflexivity]. intros [i H]. cbn in H. intuition discriminate. Qed.

(** A refresh of the gradient window draws the gradients of all parameters with
    their error bars, or draws nothing.  It needs a gradient of every parameter
    of the history; for a single parameter it needs a field that is there
    already. *)
Theorem gradient_window_refresh : forall w names cols,
  Forall (fun n => tidy n cols) names ->
  let fine := names <> [] /\ Forall described names /\ Forall (has_gradient cols) names /\ ~ (length names = 1 /\ length (w_fields w) <> 1) in
  let r := happen GradientWindow w (Refresh names (map col_name cols)) in
  (fine -> snd r = Ok tt /\ exists fs, w_canvas (fst r) = Some fs /\ w_fields (fst r) = fs /\ shows_gradients true cols names fs) /\
  (~ fine -> (exists e, snd r = Raise e) /\ w_canvas (fst r) = w_canvas w) /\
  length (w_fields (fst r)) = length names.
Proof.
  intros w names cols HT fine r. subst r. unfold happen. pose proof (refill_gradients names cols (w_fields w) HT) as H. fold fine in H.
  destruct (refill GradientWindow names (map col_name cols) (w_fields w)) as [fs [[]|e]]; cbn [fst snd w_canvas w_fields].
  - destruct H as [H1 H2]. split; [|split; [tauto|apply H2]]. intros _. split; [reflexivity|]. eauto.
  - split; [tauto|]. split; [intros _; eauto|apply H].
Qed.
Example gradient_window_ex :
  happen GradientWindow new_window (Refresh ex_good ex_frame) =
  (let fs := [mk_field [mk_curve "A" "position_RFA#A#grad" (Some "position_RFA#A#A#cov"); mk_curve "B" "position_RFA#B#grad" None]
                       (Some "Response Matrix") (Some "Gradient Transition Lead A (V/V)") None;
              mk_field [mk_curve "B" "position_RFB#B#grad" (Some "position_RFB#B#B#cov")]
                       None (Some "Gradient Transition Lead B (V/V)") (Some "Measurement Number")] in
   mk_window fs (Some fs), Ok tt).
Proof. reflexivity. Qed.

(** A single parameter: the first refresh of a new window fails, all later ones
    work. *)
Theorem gradient_window_second_time : forall n cols, tidy n cols -> described n -> has_gradient cols n ->
  let e := Refresh [n] (map col_name cols) in
  (snd (happen GradientWindow new_window e) = Raise TypeError /\ w_canvas (happenings GradientWindow new_window [e]) = None) /\
  forall m, exists fs, w_canvas (happenings GradientWindow new_window (repeat e (2 + m))) = Some fs /\ shows_gradients true cols [n] fs.
Proof.
  intros n cols Ht Hd Hg e.
  assert (HT : Forall (fun n => tidy n cols) [n]) by (constructor; [exact Ht|constructor]).
  assert (Hgood : forall w, length (w_fields w) = 1 -> length (w_fields (fst (happen GradientWindow w e))) = 1 /\
            exists fs, w_canvas (fst (happen GradientWindow w e)) = Some fs /\ shows_gradients true cols [n] fs).
  { intros w Hw. destruct (gradient_window_refresh w [n] cols HT) as [H1 [_ H3]]. split; [exact H3|].
    destruct H1 as [_ [fs [Hc [_ Hs]]]].
    - split; [discriminate|]. split; [constructor; [exact Hd|constructor]|]. split; [constructor; [exact Hg|constructor]|].
      intros [_ Hx]. exact (Hx Hw).
    - exists fs. split; [exact Hc|exact Hs]. }
  split.
  - pose proof (refill_gradients [n] cols [] HT) as H. unfold happenings. cbn [fold_left]. unfold happen, e.
    change (w_fields new_window) with (@nil field).
    destruct (refill GradientWindow [n] (map col_name cols) []) as [fs [[]|x]].
    + destruct H as [[_ [_ [_ H]]] _]. exfalso. apply H. cbn. split; [reflexivity|discriminate].
    + destruct H as [_ [_ H]]. rewrite H; [split; reflexivity|reflexivity|discriminate].
  - assert (Hfirst : length (w_fields (fst (happen GradientWindow new_window e))) = 1).
    { destruct (gradient_window_refresh new_window [n] cols HT) as [_ [_ H]]. exact H. }
    intros m. unfold happenings. cbn [repeat Nat.add fold_left].
    generalize dependent (fst (happen GradientWindow new_window e)). induction m as [|m IH]; intros w Hw.
    + cbn [repeat fold_left]. apply Hgood, Hw.
    + cbn [repeat fold_left]. apply (IH (fst (happen GradientWindow w e))), Hgood, Hw.
Qed.
Example gradient_window_second_time_ex :
  tidy "position_RFB" ex_cols /\ described "position_RFB" /\ has_gradient ex_cols "position_RFB".
Proof.
  split; [|split].
  - pose proof ex_tidy as H. rewrite Forall_forall in H. apply H. cbn. auto.
  - eexists. cbn. do 5 right. left. reflexivity.
  - exists "B". cbn. intuition.
Qed.

(** The window is opened for all parameters of the history (qtune/gui.py L646,
    L316): one of them without a gradient, or without description, and nothing
    is ever drawn by a refresh. *)
Theorem gradient_window_blank_refuted : forall l,
  Forall (fun e => exists names cols, e = Refresh names (map col_name cols) /\ Forall (fun n => tidy n cols) names /\
                   exists n, In n names /\ ~ (described n /\ has_gradient cols n)) l ->
  w_canvas (happenings GradientWindow new_window l) = None.
Proof.
  intros l H. unfold happenings. assert (H0 : w_canvas new_window = None) by reflexivity. revert H0. generalize new_window.
  induction H as [|e l [names [cols [-> [HT [n [Hn Hx]]]]]] H IH]; intros w Hw; [exact Hw|].
  cbn [fold_left]. apply IH. destruct (gradient_window_refresh w names cols HT) as [_ [H2 _]].
  destruct H2 as [_ ->]; [|exact Hw]. intros [_ [Hd [Hg _]]]. rewrite Forall_forall in Hd, Hg. apply Hx. auto.
Qed.
Example gradient_window_blank_ex :
  ~ has_gradient ex_cols "current_signal" /\
  w_canvas (happenings GradientWindow new_window (repeat (Refresh ["position_RFA"; "current_signal"; "position_RFB"] ex_frame) 7)) = None /\
  option_map (map (fun f => map c_label (f_curves f)))
    (w_canvas (happenings GradientWindow new_window [Refresh ["position_RFA"; "current_signal"; "position_RFB"] ex_frame; Repaint])) =
  Some [["A"; "B"]; []; []].
Proof. split; [intros [g H]; cbn in H; intuition discriminate|]. split; reflexivity. Qed.

(** [plot_tuning] with any list of options: what it returns and draws, and when
    it raises. *)
Theorem plot_tuning_exact : forall src cols v p g options,
  s_frame src = map col_name cols -> Forall (fun o => In o mode_options) options ->
  exists v' p' g',
    chosen "all_voltages" options (s_gates src) v v' /\
    chosen "all_parameters" options (s_parameters src) p p' /\
    chosen "all_gradients" options (s_gradients src) g g' /\
    ((forall l, g' = Some l -> Forall (fun n => tidy n cols) l) ->
     let r := plot_tuning src v p g (String.concat ", " options) in
     let fine := (forall l, v' = Some l -> incl l (s_frame src)) /\
                 (forall l, p' = Some l -> l <> [] /\ incl l (s_frame src) /\ Forall described l /\
                    (In "with_par_variances" options -> incl (map (fun n => n ++ "#var")%string l) (s_frame src))) /\
                 (forall l, g' = Some l -> 2 <= length l /\ Forall described l /\ Forall (has_gradient cols) l) in
     (fine -> exists fv fp fg,
        r = (flat_map (fun o => match o with Some f => [f] | None => [] end) [fv; fp; fg], Ok (fv, fp, fg)) /\
        match v', fv with Some l, Some f => shows_voltages l f | None, None => True | _, _ => False end /\
        match p', fp with
        | Some l, Some f => exists b, (b = true <-> In "with_par_variances" options) /\ shows_parameters b l f
        | None, None => True | _, _ => False end /\
        match g', fg with
        | Some l, Some f => exists b, (b = true <-> In "with_grad_covariances" options) /\ shows_gradients b cols l f
        | None, None => True | _, _ => False end) /\
     (~ fine -> exists e, snd r = Raise e)).
Proof.
  intros src cols v p g options Hs Ho.
  assert (HC : forall o all given, In o mode_options ->
    chosen o options all given (if contains o (String.concat ", " options) then Some (sort_labels all) else given)).
  { intros o all given Hm. rewrite (contains_mode o options Hm Ho). destruct (existsb (String.eqb o) options) eqn:E.
    - apply existsb_in in E. split; [intros _; eexists; split; [reflexivity|apply sorted_in_order]|tauto].
    - assert (~ In o options) by (intros H; apply existsb_in in H; congruence). split; tauto. }
  eexists _, _, _. split; [apply HC; cbn; tauto|]. split; [apply HC; cbn; tauto|]. split; [apply HC; cbn; tauto|].
  clear HC. unfold plot_tuning. cbv beta zeta. change label with string.
  set (v' := if contains "all_voltages" _ then _ else v). set (p' := if contains "all_parameters" _ then _ else p).
  set (g' := if contains "all_gradients" _ then _ else g).
  assert (Hpv : contains "with_par_variances" (String.concat ", " options) = true <-> In "with_par_variances" options).
  { rewrite contains_mode by (cbn; tauto || assumption). apply existsb_in. }
  assert (Hgc : contains "with_grad_covariances" (String.concat ", " options) = true <-> In "with_grad_covariances" options).
  { rewrite contains_mode by (cbn; tauto || assumption). apply existsb_in. }
  set (with_var := contains "with_par_variances" _) in *. set (with_cov := contains "with_grad_covariances" _) in *.
  clearbody v' p' g' with_var with_cov. intros HT.
  (* parameters *)
  assert (HP : (exists fp, (match p' with None => ([], Ok None)
                  | Some a => match parameter_figure src a with_var with (l, Ok r) => (l, Ok (Some r)) | (l, Raise e) => (l, Raise e) end end)
                  = (match fp with Some f => [f] | None => [] end, Ok fp) /\
                 (forall l, p' = Some l -> l <> [] /\ incl l (s_frame src) /\ Forall described l /\
                    (In "with_par_variances" options -> incl (map (fun n => n ++ "#var")%string l) (s_frame src))) /\
                 match p', fp with
                 | Some l, Some f => exists b, (b = true <-> In "with_par_variances" options) /\ shows_parameters b l f
                 | None, None => True | _, _ => False end) \/
               (exists l1 e, (match p' with None => ([], Ok None)
                  | Some a => match parameter_figure src a with_var with (l, Ok r) => (l, Ok (Some r)) | (l, Raise e) => (l, Raise e) end end)
                  = (l1, Raise e) /\
                 ~ (forall l, p' = Some l -> l <> [] /\ incl l (s_frame src) /\ Forall described l /\
                    (In "with_par_variances" options -> incl (map (fun n => n ++ "#var")%string l) (s_frame src))))).
  { destruct p' as [a|].
    - pose proof (parameter_figure_spec src a with_var) as H. destruct (parameter_figure src a with_var) as [l1 [f|e]].
      + destruct H as [-> [H1 H2]]. left. exists (Some f). split; [reflexivity|]. split.
        * intros l [= <-]. rewrite <- Hpv. exact H1.
        * exists with_var. split; [exact Hpv|exact H2].
      + right. exists l1, e. split; [reflexivity|]. intros HX. apply H. rewrite Hpv. apply HX. reflexivity.
    - left. exists None. split; [reflexivity|]. split; [discriminate|exact I]. }
  assert (HG : (exists fg, (match g' with None => ([], Ok None)
                  | Some a => match gradient_figure src a with_cov with (l, Ok r) => (l, Ok (Some r)) | (l, Raise e) => (l, Raise e) end end)
                  = (match fg with Some f => [f] | None => [] end, Ok fg) /\
                 (forall l, g' = Some l -> 2 <= length l /\ Forall described l /\ Forall (has_gradient cols) l) /\
                 match g', fg with
                 | Some l, Some f => exists b, (b = true <-> In "with_grad_covariances" options) /\ shows_gradients b cols l f
                 | None, None => True | _, _ => False end) \/
               (exists l1 e, (match g' with None => ([], Ok None)
                  | Some a => match gradient_figure src a with_cov with (l, Ok r) => (l, Ok (Some r)) | (l, Raise e) => (l, Raise e) end end)
                  = (l1, Raise e) /\
                 ~ (forall l, g' = Some l -> 2 <= length l /\ Forall described l /\ Forall (has_gradient cols) l))).
  { destruct g' as [a|].
    - pose proof (gradient_figure_spec src cols a with_cov Hs (HT a eq_refl)) as H. destruct (gradient_figure src a with_cov) as [l1 [f|e]].
      + destruct H as [-> [H1 H2]]. left. exists (Some f). split; [reflexivity|]. split.
        * intros l [= <-]. exact H1.
        * exists with_cov. split; [exact Hgc|exact H2].
      + right. exists l1, e. split; [reflexivity|]. intros HX. apply H. apply HX. reflexivity.
    - left. exists None. split; [reflexivity|]. split; [discriminate|exact I]. }
  assert (HV : (exists fv, (match v' with None => ([], Ok None)
                  | Some a => match (match columns (s_frame src) a with Raise e => ([], Raise e) | Ok _ => ([voltage_figure a], Ok (voltage_figure a)) end)
                              with (l, Ok r) => (l, Ok (Some r)) | (l, Raise e) => (l, Raise e) end end)
                  = (match fv with Some f => [f] | None => [] end, Ok fv) /\
                 (forall l, v' = Some l -> incl l (s_frame src)) /\
                 match v', fv with Some l, Some f => shows_voltages l f | None, None => True | _, _ => False end) \/
               (exists l1 e, (match v' with None => ([], Ok None)
                  | Some a => match (match columns (s_frame src) a with Raise e => ([], Raise e) | Ok _ => ([voltage_figure a], Ok (voltage_figure a)) end)
                              with (l, Ok r) => (l, Ok (Some r)) | (l, Raise e) => (l, Raise e) end end)
                  = (l1, Raise e) /\ ~ (forall l, v' = Some l -> incl l (s_frame src)))).
  { destruct v' as [a|].
    - destruct (columns_cases (s_frame src) a) as [[-> H]|[-> H]].
      + left. exists (Some (voltage_figure a)). split; [reflexivity|]. split; [intros l [= <-]; exact H|].
        eexists. split; [reflexivity|]. split; [rewrite map_map; apply map_id|].
        apply Forall_forall. intros c Hc. apply in_map_iff in Hc. destruct Hc as [x [<- _]]. split; reflexivity.
      + right. exists [], KeyError. split; [reflexivity|]. intros HX. apply H, HX. reflexivity.
    - left. exists None. split; [reflexivity|]. split; [discriminate|exact I]. }
  destruct HV as [[fv [-> [V1 V2]]]|[l1 [e [-> V]]]].
  2:{ split; [tauto|]. intros _. exists e. reflexivity. }
  destruct HP as [[fp [-> [P1 P2]]]|[l1 [e [-> P]]]].
  2:{ split; [tauto|]. intros _. exists e. reflexivity. }
  destruct HG as [[fg [-> [G1 G2]]]|[l1 [e [-> G]]]].
  2:{ split; [tauto|]. intros _. exists e. reflexivity. }
  split; [|tauto]. intros _. exists fv, fp, fg. split; [|tauto]. cbn [flat_map]. rewrite app_nil_r. reflexivity.
Qed.
Example plot_tuning_ex :
  match plot_tuning ex_source None (Some ["position_RFB"]) None "all_voltages, all_gradients, with_grad_covariances" with
  | ([fv; fp; fg], Ok (Some fv', Some fp', Some fg')) =>
      fv = fv' /\ fp = fp' /\ fg = fg' /\ map (fun f => map c_label (f_curves f)) fv = [["A"; "B"]] /\
      map (fun f => map c_error (f_curves f)) fp = [[None]] /\
      map (fun f => map c_error (f_curves f)) fg = [[Some "position_RFA#A#A#cov"; None]; [Some "position_RFB#B#B#cov"]]
  | _ => False
  end.
Proof. repeat split. Qed.

(** The gradient of a single parameter cannot be plotted, and the figures made
    before stay open; the mode for error bars has another name than in the
    description (L361). *)
Theorem plot_tuning_refuted : forall src n v p,
  plot_tuning src None None (Some [n]) "" = ([[empty_field]], Raise TypeError) /\
  (s_gradients src = [n] -> plot_tuning src None None None "all_gradients" = ([[empty_field]], Raise TypeError)) /\
  (incl v (s_frame src) -> plot_tuning src (Some v) None (Some [n]) "" = ([voltage_figure v; [empty_field]], Raise TypeError)) /\
  plot_tuning src None p None "with_par_variences" = plot_tuning src None p None "".
Proof.
  intros src n v p. split; [reflexivity|]. split; [|split].
  - intros H. unfold plot_tuning. rewrite H. reflexivity.
  - intros H. unfold plot_tuning. apply columns_ok in H. cbn -[columns]. change label with string. rewrite H. reflexivity.
  - reflexivity.
Qed.
(** Fields cannot be told apart by their labels, and the field for
    "tunnel_coupling" also gets the gradients of "parameter_tunnel_coupling". *)
Theorem labels_refuted :
  (exists a b i, a <> b /\ In (a, i) information /\ In (b, i) information) /\
  option_map (map (fun f => map c_column (f_curves f)))
    (w_canvas (fst (happen GradientWindow new_window (Refresh ["tunnel_coupling"; "parameter_tunnel_coupling"]
       (map col_name [CGrad "tunnel_coupling" "A"; CGrad "parameter_tunnel_coupling" "A"]))))) =
  Some [["tunnel_coupling#A#grad"; "parameter_tunnel_coupling#A#grad"]; ["parameter_tunnel_coupling#A#grad"]].
Proof.
  split; [|reflexivity]. exists "tunnel_coupling", "lead time", lead_b. split; [discriminate|]. cbn. auto 10.
Qed.

(** What is left in a window after a refresh that raises, which is what the next
    repainting of the window shows: with a missing column the old figure; with a
    name without description all curves of the parameters, but labels only up to
    this name; gradients only up to the first name that fails. *)
Theorem window_after_failure : forall w names,
  (forall k, happen k w Repaint = (mk_window (w_fields w) (Some (w_fields w)), Ok tt)) /\
  (forall frame, let r := happen ParameterWindow w (Refresh names frame) in
     (~ (incl names frame /\ incl (map (fun n => n ++ "#var")%string names) frame) -> r = (w, Raise KeyError)) /\
     (forall j, incl names frame -> incl (map (fun n => n ++ "#var")%string names) frame -> first_bad described names j ->
        snd r = Raise KeyError /\ left_parameters true names j (w_fields (fst r)))) /\
  (forall cols j, Forall (fun n => tidy n cols) names -> ~ (length names = 1 /\ length (w_fields w) <> 1) ->
     first_bad (fun n => described n /\ has_gradient cols n) names j ->
     left_gradients true cols names j (w_fields (fst (happen GradientWindow w (Refresh names (map col_name cols)))))).
Proof.
  intros w names. split; [intros k; reflexivity|]. split.
  - intros frame r. subst r. unfold happen. split.
    + intros H. cbn [refill]. change (map var_name names) with (map (fun n => n ++ "#var")%string names).
      destruct (columns_cases frame names) as [[-> H1]|[-> H1]]; [|destruct w; reflexivity].
      destruct (columns_cases frame (map (fun n => n ++ "#var")%string names)) as [[-> H2]|[-> H2]]; [tauto|destruct w; reflexivity].
    + intros j H1 H2 HB. destruct (refill_parameters_left names frame (w_fields w) j H1 H2 HB) as [f [-> Hf]]. split; [reflexivity|exact Hf].
  - intros cols j HT H1 HB. unfold happen.
    destruct (refill_gradients_left names cols (w_fields w) j HT H1 HB) as [f [e [-> Hf]]]. exact Hf.
Qed.
Example window_after_failure_ex :
  first_bad described ["position_RFA"; "parameter_time_rise"; "position_RFB"] 1 /\
  first_bad (fun n => described n /\ has_gradient ex_cols n) ["position_RFA"; "current_signal"; "position_RFB"] 1 /\
  map f_title (w_fields (happenings ParameterWindow new_window [Refresh ["position_RFA"; "parameter_time_rise"; "position_RFB"]
     ["position_RFB"; "position_RFB#var"; "parameter_time_rise"; "parameter_time_rise#var"; "position_RFA"; "position_RFA#var"]])) =
  [Some "Transition Position Lead A"; None; None].
Proof.
  split; [|split; [|reflexivity]].
  - split; [eexists; split; [reflexivity|]; intros [i H]; cbn in H; intuition discriminate|].
    intros [|i] n Hi; [intros [= <-]|lia]. eexists. cbn. do 4 right. left. reflexivity.
  - split; [eexists; split; [reflexivity|]; intros [_ [g H]]; cbn in H; intuition discriminate|].
    intros [|i] n Hi; [intros [= <-]|lia]. split; [eexists; cbn; do 4 right; left; reflexivity|]. exists "A". cbn. auto 20.
Qed.

(** Figures stay open when [plot_tuning] raises: those that were finished and
    the one in which it failed, which no caller gets hold of. *)
Theorem plot_tuning_open : forall src cols v p g options,
  s_frame src = map col_name cols -> Forall (fun o => In o ["with_grad_covariances"; "with_par_variances"]) options ->
  (forall l, g = Some l -> Forall (fun n => tidy n cols) l) ->
  let opened := fst (plot_tuning src v p g (String.concat ", " options)) in
  let errors o b := b = true <-> In o options in
  let found l := incl l (s_frame src) /\ (In "with_par_variances" options -> incl (map (fun n => n ++ "#var")%string l) (s_frame src)) in
  ((exists l, v = Some l /\ ~ incl l (s_frame src)) -> opened = []) /\
  ((forall l, v = Some l -> incl l (s_frame src)) ->
   exists fv, match v with Some l => exists f, fv = [f] /\ shows_voltages l f | None => fv = [] end /\
   (forall l, p = Some l ->
      (~ found l -> opened = fv) /\
      (found l -> l = [] -> opened = fv ++ [[]]) /\
      (found l -> forall j, first_bad described l j ->
         exists f b, opened = fv ++ [f] /\ errors "with_par_variances" b /\ left_parameters b l j f)) /\
   ((forall l, p = Some l -> l <> [] /\ found l /\ Forall described l) ->
    exists fp, match p with Some l => exists f b, fp = [f] /\ errors "with_par_variances" b /\ shows_parameters b l f | None => fp = [] end /\
    (forall l, g = Some l ->
      (l = [] -> opened = fv ++ fp ++ [[]]) /\
      (length l = 1 -> opened = fv ++ fp ++ [[mk_field [] None None None]]) /\
      (2 <= length l -> forall j, first_bad (fun n => described n /\ has_gradient cols n) l j ->
         exists f b, opened = fv ++ fp ++ [f] /\ errors "with_grad_covariances" b /\ left_gradients b cols l j f)))).
Proof.
  intros src cols v p g options Hs Ho HT opened errors found.
  assert (Hm : Forall (fun o => In o mode_options) options).
  { eapply Forall_impl; [|exact Ho]. cbn. tauto. }
  assert (Hnot : forall o, In o ["all_voltages"; "all_parameters"; "all_gradients"] -> contains o (String.concat ", " options) = false).
  { intros o Hi. rewrite (contains_mode o options) by (cbn in *; tauto || exact Hm). apply not_true_is_false. intros HX. apply existsb_in in HX.
    rewrite Forall_forall in Ho. specialize (Ho o HX). cbn in Hi, Ho. intuition congruence. }
  assert (Hpv : contains "with_par_variances" (String.concat ", " options) = true <-> In "with_par_variances" options).
  { rewrite contains_mode by (cbn; tauto || assumption). apply existsb_in. }
  assert (Hgc : contains "with_grad_covariances" (String.concat ", " options) = true <-> In "with_grad_covariances" options).
  { rewrite contains_mode by (cbn; tauto || assumption). apply existsb_in. }
  subst opened. unfold plot_tuning. cbv beta zeta. change label with string.
  rewrite (Hnot "all_voltages") by (cbn; tauto). rewrite (Hnot "all_parameters") by (cbn; tauto). rewrite (Hnot "all_gradients") by (cbn; tauto).
  set (with_var := contains "with_par_variances" _) in *. set (with_cov := contains "with_grad_covariances" _) in *.
  clearbody with_var with_cov. split.
  { intros [l [-> Hl]]. destruct (columns_cases (s_frame src) l) as [[_ H]|[-> _]]; [contradiction|reflexivity]. }
  intros Hv. exists (match v with Some l => [voltage_figure l] | None => [] end). split.
  { destruct v as [l|]; [|reflexivity]. eexists. split; [reflexivity|]. eexists. split; [reflexivity|]. split; [rewrite map_map; apply map_id|].
    apply Forall_forall. intros c Hc. apply in_map_iff in Hc. destruct Hc as [x [<- _]]. split; reflexivity. }
  assert (HV : match v with
     | Some a => match match columns (s_frame src) a with Ok _ => ([voltage_figure a], Ok (voltage_figure a)) | Raise e => ([], Raise e) end with
                 | (l, Ok r) => (l, Ok (Some r)) | (l, Raise e) => (l, Raise e) end
     | None => ([], Ok None)
     end = (match v with Some l => [voltage_figure l] | None => [] end, Ok (option_map voltage_figure v))).
  { destruct v as [l|]; [|reflexivity]. specialize (Hv l eq_refl). apply columns_ok in Hv. rewrite Hv. reflexivity. }
  rewrite HV. clear HV Hv. set (fv := match v with Some l => [voltage_figure l] | None => [] end). clearbody fv. split.
  - intros l ->. destruct (parameter_figure_left src l with_var) as [H1 [H2 H3]]. rewrite Hpv in H1, H2, H3. split; [|split].
    + intros H. rewrite (H1 H). apply app_nil_r.
    + intros H H0. rewrite (H2 H H0). reflexivity.
    + intros H j HB. destruct (H3 H j HB) as [f [-> Hf]]. exists f, with_var. split; [reflexivity|]. split; [exact Hpv|exact Hf].
  - intros Hp.
    assert (HP : exists fp o, match p with
       | Some a => match parameter_figure src a with_var with (l, Ok r) => (l, Ok (Some r)) | (l, Raise e) => (l, Raise e) end
       | None => ([], Ok None) end = (fp, Ok o) /\
       match p with Some l => exists f b, fp = [f] /\ errors "with_par_variances" b /\ shows_parameters b l f | None => fp = [] end).
    { destruct p as [l|]; [|eexists _, _; split; reflexivity]. destruct (Hp l eq_refl) as [P1 [[P2 P3] P4]].
      pose proof (parameter_figure_spec src l with_var) as H. destruct (parameter_figure src l with_var) as [fp [f|e]].
      - destruct H as [-> [_ H]]. eexists _, _. split; [reflexivity|]. exists f, with_var. split; [reflexivity|]. split; [exact Hpv|exact H].
      - exfalso. apply H. rewrite Hpv. tauto. }
    destruct HP as [fp [o [-> Hfp]]]. exists fp. split; [exact Hfp|]. intros l ->.
    destruct (gradient_figure_left src cols l with_cov Hs (HT l eq_refl)) as [H1 [H2 H3]]. split; [|split].
    + intros H. rewrite (H1 H). reflexivity.
    + intros H. rewrite (H2 H). reflexivity.
    + intros H j HB. destruct (H3 H j HB) as [f [e [-> Hf]]]. exists f, with_cov. split; [reflexivity|]. split; [exact Hgc|exact Hf].
Qed.
Example plot_tuning_open_ex :
  map (map (fun f => map c_label (f_curves f)))
    (fst (plot_tuning ex_source (Some ["A"]) (Some ex_good) (Some ["position_RFA"; "current_signal"; "position_RFB"]) "with_par_variances")) =
  [[["A"]]; [["position_RFA"]; ["position_RFB"]]; [["A"; "B"]; []; []]].
Proof. reflexivity. Qed.

Ltac unit_split u k :=
  lazymatch k with 60 => fail | _ => idtac end;
  let a := eval vm_compute in (String.substring 0 k u) in
  let b := eval vm_compute in (String.substring (k + 2) (String.length u - k - 3) u) in
  first [exists a, b; split; [reflexivity|cbn; intuition discriminate] | unit_split u (S k)].
Ltac grad_split u k :=
  lazymatch k with 60 => fail | _ => idtac end;
  let a := eval vm_compute in (String.substring 9 (k - 9) u) in
  let b := eval vm_compute in (String.substring (k + 1) (String.length u - k - 2) u) in
  first [exists a, b; reflexivity | grad_split u (S k)].
(** The texts fit together: the label of the axis has a unit in brackets, the
    title has none, the label for gradients says so, and the two leads have their
    own letters. *)
Theorem labels_consistent : forall n i, In (n, i) information ->
  (exists a b, i_unit i = a ++ " (" ++ b ++ ")" /\ ~ In "("%char (chars_of a))%string /\
  ~ In "("%char (chars_of (i_name i)) /\
  (exists a b, i_grad i = "Gradient " ++ a ++ "(" ++ b ++ ")")%string /\
  (n = "position_RFA" -> ends_with "Lead A" (i_name i) /\ starts_with "Transition Position Lead A" (i_unit i) /\ starts_with "Gradient Transition Lead A" (i_grad i)) /\
  (n = "position_RFB" -> ends_with "Lead B" (i_name i) /\ starts_with "Transition Position Lead B" (i_unit i) /\ starts_with "Gradient Transition Lead B" (i_grad i)).
Proof.
  intros n i H. cbn [information In] in H.
  repeat (destruct H as [H|H]; [injection H as <- <-; split; [|split; [cbn; intuition discriminate|split; [|split; intros E; try discriminate E]]]|]); try contradiction.
  all: cbn [i_unit i_grad i_name lead_a lead_b].
  all: try (match goal with |- ends_with _ _ /\ _ =>
         split; [exists "Transition Position "; reflexivity|split; [exists " (V)"; reflexivity|exists " (V/V)"; reflexivity]] end).
  all: match goal with
  | |- exists a b, (?u = a ++ " (" ++ b ++ ")" /\ _)%string => unit_split u 4
  | |- exists a b, ?u = _ => grad_split u 9
  end.
Qed.
(** The title of "position_RFA" is not that of "position_RFB". *)
Example labels_consistent_ex : exists i j, In ("position_RFA", i) information /\ In ("position_RFB", j) information /\ i_name i <> i_name j.
Proof. exists lead_a, lead_b. split; [cbn; tauto|]. split; [cbn; tauto|discriminate]. Qed.

Print Assumptions parameter_window_refresh.
Print Assumptions gradient_window_refresh.
Print Assumptions gradient_window_second_time.
Print Assumptions gradient_window_blank_refuted.
Print Assumptions plot_tuning_exact.
Print Assumptions plot_tuning_refuted.
Print Assumptions labels_refuted.
Print Assumptions window_after_failure.
Print Assumptions plot_tuning_open.
Print Assumptions labels_consistent.
