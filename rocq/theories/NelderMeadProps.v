(** Properties C23 to C25 and C60 to C65: the NelderMeadSolver. *)
From Verif Require Import PyBase TargetModel TunerModel TunerSpec SeriesLemmas SolverModel NelderMeadModel NelderMeadSpec NelderMeadProofs NelderMeadRuns NelderMeadPoints NelderMeadLoop.
From Coq Require Import Lra Permutation.
Local Open Scope string_scope.
Local Open Scope nat_scope.

(** A cost function, a target and states for the examples: one gate A, one
    value x. *)
Definition case_cost (v : series) : num := fillna (Fin 0) (get "x" v).
Lemma case_cost_ordered : ordered case_cost.
Proof. intros v. unfold case_cost, fillna. destruct (get "x" v); discriminate. Qed.
Definition case_target : target := [mk_trow "x" (Fin 0) NaN NaN NaN NaN (Fin 1)].
Definition case_point (a x : R) : entry := ([("A", Fin a)], [("x", Fin x)]).
Definition case_nm (l : list entry) (r : option entry) (p : nm_phase) : nm :=
  mk_nm case_target l [("A", Fin 1)] [("A", Fin 0)] [("x", Fin 1)] r [] p.
Definition case_ortho (vs : list (list num)) : res (list num) := Ok [Fin 1].
Lemma case_point_cost a x : case_cost (deviation case_target (snd (case_point a x))) = Fin (x + - 0).
Proof. reflexivity. Qed.

(** ** C23 *)
Theorem nelder_mead_simplex_size :
  forall cost ortho st ops, length (nm_simplex st) <= S (length (nm_pos st)) ->
  let st' := nm_run cost ortho st ops in
  length (nm_simplex st') = Nat.min (S (length (nm_pos st))) (length (nm_simplex st) + accepted cost ortho st ops) /\
  length (nm_pos st') = length (nm_pos st) /\
  (ordered cost -> full st' -> ~ full st \/ ascending (costs cost st) -> ascending (costs cost st')).
Proof.
  intros cost ortho st ops Hl st'.
  assert (Hpos : length (nm_pos st') = length (nm_pos st)) by (apply length_index, run_frame).
  split; [apply run_size; exact Hl|]. split; [exact Hpos|].
  intros Hc Hf Hs. apply asc_ascending. unfold full in *.
  destruct (run_tidy cost ortho Hc ops st) as [H|H]; [|fold st' in H; lia|exact H].
  destruct Hs as [Hs|Hs]; [left; lia|right]. apply ascending_asc. exact Hs.
Qed.
Print Assumptions nelder_mead_simplex_size.
Example case_size : let st := case_nm [case_point 0 1] None BuildUp in
  let ops := [OSuggest; OUpdate [("A", Fin 1)] [("x", Fin 3)]; OSuggest; OUpdate [("A", Fin 1)] [("x", Fin 2)]] in
  length (nm_simplex st) = 1 /\ accepted case_cost case_ortho st (firstn 2 ops) = 1 /\ full (nm_run case_cost case_ortho st (firstn 2 ops)) /\ ~ full st.
Proof. cbn. unfold full. cbn. repeat split; auto. - destruct (Rltb (3 + - 0) (1 + - 0)); reflexivity. Qed.

(** ** C24 *)
Theorem nelder_mead_keeps_best :
  forall cost ortho st ops, let st' := nm_run cost ortho st ops in
  (ordered cost -> forall c, at_most c (costs cost st) <= at_most c (costs cost st')) /\
  (forall e, In e (nm_simplex st') ->
     In e (nm_simplex st) \/ nm_refl st = Some e \/ In e (nm_shrunk st) \/
     exists p v, In (OUpdate p v) ops /\ e = (reindex (index (nm_pos st)) p, reindex (index (nm_vals st)) v)).
Proof.
  intros cost ortho st ops st'. split; [intros Hc c; apply run_below; exact Hc|].
  intros e He. destruct (run_known cost ortho ops st e) as [[H|[H|H]]|H]; auto. left. exact He.
Qed.
Print Assumptions nelder_mead_keeps_best.
Example case_best : let st := case_nm [case_point 0 1; case_point 1 2] None Reflect in
  at_most (Fin 1) (costs case_cost st) = 1 /\
  nm_simplex (nm_run case_cost case_ortho st [OUpdate [("A", Fin 2)] [("x", Fin (/ 2))]; OUpdate [("A", Fin 3)] [("x", Fin (/ 4))]]) =
  [case_point 3 (/ 4); case_point 0 1].
Proof.
  unfold at_most, costs. cbn. rewrite (proj2 (Rleb_true (1 + - 0) 1)) by lra. rewrite (proj2 (Rleb_false (2 + - 0) 1)) by lra.
  split; [reflexivity|]. cbn.
  repeat (rewrite ?(proj2 (Rltb_true (/ 2 + - 0) (1 + - 0))), ?(proj2 (Rltb_true (/ 4 + - 0) (/ 2 + - 0))),
    ?(proj2 (Rltb_true (/ 4 + - 0) (2 + - 0))), ?(proj2 (Rltb_true (/ 4 + - 0) (1 + - 0))), ?(proj2 (Rltb_false (2 + - 0) (1 + - 0))) by lra; cbn).
  reflexivity.
Qed.

(** ** C25 *)
Theorem nelder_mead_never_reflects_again :
  forall cost ortho st ops, full st -> ~ reflecting (nm_phase_ st) ->
  let st' := nm_run cost ortho st ops in
  full st' /\ ~ reflecting (nm_phase_ st') /\
  (nm_phase_ st = Expand \/ nm_phase_ st = Shrink -> nm_phase_ st' = nm_phase_ st) /\
  (nm_phase_ st' = nm_phase_ st \/ nm_phase_ st' = Shrink) /\
  nm_refl st' = nm_refl st.
Proof.
  intros cost ortho st ops Hf Hp st'. unfold full in *.
  destruct (run_phase cost ortho ops st) as [H1 [H2 [H3 [H4 H5]]]]; [lia|exact Hp|]. fold st' in H1, H2, H3, H4, H5.
  split; [lia|]. split; [exact H3|]. split; [|split; [tauto|exact H5]].
  intros [H|H]; destruct H4 as [H4|[H4 [H6|H6]]]; congruence.
Qed.
Print Assumptions nelder_mead_never_reflects_again.
Example case_never : full (case_nm [case_point 0 1; case_point 1 2] (Some (case_point 2 (/ 2))) Expand) /\ ~ reflecting Expand.
Proof. split; [reflexivity|]. unfold reflecting. intuition congruence. Qed.

(** ** C60: the points that are suggested, relative to the centroid [b] of all
    points but the worst, with [n] gates.  The textbook coefficients are 1, 2,
    1/2, -1/2. *)
Theorem nelder_mead_coefficients :
  forall ortho ls st fs w, placed ls (fs ++ [w]) st -> full st -> fs <> [] ->
  let n := INR (length fs) in let b := centroid fs in
  let at_ a := Ok (vec ls (fun l => b l + a * (b l - w l))%R) in
  length fs = length (nm_pos st) /\
  (nm_phase_ st = StartIteration \/ nm_phase_ st = Reflect -> snd (nm_suggest ortho st) = at_ ((n - 1) / (n + 1))%R) /\
  (nm_phase_ st = Expand -> snd (nm_suggest ortho st) = at_ ((2 * n - 1) / (n + 1))%R) /\
  (nm_phase_ st = ContractOutside -> snd (nm_suggest ortho st) = at_ ((n - 2) / (2 * (n + 1)))%R) /\
  (nm_phase_ st = ContractInside -> snd (nm_suggest ortho st) = at_ (- ((n + 2) / (2 * (n + 1))))%R) /\
  (nm_phase_ st = Shrink -> forall g, nth_error (fs ++ [w]) (S (length (nm_shrunk st))) = Some g ->
     exists f0, nth_error fs 0 = Some f0 /\ snd (nm_suggest ortho st) = Ok (vec ls (fun l => (f0 l + g l) / 2)%R)).
Proof.
  intros ortho ls st fs w Hp Hf Hne n b at_.
  assert (Hlen : length (nm_simplex st) = S (length fs)).
  { unfold placed in Hp. transitivity (length (map fst (nm_simplex st))); [symmetry; apply map_length|]. rewrite Hp, map_length, app_length. cbn [length]. lia. }
  split; [unfold full in Hf; lia|].
  destruct fs as [|f fs]; [congruence|]. clear Hne. cbn [app] in Hp.
  pose proof (suggest_full ls ortho st f (fs ++ [w]) Hp) as Hs. cbv zeta in Hs. rewrite last_last in Hs.
  assert (Hl : length (nm_pos st) < length (nm_simplex st)) by (unfold full in Hf; lia). specialize (Hs Hl).
  assert (Hm : forall l, centroid (f :: fs ++ [w]) l = ((n * b l + w l) / (n + 1))%R).
  { intros l. unfold centroid, b, n, centroid.
    assert (Hr : rsum (map (fun f0 => f0 l) (f :: fs ++ [w])) = (rsum (map (fun f0 => f0 l) (f :: fs)) + w l)%R).
    { change (f :: fs ++ [w]) with ((f :: fs) ++ [w])%list. rewrite map_app. cbn [map].
      assert (G : forall xs y, rsum (xs ++ [y])%list = (rsum xs + y)%R).
      { clear. unfold rsum. induction xs as [|x xs IH]; intros y; cbn; [lra|]. rewrite IH. lra. }
      apply (G (f l :: map _ fs)). }
    rewrite Hr. replace (INR (length (f :: fs ++ [w]))) with (INR (length (f :: fs)) + 1)%R.
    2:{ cbn [length]. rewrite app_length. cbn [length]. rewrite Nat.add_1_r, !S_INR. reflexivity. }
    assert (Hpos : (0 < INR (length (f :: fs)))%R) by (apply lt_0_INR; cbn; lia). field. lra. }
  assert (Hn1 : (0 < n + 1)%R) by (unfold n; pose proof (pos_INR (length (f :: fs))); lra).
  split; [|split; [|split; [|split]]].
  - intros [H|H]; rewrite Hs, H; cbn [snd]; unfold at_; f_equal; apply vec_ext; intros l _; rewrite Hm; field; lra.
  - intros H; rewrite Hs, H; cbn [snd]; unfold at_; f_equal; apply vec_ext; intros l _; rewrite Hm; field; lra.
  - intros H; rewrite Hs, H; cbn [snd]; unfold at_; f_equal; apply vec_ext; intros l _; rewrite Hm; field; lra.
  - intros H; rewrite Hs, H; cbn [snd]; unfold at_; f_equal; apply vec_ext; intros l _; rewrite Hm; field; lra.
  - intros H g Hg. exists f. split; [reflexivity|]. cbn in Hg. rewrite Hs, H.
    assert (Hlt : length (nm_shrunk st) < length (fs ++ [w])) by (apply nth_error_Some; congruence).
    rewrite app_length in Hlt. cbn [length] in *. rewrite (proj2 (Nat.eqb_neq _ _)) by lia.
    rewrite Hg. cbn [snd]. f_equal. apply vec_ext. intros l _. lra.
Qed.
Print Assumptions nelder_mead_coefficients.

(** With one gate the "reflected" point is the best point itself. *)
Theorem reflection_in_one_dimension_refuted :
  forall ortho l st b w, placed [l] [b; w] st -> length (nm_pos st) = 1 -> nm_phase_ st = StartIteration ->
  snd (nm_suggest ortho st) = Ok (vec [l] b).
Proof.
  intros ortho l st b w Hp Hn Hs.
  destruct (nelder_mead_coefficients ortho [l] st [b] w Hp) as [_ [H _]]; [|discriminate|].
  - unfold full. rewrite Hn. unfold placed in Hp. transitivity (length (map fst (nm_simplex st))); [symmetry; apply map_length|]. rewrite Hp. reflexivity.
  - rewrite H by (left; exact Hs). f_equal. apply vec_ext. intros k _. unfold centroid, rsum. cbn. lra.
Qed.
Print Assumptions reflection_in_one_dimension_refuted.
Example case_reflection : placed ["A"] [fun _ => 0%R; fun _ => 1%R] (case_nm [case_point 0 1; case_point 1 2] None StartIteration).
Proof. reflexivity. Qed.

(** ** C61: an expansion that does not pay off is repeated until all points of
    the simplex are copies of the reflected point, which is then the only
    suggestion. *)
Theorem nelder_mead_collapse :
  forall cost ortho ls f vals st ops, ordered cost -> full st -> nm_phase_ st = Expand ->
  let r := (vec ls f, vals) in let c v := cost (deviation (nm_target st) v) in
  nm_refl st = Some r -> ascending (costs cost st) ->
  (forall e, In e (nm_simplex st) -> nltb (c vals) (c (snd e)) = true) ->
  (forall p v, In (OUpdate p v) ops -> nleb (c vals) (c (reindex (index (nm_vals st)) v)) = true) ->
  S (length (nm_pos st)) <= accepted cost ortho st ops ->
  let st' := nm_run cost ortho st ops in
  nm_simplex st' = repeat r (S (length (nm_pos st))) /\ snd (nm_suggest ortho st') = Ok (vec ls f).
Proof.
  intros cost ortho ls f vals st ops Hc Hf Hp r c Hr Ha Hb Hn Hacc st'. unfold full in Hf.
  assert (Hl : length (nm_pos st) < length (nm_simplex st)) by lia.
  assert (Hs : nm_simplex st' = repeat r (S (length (nm_pos st)))).
  { rewrite <- Hf. apply (collapse cost ortho Hc r ops st 0 (nm_simplex st)); auto; try lia.
    apply ascending_asc. exact Ha. }
  split; [exact Hs|].
  assert (Hnr : ~ reflecting (nm_phase_ st)) by (rewrite Hp; unfold reflecting; intuition congruence).
  destruct (run_phase cost ortho ops st Hl Hnr) as [H1 [H2 [_ [H3 _]]]]. fold st' in H1, H2, H3.
  rewrite (collapsed_suggest ortho ls f vals (length (nm_pos st)) st'); [reflexivity|exact Hs|lia|].
  rewrite Hp in H3. destruct H3 as [H3|[_ [H3|H3]]]; congruence.
Qed.
Print Assumptions nelder_mead_collapse.
Example case_collapse :
  let st := case_nm [case_point 0 1; case_point 1 2] (Some (vec ["A"] (fun _ => 2%R), [("x", Fin (/ 2))])) Expand in
  let ops := [OSuggest; OUpdate [("A", Fin 3)] [("x", Fin 1)]; OSuggest; OUpdate [("A", Fin 4)] [("x", Fin 1)]] in
  snd (nm_suggest case_ortho (nm_run case_cost case_ortho st ops)) = Ok [("A", Fin 2)].
Proof.
  cbv zeta. match goal with |- context [nm_run _ _ ?s ?o] => set (st := s); set (ops := o) end.
  destruct (nelder_mead_collapse case_cost case_ortho ["A"] (fun _ => 2%R) [("x", Fin (/ 2))] st ops) as [_ H].
  - exact case_cost_ordered.
  - reflexivity.
  - reflexivity.
  - reflexivity.
  - intros [|[|[|i]]] [|[|[|j]]] a b Hij Ha Hb; try lia; try discriminate.
    cbn in Ha, Hb. injection Ha as <-. injection Hb as <-. cbn. apply Rleb_true. lra.
  - intros e [<-|[<-|[]]]; cbn; apply Rltb_true; lra.
  - intros p v [H|[H|[H|[H|[]]]]]; try discriminate; injection H as <- <-; cbn; apply Rleb_true; lra.
  - cbn. repeat (rewrite ?(proj2 (Rltb_false (1 + - 0) (/ 2 + - 0))), ?(proj2 (Rltb_true (/ 2 + - 0) (2 + - 0))),
      ?(proj2 (Rltb_true (/ 2 + - 0) (1 + - 0))), ?(proj2 (Rltb_false (2 + - 0) (1 + - 0))) by lra; cbn). lia.
  - exact H.
Qed.

(** ** C62: after an inside contraction was started, the solver never leaves a
    box that contains the simplex. *)
Theorem nelder_mead_stays_in_box :
  forall cost ortho ls lo hi st vs, index (nm_pos st) = ls -> full st ->
  nm_phase_ st = ContractInside \/ nm_phase_ st = Shrink ->
  (forall e, In e (nm_simplex st) \/ In e (nm_shrunk st) -> in_box ls lo hi (fst e)) ->
  forall p, snd (nm_suggest ortho (nm_rounds cost ortho st vs)) = Ok p -> in_box ls lo hi p.
Proof.
  intros cost ortho ls lo hi st vs Hi Hf Hp Hb p.
  assert (H : boxed ls lo hi st) by (repeat split; auto; unfold full in Hf; lia).
  apply (boxed_rounds cost ortho ls lo hi vs) in H. apply (boxed_suggest ortho ls lo hi _ H).
Qed.
Print Assumptions nelder_mead_stays_in_box.
Example case_box : forall e, In e [case_point 0 1; case_point 1 2] \/ In e [] -> in_box ["A"] (fun _ => 0%R) (fun _ => 1%R) (fst e).
Proof.
  intros e [[<-|[<-|[]]]|[]]; [exists (fun _ => 0%R)|exists (fun _ => 1%R)]; split; try reflexivity; intros; lra.
Qed.

(** ** C63: a solver built up from scratch never runs into the internal errors;
    one that is given a complete simplex cannot make its first suggestion. *)
Theorem nelder_mead_no_internal_error :
  forall cost ortho t span pos vals st ops, nm_from_scratch t span pos vals = Ok st -> pos <> [] ->
  let st' := nm_run cost ortho st ops in
  (full st' -> exists p, snd (nm_suggest ortho st') = Ok p) /\
  (forall p v e, snd (nm_update cost p v st') = Raise e -> e = KeyError).
Proof.
  intros cost ortho t span pos vals st ops Hi Hne st'.
  assert (H : sane st') by (apply sane_run; eapply sane_scratch; eassumption).
  split.
  - intros Hf. apply sane_full; [exact H|]. unfold full in Hf. lia.
  - intros p v. apply (sane_update cost). exact H.
Qed.
Print Assumptions nelder_mead_no_internal_error.
Example case_scratch : exists st, nm_from_scratch case_target [("A", Fin 1)] [("A", Fin 0)] [("x", Fin 1)] = Ok st /\
  full (nm_run case_cost case_ortho st [OUpdate [("A", Fin 1)] [("x", Fin 3)]]).
Proof. eexists. split; [reflexivity|]. unfold full. cbn. destruct (Rltb (3 + - 0) (1 + - 0)); reflexivity. Qed.

Theorem complete_simplex_refuted :
  forall ortho t simplex span pos vals st, nm_init t simplex span pos vals None [] "built_up" = Ok st ->
  length simplex = S (length pos) -> snd (nm_suggest ortho st) = Raise RuntimeError.
Proof.
  intros ortho t simplex span pos vals st H Hl. unfold nm_init in H.
  destruct (select (t_index t) vals); [|discriminate]. destruct (select (index pos) span); [|discriminate].
  cbn in H. injection H as <-. unfold nm_suggest. cbn [nm_simplex nm_pos nm_phase_].
  destruct simplex as [|e simplex]; [discriminate|]. cbn [map]. rewrite (proj2 (Nat.ltb_ge _ _)); [reflexivity|].
  cbn [length] in *. lia.
Qed.
Print Assumptions complete_simplex_refuted.
Example case_complete : exists st, nm_init case_target [case_point 0 1; case_point 1 2] [("A", Fin 1)] [("A", Fin 0)] [("x", Fin 1)] None [] "built_up" = Ok st.
Proof. eexists. reflexivity. Qed.

(** ** C64: with the default cost function a point without values is optimal
    and stays forever. *)
Theorem nan_point_stays_refuted :
  forall ortho st e ops, full st -> ascending (costs default_cost st) -> In e (nm_simplex st) ->
  (forall l x, In (l, x) (snd e) -> x = NaN) ->
  In e (nm_simplex (nm_run default_cost ortho st ops)) /\
  forall v, nleb (default_cost (deviation (nm_target st) (snd e))) (default_cost v) = true.
Proof.
  intros ortho st e ops Hf Ha Hin Hn.
  assert (H0 : default_cost (deviation (nm_target st) (snd e)) = Fin 0) by (apply default_cost_nan; intros l x; apply deviation_nan; exact Hn).
  split; [|intros v; rewrite H0; apply default_cost_least].
  apply run_keeps; [exact default_cost_ordered| | |exact Hin].
  - right. apply ascending_asc. exact Ha.
  - intros x. change (entry_cost default_cost (nm_target st) e) with (default_cost (deviation (nm_target st) (snd e))).
    rewrite H0. apply default_cost_least.
Qed.
Print Assumptions nan_point_stays_refuted.
Example case_nan : let st := case_nm [([("A", Fin 5)], [("x", NaN)]); case_point 0 1] None Reflect in
  full st /\ ascending (costs default_cost st).
Proof.
  split; [reflexivity|]. intros [|[|[|i]]] [|[|[|j]]] a b Hij Ha Hb; try lia; try discriminate.
  cbn in Ha, Hb. injection Ha as <-. injection Hb as <-. cbn. apply Rleb_true. lra.
Qed.

(** ** C65: a tuner never gets voltages from a NelderMeadSolver, its target
    cannot be changed and it cannot be restarted; a saved solver cannot be
    loaded. *)
Theorem nelder_mead_unusable_refuted :
  forall (X : Type) cost L tuned (s : tsys nm X),
  (forall v, snd (subset_next (nm_ops cost) L tuned s) = Ok v ->
     t_failed (ts_t s) = true /\ exists good more, t_evaluatable (ts_t s) = good :: more) /\
  (t_failed (ts_t s) = false -> snd (subset_next (nm_ops cost) L tuned s) = Raise TypeError /\
                                snd (sd_next (nm_ops cost) tuned s) = Raise TypeError) /\
  (forall v, snd (tuner_restart (nm_ops cost) v s) = Raise AttributeError) /\
  (forall ch, snd (tuner_set_target (nm_ops cost) ch s) = Raise AttributeError).
Proof.
  intros X cost L tuned [t st x tr]. unfold subset_next, sd_next, tuner_restart, tuner_set_target, tbind, tget, tput, tsolver, tret, traise. cbn.
  destruct (t_failed t) eqn:Ef; cbn; (split; [|split; [|split; reflexivity]]).
  - intros v H. split; [reflexivity|]. destruct (t_evaluatable t) as [|good more]; [discriminate|]. eauto.
  - discriminate.
  - discriminate.
  - auto.
Qed.
Print Assumptions nelder_mead_unusable_refuted.
Example case_unusable : snd (subset_next (nm_ops default_cost) (mk_limits (Fin 1) 3) []
  (mk_tsys (fresh_tuner ["x"]) (case_nm [case_point 0 1] None BuildUp) tt [])) = Raise TypeError.
Proof. reflexivity. Qed.

Theorem nelder_mead_reload_refuted :
  forall st, index (nm_vals st) = t_index (nm_target st) -> index (nm_span st) = index (nm_pos st) ->
  nm_reload st = Raise ValueError.
Proof.
  intros st Hv Hs. unfold nm_reload, nm_init.
  assert (H : forall ls s, index s = ls -> exists r, select ls s = Ok r).
  { intros ls s <-. unfold select. destruct s as [|[l x] s]; [eexists; reflexivity|]. cbn [index map fst].
    replace (existsb _ _) with true; [eexists; reflexivity|]. symmetry. apply existsb_exists. exists l.
    rewrite mem_In. split; left; reflexivity. }
  destruct (H _ _ Hv) as [v ->]. destruct (H _ _ Hs) as [sp ->].
  destruct (nm_phase_ st); reflexivity.
Qed.
Print Assumptions nelder_mead_reload_refuted.
Example case_reload : nm_reload (case_nm [case_point 0 1] None BuildUp) = Raise ValueError /\
  exists st, nm_init case_target [case_point 0 1] [("A", Fin 1)] [("A", Fin 0)] [("x", Fin 1)] None [] (phase_value BuildUp) = Ok st.
Proof. split; [reflexivity|]. eexists. reflexivity. Qed.


Local Open Scope list_scope.
(** ** C94 *)
(** Building up: while points are missing the next one is the first point plus
    the orthogonal direction in units of the span. *)
Theorem nelder_mead_build_up :
  forall ortho ls st f fs s u, placed ls (f :: fs) st -> length (nm_simplex st) <= length (nm_pos st) -> nm_span st = vec ls s ->
  ortho (map (fun g => map (fun l => Fin (g l - f l)%R) ls) (f :: fs)) = Ok (map (fun l => Fin (u l)) ls) ->
  snd (nm_suggest ortho st) = Ok (vec ls (fun l => f l + u l * s l)%R) /\ nm_phase_ (fst (nm_suggest ortho st)) = BuildUp.
Proof.
  intros ortho ls st f fs s u Hp Hl Hs Ho. unfold nm_suggest. unfold placed in Hp. rewrite Hp. cbn [map].
  rewrite (proj2 (Nat.ltb_lt _ _)) by lia.
  assert (Hd : map (fun p => map snd (ssub p (vec ls f))) (map (vec ls) (f :: fs)) = map (fun g => map (fun l => Fin (g l - f l)%R) ls) (f :: fs)).
  { rewrite map_map. apply map_ext. intros g. rewrite ssub_vec. unfold vec. rewrite map_map. reflexivity. }
  cbn [map] in Hd, Ho. rewrite Hd, Ho. cbn [fst snd]. split; [|reflexivity]. rewrite Hs. unfold array_times. unfold vec at 1. rewrite !map_length, Nat.eqb_refl.
  assert (Hc : map (fun q : num * (label * num) => (fst (snd q), nmul (fst q) (snd (snd q)))) (combine (map (fun l => Fin (u l)) ls) (vec ls s)) = vec ls (fun l => u l * s l)%R).
  { unfold vec. clear. induction ls as [|l ls IH]; cbn; [reflexivity|]. f_equal. exact IH. }
  rewrite Hc, sadd_vec. reflexivity.
Qed.
Print Assumptions nelder_mead_build_up.
Example case_build_up : snd (nm_suggest case_ortho (case_nm [case_point 4 1] None BuildUp)) = Ok [("A", Fin (4 + 1 * 1))].
Proof. apply (nelder_mead_build_up case_ortho ["A"] _ (fun _ => 4%R) [] (fun _ => 1%R) (fun _ => 1%R)); reflexivity || (cbn; lia). Qed.

(** An accepted update leaves the solver at the measured point. *)
Theorem nelder_mead_remembers :
  forall cost p v st, snd (nm_update cost p v st) = Ok tt ->
  let st' := fst (nm_update cost p v st) in
  nm_pos st' = reindex (index (nm_pos st)) p /\ nm_vals st' = reindex (index (nm_vals st)) v /\
  nm_target st' = nm_target st /\ nm_span st' = nm_span st.
Proof.
  intros cost p v st H. unfold nm_update in *.
  destruct (select (index (nm_pos st)) p) as [p'|] eqn:Ep; [|discriminate]. destruct (select (index (nm_vals st)) v) as [v'|] eqn:Ev; [|discriminate].
  destruct (nm_step cost p' v' st) as [st1 [[]|]] eqn:Es; [|discriminate]. apply step_effect in Es. destruct Es as [(E1 & E2 & _) _].
  cbn. rewrite (select_reindex _ _ _ Ep), (select_reindex _ _ _ Ev). auto.
Qed.
Print Assumptions nelder_mead_remembers.
Example case_remembers :
  nm_pos (fst (nm_update case_cost [("B", Fin 9); ("A", Fin 7)] [("x", Fin 5)] (case_nm [case_point 4 1] None BuildUp))) = [("A", Fin 7)].
Proof.
  assert (H : snd (nm_update case_cost [("B", Fin 9); ("A", Fin 7)] [("x", Fin 5)] (case_nm [case_point 4 1] None BuildUp)) = Ok tt) by reflexivity.
  rewrite (proj1 (nelder_mead_remembers _ _ _ _ H)). reflexivity.
Qed.

(** The decisions of a complete, sorted simplex. *)
Lemma insert_replaces_worst cost t l e w : ordered cost -> asc cost t (l ++ [w]) -> nltb (entry_cost cost t e) (entry_cost cost t w) = true ->
  Permutation (insert_into cost t (l ++ [w]) e) (e :: l).
Proof.
  intros Hc Ha Hlt. rewrite insert_into_place by assumption.
  assert (H : place cost t e (l ++ [w]) = place cost t e l ++ [w]).
  { clear Ha. induction l as [|x l IH]; cbn; [rewrite Hlt; reflexivity|].
    destruct (nltb (entry_cost cost t e) (entry_cost cost t x)); [reflexivity|]. rewrite IH. reflexivity. }
  rewrite H, removelast_last. clear. induction l as [|x l IH]; cbn; [auto|]. destruct (nltb (entry_cost cost t e) (entry_cost cost t x)); [auto|]. rewrite IH. apply perm_swap.
Qed.
Theorem nelder_mead_decides :
  forall cost p v st best mid rest second worst, ordered cost -> full st -> ascending (costs cost st) ->
  nm_simplex st = (best :: mid) ++ [worst] -> best :: mid = rest ++ [second] -> snd (nm_update cost p v st) = Ok tt ->
  let cost_of e := cost (deviation (nm_target st) (snd e)) in
  let new := (reindex (index (nm_pos st)) p, reindex (index (nm_vals st)) v) in
  let st' := fst (nm_update cost p v st) in
  let better a b := nltb (cost_of a) (cost_of b) = true in
  let keeps phase := nm_simplex st' = nm_simplex st /\ nm_phase_ st' = phase in
  let takes e phase := Permutation (nm_simplex st') (e :: best :: mid) /\ nm_phase_ st' = phase in
  (nm_phase_ st = Reflect ->
     nm_refl st' = Some new /\
     (better new best -> keeps Expand) /\
     (~ better new best -> better new second -> takes new Reflect) /\
     (~ better new second -> better new worst -> keeps ContractOutside) /\
     (~ better new worst -> keeps ContractInside)) /\
  (forall r, nm_refl st = Some r -> better r worst -> nm_phase_ st = Expand ->
     (better new r -> takes new Expand) /\ (~ better new r -> takes r Expand)) /\
  (forall r, nm_refl st = Some r -> better r worst -> nm_phase_ st = ContractOutside ->
     (better new r -> takes new ContractOutside) /\ (~ better new r -> keeps Shrink)) /\
  (nm_phase_ st = ContractInside ->
     (better new worst -> takes new ContractInside) /\ (~ better new worst -> keeps Shrink)).
Proof.
  intros cost p v st best mid rest second worst Hc Hf Ha Hsx Hom Hok cost_of new st' better keeps takes.
  assert (Hu : nm_update cost p v st = (st', Ok tt)) by (unfold st'; rewrite <- Hok; apply surjective_pairing).
  apply update_inv in Hu. destruct Hu as [[Hu _]|(p' & v' & st1 & -> & -> & Hst & _ & Hsx' & _ & Hr' & _ & Hph' & _)]; [discriminate|].
  fold new in Hst. unfold keeps, takes. rewrite Hsx', Hr', Hph'. clear Hsx' Hr' Hph' Hok keeps takes. clearbody st'. clear st'.
  assert (Hasc : asc cost (nm_target st) (nm_simplex st)) by (apply ascending_asc; assumption).
  assert (Hco : forall e, entry_cost cost (nm_target st) e = cost_of e) by reflexivity.
  assert (Hn : forall e, cost_of e <> NaN) by (intros e; apply Hc).
  assert (Hflip : forall a b, ~ better a b <-> nleb (cost_of b) (cost_of a) = true).
  { intros a b. unfold better. rewrite nltb_nleb by apply Hn. destruct (nleb (cost_of b) (cost_of a)); cbn; intuition congruence. }
  assert (Hnl : forall a b, ~ better a b <-> nltb (cost_of a) (cost_of b) = false) by (intros a b; unfold better; destruct (nltb _ _); intuition congruence).
  assert (Hlen : length (nm_simplex st) = S (length (best :: mid))) by (rewrite Hsx, app_length; cbn; lia).
  assert (Hsimp := Hf). unfold full in Hsimp. unfold nm_step in Hst.
  rewrite (proj2 (Nat.ltb_ge _ _)) in Hst by lia.
  set (cs := map (entry_cost cost (nm_target st)) (nm_simplex st)) in Hst.
  assert (Hcs : cs = map cost_of (best :: mid) ++ [cost_of worst]) by (unfold cs; rewrite Hsx, map_app; reflexivity).
  assert (Hcs0 : nth 0 cs NaN = cost_of best) by (rewrite Hcs; reflexivity).
  assert (Hcsl : last cs NaN = cost_of worst) by (rewrite Hcs; apply last_last).
  assert (Hcl : length cs = S (length (best :: mid))) by (unfold cs; rewrite map_length; exact Hlen).
  assert (Hcs2 : nth (length cs - 2) cs NaN = cost_of second).
  { rewrite Hcl, Hcs, Hom, map_app, app_length. cbn [length map]. rewrite <- app_assoc. rewrite app_nth2; rewrite map_length; [|lia].
    replace (S (length rest + 1) - 2 - length rest) with 0 by lia. reflexivity. }
  assert (Hcnew : nm_cost cost (nm_target st) (snd new) = cost_of new) by reflexivity.
  change (nm_cost cost (nm_target st) (reindex (index (nm_vals st)) v)) with (cost_of new) in Hst.
  rewrite Hcs0, Hcsl, Hcs2, Hcl in Hst.
  assert (Hins : forall e, nltb (cost_of e) (cost_of worst) = true -> Permutation (insert_into cost (nm_target st) (nm_simplex st) e) (e :: best :: mid)).
  { intros e He. rewrite Hsx in *. apply insert_replaces_worst; assumption. }
  assert (Hbs : nleb (cost_of best) (cost_of second) = true).
  { assert (Hx : In second (best :: mid)) by (rewrite Hom; apply in_or_app; right; left; reflexivity).
    destruct Hx as [->|Hx]; [apply nleb_refl, Hn|]. rewrite Hsx in Hasc. inversion Hasc as [|? ? H1 H2]; subst. apply H1. apply in_or_app. left. exact Hx. }
  assert (Hsw : nleb (cost_of second) (cost_of worst) = true).
  { rewrite Hsx in Hasc. apply (asc_app cost (nm_target st) (best :: mid) worst Hasc). rewrite Hom. apply in_or_app. right. left. reflexivity. }
  split; [|split; [|split]].
  - intros Hp. rewrite Hp in Hst. cbn [length Nat.ltb Nat.leb] in Hst.
    assert (Hrefl : nm_refl st1 = Some new).
    { destruct (nltb (cost_of new) (cost_of best)); [|destruct (nleb (cost_of second) (cost_of new)); [destruct (nltb (cost_of new) (cost_of worst))|]];
        inversion Hst; subst; reflexivity. }
    split; [exact Hrefl|]. split; [|split; [|split]].
    + intros H1. unfold better in H1. rewrite H1 in Hst. inversion Hst; subst. split; reflexivity.
    + intros H1 H2. apply Hnl in H1. rewrite H1 in Hst. unfold better in H2. assert (H2' := H2). rewrite nltb_nleb in H2' by apply Hn.
      apply negb_true_iff in H2'. rewrite H2' in Hst. inversion Hst; subst. cbn. split; [|reflexivity]. apply Hins.
      rewrite nltb_nleb by apply Hn. destruct (nleb (cost_of worst) (cost_of new)) eqn:E; [|reflexivity].
      rewrite (nleb_trans _ _ _ Hsw E) in H2'. discriminate.
    + intros H1 H2. apply Hflip in H1. assert (H3 := nleb_trans _ _ _ Hbs H1). apply Hflip, Hnl in H3. rewrite H3, H1, H2 in Hst.
      inversion Hst; subst. split; reflexivity.
    + intros H1. assert (H2 := H1). apply Hnl in H2. apply Hflip in H1. assert (H3 := nleb_trans _ _ _ Hsw H1). assert (H4 := nleb_trans _ _ _ Hbs H3).
      apply Hflip, Hnl in H4. rewrite H4, H3, H2 in Hst. inversion Hst; subst. split; reflexivity.
  - intros r Hr Hrw Hp. rewrite Hp, Hr in Hst. change (entry_cost cost (nm_target st) r) with (cost_of r) in Hst. split; intros H1.
    + unfold better in H1. rewrite H1 in Hst. inversion Hst; subst. cbn. split; [|exact Hp]. apply Hins.
      rewrite nltb_nleb by apply Hn. destruct (nleb (cost_of worst) (cost_of new)) eqn:E; [|reflexivity]. unfold better in Hrw.
      rewrite nltb_nleb in H1, Hrw by apply Hn. destruct (nleb (cost_of r) (cost_of new)) eqn:E1; [discriminate|].
      apply nleb_total in E1; try apply Hn. rewrite (nleb_trans _ _ _ E E1) in Hrw. discriminate.
    + apply Hnl in H1. rewrite H1 in Hst. inversion Hst; subst. cbn. split; [|exact Hp]. apply Hins. exact Hrw.
  - intros r Hr Hrw Hp. rewrite Hp, Hr in Hst. change (entry_cost cost (nm_target st) r) with (cost_of r) in Hst. split; intros H1.
    + unfold better in H1. rewrite H1 in Hst. inversion Hst; subst. cbn. split; [|exact Hp]. apply Hins.
      rewrite nltb_nleb by apply Hn. destruct (nleb (cost_of worst) (cost_of new)) eqn:E; [|reflexivity]. unfold better in Hrw.
      rewrite nltb_nleb in H1, Hrw by apply Hn. destruct (nleb (cost_of r) (cost_of new)) eqn:E1; [discriminate|].
      apply nleb_total in E1; try apply Hn. rewrite (nleb_trans _ _ _ E E1) in Hrw. discriminate.
    + apply Hnl in H1. rewrite H1 in Hst. inversion Hst; subst. split; reflexivity.
  - intros Hp. rewrite Hp in Hst. split; intros H1.
    + unfold better in H1. rewrite H1 in Hst. inversion Hst; subst. cbn. split; [|exact Hp]. apply Hins. exact H1.
    + apply Hnl in H1. rewrite H1 in Hst. inversion Hst; subst. split; reflexivity.
Qed.
Print Assumptions nelder_mead_decides.
(** Two points with costs 1 and 2, reflected point measured with cost 3/2: it is
    not better than the second worst point (which here is the best), but better
    than the worst. *)
Example case_decides :
  let st := case_nm [case_point 0 1; case_point 1 2] None Reflect in
  nm_phase_ (fst (nm_update case_cost [("A", Fin 2)] [("x", Fin (3 / 2))] st)) = ContractOutside.
Proof.
  intros st. assert (Hok : snd (nm_update case_cost [("A", Fin 2)] [("x", Fin (3 / 2))] st) = Ok tt).
  { cbn. rewrite (proj2 (Rltb_false (3 / 2 + - 0) (1 + - 0))) by lra. rewrite (proj2 (Rleb_true (1 + - 0) (3 / 2 + - 0))) by lra.
    rewrite (proj2 (Rltb_true (3 / 2 + - 0) (2 + - 0))) by lra. reflexivity. }
  destruct (nelder_mead_decides case_cost [("A", Fin 2)] [("x", Fin (3 / 2))] st (case_point 0 1) [] [] (case_point 0 1) (case_point 1 2)
             case_cost_ordered eq_refl) as [(_ & _ & _ & H & _) _]; try reflexivity; try exact Hok.
  - intros [|[|i]] [|[|j]] a b Hij; cbn; try lia; try (destruct j; discriminate). intros Hx Hy. inversion Hx; inversion Hy; subst. apply Rleb_true. lra.
  - apply H; cbn; [rewrite (proj2 (Rltb_false (3 / 2 + - 0) (1 + - 0))) by lra; discriminate|]. apply Rltb_true. lra.
Qed.
