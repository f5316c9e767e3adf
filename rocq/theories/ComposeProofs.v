From Verif Require Import PyBase TargetModel TunerModel TunerSpec SeriesLemmas TunerProofs SolverModel SensingDotProofs NewtonModel EstimatorModel NewtonSpec NewtonProofs EstimatorProofs GradientProps AutotunerModel ComposeModel KernelR ComposeSpec.
From Coq Require Import Lra ZArith.
Local Open Scope list_scope.

Local Arguments index : simpl never.
Local Arguments within_tolerance : simpl never.
Local Arguments any_na : simpl never.
Local Arguments vec : simpl never.
Local Arguments tab : simpl never.
Local Arguments rescale_values : simpl never.
Local Arguments goal : simpl never.
Local Arguments select : simpl never.

Lemma F2_impl {A B} (P Q : A -> B -> Prop) l l' : (forall a b, In a l -> P a b -> Q a b) -> Forall2 P l l' -> Forall2 Q l l'.
Proof. intros H H2. induction H2; constructor; [apply H; [left; reflexivity|assumption]|apply IHForall2; intros; apply H; [right|]; assumption]. Qed.
Lemma F2_right {A B} (P : A -> B -> Prop) (Q : B -> Prop) l l' : (forall a b, P a b -> Q b) -> Forall2 P l l' -> Forall Q l'.
Proof. intros H H2. induction H2; constructor; eauto. Qed.

Lemma cons_of {A} (l : list A) : l <> [] -> exists x r, l = x :: r.
Proof. destruct l; [congruence|eauto]. Qed.
Lemma F2_length {A B} (P : A -> B -> Prop) l l' : Forall2 P l l' -> length l = length l'.
Proof. intros H. induction H; cbn; congruence. Qed.

(** *** Targets *)
Section Goal.
Variables (ps : list label) (d tol f : label -> R).
Lemma goal_index : t_index (goal ps d tol f) = ps.
Proof. unfold t_index, goal. rewrite map_map. cbn. apply map_id. Qed.
Lemma goal_desired q : In q ps -> isna (get q (t_column Desired (goal ps d tol f))) = false.
Proof.
  intros H. unfold t_column, goal. rewrite map_map. cbn [t_name cell t_desired].
  change (map (fun x => (x, Fin (d x))) ps) with (vec ps d). rewrite vec_tab, get_tab by exact H. reflexivity.
Qed.
Lemma goal_all_desired : forallb (fun r => negb (isna (t_desired r))) (goal ps d tol f) = true.
Proof. apply forallb_forall. intros r Hr. apply in_map_iff in Hr. destruct Hr as [q [<- _]]. reflexivity. Qed.
Lemma relevant_goal : relevant (goal ps d tol f) = ps.
Proof.
  unfold relevant. rewrite <- goal_index at 2. unfold t_index. f_equal. set (cs := used_columns (goal ps d tol f)).
  assert (Hc : forall c, In c cs -> c = Desired \/ c = Tolerance \/ c = Rescale).
  { intros c Hc. apply filter_In in Hc. destruct Hc as [_ H]. destruct c; auto; exfalso; apply Bool.negb_true_iff in H;
      rewrite (proj2 (forallb_forall _ _)) in H; try discriminate; intros r Hr; apply in_map_iff in Hr; destruct Hr as [q [<- _]]; reflexivity. }
  clearbody cs. unfold goal. induction ps as [|q l IH]; [reflexivity|]. cbn [map filter].
  rewrite (proj2 (forallb_forall _ _)); [f_equal; exact IH|]. intros c Hin. destruct (Hc c Hin) as [->|[->| ->]]; reflexivity.
Qed.
Lemma goal_factor q : NoDup ps -> In q ps -> factor (goal ps d tol f) q = Fin (f q).
Proof.
  intros Hnd Hq. pose proof (factor_row (goal ps d tol f) (mk_trow q (Fin (d q)) NaN NaN (Fin (tol q)) NaN (Fin (f q)))) as H.
  cbn in H. apply H; [rewrite goal_index; exact Hnd|]. unfold goal. apply in_map_iff. exists q. auto.
Qed.
Definition reached (x : label -> R) : bool := forallb (fun q => Rltb (Rabs (d q - x q)) (tol q)) ps.
Lemma goal_within x : within_tolerance (goal ps d tol f) (vec ps x) = reached x.
Proof.
  unfold within_tolerance, reached, goal.
  assert (H : forall l, incl l ps ->
    forallb (fun r => nltb (fillna (Fin 0) (nabs (nsub (t_desired r) (get (t_name r) (vec ps x))))) (fillna PInf (t_tolerance r)))
      (map (fun q => mk_trow q (Fin (d q)) NaN NaN (Fin (tol q)) NaN (Fin (f q))) l) = forallb (fun q => Rltb (Rabs (d q - x q)) (tol q)) l).
  { induction l as [|q l IH]; intros Hl; [reflexivity|]. cbn [map forallb t_desired t_name t_tolerance]. f_equal; [|apply IH; intros z Hz; apply Hl; right; exact Hz].
    rewrite vec_tab, get_tab by (apply Hl; left; reflexivity). cbn. unfold Rminus. reflexivity. }
  apply H. apply incl_refl.
Qed.
Lemma reached_iff x : reached x = true <-> forall q, In q ps -> (Rabs (d q - x q) < tol q)%R.
Proof. unfold reached. rewrite forallb_forall. split; intros H q Hq; specialize (H q Hq); apply Rltb_true; exact H. Qed.
End Goal.

(** *** The solver *)
Section Solver.
Context {G : Type} (E : est_ops G) (lstsq : list series -> list num -> res (list num)).

Lemma update_map t pos (H H' : label -> G) x var : forall ps,
  (forall q, In q ps -> isna (get q (t_column Desired t)) = false) ->
  (forall q, In q ps -> eo_update E pos (Fin (x q)) (var q) (H q) = (H' q, Ok tt)) ->
  update_ests E t pos (map H ps) (vec ps x) (map var ps) = (map H' ps, Ok tt).
Proof.
  induction ps as [|q ps IH]; intros Hd Hu; [reflexivity|]. cbn [map]. change (vec (q :: ps) x) with ((q, Fin (x q)) :: vec ps x).
  cbn [update_ests]. rewrite Hd, Hu by (left; reflexivity). rewrite IH; [reflexivity| |]; intros z Hz; [apply Hd|apply Hu]; right; exact Hz.
Qed.
Lemma snd_tab ls (g : label -> num) : map snd (tab ls g) = map g ls.
Proof. unfold tab. rewrite map_map. reflexivity. Qed.
End Solver.

Lemma any_na_vec ls g : any_na (vec ls g) = false.
Proof. unfold any_na. induction ls as [|l ls IH]; [reflexivity|]. exact IH. Qed.
Lemma select_tab_in ls ms (g : label -> num) : ls <> [] -> incl ls ms -> select ls (tab ms g) = Ok (tab ls g).
Proof.
  intros Hne Hi. unfold select. destruct ls as [|l0 ls]; [contradiction|]. replace (existsb _ _) with true.
  - f_equal. rewrite reindex_tab. apply tab_ext. intros l Hl. apply get_tab. auto.
  - symmetry. apply existsb_exists. exists l0. split; [left; reflexivity|]. apply SeriesLemmas.mem_In. rewrite index_tab. apply Hi. left; reflexivity.
Qed.

Section Tuner.
Context {S : Type} (O : solver_ops S).
Variables (all ps ms : list label) (d tol f : label -> R).
Hypothesis Hps : NoDup ps.
Hypothesis Hps0 : ps <> [].
Hypothesis Hms : incl ps ms.
Hypothesis Hf : forall q, In q ps -> f q <> 0%R.

Lemma rescale_goal raw var :
  rescale_values (goal ps d tol f) (vec ps raw) (tab ps var) =
  (vec ps (fun q => raw q / f q)%R, tab ps (fun q => ndiv (var q) (Fin (f q * f q)))).
Proof.
  rewrite vec_tab, rescale_tab. f_equal; [rewrite vec_tab|]; apply tab_ext; intros q Hq; rewrite goal_factor by assumption; cbn.
  - rewrite (proj2 (Reqb_false _ _)) by auto. reflexivity.
  - reflexivity.
Qed.

(** One evaluation of a tuner without queued steps. *)
Definition evaluated (v : series) (p var : series) (b : bool) (t : tuner) : tuner :=
  let t1 := add_evaluatable v (with_failed false (with_params p var (with_last v t))) in
  if b then add_tuned v t1 else t1.

Lemma is_tuned_eq (ev : series -> series * res (series * series)) v raw var t s s' r tr :
  let p := vec ps (fun q => raw q / f q)%R in
  let w := tab ps (fun q => ndiv (var q) (Fin (f q * f q))) in
  so_target O s = goal ps d tol f -> so_target O s' = goal ps d tol f ->
  ev (vec all v) = (vec all v, Ok (vec ms raw, tab ms var)) ->
  t_queue t = 0%Z -> index (t_params t) = ps ->
  so_update O (vec all v) p w s = (s', r) ->
  exists tr',
    subset_is_tuned O ev (vec all v) (mk_tsys t s (vec all v) tr) =
    match r with
    | Ok _ => let b := reached ps d tol (fun q => raw q / f q)%R in (mk_tsys (evaluated (vec all v) p w b t) s' (vec all v) tr', Ok b)
    | Raise e => (mk_tsys (evaluated (vec all v) p w false t) s' (vec all v) tr', Raise e)
    end.
Proof.
  intros p w Ht Ht' He Hq Hp Hu.
  unfold subset_is_tuned, evaluate. unfold tbind, temit, tget, tput, tsolver, teval, tlift, ttarget, tret, traise; cbn.
  rewrite Hq; cbn. rewrite He; cbn. rewrite Ht, goal_index.
  rewrite (select_vec ps ms) by assumption. cbn. rewrite (select_tab_in ps ms) by assumption. cbn.
  rewrite Ht, rescale_goal. fold p w. cbn. rewrite Hp. unfold p at 1. rewrite (select_vec ps ps) by (assumption || apply incl_refl). fold p. cbn.
  unfold p at 1. rewrite index_vec. unfold w at 1. rewrite (select_tab_in ps ps) by (assumption || apply incl_refl). fold w. cbn.
  unfold p at 1. rewrite any_na_vec. cbn. rewrite Hu. destruct r as [[]|e]; cbn; [|eexists; reflexivity].
  rewrite Ht'. unfold p at 1. rewrite goal_within. destruct (reached ps d tol (fun q => raw q / f q)%R); cbn; eexists; reflexivity.
Qed.
End Tuner.

(** *** The finite difference estimators *)
Section FD.
Variable ortho : list (list num) -> res (list num).
Variable calc : list measurement -> res (list num * list (list num)).
Hypothesis Hortho : ortho_exact ortho.
Hypothesis Hcalc : calc_exact calc.
Variables (all gs : list label) (p0 eps : label -> R).
Hypothesis Hgs : NoDup gs.
Hypothesis Hgs0 : gs <> [].
Hypothesis Hall : incl gs all.

Definition fdst (pts : list reading) est cov req : fd := mk_fd (vec gs p0) (vec gs eps) est cov (taken gs pts) req false.

Lemma length_gs : 0 < length gs.
Proof. destruct gs; [contradiction|cbn; lia]. Qed.
Lemma length_taken pts : length (taken gs pts) = length pts.
Proof. apply map_length. Qed.
Lemma update_stores m pts req :
  fd_update calc (vec all (r_at m)) (Fin (r_val m)) (snd m) (fdst pts None None req) = fd_finish calc (fdst (pts ++ [m]) None None req).
Proof.
  unfold fd_update, fdst, fd_store. cbn [fd_pos fd_est fd_eps fd_cov fd_stored fd_requested fd_sym]. rewrite unknown_vec by exact Hgs0.
  rewrite !index_vec, intersection_incl, reindex_vec by assumption. rewrite (select_vec gs gs) by (exact Hgs0 || apply incl_refl).
  unfold taken. rewrite map_app. reflexivity.
Qed.
Lemma update_more m pts req : length pts < length gs ->
  fd_update calc (vec all (r_at m)) (Fin (r_val m)) (snd m) (fdst pts None None req) = (fdst (pts ++ [m]) None None req, Ok tt).
Proof.
  intros Hl. rewrite update_stores. unfold fd_finish, fdst. cbn [fd_pos fd_stored fd_sym]. rewrite length_vec, length_taken, app_length.
  cbn [length]. destruct (Nat.eqb_spec (length pts + 1) (length gs + 1)); [lia|reflexivity].
Qed.
Lemma update_last m pts req : length pts = length gs ->
  fd_update calc (vec all (r_at m)) (Fin (r_val m)) (snd m) (fdst pts None None req) =
  match calc (taken gs (rev (pts ++ [m]))) with
  | Ok (g, c) => (fdst (pts ++ [m]) (Some (combine gs g)) (Some c) req, Ok tt)
  | Raise e => (fdst (pts ++ [m]) None None req, Raise e)
  end.
Proof.
  intros Hl. rewrite update_stores. unfold fd_finish, fdst. cbn [fd_pos fd_eps fd_stored fd_sym fd_requested fd_est fd_cov].
  rewrite length_vec, length_taken, app_length. cbn [length]. rewrite Hl, Nat.eqb_refl, index_vec.
  unfold taken. rewrite map_rev. destruct (calc _) as [[g c]|e]; reflexivity.
Qed.
Lemma update_done m pts g c req :
  fd_update calc (vec all (r_at m)) (Fin (r_val m)) (snd m) (fdst pts (Some g) c req) = (fdst pts (Some g) c req, Ok tt).
Proof. unfold fd_update, fdst. cbn [fd_pos fd_est]. rewrite unknown_vec by exact Hgs0. reflexivity. Qed.
Lemma update_first m known : (forall l, In l gs -> r_at m l = p0 l) ->
  fd_update calc (vec all (r_at m)) (Fin (r_val m)) (snd m) (new_fd gs p0 eps known) = (fdst [m] None None [], Ok tt).
Proof.
  intros Hm. destruct known.
  - change (new_fd gs p0 eps true) with (fdst [] None None []). apply (update_more m [] []). apply length_gs.
  - unfold fd_update, new_fd, fdst. cbn [fd_pos fd_eps fd_est fd_cov fd_stored fd_requested fd_sym].
    replace (unknown (tab gs (fun _ => NaN))) with true
      by (clear; unfold unknown, tab; induction gs; cbn in *; auto).
    rewrite !index_tab, intersection_incl, ?index_vec, reindex_vec by (rewrite ?index_vec; assumption).
    rewrite vec_tab, assign_tab by (assumption || apply incl_refl).
    replace (tab gs (fun l => if mem l gs then Fin (r_at m l) else NaN)) with (vec gs p0)
      by (rewrite vec_tab; apply tab_ext; intros l Hl; rewrite (proj2 (SeriesLemmas.mem_In l gs) Hl), Hm by exact Hl; reflexivity).
    rewrite index_vec, <- vec_tab, (select_vec gs gs) by (exact Hgs0 || apply incl_refl). reflexivity.
Qed.

Lemma update_first_given m known g : (forall l, In l gs -> r_at m l = p0 l) ->
  exists pts req, fd_update calc (vec all (r_at m)) (Fin (r_val m)) (snd m) (given_fd gs p0 eps known g) = (fdst pts (Some (vec gs g)) None req, Ok tt).
Proof.
  intros Hm. destruct known.
  - exists [], []. apply (update_done m [] (vec gs g) None []).
  - exists [m], []. unfold fd_update, given_fd, fdst. cbn [fd_pos fd_eps fd_est fd_cov fd_stored fd_requested fd_sym].
    replace (unknown (tab gs (fun _ => NaN))) with true
      by (clear; unfold unknown, tab; induction gs; cbn in *; auto).
    rewrite !index_tab, intersection_incl, ?index_vec, reindex_vec by (rewrite ?index_vec; assumption).
    rewrite vec_tab, assign_tab by (assumption || apply incl_refl).
    replace (tab gs (fun l => if mem l gs then Fin (r_at m l) else NaN)) with (vec gs p0)
      by (rewrite vec_tab; apply tab_ext; intros l Hl; rewrite (proj2 (SeriesLemmas.mem_In l gs) Hl), Hm by exact Hl; reflexivity).
    rewrite index_vec, <- vec_tab, (select_vec gs gs) by (exact Hgs0 || apply incl_refl). reflexivity.
Qed.

Lemma taken_points pts : taken gs pts = at_points gs (map (fun m => (r_at m, Fin (r_val m), snd m)) pts).
Proof. unfold taken, at_points. rewrite map_map. reflexivity. Qed.

Lemma require_more tj m0 ms req : S (length ms) <= length gs ->
  exists u, nonzero gs u /\ orthogonal gs u (steps_from m0 ms) /\
    let pt := vec gs (fun l => p0 l + u l * eps l)%R in
    fd_require ortho gs tj (fdst (m0 :: ms) None None req) = (fdst (m0 :: ms) None None (req ++ [pt]), Ok (Some pt)).
Proof.
  intros Hl. set (us := match ms with [] => [fun _ => 0%R] | _ => steps_from m0 ms end).
  assert (Hus : us <> []) by (unfold us, steps_from; destruct ms; discriminate).
  assert (Hsome : exists u, nonzero gs u /\ orthogonal gs u us).
  { destruct ms as [|m1 ms]; unfold us.
    - exists (fun _ => 1%R). split.
      + destruct gs as [|g0 gs']; [contradiction|]. exists g0. split; [left; reflexivity|exact R1_neq_R0].
      + intros v [<-|[]]. rewrite dot_comm. apply dot_zero_l. reflexivity.
    - destruct (orthogonal_exists String.string_dec gs (steps_from m0 (m1 :: ms)) Hgs) as [u [H1 H2]].
      + unfold steps_from. rewrite map_length. exact Hl.
      + exists u. split; [exact H1|exact H2]. }
  destruct (proj1 (Hortho gs us Hgs Hgs0 Hus) Hsome) as [u [Hu [Hu1 Hu2]]]. exists u. split; [exact Hu1|]. split.
  { unfold us in Hu2. destruct ms; [intros v []|exact Hu2]. }
  cbn zeta.
  destruct (fd_requests ortho gs tj gs p0 eps None req false (map (fun m => (r_at m, Fin (r_val m), snd m)) (m0 :: ms)) Hgs0 (incl_refl _) Hgs) as [_ [_ [H _]]].
  rewrite <- taken_points in H. change (mk_fd (vec gs p0) (vec gs eps) None None (taken gs (m0 :: ms)) req false) with (fdst (m0 :: ms) None None req) in H.
  specialize (H u ltac:(discriminate) ltac:(discriminate)). rewrite map_length in H. specialize (H (fun _ => Hl)).
  assert (Ho : ortho match map (fun m : reading => (r_at m, Fin (r_val m), snd m)) (m0 :: ms) with
               | [] => [] | [_] => [array gs (fun _ => 0%R)]
               | m1 :: (_ :: _) as ms' => map (fun m => array gs (fun l => (place m l - place m1 l)%R)) ms' end = Ok (array gs u)).
  { rewrite <- Hu. f_equal. unfold us, steps_from. destruct ms as [|m1 ms]; [reflexivity|]. cbn [map]. f_equal. rewrite !map_map. reflexivity. }
  specialize (H Ho). clear Ho.
  unfold fd_require in *. change (unknown (fd_pos (fdst (m0 :: ms) None None req))) with (unknown (vec gs p0)) in *. rewrite unknown_vec in * by exact Hgs0.
  change (fd_est (fdst (m0 :: ms) None None req)) with (@None series) in *. cbv iota in *.
  destruct (fd_point ortho gs (fdst (m0 :: ms) None None req)) as [pt|e]; cbn [snd] in H; [|discriminate]. inversion H; subst. reflexivity.
Qed.
Lemma require_done tj pts g c req : fd_require ortho gs tj (fdst pts (Some g) c req) = (fdst pts (Some g) c req, Ok None).
Proof. unfold fd_require, fdst. cbn [fd_pos fd_est]. rewrite unknown_vec by exact Hgs0. reflexivity. Qed.

(** All points lie in one hyperplane with the normal [u]. *)
Definition level (u : label -> R) (pts : list reading) : Prop :=
  forall m m', In m pts -> In m' pts -> dot gs u (r_at m) = dot gs u (r_at m').
Lemma level_steps u m0 ms : orthogonal gs u (steps_from m0 ms) <-> level u (m0 :: ms).
Proof.
  unfold orthogonal, steps_from, level. split.
  - intros H. assert (K : forall m, In m (m0 :: ms) -> dot gs u (r_at m) = dot gs u (r_at m0)).
    { intros m [<-|Hm]; [reflexivity|]. specialize (H _ (in_map (fun m l => (r_at m l - r_at m0 l)%R) _ _ Hm)). cbn beta in H.
      rewrite dot_sub_r in H. lra. }
    intros m m' Hm Hm'. rewrite (K m Hm), (K m' Hm'). reflexivity.
  - intros H v Hv. apply in_map_iff in Hv. destruct Hv as [m [<- Hm]]. rewrite dot_sub_r, (H m m0) by (cbn; auto). lra.
Qed.
Lemma level_rev u pts : level u (rev pts) <-> level u pts.
Proof.
  unfold level. split; intros H m m' Hm Hm'; apply H; first [apply -> in_rev; assumption|apply <- in_rev; assumption].
Qed.

Lemma calc_points pts : length pts = S (length gs) ->
  ((forall u, level u pts -> ~ nonzero gs u) ->
     exists g c, calc (taken gs (rev pts)) = Ok (array gs g, c) /\
       forall m m', In m pts -> In m' pts -> dot gs g (fun l => r_at m l - r_at m' l)%R = (r_val m - r_val m')%R) /\
  ((exists u, nonzero gs u /\ level u pts) -> calc (taken gs (rev pts)) = Raise EvaluationError).
Proof.
  intros Hl. rewrite <- (rev_length pts) in Hl. assert (Hin : forall m, In m pts <-> In m (rev pts)) by (intros; apply in_rev).
  assert (Hlev : forall u, level u pts <-> level u (rev pts)) by (intros; symmetry; apply level_rev).
  revert Hin Hlev. destruct (rev pts) as [|m0 ms]; [discriminate|]. intros Hin Hlev. cbn in Hl. injection Hl as Hl.
  destruct (Hcalc gs m0 ms Hgs Hgs0 Hl) as [H1 H2]. split.
  - intros Hu. destruct H1 as [g [c [Hc Hg]]]; [intros u Hou; apply Hu, Hlev, level_steps, Hou|]. exists g, c. split; [exact Hc|].
    assert (K : forall m, In m (m0 :: ms) -> (dot gs g (r_at m) - dot gs g (r_at m0) = r_val m - r_val m0)%R).
    { intros m [<-|Hm]; [lra|]. rewrite <- dot_sub_r. apply Hg, Hm. }
    intros m m' Hm Hm'. rewrite dot_sub_r. pose proof (K m (proj1 (Hin m) Hm)). pose proof (K m' (proj1 (Hin m') Hm')). lra.
  - intros [u [Hu1 Hu2]]. apply H2. exists u. split; [exact Hu1|]. apply level_steps, Hlev, Hu2.
Qed.
End FD.

(** *** Iterations of the Autotuner *)
Definition label_dec : forall a b : label, {a = b} + {a <> b} := String.string_dec.

Lemma set_nth_at {A} (j : nat) (x y : A) L R : length L = j -> set_nth j y (L ++ x :: R) = L ++ y :: R.
Proof. intros <-. induction L as [|z L IH]; cbn; [reflexivity|]. rewrite IH. reflexivity. Qed.
Lemma nth_error_at {A} (j : nat) (x : A) L R : length L = j -> nth_error (L ++ x :: R) j = Some x.
Proof. intros <-. induction L as [|z L IH]; cbn; [reflexivity|exact IH]. Qed.
Lemma on_part_at {S A} (j : nat) (f : part S -> @TM S series A) L x R g : length L = j ->
  on_part j f (mk_world g (L ++ x :: R)) =
  let (s, r) := f x (mk_tsys (p_tuner x) (p_solver x) g []) in
  (mk_world (ts_x s) (L ++ mk_part (ts_t s) (ts_s s) (p_limits x) (p_gates x) :: R), r).
Proof.
  intros H. unfold on_part. cbn [w_parts w_gates]. rewrite nth_error_at by exact H. destruct (f x _) as [s r]. rewrite set_nth_at by exact H. reflexivity.
Qed.

Section Iterate.
Context {S : Type} (O : solver_ops S).
Variable s_gates : S -> list label.
Variable s_newton : S -> option (list (option (list label))).
Variable results : nat -> series -> res (series * series).
Variable n : nat.
Let E := hierarchy O s_gates s_newton results n.

Definition coherent (all : list label) (p : part S) : Prop :=
  match t_last (p_tuner p) with Some v => incl (index v) all | None => True end /\
  incl (s_gates (p_solver p)) all /\
  match s_newton (p_solver p) with
  | None => True
  | Some ests => forall e, In e ests -> exists pos, e = Some pos /\ incl pos all /\ incl (p_gates p) pos
  end.

Lemma estimators_ok all tg ests : (forall e, In e ests -> exists pos, e = Some pos /\ incl pos all /\ incl tg pos) ->
  estimators_coherent all (Some tg) ests true = Ok true.
Proof.
  induction ests as [|e ests IH]; intros H; [reflexivity|]. destruct (H e (or_introl eq_refl)) as [pos [-> [H1 H2]]]. cbn.
  rewrite (proj2 (SeriesLemmas.subset_incl _ _) H1), (proj2 (SeriesLemmas.subset_incl _ _) H2). cbn. apply IH. intros z Hz. apply H. right; exact Hz.
Qed.
Lemma views_ok all parts : (forall p, In p parts -> coherent all p) -> views_coherent all (map (view s_gates s_newton) parts) true = Ok true.
Proof.
  induction parts as [|p parts IH]; intros H; [reflexivity|]. destruct (H p (or_introl eq_refl)) as [H1 [H2 H3]].
  change (map (view s_gates s_newton) (p :: parts)) with
    (mk_view (match t_last (p_tuner p) with Some v => Some (index v) | None => None end) (s_gates (p_solver p)) (s_newton (p_solver p)) (Some (p_gates p)) :: map (view s_gates s_newton) parts).
  cbn [views_coherent tv_last tv_gates tv_newton tv_subset].
  assert (Hl : match match t_last (p_tuner p) with Some v => Some (index v) | None => None end with Some l => true && subset l all | None => true end = true).
  { destruct (t_last (p_tuner p)); [|reflexivity]. cbn. apply SeriesLemmas.subset_incl. exact H1. }
  rewrite Hl, (proj2 (SeriesLemmas.subset_incl _ _) H2). cbn [andb].
  assert (IH' : views_coherent all (map (view s_gates s_newton) parts) true = Ok true) by (apply IH; intros z Hz; apply H; right; exact Hz).
  destruct (s_newton (p_solver p)); [|exact IH']. rewrite estimators_ok by exact H3. exact IH'.
Qed.

Definition fits (all : list label) (w : world S) : Prop := index (w_gates w) = all /\ forall p, In p (w_parts w) -> coherent all p.

Lemma ready_ok all a w tr : fits all w -> match a_to_set a with Some v => incl (index v) all | None => True end ->
  exists tr', ready_to_tune E (mk_sys a w tr) = (mk_sys a w tr', Ok true).
Proof.
  intros [Hi Hc] Hs. unfold ready_to_tune, bind, call, get_at, get_w, lift, raise, E. cbn. rewrite Hi. eexists.
  destruct (a_to_set a) as [v|].
  - rewrite (proj2 (SeriesLemmas.subset_incl _ _) Hs). rewrite views_ok by exact Hc. reflexivity.
  - rewrite views_ok by exact Hc. reflexivity.
Qed.

Lemma save_ok a w tr : exists tr', save_current_status E (mk_sys a w tr) = (mk_sys a w tr', Ok tt).
Proof. unfold save_current_status, bind, get_at, ret, call, E. cbn. destruct (a_path a); cbn; eauto. Qed.

Lemma iterate_action all a w tr (m : M unit) a' w' :
  fits all w -> match a_to_set a with Some v => incl (index v) all | None => True end -> a_index a <> n ->
  m = match a_to_set a with Some v => do_set E v | None => if a_status a then do_next E else do_eval E end ->
  (forall tr0, exists tr', m (mk_sys a w tr0) = (mk_sys a' w' tr', Ok tt)) ->
  exists tr', iterate E (mk_sys a w tr) = (mk_sys a' w' tr', Ok tt).
Proof.
  intros Hf Hs Hi -> Hm. unfold iterate, bind. destruct (ready_ok all a w tr Hf Hs) as [tr1 ->]. cbn.
  unfold is_tuning_complete. change (e_n E) with n. rewrite (proj2 (Nat.eqb_neq _ _) Hi).
  destruct (Hm tr1) as [tr2 ->]. apply save_ok.
Qed.
Lemma iterate_raises all a w tr (m : M unit) a' w' e :
  fits all w -> match a_to_set a with Some v => incl (index v) all | None => True end -> a_index a <> n ->
  m = match a_to_set a with Some v => do_set E v | None => if a_status a then do_next E else do_eval E end ->
  (forall tr0, exists tr', m (mk_sys a w tr0) = (mk_sys a' w' tr', Raise e)) ->
  exists tr', iterate E (mk_sys a w tr) = (mk_sys a' w' tr', Raise e).
Proof.
  intros Hf Hs Hi -> Hm. unfold iterate, bind. destruct (ready_ok all a w tr Hf Hs) as [tr1 ->]. cbn.
  unfold is_tuning_complete. change (e_n E) with n. rewrite (proj2 (Nat.eqb_neq _ _) Hi).
  destruct (Hm tr1) as [tr2 ->]. eauto.
Qed.

Lemma iterate_eval all i path w tr w' b :
  fits all w -> i <> n -> e_is_tuned E i (w_gates w) w = (w', Ok b) -> (b = false -> log_dist O i w' = Ok tt) ->
  exists tr', iterate E (mk_sys (mk_at i false None path) w tr) = (mk_sys (mk_at (if b then Datatypes.S i else i) (negb b) None path) w' tr', Ok tt).
Proof.
  intros Hf Hi He Hl. apply (iterate_action all _ w tr (do_eval E)); [exact Hf|exact I|exact Hi|reflexivity|]. intros tr0.
  unfold do_eval, bind, get_at, call, put_at, get_w, lift.
  change (e_read E w) with (w, Ok (w_gates w)). cbn [s_at s_w s_tr a_index a_status a_to_set a_path].
  change (e_read E) with (fun w : world S => (w, Ok (w_gates w))). cbv beta iota. cbn [s_at s_w s_tr]. rewrite He.
  destruct b; cbn; [eauto|]. change (e_log_dist E) with (log_dist O). rewrite Hl by reflexivity. eauto.
Qed.
Lemma iterate_eval_raises all i path w tr w' e :
  fits all w -> i <> n -> e_is_tuned E i (w_gates w) w = (w', Raise e) ->
  exists tr', iterate E (mk_sys (mk_at i false None path) w tr) = (mk_sys (mk_at i false None path) w' tr', Raise e).
Proof.
  intros Hf Hi He. apply (iterate_raises all _ w tr (do_eval E)); [exact Hf|exact I|exact Hi|reflexivity|]. intros tr0.
  unfold do_eval, bind, get_at, call, put_at, get_w, lift.
  change (e_read E) with (fun w : world S => (w, Ok (w_gates w))). cbv beta iota. cbn [s_at s_w s_tr a_index]. rewrite He. eauto.
Qed.
Lemma iterate_next all i path w tr w' v :
  fits all w -> i <> n -> e_next E i (tuned_parameters E (mk_at i true None path) w) w = (w', Ok v) ->
  exists tr', iterate E (mk_sys (mk_at i true None path) w tr) = (mk_sys (mk_at i false (Some v) path) w' tr', Ok tt).
Proof.
  intros Hf Hi He. apply (iterate_action all _ w tr (do_next E)); [exact Hf|exact I|exact Hi|reflexivity|]. intros tr0.
  unfold do_next, bind, get_at, call, put_at, get_w. cbn [s_at s_w s_tr a_index]. rewrite He. cbn. eauto.
Qed.
Lemma iterate_set all i st path w tr v g :
  fits all w -> i <> n -> incl (index v) all -> any_na v = false -> log_step v w = Ok tt -> assign (w_gates w) v = Ok g ->
  exists tr', iterate E (mk_sys (mk_at i st (Some v) path) w tr) = (mk_sys (mk_at 0 st None path) (mk_world g (w_parts w)) tr', Ok tt).
Proof.
  intros Hf Hi Hv Hn Hl Ha. apply (iterate_action all _ w tr (do_set E v)); [exact Hf|exact Hv|exact Hi|reflexivity|]. intros tr0.
  unfold do_set, bind, get_at, call, put_at, get_w, lift. rewrite Hn. cbn [s_at s_w s_tr].
  change (e_log_step E) with (@log_step S). rewrite Hl. 
  change (e_set E v w) with (match assign (w_gates w) v with Ok g => (mk_world g (w_parts w), Ok tt) | Raise e => (w, Raise e) end). rewrite Ha. cbn. eauto.
Qed.
End Iterate.

Lemma iterates_app {W} (E : env W) m k : forall s s', iterates E m s = (s', Ok tt) -> iterates E (m + k) s = iterates E k s'.
Proof.
  induction m as [|m IH]; intros s s' H; cbn in *; [inversion H; reflexivity|].
  destruct (iterate E s) as [s1 [u|e]]; [|discriminate]. apply IH, H.
Qed.
Lemma iterates_one {W} (E : env W) s s' : iterate E s = (s', Ok tt) -> iterates E 1 s = (s', Ok tt).
Proof. intros H. cbn. rewrite H. reflexivity. Qed.

Lemma iterates_raise {W} (E : env W) s s' e : iterate E s = (s', Raise e) -> iterates E 1 s = (s', Raise e).
Proof. intros H. cbn. rewrite H. reflexivity. Qed.

(** *** One NewtonSolver *)
Section Newton.
Variable ortho : list (list num) -> res (list num).
Variable calc : list measurement -> res (list num * list (list num)).
Variable lstsq : list series -> list num -> res (list num).
Hypothesis Hortho : ortho_exact ortho.
Hypothesis Hcalc : calc_exact calc.
Hypothesis Hlstsq : lstsq_exact lstsq.
Let F := fd_ops ortho calc.
Let O := nw_ops F lstsq.

Lemma update_forall (P' : label -> fd -> Prop) t pos x var : forall ps ests,
  (forall q, In q ps -> isna (get q (t_column Desired t)) = false) ->
  Forall2 (fun q g => exists g', fd_update calc pos (Fin (x q)) (var q) g = (g', Ok tt) /\ P' q g') ps ests ->
  exists ests', update_ests F t pos ests (vec ps x) (map var ps) = (ests', Ok tt) /\ Forall2 P' ps ests'.
Proof.
  intros ps ests Hd Hu. induction Hu as [|q g ps ests [g' [Hg Hp]] Hu IH]; [exists []; split; [reflexivity|constructor]|].
  change (vec (q :: ps) x) with ((q, Fin (x q)) :: vec ps x). cbn [map update_ests]. rewrite Hd by (left; reflexivity).
  change (eo_update F) with (fd_update calc). rewrite Hg. destruct IH as [ests' [-> Hf]]; [intros z Hz; apply Hd; right; exact Hz|].
  exists (g' :: ests'). split; [reflexivity|]. constructor; assumption.
Qed.

Variables (all gs ps : list label) (d tol f : label -> R).
Hypothesis Hgs : NoDup gs.
Hypothesis Hgs0 : gs <> [].
Hypothesis Hall : incl gs all.
Hypothesis Hps0 : ps <> [].

Lemma nw_update_forall (P' : label -> fd -> Prop) v x var pos vals ests :
  index pos = gs -> index vals = ps ->
  Forall2 (fun q g => exists g', fd_update calc (vec all v) (Fin (x q)) (var q) g = (g', Ok tt) /\ P' q g') ps ests ->
  exists ests', so_update O (vec all v) (vec ps x) (tab ps var) (mk_newton (goal ps d tol f) ests pos vals) =
     (mk_newton (goal ps d tol f) ests' (vec gs v) (vec ps x), Ok tt) /\ Forall2 P' ps ests'.
Proof.
  intros Hpos Hvals Hu. destruct (update_forall P' (goal ps d tol f) (vec all v) x var ps ests) as [ests' [He Hf]]; [intros; apply goal_desired; assumption|exact Hu|].
  exists ests'. split; [|exact Hf]. change (so_update O) with (nw_update F). unfold nw_update. cbn [nw_vals nw_target nw_ests nw_pos].
  rewrite Hvals, (select_vec ps ps) by (exact Hps0 || apply incl_refl). rewrite snd_tab, He, Hpos.
  rewrite (select_vec gs all) by assumption. reflexivity.
Qed.

Lemma nw_update_raises q0 ps' v x var pos vals g g' ests e : ps = q0 :: ps' -> index vals = ps ->
  fd_update calc (vec all v) (Fin (x q0)) (var q0) g = (g', Raise e) ->
  exists s', so_update O (vec all v) (vec ps x) (tab ps var) (mk_newton (goal ps d tol f) (g :: ests) pos vals) = (s', Raise e) /\ so_target O s' = goal ps d tol f.
Proof.
  intros Hp Hvals Hu. change (so_update O) with (nw_update F). unfold nw_update. cbn [nw_vals nw_target nw_ests nw_pos].
  rewrite Hvals, (select_vec ps ps) by (exact Hps0 || apply incl_refl). rewrite snd_tab.
  assert (He : update_ests F (goal ps d tol f) (vec all v) (g :: ests) (vec ps x) (map var ps) = (g' :: ests, Raise e)).
  { pose proof (goal_desired ps d tol f q0) as Hd. rewrite Hp at 2 3. change (vec (q0 :: ps') x) with ((q0, Fin (x q0)) :: vec ps' x). cbn [map update_ests].
    rewrite Hd by (rewrite Hp; left; reflexivity). change (eo_update F) with (fd_update calc). rewrite Hu. reflexivity. }
  rewrite He. eexists. split; reflexivity.
Qed.

Lemma untuned_jacobian tuned st : nw_target st = goal ps d tol f -> (forall q, In q ps -> ~ In q tuned) -> tuned_jacobian F tuned st = Ok None.
Proof.
  intros Ht Hq. unfold tuned_jacobian, tuned_gradients. rewrite Ht.
  replace (flat_map _ _) with (@nil (option series)); [reflexivity|]. symmetry.
  assert (H : forall l, incl l ps -> forall gs', flat_map (fun q : trow * fd => if mem (t_name (fst q)) tuned then [eo_estimate F (snd q)] else []) (combine (goal l d tol f) gs') = []).
  { induction l as [|q l IH]; intros Hl [|g gs']; try reflexivity. change (goal (q :: l) d tol f) with (mk_trow q (Fin (d q)) NaN NaN (Fin (tol q)) NaN (Fin (f q)) :: goal l d tol f).
    cbn [combine flat_map fst snd t_name]. rewrite (proj2 (SeriesLemmas.mem_false q tuned)) by (apply Hq, Hl; left; reflexivity). cbn [app]. apply IH.
    intros z Hz. apply Hl. right; exact Hz. }
  apply H, incl_refl.
Qed.

(** The first estimator asks. *)
Lemma suggest_ask tuned q0 ps' g g' ests pos vals h :
  ps = q0 :: ps' -> length ests = length ps' -> index pos = gs -> (forall q, In q ps -> ~ In q tuned) ->
  fd_require ortho gs None g = (g', Ok (Some (vec gs h))) ->
  so_suggest O tuned (mk_newton (goal ps d tol f) (g :: ests) pos vals) = (mk_newton (goal ps d tol f) (g' :: ests) pos vals, Ok (vec gs h)).
Proof.
  intros Hp Hl Hpos Ht Hr. change (so_suggest O) with (nw_suggest F lstsq). unfold nw_suggest. rewrite untuned_jacobian by (reflexivity || exact Ht).
  cbn [nw_pos nw_target nw_ests nw_vals]. rewrite Hpos. rewrite Hp at 1.
  change (goal (q0 :: ps') d tol f) with (mk_trow q0 (Fin (d q0)) NaN NaN (Fin (tol q0)) NaN (Fin (f q0)) :: goal ps' d tol f).
  cbn [combine ask t_desired isna]. change (eo_require F) with (fd_require ortho). rewrite Hr.
  assert (Hgl : length (goal ps' d tol f) = length ests) by (unfold goal; rewrite map_length; auto).
  destruct (vec gs h) as [|a s] eqn:Hv.
  - exfalso. apply Hgs0. rewrite <- (index_vec gs h), Hv. reflexivity.
  - rewrite map_snd_combine by exact Hgl. reflexivity.
Qed.

(** All gradients are known. *)
Lemma ask_none : forall ps' ests, Forall2 (fun _ g => fd_require ortho gs None g = (g, Ok None)) ps' ests ->
  ask F gs None (combine (goal ps' d tol f) ests) = (ests, Ok None).
Proof.
  intros ps' ests H. induction H as [|q g ps' ests Hg H IH]; [reflexivity|].
  change (goal (q :: ps') d tol f) with (mk_trow q (Fin (d q)) NaN NaN (Fin (tol q)) NaN (Fin (f q)) :: goal ps' d tol f).
  cbn [combine ask t_desired isna]. change (eo_require F) with (fd_require ortho). rewrite Hg, IH. reflexivity.
Qed.

Lemma stack_vec (a : label -> label -> R) l : l <> [] ->
  stack gs (map (fun q => Some (vec gs (a q))) l) = Ok (map (vec gs) (map a l)).
Proof.
  intros Hl. unfold stack.
  replace (flat_map _ _) with (map (fun q => vec gs (a q)) l) by (clear; induction l as [|q l IH]; cbn; [reflexivity|f_equal; exact IH]).
  destruct l as [|q l]; [contradiction|]. cbn [map].
  replace (forallb _ gs) with true.
  - f_equal. rewrite map_map. cbn [map]. f_equal; [apply reindex_vec, incl_refl|]. rewrite map_map. apply map_ext. intros z. apply reindex_vec, incl_refl.
  - symmetry. apply forallb_forall. intros z Hz. cbn [existsb]. rewrite index_vec, (proj2 (SeriesLemmas.mem_In z gs) Hz). reflexivity.
Qed.
Lemma add_array_vec v x : add_array (vec gs v) (array gs x) = vec gs (fun l => v l + x l)%R.
Proof. unfold add_array, array. change (vec gs v) with (map (fun l => (l, Fin (v l))) gs). rewrite combine_maps, map_map. reflexivity. Qed.
Lemma diff_goal x (ests : list fd) pos : required_diff (mk_newton (goal ps d tol f) ests pos (vec ps x)) = map Fin (map (fun q => (d q - x q)%R) ps).
Proof.
  unfold required_diff. cbn [nw_target nw_vals]. unfold goal. rewrite !map_map. apply map_ext_in. intros q Hq. cbn [t_desired t_name].
  rewrite vec_tab, get_tab by exact Hq. reflexivity.
Qed.

Lemma suggest_solution (a : label -> label -> R) ests v x h :
  lstsq (map (vec gs) (map a ps)) (map Fin (map (fun q => (d q - x q)%R) ps)) = Ok (array gs h) ->
  Forall2 (fun q g => fd_require ortho gs None g = (g, Ok None) /\ fd_est g = Some (vec gs (a q))) ps ests ->
  forall tuned, (forall q, In q ps -> ~ In q tuned) -> so_suggest O tuned (mk_newton (goal ps d tol f) ests (vec gs v) (vec ps x)) =
      (mk_newton (goal ps d tol f) ests (vec gs v) (vec ps x), Ok (vec gs (fun l => v l + h l)%R)).
Proof.
  intros Hh1 He tuned Ht. change (so_suggest O) with (nw_suggest F lstsq). unfold nw_suggest. rewrite untuned_jacobian by (reflexivity || exact Ht).
  cbn [nw_pos nw_target nw_ests nw_vals]. rewrite index_vec, ask_none.
  2:{ clear -He. induction He as [|q g l ests [H1 H2] He IH]; constructor; auto. }
  unfold newton_step. cbn [nw_pos nw_target nw_ests]. rewrite index_vec, diff_goal.
  replace (map (eo_estimate F) ests) with (map (fun q => Some (vec gs (a q))) ps).
  - rewrite stack_vec by exact Hps0. replace (length (map (vec gs) (map a ps))) with (length (goal ps d tol f)) by (unfold goal; rewrite !map_length; reflexivity).
    rewrite Nat.eqb_refl, Hh1, add_array_vec. reflexivity.
  - clear -He. induction He as [|q g l ests [H1 H2] He IH]; cbn [map]; [reflexivity|]. rewrite IH. f_equal. symmetry. exact H2.
Qed.
Lemma suggest_newton (a : label -> label -> R) ests v x :
  independent gs (map a ps) ->
  Forall2 (fun q g => fd_require ortho gs None g = (g, Ok None) /\ fd_est g = Some (vec gs (a q))) ps ests ->
  exists h, (forall tuned, (forall q, In q ps -> ~ In q tuned) -> so_suggest O tuned (mk_newton (goal ps d tol f) ests (vec gs v) (vec ps x)) =
      (mk_newton (goal ps d tol f) ests (vec gs v) (vec ps x), Ok (vec gs (fun l => v l + h l)%R))) /\
    forall q, In q ps -> dot gs (a q) h = (d q - x q)%R.
Proof.
  intros Hi He. destruct (Hlstsq gs (map a ps) (map (fun q => (d q - x q)%R) ps) Hgs Hgs0) as [h [Hh1 Hh2]]; [destruct ps; [contradiction|discriminate]|rewrite !map_length; reflexivity|exact Hi|].
  exists h. split; [exact (suggest_solution a ests v x h Hh1 He)|].
  intros q Hq. clear -Hh2 Hq. induction ps as [|q' l IH]; [destruct Hq|]. inversion Hh2; subst. destruct Hq as [<-|Hq]; auto.
Qed.
End Newton.

(** *** Progress of the Autotuner *)
(** At most [m] iterations lead to a state in [P], or to an EvaluationError in
    a state in [bad]. *)
Definition reach {W} (E : env W) (bad : sys W -> Prop) (m : nat) (s : sys W) (P : sys W -> Prop) : Prop :=
  exists m' s', m' <= m /\ ((iterates E m' s = (s', Ok tt) /\ P s') \/ (iterates E m' s = (s', Raise EvaluationError) /\ bad s')).
Lemma reach_ok {W} (E : env W) bad m s s' (P : sys W -> Prop) : iterates E m s = (s', Ok tt) -> P s' -> reach E bad m s P.
Proof. intros H1 H2. exists m, s'. auto. Qed.
Lemma reach_here {W} (E : env W) bad m s (P : sys W -> Prop) : P s -> reach E bad m s P.
Proof. intros H. exists 0, s. split; [lia|]. left. split; [reflexivity|exact H]. Qed.
Lemma reach_bind {W} (E : env W) bad m k s (P Q : sys W -> Prop) : reach E bad m s P -> (forall s', P s' -> reach E bad k s' Q) -> reach E bad (m + k) s Q.
Proof.
  intros [m' [s' [Hm [[Hi Hp]|[Hi Hb]]]]] Hk.
  - destruct (Hk s' Hp) as [k' [s2 [Hk' H]]]. exists (m' + k'), s2. split; [lia|]. rewrite (iterates_app E m' k' s s' Hi). exact H.
  - exists m', s'. split; [lia|]. auto.
Qed.
Lemma reach_mono {W} (E : env W) bad m k s (P Q : sys W -> Prop) : m <= k -> (forall s', P s' -> Q s') -> reach E bad m s P -> reach E bad k s Q.
Proof. intros Hm Hp [m' [s' [H1 [[H2 H3]|H2]]]]; exists m', s'; (split; [lia|]); auto. Qed.
Lemma reach_after {W} (E : env W) bad m k s s' (Q : sys W -> Prop) : iterates E m s = (s', Ok tt) -> reach E bad k s' Q -> reach E bad (m + k) s Q.
Proof. intros H Hk. apply (reach_bind E bad m k s (eq s')); [apply (reach_ok E bad m s s' _ H eq_refl)|]. intros x <-. exact Hk. Qed.

Lemma select_self ls (v : label -> R) : exists x, select ls (vec ls v) = Ok x.
Proof.
  unfold select. destruct ls as [|l ls]; [eexists; reflexivity|]. rewrite index_vec. cbn [existsb].
  rewrite (proj2 (SeriesLemmas.mem_In l (l :: ls)) (or_introl eq_refl)). eexists. reflexivity.
Qed.

(** *** One tuner of a hierarchy *)
Section Loop.
Variable ortho : list (list num) -> res (list num).
Variable calc : list measurement -> res (list num * list (list num)).
Variable lstsq : list series -> list num -> res (list num).
Hypothesis Hortho : ortho_exact ortho.
Hypothesis Hcalc : calc_exact calc.
Hypothesis Hlstsq : lstsq_exact lstsq.
Variables (all gs ps ms tg : list label) (d tol f : label -> R) (eps : label -> label -> R).
Hypothesis Hallnd : NoDup all.
Hypothesis Hgs : NoDup gs.
Hypothesis Hgs0 : gs <> [].
Hypothesis Hall : incl gs all.
Hypothesis Htg : incl tg gs.
Hypothesis Hps : NoDup ps.
Hypothesis Hps0 : ps <> [].
Hypothesis Hms : incl ps ms.
Hypothesis Hf : forall q, In q ps -> f q <> 0%R.
Hypothesis Htol : forall q, In q ps -> (0 < tol q)%R.
Hypothesis Heps : forall q l, In q ps -> In l gs -> (0 < eps q l)%R.
Variables (c : label -> R) (a : label -> label -> R) (var : (label -> R) -> label -> num).
Variable results : nat -> series -> res (series * series).
Variable i : nat.
Hypothesis Hres : forall v, results i (vec all v) = Ok (vec ms (fun q => affine all (c q) (a q) v), tab ms (var v)).
Hypothesis Hind : independent gs (map a ps).
Variables (p0 : label -> R) (lim : limits) (rest : list (part (newton fd))) (path : option string).
Let F := fd_ops ortho calc.
Let O := nw_ops F lstsq.
Let sg := fun s : newton fd => index (nw_pos s).
Let sn := fun s : newton fd => Some (map (fun g => Some (index (fd_pos g))) (nw_ests s)).
Hypothesis Hrest : forall p, In p rest -> coherent sg sn all p.
Variable n : nat.
Hypothesis Hn : i <> n.
Let E := newton_hierarchy ortho calc lstsq results n.
(** The tuners below: what is known of them at voltages at which all of them
    are tuned. *)
Variable low : (label -> R) -> list (part (newton fd)) -> Prop.
Hypothesis Hlow_len : forall v L, low v L -> length L = i.
Hypothesis Hlow_coh : forall v L, low v L -> forall p, In p L -> coherent sg sn all p.
Hypothesis Hlow_log : forall v p L, low v (p :: L) -> t_last (p_tuner p) = Some (vec all v).
Hypothesis Hlow_names : forall v L, low v L -> forall p q, In p L -> In q ps -> ~ In q (relevant (nw_target (p_solver p))).
Variable bad : sys (world (newton fd)) -> Prop.

Let par (v : label -> R) (q : label) : R := (affine all (c q) (a q) v / f q)%R.
Let rvar (v : label -> R) (q : label) : num := ndiv (var v q) (Fin (f q * f q)).
Let rd (q : label) (v : label -> R) : reading := (v, par v q, rvar v q).
Let good (t : tuner) (v : label -> R) : Prop :=
  t_last t = Some (vec all v) /\ t_params t = vec ps (par v) /\ t_failed t = false /\ t_queue t = 0%Z.
Let own (t : tuner) (s : newton fd) : part (newton fd) := mk_part t s lim tg.
Let W (L : list (part (newton fd))) (v : label -> R) (t : tuner) (s : newton fd) : world (newton fd) := mk_world (vec all v) (L ++ own t s :: rest).
Let at_ (j : nat) (b : bool) (w : world (newton fd)) (tr : list event) := mk_sys (mk_at j b None path) w tr.
(** Evaluating the tuners below after a change of the gates of this one. *)
Hypothesis Hclimb : forall v v' L p tr, low v L -> (forall l, In l all -> ~ In l gs -> v' l = v l) -> coherent sg sn all p ->
  reach E bad i (at_ 0 false (mk_world (vec all v') (L ++ p :: rest)) tr)
    (fun s => exists L' tr', low v' L' /\ s = at_ i false (mk_world (vec all v') (L' ++ p :: rest)) tr').

(** Voltages that differ from the start on the gates of the tuner only. *)
Let near (v : label -> R) : Prop := forall l, In l all -> ~ In l gs -> v l = p0 l.

Lemma own_coherent t s : match t_last t with Some v => incl (index v) all | None => True end -> incl (index (nw_pos s)) all ->
  Forall (fun g => index (fd_pos g) = gs) (nw_ests s) -> coherent sg sn all (own t s).
Proof.
  intros Ht Hs Hg. split; [exact Ht|]. split; [exact Hs|].
  intros e He. apply in_map_iff in He. destruct He as [g [<- Hin]]. rewrite Forall_forall in Hg. rewrite (Hg g Hin). exists gs. auto.
Qed.
Lemma fits_W v0 L v p : low v0 L -> coherent sg sn all p -> fits sg sn all (mk_world (vec all v) (L ++ p :: rest)).
Proof.
  intros Hl Hp. split; [apply index_vec|]. intros x Hx. apply in_app_or in Hx. destruct Hx as [Hx|[<-|Hx]]; [|exact Hp|apply Hrest; exact Hx].
  apply (Hlow_coh v0 L Hl x Hx).
Qed.

Lemma is_tuned_W v0 L v t s s' : low v0 L -> t_queue t = 0%Z -> index (t_params t) = ps -> so_target O s = goal ps d tol f -> so_target O s' = goal ps d tol f ->
  forall r, so_update O (vec all v) (vec ps (par v)) (tab ps (rvar v)) s = (s', r) ->
  let b := match r with Ok _ => reached ps d tol (par v) | Raise _ => false end in
  exists t', e_is_tuned E i (vec all v) (W L v t s) = (W L v t' s', match r with Ok _ => Ok b | Raise e => Raise e end) /\ good t' v.
Proof.
  intros Hlow Hq Hp Ht Ht' r Hu b.
  destruct (is_tuned_eq O all ps ms d tol f Hps Hps0 Hms Hf (fun x => (x, results i x)) v (fun q => affine all (c q) (a q) v) (var v) t s s' r [] Ht Ht') as [tr' He].
  { rewrite Hres. reflexivity. } { exact Hq. } { exact Hp. } { exact Hu. }
  exists (evaluated (vec all v) (vec ps (par v)) (tab ps (rvar v)) b t). split.
  - unfold E, newton_hierarchy, hierarchy. cbn [e_is_tuned]. fold F. fold O. unfold W. rewrite (on_part_at i _ L) by (exact (Hlow_len v0 L Hlow)).
    cbn [own p_tuner p_solver p_limits p_gates]. rewrite He. destruct r as [[]|e]; reflexivity.
  - destruct b; repeat split; cbn; exact Hq.
Qed.

Lemma log_dist_W v0 L v t s : low v0 L -> good t v -> so_target O s = goal ps d tol f -> log_dist O i (W L v t s) = Ok tt.
Proof.
  intros Hlow [_ [Hp _]] Ht. unfold log_dist, W. cbn [w_parts]. rewrite nth_error_at by (exact (Hlow_len v0 L Hlow)). cbn [own p_solver p_tuner]. rewrite Ht, goal_all_desired, goal_index, Hp.
  rewrite (select_vec ps ps) by (exact Hps0 || apply incl_refl). reflexivity.
Qed.

(** Evaluate. *)
Lemma do_eval_W v0 L v t s s' tr : low v0 L -> t_queue t = 0%Z -> index (t_params t) = ps -> so_target O s = goal ps d tol f -> so_target O s' = goal ps d tol f ->
  match t_last t with Some v => incl (index v) all | None => True end -> incl (index (nw_pos s)) all -> Forall (fun g => index (fd_pos g) = gs) (nw_ests s) ->
  so_update O (vec all v) (vec ps (par v)) (tab ps (rvar v)) s = (s', Ok tt) ->
  exists t' tr', let b := reached ps d tol (par v) in
    iterate E (at_ i false (W L v t s) tr) = (at_ (if b then S i else i) (negb b) (W L v t' s') tr', Ok tt) /\ good t' v.
Proof.
  intros Hlow Hq Hp Ht Ht' Hl Hpos Hest Hu. destruct (is_tuned_W v0 L v t s s' Hlow Hq Hp Ht Ht' _ Hu) as [t' [He Hg]].
  destruct (iterate_eval O sg sn results n all i path (W L v t s) tr (W L v t' s') (reached ps d tol (par v))) as [tr' Hi].
  - apply (fits_W v0); [exact Hlow|]. apply own_coherent; assumption.
  - exact Hn.
  - exact He.
  - intros _. apply (log_dist_W v0); assumption.
  - exists t', tr'. split; [exact Hi|exact Hg].
Qed.
(** An evaluation that the solver does not survive. *)
Lemma do_eval_raises_W v0 L v t s s' tr e : low v0 L -> t_queue t = 0%Z -> index (t_params t) = ps -> so_target O s = goal ps d tol f -> so_target O s' = goal ps d tol f ->
  match t_last t with Some v => incl (index v) all | None => True end -> incl (index (nw_pos s)) all -> Forall (fun g => index (fd_pos g) = gs) (nw_ests s) ->
  so_update O (vec all v) (vec ps (par v)) (tab ps (rvar v)) s = (s', Raise e) ->
  exists t' tr', iterate E (at_ i false (W L v t s) tr) = (at_ i false (W L v t' s') tr', Raise e).
Proof.
  intros Hlow Hq Hp Ht Ht' Hl Hpos Hest Hu. destruct (is_tuned_W v0 L v t s s' Hlow Hq Hp Ht Ht' _ Hu) as [t' [He Hg]].
  destruct (iterate_eval_raises O sg sn results n all i path (W L v t s) tr (W L v t' s') e) as [tr' Hi].
  - apply (fits_W v0); [exact Hlow|]. apply own_coherent; assumption.
  - exact Hn.
  - exact He.
  - exists t', tr'. exact Hi.
Qed.

Lemma tuned_W L v t s b : low v L -> forall q, In q ps -> ~ In q (tuned_parameters E (mk_at i b None path) (W L v t s)).
Proof.
  intros Hlow q Hq Hin. unfold tuned_parameters in Hin. apply in_flat_map in Hin. destruct Hin as [j [Hj Hin]]. apply in_seq in Hj. cbn [a_index] in Hj.
  rewrite <- (Hlow_len v L Hlow) in Hj. unfold E, newton_hierarchy, hierarchy in Hin. cbn [e_target] in Hin. unfold W in Hin. cbn [w_parts] in Hin.
  rewrite nth_error_app1 in Hin by lia. destruct (nth_error L j) as [p|] eqn:Hp.
  - apply nth_error_In in Hp. exact (Hlow_names v L Hlow p q Hp Hq Hin).
  - apply nth_error_None in Hp. lia.
Qed.

(** Compute the next voltages and set them. *)
Lemma next_set_any L v t t' s s' v' tr : low v L -> t_last t = Some (vec all v) -> t_last t' = Some (vec all v) ->
  incl (index (nw_pos s)) all -> Forall (fun g => index (fd_pos g) = gs) (nw_ests s) ->
  incl (index (nw_pos s')) all -> Forall (fun g => index (fd_pos g) = gs) (nw_ests s') ->
  (forall tuned, (forall q, In q ps -> ~ In q tuned) ->
     exists ev, subset_next O lim tuned (mk_tsys t s (vec all v) []) = (mk_tsys t' s' (vec all v) ev, Ok (vec all v'))) ->
  exists tr', iterates E 2 (at_ i true (W L v t s) tr) = (at_ 0 false (W L v' t' s') tr', Ok tt).
Proof.
  intros Hlow Hl Hl' Hpos Hest Hpos' Hest' Hs.
  assert (Hinc : match t_last t with Some v => incl (index v) all | None => True end) by (rewrite Hl, index_vec; apply incl_refl).
  assert (Hinc' : match t_last t' with Some v => incl (index v) all | None => True end) by (rewrite Hl', index_vec; apply incl_refl).
  assert (Hfit : fits sg sn all (W L v t s)) by (apply (fits_W v L v); [exact Hlow|apply own_coherent; assumption]).
  assert (Hfit' : fits sg sn all (W L v t' s')) by (apply (fits_W v L v); [exact Hlow|apply own_coherent; assumption]).
  destruct (iterate_next O sg sn results n all i path (W L v t s) tr (W L v t' s') (vec all v') Hfit Hn) as [tr1 H1].
  { pose proof (tuned_W L v t s true Hlow) as Htun.
    change (tuned_parameters (hierarchy O sg sn results n)) with (tuned_parameters E). set (tuned := tuned_parameters E _ _) in *. clearbody tuned.
    unfold hierarchy. cbn [e_next]. unfold W. rewrite (on_part_at i _ L) by (exact (Hlow_len v L Hlow)). cbn [own p_tuner p_solver p_limits p_gates].
    destruct (Hs tuned Htun) as [ev ->]. reflexivity. }
  destruct (iterate_set O sg sn results n all i false path (W L v t' s') tr1 (vec all v') (vec all v') Hfit' Hn) as [tr2 H2].
  - rewrite index_vec. apply incl_refl.
  - apply any_na_vec.
  - unfold log_step, W. cbn [w_parts].
    assert (Hfirst : exists p X, L ++ own t' s' :: rest = p :: X /\ t_last (p_tuner p) = Some (vec all v)).
    { destruct L as [|p L']; [exists (own t' s'), rest; split; [reflexivity|exact Hl']|]. exists p, (L' ++ own t' s' :: rest). split; [reflexivity|]. apply (Hlow_log v p L' Hlow). }
    destruct Hfirst as [p [X [-> ->]]]. rewrite index_vec. destruct (select_self all v) as [x ->]. reflexivity.
  - cbn [w_gates W]. rewrite assign_vec by (assumption || apply incl_refl). f_equal. apply vec_ext. intros l Hin.
    rewrite (proj2 (SeriesLemmas.mem_In l all) Hin). reflexivity.
  - exists tr2. cbn [iterates]. unfold E, newton_hierarchy, at_. fold F O sg sn. rewrite H1, H2. reflexivity.
Qed.
(** Steps that are not limited. *)
Lemma next_set_W L v t s s' h tr : l_size lim = NaN -> low v L -> good t v -> incl (index (nw_pos s)) all -> Forall (fun g => index (fd_pos g) = gs) (nw_ests s) ->
  incl (index (nw_pos s')) all -> Forall (fun g => index (fd_pos g) = gs) (nw_ests s') ->
  (forall tuned, (forall q, In q ps -> ~ In q tuned) -> so_suggest O tuned s = (s', Ok (vec gs h))) ->
  let v' l := (v l + step_to gs h v l)%R in
  exists tr', iterates E 2 (at_ i true (W L v t s) tr) = (at_ 0 false (W L v' t s') tr', Ok tt).
Proof.
  intros Hsize Hlow [Hl [Hp [Hfa Hq]]] Hpos Hest Hpos' Hest' Hs v'. apply next_set_any; try assumption.
  intros tuned Htun. eexists. rewrite (next_unlimited O lim tuned _ s' all v gs h); try assumption; try reflexivity. apply Hs, Htun.
Qed.

Let grad (q : label) (l : label) : R := (a q l / f q)%R.
Definition learning (hist : list (label -> R)) (q : label) (g : fd) : Prop :=
  exists req, g = fdst gs p0 (eps q) (map (rd q) (p0 :: rev hist)) None None req.
Definition learnt (q : label) (g : fd) : Prop :=
  exists pts cov req, g = fdst gs p0 (eps q) pts (Some (vec gs (grad q))) cov req.
Let apart (hist : list (label -> R)) : Prop := independent gs (map (fun v l => v l - p0 l)%R hist).

Lemma affine_diff q x y : In q ps -> near x -> near y -> (par x q - par y q = dot gs (grad q) (fun l => x l - y l))%R.
Proof.
  intros Hq Hx Hy. unfold par, affine. replace ((c q + dot all (a q) x) / f q - (c q + dot all (a q) y) / f q)%R with (/ f q * (dot all (a q) x - dot all (a q) y))%R by (field; auto).
  rewrite <- dot_sub_r. rewrite (dot_restrict label_dec gs all) by (try assumption; intros l H1 H2; rewrite (Hx l H1 H2), (Hy l H1 H2); lra).
  rewrite !(dot_comm gs _ (fun l => x l - y l)%R), <- dot_scale_r. apply dot_ext; intros; [reflexivity|]. unfold grad, Rdiv. lra.
Qed.

Lemma learn_gradient q hist v req : In q ps -> S (length hist) = length gs -> apart (v :: hist) -> (forall x, In x (p0 :: v :: hist) -> near x) ->
  exists g', fd_update calc (vec all v) (Fin (par v q)) (rvar v q) (fdst gs p0 (eps q) (map (rd q) (p0 :: rev hist)) None None req) = (g', Ok tt) /\ learnt q g'.
Proof.
  intros Hq Hl Hap Hnear. set (pts := map (rd q) (p0 :: rev hist)).
  assert (Hpts : length pts = length gs) by (unfold pts; rewrite map_length; cbn; rewrite rev_length; lia).
  pose proof (update_last calc all gs p0 (eps q) Hgs0 Hall (rd q v) pts req Hpts) as Hu.
  assert (Hin : forall x, In x (p0 :: v :: hist) <-> In (rd q x) (pts ++ [rd q v]) /\ In x (p0 :: v :: hist)).
  { intros x. split; [|tauto]. intros H. split; [|exact H]. apply in_or_app. unfold pts. destruct H as [<-|[<-|H]].
    - left. left. reflexivity.
    - right. left. reflexivity.
    - left. right. apply in_map. apply -> in_rev. exact H. }
  assert (Hspan : forall u, level gs u (pts ++ [rd q v]) -> forall l, In l gs -> u l = 0%R).
  { intros u Hlev. apply (independent_spans gs (map (fun v l => (v l - p0 l)%R) (v :: hist)) u Hap); [rewrite map_length; cbn; exact Hl|].
    intros w Hw. apply in_map_iff in Hw. destruct Hw as [x [<- Hx]]. rewrite dot_sub_r.
    pose proof (Hlev (rd q x) (rd q p0) (proj1 (proj1 (Hin x) (or_intror Hx))) (proj1 (proj1 (Hin p0) (or_introl eq_refl)))) as K. cbn in K. lra. }
  destruct (calc_points calc Hcalc gs Hgs Hgs0 (pts ++ [rd q v])) as [H1 _]; [rewrite app_length, Hpts; cbn [length]; lia|].
  destruct H1 as [g [cov [Hc Hg]]].
  { intros u Hlev [l [Hl1 Hl2]]. apply Hl2, (Hspan u Hlev l Hl1). }
  assert (Heq : forall l, In l gs -> g l = grad q l).
  { intros l Hin'. cut ((fun l => g l - grad q l)%R l = 0%R); [cbn; lra|]. apply Hspan; [|exact Hin']. intros m m' Hm Hm'.
    assert (Hrd : forall m, In m (pts ++ [rd q v]) -> exists x, m = rd q x /\ In x (p0 :: v :: hist)).
    { intros z Hz. apply in_app_or in Hz. destruct Hz as [Hz|[<-|[]]]; [|exists v; cbn; auto]. unfold pts in Hz. apply in_map_iff in Hz.
      destruct Hz as [x [<- Hx]]. exists x. split; [reflexivity|]. destruct Hx as [<-|Hx]; [left; reflexivity|]. right; right. apply in_rev. exact Hx. }
    pose proof (Hg m m' Hm Hm') as K. destruct (Hrd m Hm) as [x [-> Hx]]. destruct (Hrd m' Hm') as [y [-> Hy]].
    cbn [rd r_at r_val fst snd] in *. rewrite (affine_diff q x y Hq (Hnear x Hx) (Hnear y Hy)) in K. rewrite !dot_sub_r in K. rewrite !dot_sub_l. lra. }
  rewrite Hc in Hu. cbn [rd r_at r_val fst snd] in Hu. rewrite Hu. eexists. split; [reflexivity|]. exists (pts ++ [rd q v]), (Some cov), req.
  f_equal. f_equal. transitivity (vec gs g); [|apply vec_ext; exact Heq]. unfold array, vec. clear. induction gs as [|l ls IH]; cbn; [reflexivity|f_equal; exact IH].
Qed.

Lemma learn_more q hist v req : S (length hist) < length gs ->
  exists g', fd_update calc (vec all v) (Fin (par v q)) (rvar v q) (fdst gs p0 (eps q) (map (rd q) (p0 :: rev hist)) None None req) = (g', Ok tt) /\ learning (v :: hist) q g'.
Proof.
  intros Hl. eexists. split.
  - apply (update_more calc all gs p0 (eps q) Hgs0 Hall (rd q v)). rewrite map_length. cbn. rewrite rev_length. exact Hl.
  - exists req. f_equal. cbn [rev map]. rewrite map_app. reflexivity.
Qed.

Let solver (ests : list fd) (v : label -> R) : newton fd := mk_newton (goal ps d tol f) ests (vec gs v) (vec ps (par v)).

Lemma learning_pos hist ests : Forall2 (learning hist) ps ests -> Forall (fun g => index (fd_pos g) = gs) ests.
Proof. apply F2_right. intros q g [req ->]. apply index_vec. Qed.
Lemma learnt_pos ests : Forall2 learnt ps ests -> Forall (fun g => index (fd_pos g) = gs) ests.
Proof. apply F2_right. intros q g [pts [cov [req ->]]]. apply index_vec. Qed.
Lemma learnt_ready ests : Forall2 learnt ps ests -> Forall2 (fun q g => fd_require ortho gs None g = (g, Ok None) /\ fd_est g = Some (vec gs (grad q))) ps ests.
Proof. apply F2_impl. intros q g _ [pts [cov [req ->]]]. split; [apply require_done; exact Hgs0|reflexivity]. Qed.

Lemma reached_exact v : (forall q, In q ps -> par v q = d q) -> reached ps d tol (par v) = true.
Proof. intros H. apply reached_iff. intros q Hq. rewrite (H q Hq). replace (d q - d q)%R with 0%R by lra. rewrite Rabs_R0. auto. Qed.

Lemma near_step v h : near v -> near (fun l => v l + step_to gs h v l)%R.
Proof. intros Hv l H1 H2. unfold step_to. rewrite (proj2 (SeriesLemmas.mem_false l gs) H2). rewrite (Hv l H1 H2). lra. Qed.
Lemma step_on v h l : In l gs -> (v l + step_to gs h v l = h l)%R.
Proof. intros H. unfold step_to. rewrite (proj2 (SeriesLemmas.mem_In l gs) H). lra. Qed.

(** Voltages set, the tuners below are evaluated again, then this one. *)
Definition after (v' : label -> R) (P : list (part (newton fd)) -> tuner -> list fd -> Prop) (s : sys (world (newton fd))) : Prop :=
  exists L' t' ests' tr', let b := reached ps d tol (par v') in
    s = at_ (if b then S i else i) (negb b) (W L' v' t' (solver ests' v')) tr' /\ low v' L' /\ good t' v' /\ P L' t' ests'.

Lemma round L v t ests ests1 h tr (P' : label -> fd -> Prop) : l_size lim = NaN -> low v L -> good t v ->
  Forall (fun g => index (fd_pos g) = gs) ests -> Forall (fun g => index (fd_pos g) = gs) ests1 ->
  (forall tuned, (forall q, In q ps -> ~ In q tuned) -> so_suggest O tuned (solver ests v) = (solver ests1 v, Ok (vec gs h))) ->
  let v' l := (v l + step_to gs h v l)%R in
  Forall2 (fun q g => exists g', fd_update calc (vec all v') (Fin (par v' q)) (rvar v' q) g = (g', Ok tt) /\ P' q g') ps ests1 ->
  reach E bad (i + 3) (at_ i true (W L v t (solver ests v)) tr) (after v' (fun _ _ ests' => Forall2 P' ps ests')).
Proof.
  intros Hsize Hlow Hg Hest Hest1 Hs v' Hup.
  assert (Hpos : forall y x, incl (index (nw_pos (solver y x))) all) by (intros y x; cbn [solver nw_pos]; rewrite index_vec; exact Hall).
  destruct (next_set_W L v t (solver ests v) (solver ests1 v) h tr Hsize Hlow Hg (Hpos ests v) Hest (Hpos ests1 v) Hest1 Hs) as [tr1 H1]. fold v' in H1.
  replace (i + 3) with (2 + (i + 1)) by lia. eapply reach_after; [exact H1|].
  destruct Hg as [G1 [G2 [G3 G4]]].
  assert (Hinc : match t_last t with Some v => incl (index v) all | None => True end) by (rewrite G1, index_vec; apply incl_refl).
  eapply reach_bind.
  { apply (Hclimb v v' L (own t (solver ests1 v)) tr1 Hlow); [|apply own_coherent; [exact Hinc|apply Hpos|exact Hest1]].
    intros l _ Hin. unfold v', step_to. rewrite (proj2 (SeriesLemmas.mem_false l gs) Hin). lra. }
  intros s' [L' [tr2 [Hlow' ->]]].
  destruct (nw_update_forall ortho calc lstsq all gs ps d tol f Hgs0 Hall Hps0 P' v' (par v') (rvar v') (vec gs v) (vec ps (par v)) ests1) as [ests' [Hu Hl2]].
  { apply index_vec. } { apply index_vec. } { exact Hup. }
  destruct (do_eval_W v' L' v' t (solver ests1 v) (solver ests' v') tr2 Hlow' G4) as [t' [tr3 [H2 Hg']]]; try reflexivity.
  { rewrite G2. apply index_vec. } { exact Hinc. } { apply Hpos. } { exact Hest1. } { exact Hu. }
  eapply reach_ok; [apply iterates_one; exact H2|]. exists L', t', ests', tr3. auto.
Qed.

(** The Newton step. *)
Lemma newton_round L v t ests tr : l_size lim = NaN -> low v L -> good t v -> near v -> Forall2 learnt ps ests ->
  exists v', near v' /\ (forall q, In q ps -> par v' q = d q) /\
  reach E bad (i + 3) (at_ i true (W L v t (solver ests v)) tr) (after v' (fun _ _ ests' => Forall2 learnt ps ests')).
Proof.
  intros Hsize Hlow Hg Hnv Hl.
  destruct (suggest_newton ortho calc lstsq Hlstsq gs ps d tol f Hgs Hgs0 Hps0 grad ests v (par v)) as [h [Hs Hh]].
  { apply independent_scale; assumption. } { apply learnt_ready. exact Hl. }
  set (v' := (fun l => v l + step_to gs (fun l => v l + h l) v l)%R). exists v'.
  assert (Hnv' : near v') by (apply near_step; exact Hnv). split; [exact Hnv'|]. split.
  - intros q Hq. pose proof (affine_diff q v' v Hq Hnv' Hnv) as K. rewrite (dot_ext gs _ (grad q) _ h) in K by (intros; try reflexivity; unfold v'; rewrite step_on by assumption; lra).
    rewrite (Hh q Hq) in K. lra.
  - apply (round L v t ests ests (fun l => v l + h l)%R tr learnt Hsize Hlow Hg (learnt_pos _ Hl) (learnt_pos _ Hl) Hs).
    revert Hl. apply F2_impl. intros q g _ [pts [cov [req ->]]]. eexists. split.
    + apply (update_done calc all gs p0 (eps q) Hgs0 (rd q v')).
    + exists pts, cov, req. reflexivity.
Qed.

(** One step of the finite differences phase. *)
Lemma learning_round hist L v t ests tr : l_size lim = NaN -> S (length hist) <= length gs -> low v L -> good t v -> near v -> (forall x, In x hist -> near x) -> apart hist ->
  Forall2 (learning hist) ps ests ->
  exists v', near v' /\ apart (v' :: hist) /\
  reach E bad (i + 3) (at_ i true (W L v t (solver ests v)) tr) (after v' (fun _ _ ests' =>
    (S (length hist) < length gs -> Forall2 (learning (v' :: hist)) ps ests') /\ (S (length hist) = length gs -> Forall2 learnt ps ests'))).
Proof.
  intros Hsize Hlen Hlow Hg Hnv Hnh Hap Hl.
  destruct (cons_of ps Hps0) as [q0 [ps' Hpseq]].
  destruct ests as [|g0 ests0]; [rewrite Hpseq in Hl; inversion Hl|].
  assert (Hl0 : learning hist q0 g0 /\ Forall2 (learning hist) ps' ests0) by (rewrite Hpseq in Hl; inversion Hl; auto). destruct Hl0 as [[req0 Hg0] Hl0].
  assert (Hq0 : In q0 ps) by (rewrite Hpseq; left; reflexivity).
  destruct (require_more ortho Hortho all gs p0 (eps q0) Hgs Hgs0 Hall None (rd q0 p0) (map (rd q0) (rev hist)) req0) as [u [Hu1 [Hu2 Hu3]]].
  { rewrite map_length, rev_length. exact Hlen. }
  cbn zeta in Hu3. set (h := (fun l => p0 l + u l * eps q0 l)%R) in *.
  set (g0' := fdst gs p0 (eps q0) (rd q0 p0 :: map (rd q0) (rev hist)) None None (req0 ++ [vec gs h])) in *.
  assert (Hl' : Forall2 (learning hist) ps (g0' :: ests0)).
  { rewrite Hpseq. constructor; [|exact Hl0]. exists (req0 ++ [vec gs h]). reflexivity. }
  assert (Hs : forall tuned, (forall q, In q ps -> ~ In q tuned) -> so_suggest O tuned (solver (g0 :: ests0) v) = (solver (g0' :: ests0) v, Ok (vec gs h))).
  { intros tuned Htun. apply (suggest_ask ortho calc lstsq gs ps d tol f Hgs0 tuned q0 ps'); [exact Hpseq|symmetry; exact (F2_length _ _ _ Hl0)|apply index_vec|exact Htun|].
    rewrite Hg0. exact Hu3. }
  set (v' := (fun l => v l + step_to gs h v l)%R). exists v'.
  assert (Hnv' : near v') by (apply near_step; exact Hnv). split; [exact Hnv'|].
  assert (Hap' : apart (v' :: hist)).
  { unfold apart. cbn [map]. apply (independent_cons gs _ _ u Hap).
    - intros e He. apply in_map_iff in He. destruct He as [x [<- Hx]]. apply Hu2. unfold steps_from. apply in_map_iff. exists (rd q0 x). split; [reflexivity|].
      apply in_map. apply -> in_rev. exact Hx.
    - assert (Hp : (0 < dot gs u (fun l => v' l - p0 l))%R); [|lra].
      apply sum_pos.
      + intros l Hin. unfold v'. rewrite step_on by exact Hin. unfold h. pose proof (Heps q0 l Hq0 Hin). replace (u l * (p0 l + u l * eps q0 l - p0 l))%R with (u l * u l * eps q0 l)%R by ring.
        apply Rmult_le_pos; [apply Rle_0_sqr|lra].
      + destruct Hu1 as [l [Hin Hne]]. exists l. split; [exact Hin|]. unfold v'. rewrite step_on by exact Hin. unfold h. pose proof (Heps q0 l Hq0 Hin).
        replace (u l * (p0 l + u l * eps q0 l - p0 l))%R with (u l * u l * eps q0 l)%R by ring. apply Rmult_lt_0_compat; [nra|lra]. }
  split; [exact Hap'|].
  set (P' := fun q g => (S (length hist) < length gs -> learning (v' :: hist) q g) /\ (S (length hist) = length gs -> learnt q g)).
  assert (Hround : reach E bad (i + 3) (at_ i true (W L v t (solver (g0 :: ests0) v)) tr) (after v' (fun _ _ ests' => Forall2 P' ps ests'))).
  { apply (round L v t (g0 :: ests0) (g0' :: ests0) h tr P' Hsize Hlow Hg (learning_pos _ _ Hl) (learning_pos _ _ Hl') Hs). fold v'.
    revert Hl'. apply F2_impl. intros q g Hq [req ->]. destruct (Nat.eq_dec (S (length hist)) (length gs)) as [Heq|Hne].
    - destruct (learn_gradient q hist v' req) as [g' [K1 K2]]; [exact Hq|exact Heq|exact Hap'| |].
      + intros x [<-|[<-|Hx]]; [intros l0 _ _; reflexivity|exact Hnv'|apply Hnh, Hx].
      + exists g'. split; [exact K1|]. split; [lia|intros _; exact K2].
    - destruct (learn_more q hist v' req) as [g' [K1 K2]]; [lia|]. exists g'. split; [exact K1|]. split; [intros _; exact K2|lia]. }
  revert Hround. apply reach_mono; [lia|]. intros s' [L' [t' [ests' [tr' [E1 [E2 [E3 E4]]]]]]]. exists L', t', ests', tr'.
  split; [exact E1|]. split; [exact E2|]. split; [exact E3|].
  split; intros Hc'; revert E4; apply F2_impl; intros q g _ [K1 K2]; auto.
Qed.

(** The estimators of a tuner that is done: with a gradient, or with at most as
    many points as gates, the last of them at the present voltages. *)
Definition settled_ests (v : label -> R) (ests : list fd) : Prop :=
  Forall2 learnt ps ests \/
  exists hist, S (length hist) <= length gs /\ Forall2 (learning hist) ps ests /\ forall l, In l gs -> hd p0 hist l = v l.
Definition done (given : bool) (s : sys (world (newton fd))) : Prop :=
  exists L' v' t' ests' tr', s = at_ (S i) false (W L' v' t' (solver ests' v')) tr' /\ low v' L' /\ near v' /\ good t' v' /\ reached ps d tol (par v') = true /\
    settled_ests v' ests' /\ (given = true -> Forall2 learnt ps ests').

Lemma phase k : l_size lim = NaN -> forall hist L v t ests tr, length hist + k = length gs -> low v L -> good t v -> near v -> (forall x, In x hist -> near x) -> apart hist ->
  (k = 0 -> Forall2 learnt ps ests) -> (k <> 0 -> Forall2 (learning hist) ps ests) ->
  reach E bad ((i + 3) * (k + 1)) (at_ i true (W L v t (solver ests v)) tr) (done false).
Proof.
  intros Hsize. induction k as [|k IH]; intros hist L v t ests tr Hlen Hlow Hg Hnv Hnh Hap H0 H1.
  - destruct (newton_round L v t ests tr Hsize Hlow Hg Hnv (H0 eq_refl)) as [v' [A [B C]]]. revert C. apply reach_mono; [lia|].
    intros s' [L' [t' [ests' [tr' [E1 [E2 [E3 E4]]]]]]]. rewrite (reached_exact v' B) in E1. exists L', v', t', ests', tr'.
    split; [exact E1|]. split; [exact E2|]. split; [exact A|]. split; [exact E3|]. split; [apply reached_exact, B|]. split; [left; exact E4|intros _; exact E4].
  - destruct (learning_round hist L v t ests tr Hsize) as [v' [A [B C]]]; try assumption; [lia|apply H1; lia|].
    replace ((i + 3) * (S k + 1)) with ((i + 3) + (i + 3) * (k + 1)) by lia. eapply reach_bind; [exact C|].
    intros s' [L' [t' [ests' [tr' [E1 [E2 [E3 [E4 E5]]]]]]]]. subst s'. destruct (reached ps d tol (par v')) eqn:Hr; cbn [negb].
    + apply reach_here. exists L', v', t', ests', tr'.
      split; [reflexivity|]. split; [exact E2|]. split; [exact A|]. split; [exact E3|]. split; [exact Hr|]. split; [|discriminate].
      destruct (Nat.eq_dec (S (length hist)) (length gs)) as [Heq|Hne]; [left; apply E5; exact Heq|]. right. exists (v' :: hist).
      split; [cbn; lia|]. split; [apply E4; lia|reflexivity].
    + apply (IH (v' :: hist) L' v' t' ests' tr'); try assumption.
      * cbn. lia.
      * intros x [<-|Hx]; auto.
      * intros ->. apply E5. lia.
      * intros Hk. apply E4. lia.
Qed.

(** From the first evaluation on. *)
Lemma first_eval given (known : label -> bool) L pos vals t tr : low p0 L -> index pos = gs -> index vals = ps -> t_queue t = 0%Z -> index (t_params t) = ps -> t_last t = None ->
  let start q := if given : bool then given_fd gs p0 (eps q) (known q) (grad q) else new_fd gs p0 (eps q) (known q) in
  exists t' ests' tr', let b := reached ps d tol (par p0) in
    iterate E (at_ i false (W L p0 t (mk_newton (goal ps d tol f) (map start ps) pos vals)) tr) =
    (at_ (if b then S i else i) (negb b) (W L p0 t' (solver ests' p0)) tr', Ok tt) /\ good t' p0 /\
    Forall2 (fun q g => if given then learnt q g else learning [] q g) ps ests'.
Proof.
  intros Hlow Hpos Hvals Hq Hp Hl start. set (ests := map start ps). set (s0 := mk_newton _ ests pos vals).
  destruct (nw_update_forall ortho calc lstsq all gs ps d tol f Hgs0 Hall Hps0 (fun q g => if given then learnt q g else learning [] q g) p0 (par p0) (rvar p0) pos vals ests Hpos Hvals) as [ests' [Hu Hlr]].
  { unfold ests. generalize ps. intros l. induction l as [|q l IH]; constructor; [|exact IH]. unfold start. destruct given.
    - destruct (update_first_given calc all gs p0 (eps q) Hgs Hgs0 Hall (rd q p0) (known q) (grad q)) as [pts [req Hup]]; [reflexivity|].
      eexists. split; [exact Hup|]. exists pts, None, req. reflexivity.
    - eexists. split; [apply (update_first calc all gs p0 (eps q) Hgs Hgs0 Hall (rd q p0) (known q)); reflexivity|]. exists []. reflexivity. }
  destruct (do_eval_W p0 L p0 t s0 (solver ests' p0) tr Hlow Hq Hp eq_refl eq_refl) as [t' [tr' [Hi Hg]]].
  { rewrite Hl. exact I. }
  { cbn. rewrite Hpos. exact Hall. }
  { unfold s0, ests. cbn. apply Forall_forall. intros g Hin. apply in_map_iff in Hin. destruct Hin as [q [<- _]]. unfold start, new_fd, given_fd.
    destruct given, (known q); cbn; first [apply index_vec|apply index_tab]. }
  { exact Hu. }
  exists t', ests', tr'. auto.
Qed.
Lemma from_start given (known : label -> bool) L pos vals t tr : l_size lim = NaN -> low p0 L -> index pos = gs -> index vals = ps -> t_queue t = 0%Z -> index (t_params t) = ps -> t_last t = None ->
  let start q := if given : bool then given_fd gs p0 (eps q) (known q) (grad q) else new_fd gs p0 (eps q) (known q) in
  reach E bad (1 + (i + 3) * (length gs + 1)) (at_ i false (W L p0 t (mk_newton (goal ps d tol f) (map start ps) pos vals)) tr) (done given).
Proof.
  intros Hsize Hlow Hpos Hvals Hq Hp Hl start.
  destruct (first_eval given known L pos vals t tr Hlow Hpos Hvals Hq Hp Hl) as [t' [ests' [tr' [Hi [Hg Hlr]]]]].
  assert (Hnear : near p0) by (intros l _ _; reflexivity).
  eapply reach_after; [apply iterates_one; exact Hi|].
  destruct (reached ps d tol (par p0)) eqn:Hr; cbn [negb].
  - apply reach_here. exists L, p0, t', ests', tr'.
    split; [reflexivity|]. split; [exact Hlow|]. split; [exact Hnear|]. split; [exact Hg|]. split; [exact Hr|].
    split; [|intros Hgv; rewrite Hgv in Hlr; exact Hlr]. destruct given; [left; exact Hlr|]. right. exists []. split; [apply (length_gs all gs); assumption|]. split; [exact Hlr|reflexivity].
  - destruct given.
    + destruct (newton_round L p0 t' ests' tr' Hsize Hlow Hg Hnear Hlr) as [v' [A [B C]]]. revert C. apply reach_mono; [nia|].
      intros s' [L' [t2 [e2 [tr2 [E1 [E2 [E3 E4]]]]]]]. rewrite (reached_exact v' B) in E1. exists L', v', t2, e2, tr2.
      split; [exact E1|]. split; [exact E2|]. split; [exact A|]. split; [exact E3|]. split; [apply reached_exact, B|]. split; [left; exact E4|intros _; exact E4].
    + apply (phase (length gs) Hsize [] L p0 t' ests' tr'); try assumption; try reflexivity.
      * intros x [].
      * apply independent_nil.
      * intros H0. destruct Hgs0. apply length_zero_iff_nil. exact H0.
      * intros _. exact Hlr.
Qed.

(** Evaluating a tuner again that is done, at the same voltages of its gates. *)
Lemma repeated_point hist q v' req : In q ps -> S (length hist) = length gs -> (forall l, In l gs -> v' l = hd p0 hist l) ->
  exists g', fd_update calc (vec all v') (Fin (par v' q)) (rvar v' q) (fdst gs p0 (eps q) (map (rd q) (p0 :: rev hist)) None None req) = (g', Raise EvaluationError).
Proof.
  intros Hq Hl Hsame. set (pts := map (rd q) (p0 :: rev hist)).
  assert (Hpts : length pts = length gs) by (unfold pts; rewrite map_length; cbn; rewrite rev_length; lia).
  pose proof (update_last calc all gs p0 (eps q) Hgs0 Hall (rd q v') pts req Hpts) as Hu.
  destruct (calc_points calc Hcalc gs Hgs Hgs0 (pts ++ [rd q v'])) as [_ H2]; [rewrite app_length, Hpts; cbn [length]; lia|].
  assert (Hin : forall m, In m (pts ++ [rd q v']) -> exists x, r_at m = x /\ In x (v' :: p0 :: hist)).
  { intros m Hm. apply in_app_or in Hm. destruct Hm as [Hm|[<-|[]]]; [|exists v'; cbn; auto]. unfold pts in Hm. apply in_map_iff in Hm. destruct Hm as [x [<- Hx]].
    exists x. split; [reflexivity|]. right. destruct Hx as [<-|Hx]; [left; reflexivity|]. right. apply in_rev. exact Hx. }
  assert (Hsing : exists u, nonzero gs u /\ forall x, In x (v' :: p0 :: hist) -> dot gs u x = dot gs u (hd p0 hist)).
  { set (others := match hist with [] => [] | _ :: r => p0 :: r end).
    destruct (orthogonal_exists label_dec gs (map (fun x l => (x l - hd p0 hist l)%R) others) Hgs) as [u [Hu1 Hu2]].
    { rewrite map_length. unfold others. destruct hist; cbn in Hl |- *; lia. }
    exists u. split; [exact Hu1|].
    assert (Ho : forall x, In x others -> dot gs u x = dot gs u (hd p0 hist)).
    { intros x Hx. specialize (Hu2 _ (in_map (fun x l => (x l - hd p0 hist l)%R) _ _ Hx)). cbn beta in Hu2. rewrite dot_sub_r in Hu2. lra. }
    intros x [<-|Hx]; [apply dot_ext; [reflexivity|exact Hsame]|]. unfold others in Ho. destruct hist as [|h r]; cbn [hd] in *.
    - destruct Hx as [<-|[]]. reflexivity.
    - destruct Hx as [<-|[<-|Hx]]; [apply Ho; left; reflexivity|reflexivity|apply Ho; right; exact Hx]. }
  rewrite H2 in Hu; [eexists; exact Hu|]. destruct Hsing as [u [Hu1 Hu2]]. exists u. split; [exact Hu1|].
  intros m m' Hm Hm'. destruct (Hin m Hm) as [x [-> Hx]]. destruct (Hin m' Hm') as [y [-> Hy]]. rewrite (Hu2 x Hx), (Hu2 y Hy). reflexivity.
Qed.

Lemma not_both ests hist : Forall2 learnt ps ests -> ~ Forall2 (learning hist) ps ests.
Proof.
  intros Hc Hl. destruct (cons_of ps Hps0) as [q0 [ps' Hpseq]]. destruct ests as [|g0 ests0]; [rewrite Hpseq in Hl; inversion Hl|].
  assert (H1 : learnt q0 g0) by (rewrite Hpseq in Hc; inversion Hc; assumption).
  assert (H2 : learning hist q0 g0) by (rewrite Hpseq in Hl; inversion Hl; assumption).
  destruct H1 as [pts [cov [r1 ->]]]. destruct H2 as [r2 H2]. discriminate.
Qed.

(** As many points as gates, and the next one is the last one again. *)
Lemma settle_fails L v v' t ests tr hist : low v' L -> good t v -> S (length hist) = length gs -> Forall2 (learning hist) ps ests ->
  (forall l, In l gs -> v' l = hd p0 hist l) ->
  exists t' s' tr', iterate E (at_ i false (W L v' t (solver ests v)) tr) = (at_ i false (W L v' t' s') tr', Raise EvaluationError).
Proof.
  intros Hlow [G1 [G2 [G3 G4]]] Heq Hl Hlast.
  assert (Hinc : match t_last t with Some v => incl (index v) all | None => True end) by (rewrite G1, index_vec; apply incl_refl).
  assert (Hpos : incl (index (nw_pos (solver ests v))) all) by (cbn [solver nw_pos]; rewrite index_vec; exact Hall).
  destruct (cons_of ps Hps0) as [q0 [ps' Hpseq]].
  assert (Hq0 : In q0 ps) by (rewrite Hpseq; left; reflexivity).
  destruct ests as [|g0 ests0]; [rewrite Hpseq in Hl; inversion Hl|].
  assert (Hg0 : learning hist q0 g0) by (rewrite Hpseq in Hl; inversion Hl; assumption).
  destruct Hg0 as [req Hg0]. destruct (repeated_point hist q0 v' req Hq0 Heq Hlast) as [g' Hup].
  rewrite <- Hg0 in Hup.
  destruct (nw_update_raises ortho calc lstsq all ps d tol f Hps0 q0 ps' v' (par v') (rvar v') (vec gs v) (vec ps (par v)) g0 g' ests0 EvaluationError Hpseq (index_vec _ _) Hup) as [s' [Hu Hts]].
  destruct (do_eval_raises_W v' L v' t (solver (g0 :: ests0) v) s' tr EvaluationError Hlow G4) as [t' [tr3 H2]]; try reflexivity; try assumption.
  { rewrite G2. apply index_vec. } { apply (learning_pos _ _ Hl). }
  exists t', s', tr3. exact H2.
Qed.

Lemma settle_again L v v' t ests tr : low v' L -> good t v -> settled_ests v ests -> (forall l, In l gs -> v' l = v l) ->
  (forall q, In q ps -> par v' q = par v q) -> reached ps d tol (par v) = true ->
  (exists t' ests' tr', iterate E (at_ i false (W L v' t (solver ests v)) tr) = (at_ (S i) false (W L v' t' (solver ests' v')) tr', Ok tt) /\ good t' v' /\ settled_ests v' ests' /\ (Forall2 learnt ps ests -> Forall2 learnt ps ests')) \/
  (~ Forall2 learnt ps ests /\ exists t' s' tr', iterate E (at_ i false (W L v' t (solver ests v)) tr) = (at_ i false (W L v' t' s') tr', Raise EvaluationError)).
Proof.
  intros Hlow [G1 [G2 [G3 G4]]] Hset Hsame Hpar Hr.
  assert (Hr' : reached ps d tol (par v') = true) by (apply reached_iff; intros q Hq; rewrite (Hpar q Hq); revert q Hq; apply reached_iff; exact Hr).
  assert (Hinc : match t_last t with Some v => incl (index v) all | None => True end) by (rewrite G1, index_vec; apply incl_refl).
  assert (Hpos : incl (index (nw_pos (solver ests v))) all) by (cbn [solver nw_pos]; rewrite index_vec; exact Hall).
  assert (Hgo : forall P' : label -> fd -> Prop, Forall (fun g => index (fd_pos g) = gs) ests ->
    Forall2 (fun q g => exists g', fd_update calc (vec all v') (Fin (par v' q)) (rvar v' q) g = (g', Ok tt) /\ P' q g') ps ests ->
    exists t' ests' tr', iterate E (at_ i false (W L v' t (solver ests v)) tr) = (at_ (S i) false (W L v' t' (solver ests' v')) tr', Ok tt) /\ good t' v' /\ Forall2 P' ps ests').
  { intros P' Hest Hup.
    destruct (nw_update_forall ortho calc lstsq all gs ps d tol f Hgs0 Hall Hps0 P' v' (par v') (rvar v') (vec gs v) (vec ps (par v)) ests) as [ests' [Hu Hl2]].
    { apply index_vec. } { apply index_vec. } { exact Hup. }
    destruct (do_eval_W v' L v' t (solver ests v) (solver ests' v') tr Hlow G4) as [t' [tr3 [H2 Hg']]]; try reflexivity; try assumption.
    { rewrite G2. apply index_vec. }
    rewrite Hr' in H2. exists t', ests', tr3. auto. }
  destruct Hset as [Hl|[hist [Hlen [Hl Hlast]]]].
  - left. destruct (Hgo learnt (learnt_pos _ Hl)) as [t' [ests' [tr' [H1 [H2 H3]]]]].
    + revert Hl. apply F2_impl. intros q g _ [pts [cov [req ->]]]. eexists. split.
      * apply (update_done calc all gs p0 (eps q) Hgs0 (rd q v')).
      * exists pts, cov, req. reflexivity.
    + exists t', ests', tr'. split; [exact H1|]. split; [exact H2|]. split; [left; exact H3|intros _; exact H3].
  - destruct (Nat.eq_dec (S (length hist)) (length gs)) as [Heq|Hne].
    + right. split; [intros Hc; exact (not_both _ _ Hc Hl)|].
      apply (settle_fails L v v' t ests tr hist); try assumption; [split; [exact G1|]; split; [exact G2|]; split; [exact G3|exact G4]|].
      intros l Hin. rewrite (Hlast l Hin). apply Hsame, Hin.
    + left. destruct (Hgo (learning (v' :: hist)) (learning_pos _ _ Hl)) as [t' [ests' [tr' [H1 [H2 H3]]]]].
      * revert Hl. apply F2_impl. intros q g _ [req ->]. apply learn_more. lia.
      * exists t', ests', tr'. split; [exact H1|]. split; [exact H2|]. split; [right; exists (v' :: hist); split; [cbn; lia|]; split; [exact H3|reflexivity]|].
        intros Hc. exfalso. exact (not_both _ _ Hc Hl).
Qed.
(** *** Limited steps *)
Hypothesis Hmin : lstsq_shortest lstsq.
Variable m : R.
Hypothesis Hm : (0 < m)%R.
Hypothesis Hlim : l_size lim = Fin m.
Hypothesis HN : (1 <= l_number lim)%Z.

Definition solves (v h : label -> R) : Prop := forall q, In q ps -> dot gs (grad q) h = (d q - par v q)%R.
(** The step of the solver from the voltages [v]. *)
Definition newton_from (v h : label -> R) : Prop :=
  lstsq (map (vec gs) (map grad ps)) (map Fin (map (fun q => (d q - par v q)%R) ps)) = Ok (array gs h) /\ solves v h /\
  forall y, solves v y -> (dot gs h h <= dot gs y y)%R.

Lemma solves_F2 v y l : (forall q, In q l -> dot gs (grad q) y = (d q - par v q)%R) <-> Forall2 (fun r z => dot gs r y = z) (map grad l) (map (fun q => (d q - par v q)%R) l).
Proof.
  split.
  - intros H. induction l as [|q l IH]; constructor; [apply H; left; reflexivity|apply IH; intros z Hz; apply H; right; exact Hz].
  - intros H q Hq. induction l as [|q' l IH]; [destruct Hq|]. inversion H; subst. destruct Hq as [<-|Hq]; auto.
Qed.
Lemma newton_from_exists v : exists h, newton_from v h.
Proof.
  destruct (Hmin gs (map grad ps) (map (fun q => (d q - par v q)%R) ps) Hgs Hgs0) as [h [H1 [H2 H3]]].
  - intros K. apply map_eq_nil in K. contradiction.
  - rewrite !map_length. reflexivity.
  - apply independent_scale; assumption.
  - exists h. split; [exact H1|]. split; [exact (proj2 (solves_F2 v h ps) H2)|]. intros y Hy. apply H3, (proj1 (solves_F2 v y ps)), Hy.
Qed.
Lemma newton_from_scaled r v v' h h' : (0 < r)%R -> newton_from v h -> newton_from v' h' ->
  (forall q, In q ps -> d q - par v' q = r * (d q - par v q))%R -> forall l, In l gs -> (h' l = r * h l)%R.
Proof.
  intros Hr [_ [S1 M1]] [_ [S2 M2]] Hres'.
  assert (A : solves v (fun l => / r * h' l)%R) by (intros q Hq; rewrite dot_scale_r, (S2 q Hq), (Hres' q Hq); field; lra).
  assert (B : solves v' (fun l => r * h l)%R) by (intros q Hq; rewrite dot_scale_r, (S1 q Hq), (Hres' q Hq); lra).
  assert (C : solves v' (fun l => / 2 * (h' l - (- r) * h l))%R).
  { intros q Hq. rewrite dot_scale_r, dot_sub_r, dot_scale_r, (S2 q Hq), (S1 q Hq), (Hres' q Hq). lra. }
  pose proof (M1 _ A) as A'. pose proof (M2 _ C) as C'. clear M1 M2.
  rewrite dot_scale_r, (dot_comm gs (fun l => / r * h' l)%R), dot_scale_r in A'.
  rewrite dot_scale_r, (dot_comm gs (fun l => / 2 * _)%R), dot_scale_r, dot_sub_l, !dot_sub_r, !dot_scale_r, !(dot_comm gs (fun a0 => - r * h a0)%R), !dot_scale_r, (dot_comm gs h' h) in C'.
  destruct (zero_dec gs (fun l => h' l - r * h l)%R) as [Hz|Hz]; [intros l Hl; pose proof (Hz l Hl); lra|].
  pose proof (dot_self_pos _ _ Hz) as P. rewrite dot_sub_l, !dot_sub_r, !dot_scale_r, !(dot_comm gs (fun a0 => r * h a0)%R), !dot_scale_r, (dot_comm gs h' h) in P.
  exfalso. assert (A2 : (r * r * dot gs h h <= dot gs h' h')%R).
  { replace (dot gs h' h') with (r * r * (/ r * (/ r * dot gs h' h')))%R by (field; lra). apply Rmult_le_compat_l; [nra|exact A']. }
  lra.
Qed.

Lemma rnorm_dot ls g : rnorm ls g = sqrt (dot ls g g).
Proof. unfold rnorm. f_equal. unfold dot. induction ls as [|l ls IH]; cbn; [reflexivity|]. rewrite IH. reflexivity. Qed.
Lemma step_add x h l : step_to gs (fun l => x l + h l)%R x l = (if mem l gs then h l else 0)%R.
Proof. unfold step_to. destruct (mem l gs); lra. Qed.
Lemma step_norm x h : rnorm all (step_to gs (fun l => x l + h l)%R x) = rnorm gs h.
Proof.
  rewrite !rnorm_dot. f_equal. rewrite (dot_restrict label_dec gs all) by (try assumption; intros l _ Hl; rewrite step_add, (proj2 (SeriesLemmas.mem_false l gs) Hl); reflexivity).
  apply dot_ext; intros l Hl; rewrite step_add, (proj2 (SeriesLemmas.mem_In l gs) Hl); reflexivity.
Qed.
(** The solver after moves without evaluation: at [x], with the values
    measured at [v]. *)
Let blind (ests : list fd) (x v : label -> R) : newton fd := mk_newton (goal ps d tol f) ests (vec gs x) (vec ps (par v)).
Let waiting (t : tuner) (x v : label -> R) (k : Z) : Prop :=
  t_last t = Some (vec all x) /\ t_params t = vec ps (par v) /\ t_failed t = false /\ t_queue t = k.
Let step_of (x h : label -> R) (l : label) : R := (x l + m / rnorm gs h * (if mem l gs then h l else 0))%R.

(** One step, up to the evaluation of the tuners below. *)
Lemma any_move L x v t t' ests x' tr k k' : low x L -> waiting t x v k -> waiting t' x v k' -> Forall2 learnt ps ests ->
  (forall l, In l all -> ~ In l gs -> x' l = x l) ->
  (forall tuned, (forall q, In q ps -> ~ In q tuned) ->
     exists ev, subset_next O lim tuned (mk_tsys t (blind ests x v) (vec all x) []) = (mk_tsys t' (blind ests x v) (vec all x) ev, Ok (vec all x'))) ->
  reach E bad (i + 2) (at_ i true (W L x t (blind ests x v)) tr)
    (fun s => exists L' tr', s = at_ i false (W L' x' t' (blind ests x v)) tr' /\ low x' L').
Proof.
  intros Hlow G G' Hl Hout Hs.
  assert (Hpos : incl (index (nw_pos (blind ests x v))) all) by (cbn [blind nw_pos]; rewrite index_vec; exact Hall).
  destruct (next_set_any L x t t' (blind ests x v) (blind ests x v) x' tr Hlow (proj1 G) (proj1 G') Hpos (learnt_pos _ Hl) Hpos (learnt_pos _ Hl) Hs) as [tr1 H1].
  replace (i + 2) with (2 + i) by lia. eapply reach_after; [exact H1|].
  eapply reach_mono; [apply le_n| |apply (Hclimb x x' L (own t' (blind ests x v)) tr1 Hlow Hout)].
  - intros s' [L' [tr2 [Hlow' ->]]]. exists L', tr2. auto.
  - apply own_coherent; [rewrite (proj1 G'), index_vec; apply incl_refl|exact Hpos|exact (learnt_pos _ Hl)].
Qed.
Lemma suggested ests x v h tuned : newton_from v h -> Forall2 learnt ps ests -> (forall q, In q ps -> ~ In q tuned) ->
  so_suggest O tuned (blind ests x v) = (blind ests x v, Ok (vec gs (fun l => x l + h l)%R)).
Proof.
  intros Hh Hl Htun. apply (suggest_solution ortho calc lstsq gs ps d tol f Hps0 grad ests x (par v) h); [exact (proj1 Hh)|apply learnt_ready; exact Hl|exact Htun].
Qed.
Lemma limited_move L x v t ests h tr k k' : low x L -> waiting t x v k -> Forall2 learnt ps ests -> newton_from v h -> (m < rnorm gs h)%R ->
  queue_after lim k (Fin (rnorm gs h)) = Ok k' ->
  exists x', (forall l, In l all -> x' l = step_of x h l) /\
  reach E bad (i + 2) (at_ i true (W L x t (blind ests x v)) tr)
    (fun s => exists L' t' tr', s = at_ i false (W L' x' t' (blind ests x v)) tr' /\ low x' L' /\ waiting t' x v k').
Proof.
  intros Hlow G Hl Hh Hlong Hq. pose proof G as G'. destruct G' as [G1 [G2 [G3 G4]]].
  set (x' := fun l => (x l + m / rnorm gs h * step_to gs (fun l => x l + h l) x l)%R).
  exists x'. split; [intros l _; unfold x', step_of; rewrite step_add; reflexivity|].
  assert (G' : waiting (with_queue k' t) x v k') by (repeat split; assumption).
  eapply reach_mono; [apply le_n| |apply (any_move L x v t (with_queue k' t) ests x' tr k k' Hlow G G' Hl)].
  - intros s [L' [tr' [H1 H2]]]. exists L', (with_queue k' t), tr'. auto.
  - intros l _ Hin. unfold x'. rewrite step_add, (proj2 (SeriesLemmas.mem_false l gs) Hin). lra.
  - intros tuned Htun. eexists.
    rewrite (next_limited O lim tuned _ (blind ests x v) all x gs (fun l => x l + h l)%R m); try assumption; try reflexivity.
    + cbn [ts_t ts_s ts_x ts_tr]. rewrite step_norm, (proj2 (Rltb_true _ _) Hlong), G4, Hq. reflexivity.
    + apply suggested; assumption.
Qed.
Lemma short_move L v t ests h tr : low v L -> good t v -> Forall2 learnt ps ests -> newton_from v h -> (rnorm gs h <= m)%R ->
  exists x', (forall l, In l all -> x' l = v l + (if mem l gs then h l else 0))%R /\
  reach E bad (i + 2) (at_ i true (W L v t (solver ests v)) tr)
    (fun s => exists L' tr', s = at_ i false (W L' x' t (blind ests v v)) tr' /\ low x' L').
Proof.
  intros Hlow G Hl Hh Hshort. pose proof G as G'. destruct G' as [G1 [G2 [G3 G4]]].
  set (x' := fun l => (v l + step_to gs (fun l => v l + h l) v l)%R).
  exists x'. split; [intros l _; unfold x'; rewrite step_add; reflexivity|].
  apply (any_move L v v t t ests x' tr 0 0 Hlow G G Hl).
  - intros l _ Hin. unfold x'. rewrite step_add, (proj2 (SeriesLemmas.mem_false l gs) Hin). lra.
  - intros tuned Htun. eexists.
    rewrite (next_limited O lim tuned _ (blind ests v v) all v gs (fun l => v l + h l)%R m); try assumption; try reflexivity.
    + cbn [ts_t ts_s ts_x ts_tr]. rewrite step_norm. replace (Rltb m (rnorm gs h)) with false by (symmetry; apply Bool.not_true_iff_false; intros K; apply Rltb_true in K; lra). reflexivity.
    + apply suggested; assumption.
Qed.

(** [is_tuned] with queued steps. *)
Lemma queued_W L x x' v t ests tr k : low x' L -> waiting t x v k -> k <> 0%Z -> Forall2 learnt ps ests ->
  exists t' tr', iterate E (at_ i false (W L x' t (blind ests x v)) tr) = (at_ i true (W L x' t' (blind ests x' v)) tr', Ok tt) /\ waiting t' x' v k.
Proof.
  intros Hlow [G1 [G2 [G3 G4]]] Hk Hl.
  assert (Hinc : match t_last t with Some v => incl (index v) all | None => True end) by (rewrite G1, index_vec; apply incl_refl).
  assert (Hpos : incl (index (nw_pos (blind ests x v))) all) by (cbn [blind nw_pos]; rewrite index_vec; exact Hall).
  set (t' := with_last (vec all x') t).
  assert (Hmove : nw_move (vec all x') (blind ests x v) = blind ests x' v).
  { unfold nw_move, blind. cbn [nw_target nw_ests nw_pos nw_vals]. f_equal. unfold move_position. rewrite !index_vec, intersection_incl, reindex_vec by exact Hall.
    transitivity (vec gs (fun l => if mem l gs then x' l else x l)).
    - pose proof (assign_vec gs x gs x' Hgs Hgs (incl_refl _)) as Ha. unfold assign in Ha. rewrite !index_vec, (proj2 (SeriesLemmas.subset_incl _ _) (incl_refl gs)) in Ha. injection Ha as Ha. exact Ha.
    - apply vec_ext. intros l Hin. rewrite (proj2 (SeriesLemmas.mem_In l gs) Hin). reflexivity. }
  destruct (iterate_eval O sg sn results n all i path (W L x' t (blind ests x v)) tr (W L x' t' (blind ests x' v)) false) as [tr' Hi].
  - apply (fits_W x'); [exact Hlow|]. apply own_coherent; [exact Hinc|exact Hpos|exact (learnt_pos _ Hl)].
  - exact Hn.
  - unfold hierarchy. cbn [e_is_tuned]. unfold W. rewrite (on_part_at i _ L) by (exact (Hlow_len x' L Hlow)). cbn [own p_tuner p_solver p_limits p_gates w_gates].
    unfold subset_is_tuned, tbind, temit, tget, tput, tsolver, tret. cbn [ts_t ts_s ts_x ts_tr]. rewrite G4, (proj2 (Z.eqb_neq k 0) Hk). cbn [negb].
    change (so_set_position O (vec all x')) with (fun st : newton fd => (nw_move (vec all x') st, @Ok unit tt)). cbn beta. cbn [ts_t ts_s ts_x ts_tr]. rewrite Hmove. reflexivity.
  - intros _. unfold log_dist, W. cbn [w_parts]. rewrite nth_error_at by (exact (Hlow_len x' L Hlow)). cbn [own p_solver p_tuner].
    change (so_target O (blind ests x' v)) with (goal ps d tol f). rewrite goal_all_desired, goal_index. cbn [t' with_last t_params]. rewrite G2.
    rewrite (select_vec ps ps) by (exact Hps0 || apply incl_refl). reflexivity.
  - exists t', tr'. split; [exact Hi|]. repeat split; assumption.
Qed.
(** [is_tuned] without queued steps. *)
Lemma evaluated_W L x x' v t ests tr : low x' L -> waiting t x v 0 -> Forall2 learnt ps ests ->
  reach E bad 1 (at_ i false (W L x' t (blind ests x v)) tr) (after x' (fun _ _ ests' => Forall2 learnt ps ests')).
Proof.
  intros Hlow [G1 [G2 [G3 G4]]] Hl.
  destruct (nw_update_forall ortho calc lstsq all gs ps d tol f Hgs0 Hall Hps0 learnt x' (par x') (rvar x') (vec gs x) (vec ps (par v)) ests) as [ests' [Hu Hl2]].
  { apply index_vec. } { apply index_vec. }
  { revert Hl. apply F2_impl. intros q g _ [pts [cov [req ->]]]. eexists. split; [apply (update_done calc all gs p0 (eps q) Hgs0 (rd q x'))|]. exists pts, cov, req. reflexivity. }
  destruct (do_eval_W x' L x' t (blind ests x v) (solver ests' x') tr Hlow G4) as [t' [tr' [H2 Hg']]]; try reflexivity.
  { rewrite G2. apply index_vec. } { rewrite G1, index_vec. apply incl_refl. } { cbn [blind nw_pos]. rewrite index_vec. exact Hall. } { exact (learnt_pos _ Hl). } { exact Hu. }
  eapply reach_ok; [apply iterates_one; exact H2|]. exists L, t', ests', tr'. auto.
Qed.

(** Steps without evaluation. *)
Lemma blind_run v h ests : newton_from v h -> (m < rnorm gs h)%R -> Forall2 learnt ps ests -> forall j L x x' t tr,
  low x' L -> waiting t x v (Z.of_nat j) ->
  reach E bad (j * (i + 3)) (at_ i false (W L x' t (blind ests x v)) tr)
    (fun s => exists y y' L' t' tr', (forall l, In l all -> y' l = x' l + INR j * (m / rnorm gs h * (if mem l gs then h l else 0)))%R /\
       s = at_ i false (W L' y' t' (blind ests y v)) tr' /\ low y' L' /\ waiting t' y v 0).
Proof.
  intros Hh Hlong Hl. induction j as [|j IH]; intros L x x' t tr Hlow G.
  - apply reach_here. exists x, x', L, t, tr. split; [intros; cbn [INR]; lra|]. auto.
  - destruct (queued_W L x x' v t ests tr (Z.of_nat (S j)) Hlow G ltac:(lia) Hl) as [t1 [tr1 [H1 G1]]].
    destruct (limited_move L x' v t1 ests h tr1 (Z.of_nat (S j)) (Z.of_nat j) Hlow G1 Hl Hh Hlong) as [x2 [Hx2 H2]].
    { unfold queue_after. rewrite (proj2 (Z.eqb_neq _ 0)) by lia. f_equal. lia. }
    replace (S j * (i + 3)) with (1 + ((i + 2) + j * (i + 3))) by lia. eapply reach_after; [apply iterates_one; exact H1|].
    eapply reach_bind; [exact H2|]. intros s' [L' [t2 [tr2 [-> [Hlow2 G2]]]]].
    eapply reach_mono; [apply le_n| |exact (IH L' x' x2 t2 tr2 Hlow2 G2)].
    intros s' [y [y' [L3 [t3 [tr3 [Hy [E1 [E2 E3]]]]]]]]. exists y, y', L3, t3, tr3. split; [|auto].
    intros l Hin. rewrite (Hy l Hin), (Hx2 l Hin). unfold step_of. rewrite S_INR. lra.
Qed.

(** The segment from the first voltages to the end of the first step. *)
Variable h0 : label -> R.
Hypothesis Hh0 : newton_from p0 h0.
Definition on_segment (r : R) (v : label -> R) : Prop := forall l, In l all -> v l = (p0 l + r * (if mem l gs then h0 l else 0))%R.
Lemma segment_near r v : on_segment r v -> near v.
Proof. intros H l H1 H2. rewrite (H l H1), (proj2 (SeriesLemmas.mem_false l gs) H2). lra. Qed.
Lemma segment_distance r v q : on_segment r v -> In q ps -> (d q - par v q = (1 - r) * (d q - par p0 q))%R.
Proof.
  intros Hv Hq. pose proof (affine_diff q v p0 Hq (segment_near r v Hv) (fun _ _ _ => eq_refl)) as K.
  rewrite (dot_ext gs _ (grad q) _ (fun l => r * h0 l)%R) in K.
  - rewrite dot_scale_r, (proj1 (proj2 Hh0) q Hq) in K. lra.
  - reflexivity.
  - intros l Hl. rewrite (Hv l (Hall l Hl)), (proj2 (SeriesLemmas.mem_In l gs) Hl). lra.
Qed.
Lemma rnorm_nonneg ls g : (0 <= rnorm ls g)%R.
Proof. unfold rnorm. apply sqrt_pos. Qed.
Lemma rnorm_scaled ls (g g' : label -> R) r : (0 <= r)%R -> (forall l, In l ls -> g' l = r * g l)%R -> rnorm ls g' = (r * rnorm ls g)%R.
Proof.
  intros Hr H. rewrite !rnorm_dot. rewrite (dot_ext ls g' (fun l => r * g l) g' (fun l => r * g l))%R by assumption.
  rewrite dot_scale_r, (dot_comm ls (fun l => r * g l)%R), dot_scale_r, <- Rmult_assoc.
  rewrite sqrt_mult_alt by nra. rewrite sqrt_square by exact Hr. reflexivity.
Qed.
Lemma rnorm_zero ls g : rnorm ls g = 0%R -> forall l, In l ls -> g l = 0%R.
Proof.
  intros H. destruct (zero_dec ls g) as [Hz|Hz]; [exact Hz|]. pose proof (dot_self_pos _ _ Hz) as P. rewrite rnorm_dot in H. pose proof (sqrt_lt_R0 _ P). lra.
Qed.
Lemma segment_step r v h : on_segment r v -> (r < 1)%R -> newton_from v h -> (forall l, In l gs -> h l = (1 - r) * h0 l)%R /\ rnorm gs h = ((1 - r) * rnorm gs h0)%R.
Proof.
  intros Hv Hr Hh. assert (K : forall l, In l gs -> (h l = (1 - r) * h0 l)%R).
  { apply (newton_from_scaled (1 - r) p0 v h0 h); try assumption; [lra|]. intros q Hq. apply segment_distance; assumption. }
  split; [exact K|]. apply rnorm_scaled; [lra|exact K].
Qed.
Definition done_on_segment (s : sys (world (newton fd))) : Prop :=
  exists r L' v' t' ests' tr', (0 <= r <= 1)%R /\ on_segment r v' /\ s = at_ (S i) false (W L' v' t' (solver ests' v')) tr' /\ low v' L' /\ good t' v' /\
    reached ps d tol (par v') = true /\ Forall2 learnt ps ests'.

Lemma limited_run M : forall L v t ests tr r, low v L -> good t v -> Forall2 learnt ps ests -> on_segment r v -> (0 <= r)%R -> reached ps d tol (par v) = false ->
  ((1 - r) * rnorm gs h0 <= INR M * m)%R -> (r <= 1)%R ->
  reach E bad (M * (i + 3)) (at_ i true (W L v t (solver ests v)) tr) done_on_segment.
Proof.
  induction M as [M IH] using (well_founded_induction Wf_nat.lt_wf). intros L v t ests tr r Hlow G Hl Hv Hr0 Hnot HM Hr1.
  pose proof (rnorm_nonneg gs h0) as HS0.
  assert (Hexact : forall r' v', on_segment r' v' -> (r' = 1 \/ rnorm gs h0 = 0)%R -> reached ps d tol (par v') = true).
  { intros r' v' Hv' Hc'. apply reached_exact. intros q Hq. pose proof (segment_distance r' v' q Hv' Hq) as K. destruct Hc' as [->|Hz]; [lra|].
    rewrite <- (proj1 (proj2 Hh0) q Hq) in K. rewrite (dot_comm gs), (dot_zero_l gs h0) in K by (apply rnorm_zero; exact Hz). lra. }
  assert (Hr : (r < 1)%R) by (destruct (Req_dec r 1) as [->|]; [rewrite (Hexact 1%R v Hv (or_introl eq_refl)) in Hnot; discriminate|lra]).
  assert (HS : (0 < rnorm gs h0)%R) by (destruct (Req_dec (rnorm gs h0) 0) as [Hz|]; [rewrite (Hexact r v Hv (or_intror Hz)) in Hnot; discriminate|lra]).
  destruct (newton_from_exists v) as [h Hh]. destruct (segment_step r v h Hv Hr Hh) as [Hhl Hhn].
  assert (Hpos : (0 < rnorm gs h)%R) by (rewrite Hhn; nra).
  destruct (Rle_or_lt (rnorm gs h) m) as [Hshort|Hlong].
  - assert (HM1 : 1 <= M) by (destruct M; [cbn [INR] in HM; nra|lia]).
    destruct (short_move L v t ests h tr Hlow G Hl Hh Hshort) as [x' [Hx' H1]].
    apply (reach_mono E bad ((i + 2) + 1) (M * (i + 3)) _ done_on_segment); [nia|auto|].
    eapply reach_bind; [exact H1|]. intros s' [L' [tr' [-> Hlow']]].
    eapply reach_mono; [apply le_n| |exact (evaluated_W L' v x' v t ests tr' Hlow' G Hl)].
    intros s' [L2 [t2 [ests2 [tr2 [E1 [E2 [E3 E4]]]]]]].
    assert (Hx1 : on_segment 1 x').
    { intros l Hin. rewrite (Hx' l Hin), (Hv l Hin). destruct (mem l gs) eqn:Hml; [rewrite (Hhl l (proj1 (SeriesLemmas.mem_In l gs) Hml))|]; lra. }
    cbn zeta in E1. rewrite (Hexact 1%R x' Hx1 (or_introl eq_refl)) in E1.
    exists 1%R, L2, x', t2, ests2, tr2. split; [lra|]. split; [exact Hx1|]. split; [exact E1|]. split; [exact E2|]. split; [exact E3|]. split; [apply (Hexact 1%R x' Hx1 (or_introl eq_refl))|exact E4].
  - destruct (trunc_pos m (rnorm gs h) Hm Hlong) as [k [Hk1 [Hk2 Hk3]]].
    set (K := Z.min k (l_number lim)). assert (HK : (1 <= K)%Z) by (unfold K; lia).
    set (j := Z.to_nat (K - 1)). assert (Hj : Z.of_nat j = (K - 1)%Z) by (unfold j; lia).
    assert (HKm : (INR (S j) * m <= rnorm gs h)%R).
    { assert (INR (S j) <= IZR k)%R. { rewrite INR_IZR_INZ. apply IZR_le. unfold K in *. lia. }
      apply Rmult_le_reg_r with (/ m)%R; [apply Rinv_0_lt_compat; exact Hm|]. rewrite Rmult_assoc, Rinv_r by lra. unfold Rdiv in Hk3. lra. }
    assert (HjM : S j <= M).
    { apply INR_le. apply Rmult_le_reg_r with m; [exact Hm|]. rewrite Hhn in HKm. lra. }
    assert (Hq : queue_after lim 0 (Fin (rnorm gs h)) = Ok (Z.of_nat j)).
    { unfold queue_after. cbn [Z.eqb]. rewrite Hlim, Hk1, Hj. reflexivity. }
    destruct (limited_move L v v t ests h tr 0 (Z.of_nat j) Hlow G Hl Hh Hlong Hq) as [x1 [Hx1 H1]].
    replace (M * (i + 3)) with ((i + 2) + (j * (i + 3) + (1 + (M - S j) * (i + 3)))) by nia.
    eapply reach_bind; [exact H1|]. intros s1 [L1 [t1 [tr1 [-> [Hlow1 G1]]]]].
    eapply reach_bind; [exact (blind_run v h ests Hh Hlong Hl j L1 v x1 t1 tr1 Hlow1 G1)|].
    intros s2 [y [y' [L2 [t2 [tr2 [Hy [-> [Hlow2 G2]]]]]]]].
    eapply reach_bind; [exact (evaluated_W L2 y y' v t2 ests tr2 Hlow2 G2 Hl)|].
    intros s3 [L3 [t3 [ests3 [tr3 [-> [Hlow3 [G3 Hl3]]]]]]]. cbn zeta.
    set (r' := (r + INR (S j) * m / rnorm gs h0)%R).
    assert (Hy' : on_segment r' y').
    { intros l Hin. rewrite (Hy l Hin), (Hx1 l Hin). unfold step_of, r'. rewrite (Hv l Hin), S_INR, Hhn. destruct (mem l gs) eqn:Hml; [rewrite (Hhl l (proj1 (SeriesLemmas.mem_In l gs) Hml))|]; field; lra. }
    assert (Hjpos : (0 <= INR (S j) * m / rnorm gs h0)%R).
    { apply Rmult_le_pos; [apply Rmult_le_pos; [apply pos_INR|lra]|left; apply Rinv_0_lt_compat; exact HS]. }
    assert (Hr' : (0 <= r' <= 1)%R).
    { unfold r'. split; [lra|]. apply Rmult_le_reg_r with (rnorm gs h0); [exact HS|]. replace ((r + INR (S j) * m / rnorm gs h0) * rnorm gs h0)%R with (r * rnorm gs h0 + INR (S j) * m)%R by (field; lra).
      rewrite Hhn in HKm. lra. }
    destruct (reached ps d tol (par y')) eqn:Hre; cbn [negb].
    + apply reach_here. exists r', L3, y', t3, ests3, tr3. auto 10.
    + apply (IH (M - S j)) with (r := r'); try assumption; try lra; [lia|].
      rewrite minus_INR by exact HjM. unfold r'. replace ((1 - (r + INR (S j) * m / rnorm gs h0)) * rnorm gs h0)%R with ((1 - r) * rnorm gs h0 - INR (S j) * m)%R by (field; lra). lra.
Qed.

(** From the first evaluation on, with known gradients. *)
Lemma limited_from_start (known : label -> bool) L pos vals t tr M : low p0 L -> index pos = gs -> index vals = ps -> t_queue t = 0%Z -> index (t_params t) = ps -> t_last t = None ->
  (rnorm gs h0 <= INR M * m)%R ->
  reach E bad (1 + M * (i + 3)) (at_ i false (W L p0 t (mk_newton (goal ps d tol f) (map (fun q => given_fd gs p0 (eps q) (known q) (grad q)) ps) pos vals)) tr) done_on_segment.
Proof.
  intros Hlow Hpos Hvals Hq Hp Hl HM.
  destruct (first_eval true known L pos vals t tr Hlow Hpos Hvals Hq Hp Hl) as [t' [ests' [tr' [Hi [Hg Hlr]]]]].
  eapply reach_after; [apply iterates_one; exact Hi|].
  assert (H0 : on_segment 0 p0) by (intros l _; lra).
  destruct (reached ps d tol (par p0)) eqn:Hr; cbn [negb].
  - apply reach_here. exists 0%R, L, p0, t', ests', tr'. split; [lra|]. auto 10.
  - apply (limited_run M L p0 t' ests' tr' 0%R); try assumption; lra.
Qed.
End Loop.
