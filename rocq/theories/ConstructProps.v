(** Properties of the constructor of the Autotuner. *)
From Verif Require Import PyBase TargetModel TunerModel TunerSpec SeriesLemmas NewtonModel EstimatorModel GradientProps AutotunerModel ComposeModel KernelR ComposeSpec ComposeProofs ComposeNumerics ComposeHierarchy ComposeProps ComposeCoupledSpec ComposeCurvedSpec ComposeCurvedProps ComposeTowerSpec ComposeTowerProps ComposePaceSpec ComposePaceProps ComposeStudySpec ComposeStudyProofs ComposeStudyProps ConstructModel ConstructProofs.
From Coq Require Import Lra ZArith.
Local Open Scope string_scope.
Local Open Scope list_scope.

(** C123.  Voltages given to a new Autotuner ([voltage_to_set]) are set by its
    first call of [iterate], for all solvers, since the constructor provides
    the last voltages of the first tuner, which the log needs. *)
Theorem pending_voltages_set : forall (S : Type) (O : solver_ops S) sg sn results n (p : part S) rest all f ls h idx status path,
  NoDup all -> NoDup ls -> incl ls all -> idx <> n -> t_last (p_tuner p) = None -> (forall q, In q (p :: rest) -> coherent sg sn all q) ->
  exists s v, iterate (hierarchy O sg sn results n) (constructed idx status (Some (vec ls h)) path (vec all f) (p :: rest)) = (s, Ok tt) /\
    s_at s = mk_at 0 status None path /\ w_gates (s_w s) = vec all v /\ (forall l, In l ls -> v l = h l) /\ (forall l, In l all -> ~ In l ls -> v l = f l) /\
    w_parts (s_w s) = map (provided (vec all f)) (p :: rest).
Proof.
  intros S O sg sn results n p rest all f ls h idx status path Hall Hls Hin Hn Hp Hc.
  assert (Ec : views_coherent all (map (view sg sn) (map (provided (vec all f)) (p :: rest))) true = Ok true).
  { rewrite views_alike by (rewrite index_vec; apply incl_refl). apply views_ok. exact Hc. }
  assert (Es : select ls (vec all f) = Ok (reindex ls (vec all f))).
  { destruct ls as [|l ls]; [reflexivity|]. unfold select. rewrite index_vec. assert (K : existsb (fun k => mem k all) (l :: ls) = true) by (apply existsb_exists; exists l; split; [left; reflexivity|apply mem_In; apply Hin; left; reflexivity]). rewrite K. reflexivity. }
  eexists. exists (fun l => if mem l ls then h l else f l). split; [|split; [|split; [|split; [|split]]]].
  - unfold iterate, ready_to_tune, constructed, AutotunerModel.bind, call, get_at, get_w, lift, raise. cbn [e_read e_views hierarchy s_at s_w s_tr a_to_set w_gates w_parts].
    rewrite !index_vec, (proj2 (subset_incl _ _) Hin), Ec. cbn [negb]. unfold is_tuning_complete. cbn [a_index e_n hierarchy s_at]. rewrite (proj2 (Nat.eqb_neq _ _) Hn).
    cbn [a_to_set]. unfold do_set. rewrite any_na_vec. unfold AutotunerModel.bind, get_w, lift, call, get_at, put_at. cbn [e_log_step e_set hierarchy s_w s_at s_tr w_gates w_parts]. unfold log_step. cbn [w_parts map].
    assert (Hp' : t_last (p_tuner (provided (vec all f) p)) = Some (vec all f)) by (unfold provided; rewrite Hp; reflexivity). rewrite Hp', index_vec, Es, assign_vec by assumption.
    cbn [s_at s_w s_tr a_status a_path]. unfold save_current_status, AutotunerModel.bind, get_at, call, ret. cbn [s_at a_path s_w s_tr e_write hierarchy].
    instantiate (1 := mk_sys _ _ (match path with None => _ | Some _ => _ end)). destruct path; reflexivity.
  - reflexivity.
  - reflexivity.
  - intros l Hl. cbv beta. rewrite (proj2 (mem_In _ _) Hl). reflexivity.
  - intros l _ Hl. cbv beta. destruct (mem l ls) eqn:El; [|reflexivity]. apply mem_In in El. contradiction.
  - reflexivity.
Qed.
Example pending_voltages_set_ex :
  exists s v, iterate ex_env2 (constructed 1 false (Some (vec ["A"] (fun _ => 1%R))) None (vec ex_all (fun _ => 0%R)) [start (fun _ => 0%R) (ex_low 0 false); start (fun _ => 0%R) ex_high]) = (s, Ok tt) /\
    a_index (s_at s) = 0 /\ w_gates (s_w s) = vec ex_all v /\ v "A" = 1%R /\ v "B" = 0%R.
Proof.
  destruct (pending_voltages_set _ (nw_ops (fd_ops ref_ortho ref_calc) ref_lstsq) (fun s => index (nw_pos s)) (fun s => Some (map (fun g => Some (index (fd_pos g))) (nw_ests s))) ex_device 2
    (start (fun _ => 0%R) (ex_low 0 false)) [start (fun _ => 0%R) ex_high] ex_all (fun _ => 0%R) ["A"] (fun _ => 1%R) 1 false None) as (s & v & H1 & H2 & H3 & H4 & H5 & _).
  - exact ex_nodup.
  - repeat constructor. intros [].
  - intros x [<-|[]]. cbn. auto.
  - lia.
  - reflexivity.
  - intros q [<-|[<-|[]]].
    + split; [exact I|]. split; [intros x Hx; cbn in Hx |- *; intuition|]. cbn. intros e [<-|[]]. eexists. split; [reflexivity|]. split; intros x Hx; cbn in Hx |- *; intuition.
    + split; [exact I|]. split; [intros x Hx; cbn in Hx |- *; intuition|]. cbn. intros e [<-|[<-|[]]]; eexists; (split; [reflexivity|]); split; intros x Hx; cbn in Hx |- *; intuition.
  - exists s, v. split; [exact H1|]. split; [rewrite H2; reflexivity|]. split; [exact H3|]. split; [apply H4; left; reflexivity|apply H5; [cbn; auto|intros [K|[]]; discriminate]].
Qed.

(** C123.  The voltages are never set if the first tuner was made with last
    voltages that have none of the gates: every call raises, KeyError if nothing
    else is wrong, and nothing changes. *)
Theorem pending_voltages_blocked : forall (S : Type) (O : solver_ops S) sg sn results n (p : part S) rest gates v index status path tr m last,
  t_last (p_tuner p) = Some last -> v <> [] -> (forall l, In l (map fst v) -> ~ In l (map fst last)) ->
  let E := hierarchy O sg sn results n in
  let s := mk_sys (mk_at index status (Some v) path) (mk_world gates (p :: rest)) tr in
  let out := iterates E (Datatypes.S m) s in
  (exists e, snd out = Raise e) /\
  s_w (fst out) = s_w s /\ s_at (fst out) = s_at s /\
  (index <> n -> ~ In NaN (map snd v) -> incl (map fst v) (map fst gates) ->
   (forall q, In q (p :: rest) -> coherent sg sn (map fst gates) q) -> snd out = Raise KeyError).
Proof.
  intros S O sg sn results n p rest gates v idx status path tr m last Hp Hv Hd E s out.
  assert (Hsel : select (index v) last = Raise KeyError).
  { unfold select. destruct (index v) as [|l ls] eqn:Ev; [destruct v; [contradiction|discriminate]|]. rewrite <- Ev. destruct (existsb (fun l => mem l (index last)) (index v)) eqn:Ex; [|reflexivity].
    apply existsb_exists in Ex as [x [Hx Hm]]. exfalso. apply (Hd x Hx). apply mem_In in Hm. exact Hm. }
  assert (H : exists e tr', iterate E s = (mk_sys (s_at s) (s_w s) tr', Raise e) /\
    (idx <> n -> ~ In NaN (map snd v) -> incl (map fst v) (map fst gates) ->
     (forall q, In q (p :: rest) -> coherent sg sn (map fst gates) q) -> e = KeyError)).
  { assert (R : exists tr', ready_to_tune E s = (mk_sys (s_at s) (s_w s) tr',
        if subset (index v) (index gates) then views_coherent (index gates) (map (view sg sn) (p :: rest)) true else Raise AssertionError)).
    { unfold ready_to_tune, call, get_at, get_w, lift, raise, AutotunerModel.bind, E, hierarchy, s. cbn [e_read e_views s_w s_at s_tr w_gates w_parts a_to_set].
      destruct (subset (index v) (index gates)); eexists; reflexivity. }
    destruct R as [tr' R]. unfold iterate, AutotunerModel.bind at 1. rewrite R.
    destruct (if subset _ _ then _ else _) as [b|e] eqn:EB; [|exists e, tr'; split; [reflexivity|]].
    - destruct b; cbn [negb]; [|exists RuntimeError, tr'; split; [reflexivity|]].
      + unfold AutotunerModel.bind at 1, get_at. cbn [s_at]. unfold s at 1. cbn [s_at]. unfold is_tuning_complete. cbn [a_index e_n E]. unfold E at 1, hierarchy. cbn [e_n].
        destruct (Nat.eqb_spec idx n) as [En|En]; [exists RuntimeError, tr'; split; [reflexivity|intros; contradiction]|].
        unfold s at 1. cbn [s_at a_to_set]. unfold do_set, AutotunerModel.bind at 1.
        destruct (any_na v) eqn:EN.
        * exists RuntimeError, tr'. split; [reflexivity|]. intros _ Hn. contradiction Hn. unfold any_na in EN. apply existsb_exists in EN as [x [Hx Hna]].
          apply in_map_iff. exists x. split; [|exact Hx]. destruct x as [l [| | |r]]; cbn in Hna |- *; try discriminate. reflexivity.
        * exists KeyError, tr'. split; [|reflexivity]. unfold AutotunerModel.bind, get_w, lift, E, hierarchy. cbn [e_log_step s_w log_step w_parts s]. rewrite Hp, Hsel. reflexivity.
      + intros _ _ Hs Hc. exfalso. change (incl (index v) (index gates)) in Hs. rewrite (proj2 (SeriesLemmas.subset_incl _ _) Hs), views_ok in EB by exact Hc. discriminate.
    - intros _ _ Hs Hc. exfalso. change (incl (index v) (index gates)) in Hs. rewrite (proj2 (SeriesLemmas.subset_incl _ _) Hs), views_ok in EB by exact Hc. discriminate. }
  destruct H as [e [tr' [H HT]]]. unfold out. cbn [iterates]. rewrite H. cbn [fst snd]. split; [eauto|]. split; [reflexivity|]. split; [reflexivity|].
  intros. f_equal. apply HT; assumption.
Qed.
(** The first tuner knows of gate "B" only. *)
Example pending_voltages_blocked_ex :
  let low := start (fun _ => 0%R) (ex_low 0 false) in
  let p := mk_part (with_last (vec ["B"] (fun _ => 0%R)) (p_tuner low)) (p_solver low) (p_limits low) (p_gates low) in
  snd (iterates ex_env2 5 (constructed 0 false (Some [("A", Fin 1%R)]) None (vec ex_all (fun _ => 0%R)) [p; start (fun _ => 0%R) ex_high])) = Raise KeyError.
Proof.
  intros low p.
  apply (pending_voltages_blocked _ (nw_ops (fd_ops ref_ortho ref_calc) ref_lstsq) (fun s => index (nw_pos s)) (fun s => Some (map (fun g => Some (index (fd_pos g))) (nw_ests s))) ex_device 2
    p [provided (vec ex_all (fun _ => 0%R)) (start (fun _ => 0%R) ex_high)] (vec ex_all (fun _ => 0%R)) [("A", Fin 1%R)] 0 false None [] 4 (vec ["B"] (fun _ => 0%R))); [reflexivity|discriminate| |lia| | |].
  - intros l [<-|[]] [K|[]]. discriminate.
  - cbn. intros [K|[]]. discriminate.
  - intros x [<-|[]]. cbn. auto.
  - intros q [<-|[<-|[]]].
    + split; [intros x [<-|[]]; cbn; auto|]. split; [intros x Hx; cbn in Hx |- *; intuition|]. cbn. intros e [<-|[]]. eexists. split; [reflexivity|]. split; intros x Hx; cbn in Hx |- *; intuition.
    + split; [intros x Hx; cbn in Hx |- *; intuition|]. split; [intros x Hx; cbn in Hx |- *; intuition|]. cbn. intros e [<-|[<-|[]]]; eexists; (split; [reflexivity|]); split; intros x Hx; cbn in Hx |- *; intuition.
Qed.

(** C153.  What the constructor provides changes no run: the same calls with the
    same outcomes, voltages and solvers; the only difference is the last
    voltages of tuners that have not been evaluated yet. *)
Theorem constructor_changes_no_run : forall (S : Type) (O : solver_ops S) sg sn results n (parts : list (part S)) gates path m,
  let bare := iterates (hierarchy O sg sn results n) m (fresh path (mk_world gates parts)) in
  let made := iterates (hierarchy O sg sn results n) m (constructed 0 false None path gates parts) in
  snd made = snd bare /\ s_at (fst made) = s_at (fst bare) /\ s_tr (fst made) = s_tr (fst bare) /\ w_gates (s_w (fst made)) = w_gates (s_w (fst bare)) /\
  map p_solver (w_parts (s_w (fst made))) = map p_solver (w_parts (s_w (fst bare))) /\
  w_parts (s_w (fst made)) = map (provided gates) (w_parts (s_w (fst bare))).
Proof.
  intros S O sg sn results n parts gates path m bare made.
  destruct (alike_run O sg sn results n gates m (fresh path (mk_world gates parts)) (constructed 0 false None path gates parts)) as [H1 (H2 & H3 & H4 & H5)].
  - repeat split.
  - split; cbn; [discriminate|]. intros [K|[K|K]]; [contradiction|discriminate|contradiction].
  - apply incl_refl.
  - split; [exact H1|]. split; [exact H2|]. split; [exact H3|]. split; [exact H4|]. split; [|exact H5]. unfold made. rewrite H5, map_map. apply map_ext. intros q. apply provided_solver.
Qed.
(** C153.  So hierarchies complete as the constructor makes them. *)
Theorem constructed_tower_completes :
  forall ortho calc lstsq, ortho_exact ortho -> ortho_unit ortho -> calc_exact calc -> lstsq_shortest lstsq ->
  forall (all : list label) (tower : list storey) results (p0 : label -> R) (rest : list (part (newton fd))) path n,
  NoDup all -> Forall (fun s => well_formed all (fst s)) tower -> stacked all tower -> teachable all p0 tower -> length tower <= n ->
  (forall j b f, nth_error tower j = Some (b, f) -> forall v, results j (vec all v) = Ok (vec (b_measured b) (f v), tab (b_measured b) (b_var b v))) ->
  (forall p, In p rest -> coherent (fun s => index (nw_pos s)) (fun s => Some (map (fun g => Some (index (fd_pos g))) (nw_ests s))) all p) ->
  exists m s v, iterates (newton_hierarchy ortho calc lstsq results n) m (constructed 0 false None path (vec all p0) (map (fun s => start p0 (fst s)) tower ++ rest)) = (s, Ok tt) /\
    s_at s = mk_at (length tower) false None path /\ w_gates (s_w s) = vec all v /\ (forall b f, In (b, f) tower -> hit b f v) /\
    (forall l, In l all -> (forall b f, In (b, f) tower -> ~ In l (b_gates b)) -> v l = p0 l).
Proof.
  intros ortho calc lstsq Ho Hu Hc Hmin all tower results p0 rest path n Hall Hwf Hst Ht Hn Hm Hrest.
  destruct (studied_tower_completes ortho calc lstsq Ho Hu Hc Hmin all tower results p0 rest path n Hall Hwf Hst Ht Hn Hm Hrest) as [m [s [v [H1 [H2 [H3 [H4 H5]]]]]]].
  destruct (constructor_changes_no_run _ (nw_ops (fd_ops ortho calc) lstsq) (fun s => index (nw_pos s)) (fun s => Some (map (fun g => Some (index (fd_pos g))) (nw_ests s))) results n (map (fun s => start p0 (fst s)) tower ++ rest) (vec all p0) path m) as (K1 & K2 & _ & K4 & _).
  fold (newton_hierarchy ortho calc lstsq results n) in K1, K2, K4. rewrite H1 in K1, K2, K4. cbn [fst snd] in K1, K2, K4.
  exists m, (fst (iterates (newton_hierarchy ortho calc lstsq results n) m (constructed 0 false None path (vec all p0) (map (fun s => start p0 (fst s)) tower ++ rest)))), v.
  split; [rewrite <- K1; apply surjective_pairing|]. split; [rewrite K2; exact H2|]. split; [rewrite K4; exact H3|]. split; [exact H4|exact H5].
Qed.
Example constructed_tower_completes_ex :
  exists m s v, iterates sd_env m (constructed 0 false None None (vec cv_all (fun _ => 0%R)) (map (fun s => start (fun _ => 0%R) (fst s)) sd_tower ++ [])) = (s, Ok tt) /\
    is_tuning_complete sd_env (s_at s) = true /\ w_gates (s_w s) = vec cv_all v /\ (9.9 < v "A" + Rabs (v "A") / 8 < 10.1)%R.
Proof.
  destruct (constructed_tower_completes unit_ortho ref_calc ref_lstsq unit_ortho_exact unit_ortho_unit ref_calc_exact ref_lstsq_shortest cv_all sd_tower sd_device (fun _ => 0%R) [] None 3
    cv_nodup sd_wf sd_stacked (proj1 studied_tower_completes_ex) (le_n _) sd_measured) as [m [s [v [H1 [H2 [H3 [H4 _]]]]]]]; [intros p []|].
  exists m, s, v. split; [exact H1|]. split; [rewrite H2; reflexivity|]. split; [exact H3|].
  pose proof (H4 _ _ (or_introl eq_refl) "p" (or_introl eq_refl)) as K1. apply Rabs_def2 in K1. unfold short_of, tw_low in K1. cbn in K1. lra.
Qed.
(** Before the first call the tuner has no last voltages, or the provided ones. *)
Example constructor_changes_no_run_ex :
  map (fun p => t_last (p_tuner p)) (w_parts (s_w (fst (iterates ex_env2 0 (fresh None (mk_world (vec ex_all (fun _ => 0%R)) [start (fun _ => 0%R) (ex_low 0 false)])))))) = [None] /\
  map (fun p => t_last (p_tuner p)) (w_parts (s_w (fst (iterates ex_env2 0 (constructed 0 false None None (vec ex_all (fun _ => 0%R)) [start (fun _ => 0%R) (ex_low 0 false)]))))) = [Some (vec ex_all (fun _ => 0%R))].
Proof. split; reflexivity. Qed.
Print Assumptions pending_voltages_set.
Print Assumptions pending_voltages_blocked.
Print Assumptions constructor_changes_no_run.
Print Assumptions constructed_tower_completes.
