From Verif Require Import PyBase TargetModel TunerModel TunerSpec SeriesLemmas TunerProofs SolverModel SolverSpec SensingDotProofs NewtonModel EstimatorModel NewtonSpec NewtonProofs.
From Coq Require Import Lra ZArith.

Lemma intersect_values_nil ls s : intersect_values ls s = [].
Proof.
  unfold intersect_values. induction ls as [|l ls IH]; cbn; [reflexivity|].
  replace (existsb _ s) with false; [assumption|]. symmetry. induction s; cbn; auto.
Qed.
Lemma set_est_position_same cur new : set_est_position cur new = Ok cur.
Proof. unfold set_est_position. rewrite intersect_values_nil. reflexivity. Qed.

(** *** C35 *)
Lemma fd_restart_same v st : fd_restart v st = (st, Ok tt).
Proof. unfold fd_restart. rewrite set_est_position_same. destruct st; reflexivity. Qed.
Lemma ke_restart_same K v (st : kal K) : ke_restart v st = (mk_kal (ke_filter st) (ke_pos st) None, Ok tt).
Proof. unfold ke_restart. rewrite set_est_position_same. reflexivity. Qed.

Lemma move_position_get cur v l : NoDup (index cur) -> NoDup (index v) -> In l (index cur) ->
  get l (move_position cur v) = (if mem l (index v) then get l v else get l cur).
Proof.
  intros H1 H2 Hl. unfold move_position. rewrite reindex_tab.
  set (ls := intersection (index cur) (index v)).
  assert (Hnd : NoDup ls) by (apply NoDup_filter; assumption).
  rewrite (is_tab cur H1) at 1. rewrite assign_fold_tab; [|assumption|rewrite index_tab; assumption].
  rewrite get_tab by assumption. rewrite lookup_tab.
  assert (Hm : mem l ls = mem l (index v)).
  { destruct (mem l (index v)) eqn:Hv.
    - apply mem_In. apply filter_In. auto.
    - apply mem_false. intros H. apply filter_In in H. destruct H as [_ H]. cbn in H. congruence. }
  rewrite Hm. destruct (mem l (index v)); reflexivity.
Qed.

Lemma restart_ests_fd ortho calc v gs : restart_ests (fd_ops ortho calc) v gs = (gs, Ok tt).
Proof. induction gs as [|g gs IH]; cbn; [reflexivity|]. rewrite fd_restart_same, IH. reflexivity. Qed.

(** *** C34 *)
Section K.
Context {K : Type} (k_grad : K -> list num) (k_update : list num -> num -> num -> K -> K * res unit)
        (k_require : list label -> option (list series) -> kal K -> res (option series)).
Local Notation E := (ke_ops k_grad k_update k_require).

Lemma steps_vec ls p q : steps (vec ls p) (vec ls q) = vec ls (fun l => p l - q l)%R.
Proof.
  unfold steps. rewrite ssub_vec. unfold vec. induction ls as [|l ls IH]; cbn; [reflexivity|]. f_equal. assumption.
Qed.
Lemma select_vec ls all p : ls <> [] -> incl ls all -> select ls (vec all p) = Ok (vec ls p).
Proof.
  intros Hne Hinc. unfold select. destruct ls as [|l0 ls]; [contradiction|].
  replace (existsb _ _) with true.
  - f_equal. rewrite reindex_tab, !vec_tab. apply tab_ext. intros l Hl. apply get_tab. auto.
  - symmetry. apply existsb_exists. exists l0. split; [left; reflexivity|]. apply mem_In. rewrite index_vec. apply Hinc. left; reflexivity.
Qed.

Lemma kal_feeds ls all ops : forall st last,
  ls <> [] -> incl ls all ->
  (forall d y v k, snd (k_update d y v k) = Ok tt) ->
  knows ls st last ->
  ke_filter (est_run E (map (kal_call all) ops) st) = fold_left (feed k_update) (feeds ls last ops) (ke_filter st).
Proof.
  induction ops as [|op ops IH]; intros st last Hne Hinc Hok Hk; [reflexivity|].
  change (est_run E (map (kal_call all) (op :: ops)) st) with (est_run E (map (kal_call all) ops) (est_do E (kal_call all op) st)).
  destruct op as [p x var|v|gates tj].
  - cbn [kal_call est_do]. change (map (fun l => (l, Fin (p l))) all) with (vec all p). cbn [feeds].
    cbn [eo_update ke_ops]. unfold ke_update. destruct Hk as [Hi Hk]. rewrite Hi, (select_vec ls all p Hne Hinc).
    destruct last as [[q y]|].
    + destruct Hk as [Hq Hy]. rewrite Hy, Hq, steps_vec, nnorm_vec. cbn [nltb].
      change (fold_right (fun (l : label) (acc : R) => ((p l - q l) * (p l - q l) + acc)%R) 0%R ls)
        with (fold_right (fun (l : label) (acc : R) => ((fun l => p l - q l) l * (fun l => p l - q l) l + acc)%R) 0%R ls).
      fold (rnorm ls (fun l => (p l - q l)%R)).
      unfold Rltb. destruct (Rlt_dec _ _) as [Hlt|Hge]; cbn [negb].
      * cbn [app]. rewrite (IH _ (Some (p, x)) Hne Hinc Hok); [reflexivity|]. split; [apply index_vec|]. split; reflexivity.
      * destruct (k_update _ _ _ (ke_filter st)) as [f r] eqn:Hf.
        pose proof (Hok (map snd (vec ls (fun l => (p l - q l)%R))) (nsub (Fin x) (Fin y)) var (ke_filter st)) as Hr.
        rewrite Hf in Hr. cbn in Hr. subst r.
        rewrite (IH _ (Some (p, x)) Hne Hinc Hok); [|split; [apply index_vec|split; reflexivity]].
        cbn [fst ke_filter]. cbn [app]. cbn [fold_left]. f_equal. unfold feed. cbn [fst snd].
        replace (map (fun l => Fin (p l - q l)) ls) with (map snd (vec ls (fun l => (p l - q l)%R))) by (unfold vec; rewrite map_map; reflexivity).
        replace (Fin (x - y)) with (nsub (Fin x) (Fin y)) by reflexivity. rewrite Hf. reflexivity.
    + rewrite Hk. rewrite (IH _ (Some (p, x)) Hne Hinc Hok); [reflexivity|].
      split; [apply index_vec|]. split; reflexivity.
  - cbn [kal_call est_do feeds]. cbn [eo_restart ke_ops]. rewrite ke_restart_same.
    rewrite (IH _ None Hne Hinc Hok); [reflexivity|]. destruct Hk as [Hi _]. split; [assumption|reflexivity].
  - cbn [kal_call est_do feeds]. cbn. apply IH; auto.
Qed.

Lemma ke_update_safe pos value cov st st' e :
  ke_update k_update pos value cov st = (st', Raise e) -> ke_pos st' = ke_pos st /\ ke_val st' = ke_val st.
Proof.
  unfold ke_update. destruct (select _ _); [|intros H; inversion H; auto].
  destruct (ke_val st) as [last|] eqn:Hv; [|discriminate].
  destruct (negb _); [destruct (k_update _ _ _ _) as [f [u|e']]|]; intros H; inversion H; subst; auto.
Qed.

(** *** C36 *)
Variable ortho : list (list num) -> res (list num).
Variable calc : list measurement -> res (list num * list (list num)).
Local Notation SI := (si_ops k_grad k_update k_require ortho calc).
Local Notation FD := (fd_ops ortho calc).

Lemma selfinit_step op (st : @selfinit K) :
  si_kal st = None -> si_kal (est_do SI op st) = None /\ si_fd (est_do SI op st) = est_do FD op (si_fd st).
Proof.
  intros Hk. destruct op as [gates tj|p x v|v]; cbn.
  - rewrite Hk. destruct (fd_require ortho gates tj (si_fd st)); auto.
  - unfold si_update. rewrite Hk. destruct (fd_update calc p x v (si_fd st)) as [f [u|e]]; cbn; [|auto].
    destruct (fd_est f); cbn; auto.
  - rewrite fd_restart_same, Hk. cbn. auto.
Qed.

Lemma selfinit_run ops : forall (st : @selfinit K),
  si_kal st = None -> si_kal (est_run SI ops st) = None /\ si_fd (est_run SI ops st) = est_run FD ops (si_fd st).
Proof.
  induction ops as [|op ops IH]; intros st Hk; [auto|].
  cbn. destruct (selfinit_step op st Hk) as [H1 H2]. destruct (IH _ H1) as [H3 H4]. unfold est_run in *. rewrite H4, H2. auto.
Qed.

Lemma selfinit_update p x v (st : @selfinit K) :
  si_kal st = None ->
  snd (eo_update SI p x v st) =
    match snd (fd_update calc p x v (si_fd st)) with
    | Raise e => Raise e
    | Ok _ => if fd_est (fst (fd_update calc p x v (si_fd st))) then Raise TypeError else Ok tt
    end.
Proof.
  intros Hk. cbn. unfold si_update. rewrite Hk. destruct (fd_update calc p x v (si_fd st)) as [f [[]|e]]; cbn; [|reflexivity].
  destruct (fd_est f); reflexivity.
Qed.
End K.

(** *** C53, C54 *)
Section F.
Variable ortho : list (list num) -> res (list num).
Variable calc : list measurement -> res (list num * list (list num)).
Local Notation FD := (fd_ops ortho calc).

Lemma fd_frozen_step op st : unknown (fd_pos st) = false -> fd_est st <> None -> est_do FD op st = st.
Proof.
  intros Hu He. destruct op as [gates tj|p x v|v]; cbn.
  - unfold fd_require. rewrite Hu. destruct (fd_est st); [reflexivity|contradiction].
  - unfold fd_update. rewrite Hu. destruct (fd_est st); [reflexivity|contradiction].
  - rewrite fd_restart_same. reflexivity.
Qed.
Lemma fd_frozen ops : forall st, unknown (fd_pos st) = false -> fd_est st <> None -> est_run FD ops st = st.
Proof.
  induction ops as [|op ops IH]; intros st Hu He; [reflexivity|]. cbn. rewrite fd_frozen_step by assumption. apply IH; assumption.
Qed.

Lemma fd_stuck_step op st :
  unknown (fd_pos st) = false -> fd_est st = None -> (full st <= length (fd_stored st))%nat ->
  let st' := est_do FD op st in
  fd_pos st' = fd_pos st /\ fd_sym st' = fd_sym st /\ fd_est st' = None /\ (full st <= length (fd_stored st'))%nat.
Proof.
  intros Hu He Hl. destruct op as [gates tj|p x v|v]; cbn.
  - unfold fd_require. rewrite Hu, He. destruct (fd_point ortho gates st); cbn; rewrite ?He; auto.
  - unfold fd_update. rewrite Hu, He. destruct (select _ _) as [q|]; cbn; [|auto].
    unfold fd_finish. cbn. rewrite app_length. cbn.
    unfold full in Hl. destruct (fd_sym st) eqn:Hs.
    + destruct (Nat.eqb_spec (length (fd_stored st) + 1) (length (fd_pos st) + (length (fd_pos st) + 0))) as [Heq|]; [lia|].
      cbn. rewrite app_length. cbn. unfold full. rewrite Hs. repeat split; auto. lia.
    + destruct (Nat.eqb_spec (length (fd_stored st) + 1) (length (fd_pos st) + 1)) as [Heq|]; [lia|].
      cbn. rewrite app_length. cbn. unfold full. rewrite Hs. repeat split; auto. lia.
  - rewrite fd_restart_same. cbn. auto.
Qed.
Lemma fd_stuck ops : forall st,
  unknown (fd_pos st) = false -> fd_est st = None -> (full st <= length (fd_stored st))%nat ->
  fd_pos (est_run FD ops st) = fd_pos st /\ fd_sym (est_run FD ops st) = fd_sym st /\
  fd_est (est_run FD ops st) = None /\ (full st <= length (fd_stored (est_run FD ops st)))%nat.
Proof.
  induction ops as [|op ops IH]; intros st Hu He Hl; [auto|]. cbn.
  destruct (fd_stuck_step op st Hu He Hl) as [H1 [H2 [H3 H4]]]. cbn in *.
  destruct (IH (est_do FD op st)) as [K1 [K2 [K3 K4]]]; try congruence.
  - unfold full in *. rewrite H1, H2. assumption.
  - unfold full in *. rewrite H1, H2 in *. unfold est_run in *. rewrite K1, K2. auto.
Qed.

Lemma all_ok_length {A} (l : list (res A)) r : all_ok l = Ok r -> length r = length l.
Proof.
  revert r. induction l as [|[a|e] l IH]; cbn; intros r H; [inversion H; reflexivity| |discriminate].
  destruct (all_ok l) as [r0|]; [|discriminate]. inversion H; subst. cbn. rewrite (IH r0); reflexivity.
Qed.

Lemma fd_stuck_request gates tj st :
  unknown (fd_pos st) = false -> fd_est st = None -> fd_sym st = false ->
  (full st <= length (fd_stored st))%nat -> exists e, snd (fd_require ortho gates tj st) = Raise e.
Proof.
  intros Hu He Hs Hl. unfold full in Hl. rewrite Hs in Hl. unfold fd_require. rewrite Hu, He. unfold fd_point.
  destruct (all_ok _) as [pts|] eqn:Ha; [|eexists; reflexivity].
  apply all_ok_length in Ha. rewrite map_length in Ha.
  destruct (select gates (fd_pos st)); [|eexists; reflexivity].
  destruct (select gates (fd_eps st)); [|eexists; reflexivity].
  rewrite Hs. destruct pts as [|p0 pts]; [cbn in Ha; lia|].
  destruct (Nat.eqb_spec (length (p0 :: pts)) 1) as [H1|H1].
  { assert (H0 : length (fd_pos st) = 0%nat) by lia. destruct (fd_pos st); [cbn in Hu; discriminate|discriminate]. }
  destruct (Nat.leb_spec (length (p0 :: pts)) (length (fd_pos st))); [lia|]. eexists; reflexivity.
Qed.

Lemma fd_failed_update p x v st st' e :
  unknown (fd_pos st) = false -> fd_est st = None ->
  fd_update calc p x v st = (st', Raise e) -> (length (fd_stored st) < length (fd_stored st'))%nat ->
  fd_est st' = None /\ fd_pos st' = fd_pos st /\ fd_sym st' = fd_sym st /\ (full st' <= length (fd_stored st'))%nat.
Proof.
  intros Hu He. unfold fd_update. rewrite Hu, He. destruct (select _ _) as [q|]; [|intros H; inversion H; subst; lia].
  unfold fd_finish. cbn. rewrite app_length. cbn. destruct (fd_sym st) eqn:Hs.
  - destruct (Nat.eqb_spec (length (fd_stored st) + 1) (length (fd_pos st) + (length (fd_pos st) + 0))) as [Heq|]; [|discriminate].
    destruct (calc _) as [[g c]|]; [discriminate|]. intros H _; inversion H; subst. unfold full. cbn. rewrite Hs, app_length. cbn. repeat split; auto. lia.
  - destruct (Nat.eqb_spec (length (fd_stored st) + 1) (length (fd_pos st) + 1)) as [Heq|]; [|discriminate].
    destruct (calc _) as [[g c]|]; [discriminate|]. intros H _; inversion H; subst. unfold full. cbn. rewrite Hs, app_length. cbn. repeat split; auto. lia.
Qed.
End F.
