From Verif Require Import PyBase TargetModel TunerModel TunerSpec SeriesLemmas SolverModel NelderMeadModel NelderMeadSpec NelderMeadProofs NelderMeadRuns.
From Coq Require Import Lra Permutation.
Local Open Scope nat_scope.

(** *** Arithmetic of positions *)
Section Points.
Variable ls : list label.
Implicit Types f m w : label -> R.

Lemma get_vec f l : In l ls -> get l (vec ls f) = Fin (f l).
Proof. intros H. rewrite vec_tab. apply get_tab. exact H. Qed.
Lemma reindex_vec f : reindex ls (vec ls f) = vec ls f.
Proof. apply map_ext_in. intros l Hl. rewrite get_vec by assumption. reflexivity. Qed.
Lemma select_vec f : select ls (vec ls f) = Ok (vec ls f).
Proof.
  unfold select. destruct ls as [|l l0] eqn:E; [reflexivity|]. rewrite <- E in *.
  replace (existsb (fun k => mem k (index (vec ls f))) ls) with true; [rewrite reindex_vec; reflexivity|].
  symmetry. rewrite index_vec. apply existsb_exists. exists l. rewrite mem_In, E. split; left; reflexivity.
Qed.

Lemma columns_vec fs : fs <> [] -> columns_of (map (vec ls) fs) = ls.
Proof.
  destruct fs as [|f fs]; [congruence|]. intros _. cbn. rewrite index_vec.
  induction fs as [|g fs IH]; cbn; [reflexivity|]. rewrite index_vec, union_index_same. exact IH.
Qed.
Lemma mean_fin xs : xs <> [] -> mean_of (map Fin xs) = Fin (rsum xs / INR (length xs)).
Proof.
  intros Hne. unfold mean_of.
  assert (Hf : filter (fun x => negb (isna x)) (map Fin xs) = map Fin xs).
  { clear. induction xs as [|x xs IH]; cbn; [reflexivity|]. rewrite IH. reflexivity. }
  rewrite Hf. clear Hf.
  assert (Hs : fold_right nadd (Fin 0) (map Fin xs) = Fin (rsum xs)).
  { clear. induction xs as [|x xs IH]; cbn; [reflexivity|]. rewrite IH. reflexivity. }
  rewrite map_length, Hs. destruct xs as [|x xs]; [congruence|]. cbn [map ndiv].
  destruct (Reqb _ 0) eqn:E; [|reflexivity]. apply Reqb_true in E. exfalso.
  revert E. apply not_0_INR. cbn. lia.
Qed.
Lemma mean_vec fs : fs <> [] -> mean (map (vec ls) fs) = vec ls (centroid fs).
Proof.
  intros Hne. unfold mean. rewrite columns_vec by assumption. apply map_ext_in. intros l Hl. f_equal.
  unfold centroid. rewrite <- (map_length (fun f => f l) fs), <- mean_fin by (destruct fs; cbn; congruence).
  f_equal. rewrite !map_map. apply map_ext. intros f. apply get_vec. exact Hl.
Qed.
Lemma stimes_vec c f : stimes c (vec ls f) = vec ls (fun l => c * f l)%R.
Proof. unfold stimes. rewrite vec_tab, smap_tab. reflexivity. Qed.
Lemma shalf_vec f : shalf (vec ls f) = vec ls (fun l => f l / 2)%R.
Proof.
  unfold shalf. rewrite vec_tab, smap_tab. apply tab_ext. intros l Hl. cbn.
  destruct (Reqb 2 0) eqn:E; [apply Reqb_true in E; lra|reflexivity].
Qed.
Lemma reflected_vec m w : reflected (vec ls m) (vec ls w) = vec ls (fun l => 2 * m l - w l)%R.
Proof. unfold reflected. rewrite stimes_vec, ssub_vec. reflexivity. Qed.
Lemma expanded_vec m w : expanded (vec ls m) (vec ls w) = vec ls (fun l => m l + 2 * (m l - w l))%R.
Proof. unfold expanded. rewrite ssub_vec, stimes_vec, sadd_vec. reflexivity. Qed.
Lemma contracted_out_vec m w : contracted_out (vec ls m) (vec ls w) = vec ls (fun l => m l + (m l - w l) / 2)%R.
Proof.
  unfold contracted_out. rewrite reflected_vec, ssub_vec, shalf_vec, sadd_vec. apply vec_ext. intros l _. lra.
Qed.
Lemma contracted_in_vec m w : contracted_in (vec ls m) (vec ls w) = vec ls (fun l => m l + (w l - m l) / 2)%R.
Proof. unfold contracted_in. rewrite ssub_vec, shalf_vec, sadd_vec. reflexivity. Qed.

Lemma last_map {A B} (g : A -> B) l a : last (map g l) (g a) = g (last l a).
Proof. induction l as [|x l IH]; [reflexivity|]. destruct l; [reflexivity|]. exact IH. Qed.

(** The suggestions of a complete simplex. *)
Lemma suggest_full ortho st f fs : placed ls (f :: fs) st -> length (nm_pos st) < length (nm_simplex st) ->
  let m := centroid (f :: fs) in let w := last fs f in
  let st' := with_phase Reflect st in
  nm_suggest ortho st =
  match nm_phase_ st with
  | StartIteration | Reflect => (st', Ok (vec ls (fun l => 2 * m l - w l)%R))
  | Expand => (st, Ok (vec ls (fun l => m l + 2 * (m l - w l))%R))
  | ContractOutside => (st, Ok (vec ls (fun l => m l + (m l - w l) / 2)%R))
  | ContractInside => (st, Ok (vec ls (fun l => m l + (w l - m l) / 2)%R))
  | Shrink => if Nat.eqb (length (nm_shrunk st) + 1) (length (nm_simplex st)) then (st, Raise RuntimeError)
              else match nth_error fs (length (nm_shrunk st)) with
                   | Some g => (st, Ok (vec ls (fun l => f l + (g l - f l) / 2)%R))
                   | None => (st, Raise IndexError)
                   end
  | BuildUp => (st, Raise RuntimeError)
  end.
Proof.
  intros Hp Hl. unfold nm_suggest. unfold placed in Hp. rewrite Hp. cbn [map].
  rewrite <- (map_cons (vec ls)), mean_vec by congruence.
  replace (last (map (vec ls) (f :: fs)) (vec ls f)) with (vec ls (last fs f)).
  2:{ rewrite last_map. destruct fs; reflexivity. }
  rewrite (proj2 (Nat.ltb_ge _ _)) by lia. cbv zeta.
  destruct (nm_phase_ st).
  - rewrite reflected_vec. reflexivity.
  - reflexivity.
  - rewrite reflected_vec. reflexivity.
  - rewrite expanded_vec. reflexivity.
  - rewrite contracted_out_vec. reflexivity.
  - rewrite contracted_in_vec. reflexivity.
  - destruct (Nat.eqb _ _); [reflexivity|]. rewrite (Nat.add_1_r (length (nm_shrunk st))). cbn [nth_error map].
    rewrite nth_error_map. destruct (nth_error fs _); cbn; [|reflexivity].
    rewrite ssub_vec, shalf_vec, sadd_vec. reflexivity.
Qed.

(** *** Boxes *)
Lemma in_box_mid lo hi p q : in_box ls lo hi p -> in_box ls lo hi q ->
  in_box ls lo hi (sadd p (shalf (ssub q p))).
Proof.
  intros [f [-> Hf]] [g [-> Hg]]. rewrite ssub_vec, shalf_vec, sadd_vec. eexists. split; [reflexivity|].
  intros l Hl. specialize (Hf l Hl). specialize (Hg l Hl). cbn. lra.
Qed.
Lemma rsum_bounds lo hi xs : (forall x, In x xs -> lo <= x <= hi)%R -> (INR (length xs) * lo <= rsum xs <= INR (length xs) * hi)%R.
Proof.
  induction xs as [|x xs IH]; intros H; [cbn; lra|].
  assert (H1 := H x (or_introl eq_refl)). assert (H2 := IH (fun y Hy => H y (or_intror Hy))).
  cbn [length rsum fold_right]. rewrite S_INR. fold (rsum xs). lra.
Qed.
Lemma centroid_bounds lo hi fs l : fs <> [] -> (forall f, In f fs -> lo <= f l <= hi)%R -> (lo <= centroid fs l <= hi)%R.
Proof.
  intros Hne H. unfold centroid.
  assert (Hb : (INR (length fs) * lo <= rsum (map (fun f => f l) fs) <= INR (length fs) * hi)%R).
  { rewrite <- (map_length (fun f => f l) fs). apply rsum_bounds. intros x Hx. apply in_map_iff in Hx.
    destruct Hx as [f [<- Hf]]. auto. }
  assert (Hn : (0 < INR (length fs))%R) by (apply lt_0_INR; destruct fs; cbn; [congruence|lia]).
  unfold Rdiv. split; apply Rmult_le_reg_r with (INR (length fs)); try assumption; rewrite Rmult_assoc, Rinv_l; lra.
Qed.
Lemma boxed_vec lo hi ps : (forall p, In p ps -> in_box ls lo hi p) ->
  exists fs, ps = map (vec ls) fs /\ forall f l, In f fs -> In l ls -> (lo l <= f l <= hi l)%R.
Proof.
  induction ps as [|p ps IH]; intros H; [exists []; split; [reflexivity|intros f l []]|].
  destruct IH as [fs [-> Hfs]]; [auto using in_cons|]. destruct (H p (or_introl eq_refl)) as [f [-> Hf]].
  exists (f :: fs). split; [reflexivity|]. intros g l [<-|Hg] Hl; auto.
Qed.
Lemma in_box_mean lo hi ps : ps <> [] -> (forall p, In p ps -> in_box ls lo hi p) -> in_box ls lo hi (mean ps).
Proof.
  intros Hne H. destruct (boxed_vec _ _ _ H) as [fs [-> Hfs]].
  assert (fs <> []) by (intros ->; apply Hne; reflexivity).
  rewrite mean_vec by assumption. eexists. split; [reflexivity|]. intros l Hl. apply centroid_bounds; auto.
Qed.
End Points.

(** *** The phases that are never left *)
Section Phases.
Variable cost : series -> num.
Variable ortho : list (list num) -> res (list num).

Lemma call_phase st o : length (nm_pos st) < length (nm_simplex st) -> ~ reflecting (nm_phase_ st) ->
  let st' := nm_call cost ortho st o in
  length (nm_simplex st') = length (nm_simplex st) /\ ~ reflecting (nm_phase_ st') /\
  (nm_phase_ st' = nm_phase_ st \/
   (nm_phase_ st' = Shrink /\ (nm_phase_ st = ContractOutside \/ nm_phase_ st = ContractInside))) /\
  nm_refl st' = nm_refl st.
Proof.
  intros Hl Hp. cbv zeta. destruct o as [|p v]; cbn [nm_call].
  - destruct (nm_suggest ortho st) as [st' r] eqn:E. apply suggest_inv in E. cbn [fst].
    destruct E as [_ [-> [_ [-> [_ [_ [_ [->|[[H _]|[_ [H _]]]]]]]]]]]; [auto|lia|].
    exfalso. apply Hp. left. exact H.
  - destruct (nm_update cost p v st) as [st' r] eqn:E. cbn [fst]. apply update_inv in E.
    destruct E as [[_ ->]|[p' [v' [st1 [_ [_ [E [_ [-> [_ [-> [_ [-> _]]]]]]]]]]]]]; [auto|].
    assert (Hs : length (nm_simplex st1) = length (nm_simplex st)).
    { destruct (step_effect _ _ _ _ _ _ E) as [_ [_ [_ [[H _]|[_ [es [-> _]]]]]]]; [lia|]. apply fold_insert_length. }
    split; [exact Hs|]. clear Hs. revert E. unfold nm_step. cbv zeta. rewrite (proj2 (Nat.ltb_ge _ _)) by lia.
    destruct (nm_phase_ st) eqn:Ep; try (exfalso; apply Hp; unfold reflecting; auto; fail).
    + destruct (nm_refl st) eqn:Er; injection 1; intros; subst st1 r; cbn; rewrite Ep, ?Er; auto.
    + destruct (nm_refl st) eqn:Er; [destruct (nltb _ _)|]; injection 1; intros; subst st1 r; cbn; rewrite ?Ep, ?Er;
        (split; [unfold reflecting; intuition congruence|]); auto.
    + destruct (nltb _ _); injection 1; intros; subst st1 r; cbn; rewrite ?Ep;
        (split; [unfold reflecting; intuition congruence|]); auto.
    + destruct (Nat.eqb _ _); injection 1; intros; subst st1 r; cbn; rewrite ?Ep;
        (split; [unfold reflecting; intuition congruence|]); auto.
Qed.

Lemma run_phase ops : forall st, length (nm_pos st) < length (nm_simplex st) -> ~ reflecting (nm_phase_ st) ->
  let st' := nm_run cost ortho st ops in
  length (nm_simplex st') = length (nm_simplex st) /\ length (nm_pos st') = length (nm_pos st) /\ ~ reflecting (nm_phase_ st') /\
  (nm_phase_ st' = nm_phase_ st \/
   (nm_phase_ st' = Shrink /\ (nm_phase_ st = ContractOutside \/ nm_phase_ st = ContractInside))) /\
  nm_refl st' = nm_refl st.
Proof.
  induction ops as [|o ops IH]; intros st Hl Hp; [cbn; auto 8|].
  destruct (call_phase st o Hl Hp) as [H1 [H2 [H3 H4]]]. pose proof (call_pos cost ortho st o) as H5.
  destruct (IH (nm_call cost ortho st o)) as [G1 [G2 [G3 [G4 G5]]]]; [lia|exact H2|].
  cbv zeta. change (nm_run cost ortho st (o :: ops)) with (nm_run cost ortho (nm_call cost ortho st o) ops).
  rewrite G1, G2, G5, H1, H4, H5. repeat split; auto.
  destruct G4 as [G4|[G4 G6]]; rewrite G4.
  - exact H3.
  - right. split; [reflexivity|]. destruct H3 as [H3|[H3 H6]]; [rewrite <- H3; exact G6|exact H6].
Qed.

(** *** Collapse in the expansion phase *)
Hypothesis Hc : ordered cost.
Lemma place_repeat t r l : forall k, (forall y, In y l -> nltb (entry_cost cost t r) (entry_cost cost t y) = true) ->
  place cost t r (repeat r k ++ l) = repeat r (S k) ++ l.
Proof.
  induction k as [|k IH]; intros H; cbn.
  - destruct l as [|y l]; cbn; [reflexivity|]. rewrite H by (left; reflexivity). reflexivity.
  - rewrite nltb_nleb, nleb_refl by (apply ec_nan; exact Hc). cbn. f_equal. apply IH. exact H.
Qed.
Lemma asc_repeat t r l k : asc cost t l -> (forall y, In y l -> nleb (entry_cost cost t r) (entry_cost cost t y) = true) ->
  asc cost t (repeat r k ++ l).
Proof.
  intros Hl H. induction k as [|k IH]; cbn; [exact Hl|]. constructor; [|exact IH].
  intros y Hy. apply in_app_iff in Hy. destruct Hy as [Hy|Hy]; [|auto].
  apply repeat_spec in Hy. subst. apply nleb_refl, ec_nan. exact Hc.
Qed.
Lemma repeat_snoc {A} (x : A) k : repeat x (S k) = repeat x k ++ [x].
Proof. induction k as [|k IH]; [reflexivity|]. cbn in *. rewrite <- IH. reflexivity. Qed.
Lemma insert_repeat t r l k : asc cost t l -> (forall y, In y l -> nltb (entry_cost cost t r) (entry_cost cost t y) = true) ->
  insert_into cost t (repeat r k ++ l) r = match l with [] => repeat r k | _ => repeat r (S k) ++ removelast l end.
Proof.
  intros Hl H. rewrite insert_into_place; [|exact Hc|].
  2:{ apply asc_repeat; [exact Hl|]. intros y Hy. specialize (H y Hy). rewrite nltb_nleb in H by (apply ec_nan; exact Hc).
      apply negb_true_iff in H. apply nleb_total; auto; apply ec_nan; exact Hc. }
  rewrite place_repeat by exact H. destruct l as [|y l].
  - rewrite app_nil_r, repeat_snoc, removelast_app by congruence. cbn. apply app_nil_r.
  - rewrite removelast_app by congruence. reflexivity.
Qed.

(** The update of the expansion phase when the new point is not better. *)
Lemma expand_update st p v r : length (nm_pos st) < length (nm_simplex st) -> nm_phase_ st = Expand -> nm_refl st = Some r ->
  nleb (entry_cost cost (nm_target st) r) (cost (deviation (nm_target st) (reindex (index (nm_vals st)) v))) = true ->
  let (st', a) := nm_update cost p v st in
  nm_simplex st' = (match a with Ok _ => insert_into cost (nm_target st) (nm_simplex st) r | Raise _ => nm_simplex st end).
Proof.
  intros Hl Hp Hr Hv. destruct (nm_update cost p v st) as [st' a] eqn:E. apply update_inv in E.
  destruct E as [[-> ->]|[p' [v' [st1 [_ [-> [E [_ [-> _]]]]]]]]]; [reflexivity|].
  revert E. unfold nm_step. cbv zeta. rewrite (proj2 (Nat.ltb_ge _ _)) by lia. rewrite Hp, Hr.
  change (nm_cost cost (nm_target st) (reindex (index (nm_vals st)) v)) with (cost (deviation (nm_target st) (reindex (index (nm_vals st)) v))).
  rewrite nltb_nleb by (apply Hc || (apply ec_nan; exact Hc)). rewrite Hv. cbn [negb].
  injection 1; intros; subst st1 a. reflexivity.
Qed.

Definition not_better (r : entry) (st : nm) (ops : list nm_op) : Prop :=
  forall p v, In (OUpdate p v) ops ->
  nleb (cost (deviation (nm_target st) (snd r))) (cost (deviation (nm_target st) (reindex (index (nm_vals st)) v))) = true.

Lemma collapse r ops : forall st k l, length (nm_pos st) < length (nm_simplex st) -> nm_phase_ st = Expand -> nm_refl st = Some r ->
  nm_simplex st = repeat r k ++ l -> asc cost (nm_target st) l ->
  (forall y, In y l -> nltb (entry_cost cost (nm_target st) r) (entry_cost cost (nm_target st) y) = true) ->
  not_better r st ops -> length l <= accepted cost ortho st ops ->
  nm_simplex (nm_run cost ortho st ops) = repeat r (k + length l).
Proof.
  induction ops as [|o ops IH]; intros st k l Hl Hp Hr Hs Ha Hb Hn Hacc.
  - cbn in *. assert (l = []) by (destruct l; [reflexivity|cbn in Hacc; lia]). subst. rewrite Hs. cbn. rewrite app_nil_r, Nat.add_0_r. reflexivity.
  - change (nm_run cost ortho st (o :: ops)) with (nm_run cost ortho (nm_call cost ortho st o) ops).
    assert (Hnr : ~ reflecting (nm_phase_ st)) by (rewrite Hp; unfold reflecting; intuition congruence).
    destruct (call_phase st o Hl Hnr) as [H1 [_ [H3 H4]]]. pose proof (call_pos cost ortho st o) as H5.
    destruct (call_frame cost ortho st o) as [F1 [F2 F3]].
    assert (H3' : nm_phase_ (nm_call cost ortho st o) = Expand) by (rewrite Hp in H3; destruct H3 as [H3|[_ [H3|H3]]]; congruence).
    assert (Hn' : not_better r (nm_call cost ortho st o) ops).
    { unfold not_better. rewrite F1, F3. intros p v Hin. apply (Hn p). right. exact Hin. }
    destruct o as [|p v].
    + assert (Hs' : nm_simplex (nm_call cost ortho st OSuggest) = nm_simplex st); [|apply IH; rewrite ?F1; auto; try congruence; lia].
      cbn [nm_call]. destruct (nm_suggest ortho st) as [st' a] eqn:E. apply suggest_inv in E. cbn [fst]. destruct E as [_ [-> _]]. reflexivity.
    + assert (Hu := expand_update st p v r Hl Hp Hr (Hn p v (or_introl eq_refl))).
      cbn [accepted nm_call] in *. destruct (nm_update cost p v st) as [st' a]. cbn [fst snd] in *.
      destruct a as [u|e].
      * rewrite Hs, insert_repeat in Hu by assumption. destruct l as [|y l].
        -- apply (IH st' k []); try rewrite app_nil_r; try congruence; auto; try lia; try constructor; try (intros y []); cbn; lia.
        -- rewrite (IH st' (S k) (removelast (y :: l))); try congruence; auto; try lia.
           ++ f_equal. rewrite removelast_length. cbn [length]. lia.
           ++ rewrite F1. apply removelast_asc. exact Ha.
           ++ rewrite F1. intros z Hz. apply Hb. apply removelast_in. exact Hz.
           ++ rewrite removelast_length. cbn [length] in *. lia.
      * apply IH; try congruence; auto; try rewrite F1; auto; lia.
Qed.
End Phases.

Lemma rsum_repeat x k : rsum (repeat x k) = (INR k * x)%R.
Proof. induction k as [|k IH]; [cbn; lra|]. cbn [repeat rsum fold_right]. rewrite S_INR. fold (rsum (repeat x k)). rewrite IH. lra. Qed.
Lemma centroid_repeat f k l : centroid (repeat f (S k)) l = f l.
Proof.
  unfold centroid. rewrite repeat_length.
  replace (map (fun g : label -> R => g l) (repeat f (S k))) with (repeat (f l) (S k)).
  2:{ clear. induction k as [|k IH]; [reflexivity|]. cbn in *. rewrite IH. reflexivity. }
  rewrite rsum_repeat. field. apply not_0_INR. lia.
Qed.
Lemma last_repeat {A} (x : A) k : last (repeat x k) x = x.
Proof. induction k as [|k IH]; [reflexivity|]. cbn [repeat last]. destruct k; [reflexivity|]. exact IH. Qed.

(** Once collapsed, the expansion is the same point again. *)
Lemma collapsed_suggest ortho ls f v n st : nm_simplex st = repeat (vec ls f, v) (S n) -> length (nm_pos st) < length (nm_simplex st) ->
  nm_phase_ st = Expand -> nm_suggest ortho st = (st, Ok (vec ls f)).
Proof.
  intros Hs Hl Hp. assert (Hpl : placed ls (f :: repeat f n) st).
  { unfold placed. rewrite Hs. clear. cbn. f_equal. induction n as [|n IH]; [reflexivity|]. cbn. rewrite IH. reflexivity. }
  rewrite (suggest_full ls ortho st f (repeat f n) Hpl Hl), Hp.
  do 2 f_equal. apply vec_ext. intros l _. change (f :: repeat f n) with (repeat f (S n)). rewrite centroid_repeat, last_repeat. lra.
Qed.
