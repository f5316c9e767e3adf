(** Lemmas about series, labels and vectors. *)
From Verif Require Import PyBase TargetModel TunerModel TunerSpec.
From Coq Require Import Lra.

Lemma mem_In l ls : mem l ls = true <-> In l ls.
Proof.
  unfold mem. rewrite existsb_exists. split.
  - intros [x [Hin Hx]]. apply String.eqb_eq in Hx. subst; assumption.
  - intros H. exists l; split; [assumption|apply String.eqb_refl].
Qed.
Lemma mem_false l ls : mem l ls = false <-> ~ In l ls.
Proof. rewrite <- mem_In. destruct (mem l ls); split; congruence. Qed.
Lemma subset_incl a b : subset a b = true <-> incl a b.
Proof.
  unfold subset, incl. rewrite forallb_forall. split; intros H l Hl; apply mem_In; auto.
Qed.

Lemma Rltb_true a b : Rltb a b = true <-> (a < b)%R.
Proof. unfold Rltb. destruct (Rlt_dec a b); split; intros; auto; discriminate. Qed.
Lemma Rltb_false a b : Rltb a b = false <-> (b <= a)%R.
Proof. unfold Rltb. destruct (Rlt_dec a b); split; intros; try discriminate; try lra; auto. Qed.
Lemma Rleb_true a b : Rleb a b = true <-> (a <= b)%R.
Proof. unfold Rleb. destruct (Rle_dec a b); split; intros; auto; discriminate. Qed.
Lemma Rleb_false a b : Rleb a b = false <-> (b < a)%R.
Proof. unfold Rleb. destruct (Rle_dec a b); split; intros; try discriminate; try lra; auto. Qed.
Lemma Reqb_true a b : Reqb a b = true <-> a = b.
Proof. unfold Reqb. destruct (Req_EM_T a b); split; intros; auto; discriminate. Qed.
Lemma Reqb_false a b : Reqb a b = false <-> a <> b.
Proof. unfold Reqb. destruct (Req_EM_T a b); split; intros; auto; try discriminate; contradiction. Qed.

Lemma list_eqb_refl l : list_eqb l l = true.
Proof. unfold list_eqb. destruct (list_eq_dec string_dec l l); congruence. Qed.

Lemma union_index_same l : union_index l l = l.
Proof. unfold union_index. rewrite list_eqb_refl. reflexivity. Qed.

(** Series given by a function on labels. *)
Definition tab (ls : list label) (f : label -> num) : series := map (fun l => (l, f l)) ls.

Lemma index_tab ls f : index (tab ls f) = ls.
Proof. unfold index, tab. rewrite map_map. apply map_id. Qed.
Lemma vec_tab ls f : vec ls f = tab ls (fun l => Fin (f l)).
Proof. reflexivity. Qed.
Lemma index_vec ls f : index (vec ls f) = ls.
Proof. apply index_tab. Qed.

Lemma lookup_tab ls f l : lookup l (tab ls f) = if mem l ls then Some (f l) else None.
Proof.
  induction ls as [|k ls IH]; cbn; [reflexivity|].
  unfold mem in *; cbn. unfold label_eqb in *. destruct (String.eqb_spec l k); cbn.
  - subst; reflexivity.
  - exact IH.
Qed.
Lemma get_tab ls f l : In l ls -> get l (tab ls f) = f l.
Proof. intros H. unfold get. rewrite lookup_tab. apply mem_In in H. rewrite H. reflexivity. Qed.
Lemma get_tab_out ls f l : ~ In l ls -> get l (tab ls f) = NaN.
Proof. intros H. unfold get. rewrite lookup_tab. apply mem_false in H. rewrite H. reflexivity. Qed.

Lemma zip_with_tab g ls f h : zip_with g (tab ls f) (tab ls h) = tab ls (fun l => g (f l) (h l)).
Proof.
  unfold zip_with. rewrite !index_tab, union_index_same. unfold tab at 3.
  apply map_ext_in. intros l Hl. rewrite !get_tab by assumption. reflexivity.
Qed.
Lemma smap_tab g ls f : smap g (tab ls f) = tab ls (fun l => g (f l)).
Proof. unfold smap, tab. rewrite map_map. reflexivity. Qed.
Lemma tab_ext ls f h : (forall l, In l ls -> f l = h l) -> tab ls f = tab ls h.
Proof. intros H. apply map_ext_in. intros l Hl. rewrite H; auto. Qed.
Lemma vec_ext ls f h : (forall l, In l ls -> f l = h l) -> vec ls f = vec ls h.
Proof. intros H. apply tab_ext. intros l Hl. rewrite H; auto. Qed.

Lemma ssub_vec ls f h : ssub (vec ls f) (vec ls h) = vec ls (fun l => f l - h l)%R.
Proof. unfold ssub. rewrite !vec_tab, zip_with_tab. reflexivity. Qed.
Lemma sadd_vec ls f h : sadd (vec ls f) (vec ls h) = vec ls (fun l => f l + h l)%R.
Proof. unfold sadd. rewrite !vec_tab, zip_with_tab. reflexivity. Qed.
Lemma smul_vec ls f c : smap (fun x => nmul x (Fin c)) (vec ls f) = vec ls (fun l => f l * c)%R.
Proof. rewrite vec_tab, smap_tab. reflexivity. Qed.

Lemma nnorm_vec ls f : nnorm (vec ls f) = Fin (rnorm ls f).
Proof.
  unfold nnorm, rnorm.
  assert (H : fold_right (fun (p : label * num) acc => nadd (nmul (snd p) (snd p)) acc) (Fin 0) (vec ls f)
              = Fin (fold_right (fun l acc => (f l * f l + acc)%R) 0%R ls)).
  { induction ls as [|l ls IH]; cbn; [reflexivity|]. unfold vec in IH. rewrite IH. reflexivity. }
  rewrite H. reflexivity.
Qed.

(** Every finite series without duplicate labels is a vector. *)
Lemma finite_is_vec s :
  NoDup (index s) -> (forall l x, In (l, x) s -> exists r, x = Fin r) ->
  exists f, s = vec (index s) f.
Proof.
  induction s as [|[l x] s IH]; intros Hnd Hfin.
  - exists (fun _ => 0%R). reflexivity.
  - inversion Hnd; subst. destruct IH as [f Hf]; [assumption|intros; eapply Hfin; right; eassumption|].
    destruct (Hfin l x (or_introl eq_refl)) as [r ->].
    exists (fun k => if String.eqb k l then r else f k). cbn. rewrite String.eqb_refl. f_equal.
    rewrite Hf at 1. unfold vec. change (fun p : label * num => fst p) with (@fst label num).
    apply map_ext_in. intros k Hk. destruct (String.eqb_spec k l); [|reflexivity].
    subst. exfalso. apply H1. exact Hk.
Qed.

(** Assignment by label. *)
Lemma set_label_tab ls f l v :
  NoDup ls -> set_label l v (tab ls f) = tab ls (fun k => if label_eqb k l then v else f k).
Proof.
  induction ls as [|k ls IH]; cbn; intros Hnd; [reflexivity|].
  inversion Hnd; subst. unfold label_eqb in *. destruct (String.eqb_spec l k).
  - subst. rewrite String.eqb_refl. f_equal. apply map_ext_in. intros j Hj.
    destruct (String.eqb_spec j k); [subst; contradiction|reflexivity].
  - destruct (String.eqb_spec k l); [congruence|]. f_equal. apply IH. assumption.
Qed.

Lemma assign_fold_tab ls new : forall f,
  NoDup ls -> NoDup (index new) ->
  fold_left (fun acc (p : label * num) => set_label (fst p) (snd p) acc) new (tab ls f) =
  tab ls (fun k => match lookup k new with Some v => v | None => f k end).
Proof.
  induction new as [|[l v] new IH]; intros f Hls Hnd; cbn; [reflexivity|].
  inversion Hnd; subst. rewrite set_label_tab by assumption. rewrite IH by assumption.
  apply tab_ext. intros k _. unfold label_eqb. destruct (String.eqb_spec k l).
  - subst. destruct (lookup l new) eqn:Hl; [|reflexivity]. exfalso. apply H1.
    clear -Hl. induction new as [|[k w] new IH]; cbn in *; [discriminate|].
    unfold label_eqb in Hl. destruct (String.eqb_spec l k); [left; auto|right; auto].
  - reflexivity.
Qed.

Lemma assign_tab ls f ls' h :
  NoDup ls -> NoDup ls' -> incl ls' ls ->
  assign (tab ls f) (tab ls' h) = Ok (tab ls (fun l => if mem l ls' then h l else f l)).
Proof.
  intros H1 H2 H3. unfold assign. rewrite !index_tab.
  apply subset_incl in H3. rewrite H3. f_equal.
  rewrite assign_fold_tab; [|assumption|rewrite index_tab; assumption].
  apply tab_ext. intros l _. rewrite lookup_tab. destruct (mem l ls'); reflexivity.
Qed.

Lemma assign_vec ls f ls' h :
  NoDup ls -> NoDup ls' -> incl ls' ls ->
  assign (vec ls f) (vec ls' h) = Ok (vec ls (fun l => if mem l ls' then h l else f l)).
Proof.
  intros H1 H2 H3. rewrite !vec_tab, assign_tab by assumption. f_equal. apply tab_ext.
  intros l _. destruct (mem l ls'); reflexivity.
Qed.

(** Lengths. *)
Lemma sumsq_scale (ls : list label) (g : label -> R) c :
  fold_right (fun l acc => (c * g l * (c * g l) + acc)%R) 0%R ls =
  (c * c * fold_right (fun l acc => (g l * g l + acc)%R) 0%R ls)%R.
Proof. induction ls as [|l ls IH]; cbn; [ring|]. rewrite IH. ring. Qed.
Lemma sumsq_nonneg (ls : list label) (g : label -> R) : (0 <= fold_right (fun l acc => (g l * g l + acc)%R) 0%R ls)%R.
Proof.
  induction ls as [|l ls IH]; cbn; [lra|]. pose proof (Rle_0_sqr (g l)) as H. unfold Rsqr in H. lra.
Qed.
Lemma rnorm_nonneg ls g : (0 <= rnorm ls g)%R.
Proof. apply sqrt_pos. Qed.
Lemma rnorm_scale ls g c : rnorm ls (fun l => c * g l)%R = (Rabs c * rnorm ls g)%R.
Proof.
  unfold rnorm. rewrite sumsq_scale. rewrite sqrt_mult_alt by apply Rle_0_sqr.
  rewrite sqrt_Rsqr_abs || (change (c * c)%R with (Rsqr c); rewrite sqrt_Rsqr_abs). reflexivity.
Qed.
Lemma rnorm_ext ls g h : (forall l, In l ls -> g l = h l) -> rnorm ls g = rnorm ls h.
Proof.
  intros H. unfold rnorm. f_equal. induction ls as [|l ls IH]; cbn; [reflexivity|].
  rewrite (H l (or_introl eq_refl)), IH; auto. intros; apply H; right; assumption.
Qed.
Lemma rnorm_zero ls : rnorm ls (fun _ => 0%R) = 0%R.
Proof.
  unfold rnorm. transitivity (sqrt 0); [f_equal|apply sqrt_0].
  induction ls; cbn; [reflexivity|]. rewrite IHls. ring.
Qed.
