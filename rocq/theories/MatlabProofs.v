(** Lemmas about the voltage guards. *)
From Coq Require Import Lra Permutation.
From Verif Require Import PyBase TargetModel TunerModel TunerSpec SeriesLemmas MatlabModel MatlabSpec.
Local Open Scope R_scope.

Lemma smset1_same g v h : smset1 g v h g = v.
Proof. unfold smset1, label_eqb. now rewrite String.eqb_refl. Qed.
Lemma smset1_other g v h k : k <> g -> smset1 g v h k = h k.
Proof. intros H. unfold smset1, label_eqb. destruct (String.eqb_spec k g); congruence. Qed.
Lemma smset_other vs : forall h k, ~ In k (index vs) -> smset vs h k = h k.
Proof.
  induction vs as [|[g v] vs IH]; intros h k Hk; [reflexivity|]. cbn in Hk. cbn.
  rewrite IH by tauto. apply smset1_other. intros ->. tauto.
Qed.
Lemma smset_in vs : forall h k v, NoDup (index vs) -> In (k, v) vs -> smset vs h k = v.
Proof.
  induction vs as [|[g w] vs IH]; intros h k v Hnd Hk; [destruct Hk|]. cbn. inversion Hnd; subst.
  destruct Hk as [E|Hk].
  - inversion E; subst. rewrite smset_other by assumption. apply smset1_same.
  - apply IH; assumption.
Qed.
Lemma in_lookup (s : series) : forall k v, NoDup (index s) -> In (k, v) s -> lookup k s = Some v.
Proof.
  induction s as [|[g w] s IH]; intros k v Hnd Hk; [destruct Hk|]. cbn. inversion Hnd; subst. unfold label_eqb.
  destruct Hk as [E|Hk].
  - inversion E; subst. now rewrite String.eqb_refl.
  - destruct (String.eqb_spec k g); [|auto]. subst. exfalso. apply H1. now apply (in_map fst) in Hk.
Qed.
Lemma lookup_in (s : series) : forall k v, lookup k s = Some v -> In (k, v) s.
Proof.
  induction s as [|[g w] s IH]; intros k v; cbn; [discriminate|]. unfold label_eqb.
  destruct (String.eqb_spec k g); [|auto]. intros E. inversion E; subst. auto.
Qed.
Lemma lookup_notin (s : series) k : lookup k s = None <-> ~ In k (index s).
Proof.
  induction s as [|[g w] s IH]; cbn; [tauto|]. unfold label_eqb. destruct (String.eqb_spec k g).
  - subst. split; [discriminate|tauto].
  - rewrite IH. split; intros H; [intros [->|?]; tauto|tauto].
Qed.
Lemma smset_asked vs h k : NoDup (index vs) -> smset vs h k = asked vs h k.
Proof.
  intros Hnd. unfold asked. destruct (lookup k vs) eqn:E.
  - apply smset_in; [assumption|now apply lookup_in].
  - apply smset_other. now apply lookup_notin.
Qed.

Lemma insert_label_perm l ls : Permutation (insert_label l ls) (l :: ls).
Proof.
  induction ls as [|k ls IH]; cbn; [apply Permutation_refl|]. destruct (String.leb l k); [apply Permutation_refl|].
  eapply perm_trans; [apply perm_skip, IH|apply perm_swap].
Qed.
Lemma sort_labels_perm ls : Permutation (sort_labels ls) ls.
Proof.
  induction ls as [|l ls IH]; cbn; [constructor|]. eapply perm_trans; [apply insert_label_perm|now apply perm_skip].
Qed.
Lemma sort_labels_in ls l : In l (sort_labels ls) <-> In l ls.
Proof. split; apply Permutation_in; [|apply Permutation_sym]; apply sort_labels_perm. Qed.
Lemma sort_labels_nodup ls : NoDup ls -> NoDup (sort_labels ls).
Proof. apply Permutation_NoDup, Permutation_sym, sort_labels_perm. Qed.

Lemma nltb_fin x y : nltb (Fin x) (Fin y) = Rltb x y. Proof. reflexivity. Qed.

(** The conditions of the guard on one entry of the request. *)
Definition entry_bad (lo hi : R) (h : rig) (p : label * num) : bool :=
  nltb (Fin hi) (snd p) || nltb (snd p) (Fin lo) || nltb (Fin (10 / 1000)) (nabs (nsub (h (fst p)) (snd p))).
Lemma existsb_orb {A} (f g : A -> bool) l : existsb f l || existsb g l = existsb (fun x => f x || g x) l.
Proof.
  induction l as [|a l IH]; [reflexivity|]. cbn. rewrite <- IH.
  destruct (f a), (g a), (existsb f l), (existsb g l); reflexivity.
Qed.
Lemma combine_steps (f : num -> num -> num) h (new : series) :
  map (fun p => f (fst p) (snd p)) (combine (map h (index new)) (map snd new)) = map (fun p => f (h (fst p)) (snd p)) new.
Proof. induction new as [|[g v] new IH]; cbn; [reflexivity|]. unfold index in IH. now rewrite IH. Qed.
Lemma existsb_map {A B} (f : A -> B) g l : existsb g (map f l) = existsb (fun x => g (f x)) l.
Proof. induction l; cbn; congruence. Qed.
Lemma existsb_false {A} (f : A -> bool) l : existsb f l = false <-> forall x, In x l -> f x = false.
Proof.
  induction l as [|a l IH]; cbn; [split; [intros _ ? []|reflexivity]|]. rewrite orb_false_iff, IH. split.
  - intros [H1 H2] x [<-|Hx]; auto.
  - intros H. split; auto.
Qed.

Lemma set_qqd_eq channels pretuned new h :
  set_qqd channels pretuned new h =
  if subset (index new) channels && subset (index new) pretuned && negb (existsb (entry_bad (- (13 / 10)) 0 h) new)
  then (smset new h, Ok tt) else (h, Raise matlab_error).
Proof.
  unfold set_qqd, any_above, any_below. rewrite (combine_steps (fun a b => nabs (nsub a b))).
  rewrite !existsb_map. unfold entry_bad. rewrite <- !existsb_orb.
  destruct (subset (index new) channels), (subset (index new) pretuned); cbn [negb andb]; try reflexivity.
  destruct (existsb _ new), (existsb _ new), (existsb _ new); reflexivity.
Qed.
Lemma abs_limit_eq channels pretuned new h :
  set_qqd_abs_limit channels pretuned new h =
  if subset (index new) channels && subset (index new) pretuned &&
     negb (existsb (fun p => nltb (Fin (- (4 / 10))) (snd p) || nltb (nsub (h (fst p)) (snd p)) (Fin (- (13 / 10)))) new)
  then (smset new h, Ok tt) else (h, Raise matlab_error).
Proof.
  unfold set_qqd_abs_limit, any_above, any_below. rewrite (combine_steps nsub).
  rewrite !existsb_map. rewrite <- !existsb_orb.
  destruct (subset (index new) channels), (subset (index new) pretuned); cbn [negb andb]; try reflexivity.
  destruct (existsb _ new), (existsb _ new); reflexivity.
Qed.
Lemma entry_fine h g x y : h g = Fin x ->
  entry_bad (- (13 / 10)) 0 h (g, Fin y) = false <-> (- (13 / 10) <= y <= 0 /\ Rabs (y - x) <= 10 / 1000).
Proof.
  intros E. unfold entry_bad. cbn [fst snd]. rewrite E. cbn [nltb nsub nopp nadd nabs].
  rewrite !orb_false_iff, !Rltb_false. replace (x + - y) with (- (y - x)) by ring. rewrite Rabs_Ropp. tauto.
Qed.
Lemma entry_nan h g : entry_bad (- (13 / 10)) 0 h (g, NaN) = false.
Proof. unfold entry_bad. cbn [fst snd]. destruct (h g); reflexivity. Qed.

(** The request that reaches MATLAB: all gates, with the asked values. *)
Lemma qqd_set_eq channels pretuned gates new h : NoDup gates -> NoDup (index new) ->
  qqd_set channels pretuned gates new h =
  if subset (index new) gates
  then let all := tab (sort_labels gates) (asked new h) in
       if subset gates channels && subset gates pretuned && negb (existsb (entry_bad (- (13 / 10)) 0 h) all)
       then (smset all h, Ok (qqd_read gates (smset all h))) else (h, Raise matlab_error)
  else (h, Raise ValueError).
Proof.
  intros Hg Hn. unfold qqd_set, assign. change (qqd_read gates h) with (tab (sort_labels gates) h). rewrite index_tab.
  assert (S : forall a b, (forall l, In l b <-> In l (sort_labels gates)) -> subset a (sort_labels gates) = subset a b).
  { intros a b H. apply eq_true_iff_eq. rewrite !subset_incl. unfold incl. split; intros H' l Hl; apply H; auto. }
  rewrite (S (index new) gates) by (intros; now rewrite sort_labels_in).
  destruct (subset (index new) gates); [|reflexivity].
  rewrite assign_fold_tab by (auto using sort_labels_nodup).
  change (fun k => match lookup k new with Some v => v | None => h k end) with (asked new h).
  rewrite set_qqd_eq, index_tab.
  assert (S' : forall b, subset (sort_labels gates) b = subset gates b).
  { intros b. apply eq_true_iff_eq. rewrite !subset_incl. unfold incl. split; intros H' l Hl; apply H'; now apply sort_labels_in. }
  rewrite !S'. cbn zeta. destruct (_ && _ && _); reflexivity.
Qed.

Lemma smset_tab_other ls f h k : ~ In k ls -> smset (tab ls f) h k = h k.
Proof. intros H. apply smset_other. now rewrite index_tab. Qed.
Lemma smset_tab_in ls f : NoDup ls -> forall h k, In k ls -> smset (tab ls f) h k = f k.
Proof. intros Hnd h k H. apply smset_in; [now rewrite index_tab|]. apply in_map_iff. eauto. Qed.
