(** Homogeneous linear equations over the reals: vectors are functions on a
    finite list of indices.  Used to state and to meet the specification of the
    numerical routines in ComposeSpec.v. *)
From Coq Require Import Reals List Bool Arith Lia Lra.
Import ListNotations.
Local Open Scope R_scope.

Fixpoint sum {A} (ls : list A) (f : A -> R) : R := match ls with [] => 0 | a :: ls' => f a + sum ls' f end.
Definition dot {A} (ls : list A) (u v : A -> R) : R := sum ls (fun a => u a * v a).

Section Sums.
Context {A : Type}.
Implicit Types (ls : list A) (f g : A -> R).

Lemma sum_ext ls f g : (forall a, In a ls -> f a = g a) -> sum ls f = sum ls g.
Proof. induction ls; cbn; intros H; [reflexivity|]. rewrite H, IHls; auto. Qed.
Lemma sum_add ls f g : sum ls (fun a => f a + g a) = sum ls f + sum ls g.
Proof. induction ls; cbn; [lra|]. rewrite IHls. lra. Qed.
Lemma sum_scale ls c f : sum ls (fun a => c * f a) = c * sum ls f.
Proof. induction ls; cbn; [lra|]. rewrite IHls. lra. Qed.
Lemma sum_zero ls f : (forall a, In a ls -> f a = 0) -> sum ls f = 0.
Proof. induction ls; cbn; intros H; [reflexivity|]. rewrite H, IHls by auto. lra. Qed.
Lemma sum_nonneg ls f : (forall a, In a ls -> 0 <= f a) -> 0 <= sum ls f.
Proof. induction ls; cbn; intros H; [lra|]. assert (0 <= f a) by auto. assert (0 <= sum ls f) by auto. lra. Qed.
Lemma sum_pos ls f : (forall a, In a ls -> 0 <= f a) -> (exists a, In a ls /\ 0 < f a) -> 0 < sum ls f.
Proof.
  induction ls as [|b ls IH]; cbn; intros H [a [Ha Hp]]; [contradiction|]. assert (Hb : 0 <= f b) by auto.
  assert (Hs : 0 <= sum ls f) by (apply sum_nonneg; auto). destruct Ha as [->|Ha]; [lra|]. assert (0 < sum ls f) by (apply IH; [auto|exists a; auto]). lra.
Qed.
End Sums.
Lemma sum_swap {A B} (ls : list A) (bs : list B) (f : A -> B -> R) :
  sum ls (fun a => sum bs (fun b => f a b)) = sum bs (fun b => sum ls (fun a => f a b)).
Proof.
  induction ls as [|a ls IH]; cbn; [symmetry; apply sum_zero; reflexivity|]. rewrite IH. symmetry.
  apply (sum_add bs (fun b => f a b) (fun b => sum ls (fun a => f a b))).
Qed.

Section Kernel.
Context {A : Type} (eqd : forall a b : A, {a = b} + {a <> b}).
Implicit Types (ls : list A) (u v r : A -> R).

Lemma dot_comm ls u v : dot ls u v = dot ls v u.
Proof. apply sum_ext. intros; lra. Qed.
Lemma dot_ext ls u u' v v' : (forall a, In a ls -> u a = u' a) -> (forall a, In a ls -> v a = v' a) -> dot ls u v = dot ls u' v'.
Proof. intros Hu Hv. apply sum_ext. intros a Ha. rewrite Hu, Hv; auto. Qed.
Lemma dot_sub_r ls u v w : dot ls u (fun a => v a - w a) = dot ls u v - dot ls u w.
Proof.
  unfold dot. replace (sum ls (fun a => u a * v a) - sum ls (fun a => u a * w a)) with
    (sum ls (fun a => u a * v a) + -1 * sum ls (fun a => u a * w a)) by lra.
  rewrite <- sum_scale, <- sum_add. apply sum_ext. intros; lra.
Qed.
Lemma dot_sub_l ls u v w : dot ls (fun a => v a - w a) u = dot ls v u - dot ls w u.
Proof. rewrite dot_comm, dot_sub_r, (dot_comm ls u v), (dot_comm ls u w). reflexivity. Qed.
Lemma dot_scale_r ls c u v : dot ls u (fun a => c * v a) = c * dot ls u v.
Proof. unfold dot. rewrite <- sum_scale. apply sum_ext. intros; lra. Qed.
Lemma dot_zero_l ls u v : (forall a, In a ls -> u a = 0) -> dot ls u v = 0.
Proof. intros H. apply sum_zero. intros a Ha. rewrite H by exact Ha. lra. Qed.
Lemma dot_self_pos ls u : (exists a, In a ls /\ u a <> 0) -> 0 < dot ls u u.
Proof.
  intros [a [Ha Hu]]. apply sum_pos; [intros b _; nra|]. exists a. split; [exact Ha|]. assert (0 < u a * u a) by nra. lra.
Qed.

(** Zero or not. *)
Lemma zero_dec ls u : (forall a, In a ls -> u a = 0) \/ (exists a, In a ls /\ u a <> 0).
Proof.
  induction ls as [|a ls [H|[b [Hb H]]]]; [left; intros a []| |right; exists b; cbn; auto].
  destruct (Req_EM_T (u a) 0) as [E|E]; [left; intros b [<-|Hb]; auto|right; exists a; cbn; auto].
Qed.

Lemma sum_remove ls p f : NoDup ls -> In p ls -> sum ls f = f p + sum (remove eqd p ls) f.
Proof.
  induction ls as [|a ls IH]; cbn; intros Hn Hp; [contradiction|]. inversion Hn; subst.
  destruct (eqd p a) as [->|Hne]; [rewrite notin_remove by assumption; reflexivity|].
  destruct Hp as [<-|Hp]; [contradiction|]. cbn. rewrite IH by assumption. lra.
Qed.
Lemma NoDup_remove_all p ls : NoDup ls -> NoDup (remove eqd p ls).
Proof.
  induction 1 as [|a ls Ha Hn IH]; cbn; [constructor|]. destruct (eqd p a); [exact IH|]. constructor; [|exact IH].
  intros H. apply Ha. apply in_remove in H. tauto.
Qed.
Lemma length_remove_in p ls : NoDup ls -> In p ls -> S (length (remove eqd p ls)) = length ls.
Proof.
  induction 1 as [|a ls Ha Hn IH]; cbn; intros Hp; [contradiction|]. destruct (eqd p a) as [->|Hne].
  - rewrite notin_remove by assumption. reflexivity.
  - destruct Hp as [<-|Hp]; [contradiction|]. cbn. rewrite IH by exact Hp. reflexivity.
Qed.

(** A non-zero vector orthogonal to the given ones, by elimination. *)
Definition elim (p : A) (r s : A -> R) : A -> R := fun a => s a - s p / r p * r a.
Fixpoint kernel (fuel : nat) (ls : list A) (rows : list (A -> R)) : option (A -> R) :=
  match fuel, rows with
  | _, [] => match ls with [] => None | a :: _ => Some (fun x => if eqd x a then 1 else 0) end
  | S k, r :: rows' =>
      match find (fun a => if Req_EM_T (r a) 0 then false else true) ls with
      | None => kernel k ls rows'
      | Some p =>
          match kernel k (remove eqd p ls) (map (elim p r) rows') with
          | None => None
          | Some u => Some (fun a => if eqd a p then - dot (remove eqd p ls) r u / r p else u a)
          end
      end
  | O, _ :: _ => None
  end.

Lemma find_pivot ls r :
  match find (fun a => if Req_EM_T (r a) 0 then false else true) ls with
  | Some p => In p ls /\ r p <> 0
  | None => forall a, In a ls -> r a = 0
  end.
Proof.
  destruct (find _ ls) eqn:E.
  - apply find_some in E. destruct E as [H1 H2]. split; [exact H1|]. destruct (Req_EM_T (r a) 0); [discriminate|assumption].
  - intros a Ha. pose proof (find_none _ _ E a Ha) as H. cbn in H. destruct (Req_EM_T (r a) 0); [assumption|discriminate].
Qed.
Lemma dot_elim ls p r s u : r p <> 0 -> dot ls u (elim p r s) = dot ls u s - s p / r p * dot ls u r.
Proof. intros H. unfold elim. rewrite dot_sub_r, dot_scale_r. reflexivity. Qed.

Lemma kernel_sound k : forall ls rows u, (length rows <= k)%nat -> NoDup ls -> kernel k ls rows = Some u ->
  (exists a, In a ls /\ u a <> 0) /\ forall r, In r rows -> dot ls u r = 0.
Proof.
  induction k as [|k IH]; intros ls [|r rows] u Hk Hn H; cbn [length] in Hk; try lia.
  1,2: cbn in H; destruct ls as [|a ls]; [discriminate|]; inversion H; subst; split; [exists a; split; [left; reflexivity|]; destruct (eqd a a); [lra|congruence]|intros r []].
  cbn [kernel] in H. pose proof (find_pivot ls r) as Hp. destruct (find _ ls) as [p|].
  - destruct Hp as [Hin Hr]. destruct (kernel k (remove eqd p ls) (map (elim p r) rows)) as [w|] eqn:Hw; [|discriminate].
    inversion H; subst; clear H. apply IH in Hw; [|rewrite map_length; lia|apply NoDup_remove_all; exact Hn].
    destruct Hw as [[a [Ha Hwa]] Horth]. apply in_remove in Ha. destruct Ha as [Ha Hne].
    assert (Hd : forall s, dot ls (fun a => if eqd a p then - dot (remove eqd p ls) r w / r p else w a) s =
                           - dot (remove eqd p ls) r w / r p * s p + dot (remove eqd p ls) w s).
    { intros s. unfold dot at 1. rewrite (sum_remove ls p) by assumption. destruct (eqd p p); [|congruence]. f_equal.
      apply sum_ext. intros b Hb. apply in_remove in Hb. destruct (eqd b p); [tauto|reflexivity]. }
    split; [exists a; split; [exact Ha|]; destruct (eqd a p); [contradiction|exact Hwa]|].
    intros s [<-|Hs]; rewrite Hd.
    + rewrite (dot_comm _ r w). field. exact Hr.
    + specialize (Horth (elim p r s) (in_map _ _ _ Hs)). rewrite dot_elim in Horth by exact Hr. rewrite (dot_comm _ r w).
      replace (dot (remove eqd p ls) w s) with (s p / r p * dot (remove eqd p ls) w r) by lra. field. exact Hr.
  - apply IH in H; [|lia|exact Hn]. destruct H as [H1 H2]. split; [exact H1|]. intros s [<-|Hs]; [|auto].
    rewrite dot_comm. apply dot_zero_l. exact Hp.
Qed.

Lemma kernel_complete k : forall ls rows, (length rows <= k)%nat -> NoDup ls -> kernel k ls rows = None ->
  forall u, (forall r, In r rows -> dot ls u r = 0) -> forall a, In a ls -> u a = 0.
Proof.
  induction k as [|k IH]; intros ls [|r rows] Hk Hn H u Hu a Ha; cbn [length] in Hk; try lia.
  1,2: cbn in H; destruct ls; [contradiction|discriminate].
  cbn [kernel] in H. pose proof (find_pivot ls r) as Hp. destruct (find _ ls) as [p|].
  - destruct Hp as [Hin Hr]. destruct (kernel k (remove eqd p ls) (map (elim p r) rows)) as [w|] eqn:Hw; [discriminate|].
    assert (Hsplit : forall s, dot ls u s = u p * s p + dot (remove eqd p ls) u s) by (intros s; exact (sum_remove ls p (fun a => u a * s a) Hn Hin)).
    assert (Hz : forall b, In b (remove eqd p ls) -> u b = 0).
    { apply (IH (remove eqd p ls) (map (elim p r) rows)); [rewrite map_length; lia|apply NoDup_remove_all; exact Hn|exact Hw|]. intros s' Hs'. apply in_map_iff in Hs'.
      destruct Hs' as [s [<- Hs]]. rewrite dot_elim by exact Hr. pose proof (Hu r (or_introl eq_refl)) as Hur. pose proof (Hu s (or_intror Hs)) as Hus.
      rewrite Hsplit in Hur. rewrite Hsplit in Hus. replace (dot (remove eqd p ls) u s) with (- u p * s p) by lra.
      replace (dot (remove eqd p ls) u r) with (- u p * r p) by lra. field. exact Hr. }
    destruct (eqd a p) as [->|Hne]; [|apply Hz; apply in_in_remove; assumption].
    pose proof (Hu r (or_introl eq_refl)) as Hur. rewrite Hsplit, (dot_zero_l _ u r Hz) in Hur.
    assert (u p * r p = 0) by lra. apply Rmult_integral in H0. tauto.
  - apply (IH ls rows ltac:(lia) Hn H); [intros; apply Hu; right; assumption|exact Ha].
Qed.

Lemma kernel_enough k : forall ls rows, (length rows <= k)%nat -> NoDup ls -> (length rows < length ls)%nat -> kernel k ls rows <> None.
Proof.
  induction k as [|k IH]; intros ls [|r rows] Hk Hn Hl H; cbn [length] in Hk, Hl; try lia.
  1,2: cbn in H; destruct ls; [cbn in Hl; lia|discriminate].
  cbn [kernel] in H. pose proof (find_pivot ls r) as Hp. destruct (find _ ls) as [p|].
  - destruct Hp as [Hin Hr]. destruct (kernel k (remove eqd p ls) (map (elim p r) rows)) as [w|] eqn:Hw; [discriminate|].
    apply IH in Hw; [exact Hw|rewrite map_length; lia|apply NoDup_remove_all; exact Hn|].
    rewrite map_length. pose proof (length_remove_in p ls Hn Hin). lia.
  - apply IH in H; [exact H|lia|exact Hn|lia].
Qed.

(** Fewer equations than unknowns have a non-zero solution. *)
Lemma orthogonal_exists ls rows : NoDup ls -> (length rows < length ls)%nat ->
  exists u, (exists a, In a ls /\ u a <> 0) /\ forall r, In r rows -> dot ls u r = 0.
Proof.
  intros Hn Hl. pose proof (kernel_enough (length rows) ls rows (le_n _) Hn Hl) as H.
  destruct (kernel (length rows) ls rows) as [u|] eqn:E; [|congruence]. exists u. apply (kernel_sound _ _ _ _ (le_n _) Hn E).
Qed.
End Kernel.

(** ** Independence *)
Fixpoint lincomb {A} (cs : list R) (ds : list (A -> R)) : A -> R :=
  match cs, ds with
  | c :: cs', d :: ds' => fun a => c * d a + lincomb cs' ds' a
  | _, _ => fun _ => 0
  end.
Definition independent {A} (ls : list A) (ds : list (A -> R)) : Prop :=
  forall cs, length cs = length ds -> (forall a, In a ls -> lincomb cs ds a = 0) -> forall c, In c cs -> c = 0.

Section Independence.
Context {A : Type} (eqd : forall a b : A, {a = b} + {a <> b}).
Implicit Types (ls : list A).

Lemma dot_lincomb ls w cs : forall ds, length cs = length ds ->
  dot ls w (lincomb cs ds) = sum (combine cs ds) (fun q => fst q * dot ls w (snd q)).
Proof.
  induction cs as [|c cs IH]; intros [|d ds] Hl; try discriminate; cbn.
  - apply sum_zero. intros; lra.
  - rewrite <- (IH ds) by (cbn in Hl; lia). unfold dot. rewrite <- sum_scale, <- sum_add. apply sum_ext. intros; cbn; lra.
Qed.

(** Adding a vector that some vector orthogonal to the others sees. *)
Lemma independent_cons ls d ds w : independent ls ds -> (forall e, In e ds -> dot ls w e = 0) -> dot ls w d <> 0 ->
  independent ls (d :: ds).
Proof.
  intros Hi Hw Hd [|c cs] Hl Hz c0 Hc; [destruct Hc|]. cbn [length] in Hl.
  assert (Hl' : length cs = length ds) by lia.
  assert (H0 : dot ls w (lincomb (c :: cs) (d :: ds)) = 0) by (rewrite dot_comm; apply dot_zero_l; exact Hz).
  rewrite dot_lincomb in H0 by (cbn; lia). cbn in H0.
  rewrite (sum_zero (combine cs ds)) in H0.
  2:{ intros [x e] Hin. apply in_combine_r in Hin. cbn. rewrite (Hw e Hin). lra. }
  assert (Hc0 : c = 0). { assert (c * dot ls w d = 0) by lra. apply Rmult_integral in H. tauto. }
  destruct Hc as [<-|Hc]; [exact Hc0|]. apply (Hi cs Hl'); [|exact Hc]. intros a Ha. specialize (Hz a Ha). cbn in Hz. rewrite Hc0 in Hz. lra.
Qed.
Lemma independent_nil ls : independent ls [].
Proof. intros [|c cs] H; [intros _ c []|discriminate]. Qed.

Lemma lincomb_map u (ds : list (A -> R)) : forall k a,
  lincomb (map u (seq k (length ds))) ds a = sum (seq k (length ds)) (fun i => u i * nth (i - k) ds (fun _ => 0) a).
Proof.
  induction ds as [|d ds IH]; intros k a; [reflexivity|]. cbn [length seq map lincomb sum]. rewrite Nat.sub_diag. cbn [nth]. f_equal.
  rewrite IH. apply sum_ext. intros i Hi. apply in_seq in Hi. replace (i - k)%nat with (S (i - S k)) by lia. reflexivity.
Qed.

(** No more than as many as there are indices. *)
Lemma independent_bound ls ds : independent ls ds -> (length ds <= length ls)%nat.
Proof.
  intros Hi. destruct (le_lt_dec (length ds) (length ls)) as [H|H]; [exact H|exfalso].
  destruct (orthogonal_exists Nat.eq_dec (seq 0 (length ds)) (map (fun a i => nth i ds (fun _ => 0) a) ls)) as [u [[i [Hin Hu]] Horth]].
  - apply seq_NoDup.
  - rewrite map_length, seq_length. exact H.
  - apply Hu. apply (Hi (map u (seq 0 (length ds)))); [rewrite map_length, seq_length; reflexivity| |apply in_map; exact Hin].
    intros a Ha. rewrite lincomb_map. specialize (Horth (fun i => nth i ds (fun _ => 0) a) (in_map _ _ _ Ha)).
    unfold dot in Horth. refine (eq_trans _ Horth). apply sum_ext. intros j _. rewrite Nat.sub_0_r. reflexivity.
Qed.

(** Only zero is orthogonal to as many independent vectors as there are
    indices. *)
Lemma independent_spans ls ds u : independent ls ds -> length ds = length ls -> (forall d, In d ds -> dot ls u d = 0) ->
  forall a, In a ls -> u a = 0.
Proof.
  intros Hi Hl Hu. destruct (zero_dec ls u) as [H|H]; [exact H|exfalso].
  assert (Hb : independent ls (u :: ds)).
  { apply (independent_cons ls u ds u Hi Hu). pose proof (dot_self_pos ls u H). lra. }
  apply independent_bound in Hb. cbn in Hb. lia.
Qed.

Lemma independent_ext ls ds ds' : Forall2 (fun d d' => forall a, In a ls -> d a = d' a) ds ds' -> independent ls ds -> independent ls ds'.
Proof.
  intros Hf Hi cs Hl Hz. apply Hi.
  - rewrite Hl. symmetry. clear -Hf. induction Hf; cbn; congruence.
  - intros a Ha. rewrite <- (Hz a Ha). clear Hz Hi Hl. revert cs. induction Hf as [|d d' ds ds' Hd Hf IH]; intros [|c cs]; cbn; try reflexivity.
    rewrite Hd by exact Ha. rewrite IH. reflexivity.
Qed.
End Independence.

(** Restriction to the indices where a vector is not zero. *)
Lemma sum_restrict {A} (eqd : forall a b : A, {a = b} + {a <> b}) (gs : list A) : forall all (g : A -> R),
  NoDup all -> NoDup gs -> incl gs all -> (forall a, In a all -> ~ In a gs -> g a = 0) -> sum all g = sum gs g.
Proof.
  induction gs as [|p gs IH]; intros all g Ha Hg Hi Hz.
  - apply sum_zero. intros a Hin. apply Hz; auto.
  - inversion Hg; subst. rewrite (sum_remove eqd all p) by (auto; apply Hi; left; reflexivity). cbn. f_equal. apply IH.
    + apply NoDup_remove_all. exact Ha.
    + assumption.
    + intros a Hin. apply in_in_remove; [intros ->; contradiction|apply Hi; right; exact Hin].
    + intros a Hin Hn. apply in_remove in Hin. destruct Hin as [Hin Hne]. apply Hz; [exact Hin|]. intros [E|K]; [congruence|contradiction].
Qed.
Lemma dot_restrict {A} (eqd : forall a b : A, {a = b} + {a <> b}) (gs all : list A) (u w : A -> R) :
  NoDup all -> NoDup gs -> incl gs all -> (forall a, In a all -> ~ In a gs -> w a = 0) -> dot all u w = dot gs u w.
Proof. intros Ha Hg Hi Hz. apply (sum_restrict eqd); auto. intros a H1 H2. rewrite Hz by assumption. lra. Qed.

(** Independence does not depend on the scales. *)
Lemma independent_scale {A B} (ls : list A) (ps : list B) (a : B -> A -> R) (f : B -> R) :
  (forall q, In q ps -> f q <> 0) -> independent ls (map a ps) -> independent ls (map (fun q l => a q l / f q) ps).
Proof.
  intros Hf Hi cs Hl Hz. rewrite map_length in Hl.
  set (cs' := map (fun x => fst x / f (snd x)) (combine cs ps)).
  assert (K : forall l (cs : list R) (ps : list B), length cs = length ps ->
    lincomb (map (fun x => fst x / f (snd x)) (combine cs ps)) (map a ps) l = lincomb cs (map (fun q l => a q l / f q) ps) l).
  { clear. intros l. induction cs as [|x cs IH]; intros [|q ps] Hl; try discriminate; cbn; [reflexivity|].
    rewrite IH by (cbn in Hl; lia). unfold Rdiv. lra. }
  assert (H0 : forall x, In x cs' -> x = 0).
  { apply Hi; [unfold cs'; rewrite !map_length, combine_length; lia|]. intros l Hin. unfold cs'. rewrite K by exact Hl. apply Hz, Hin. }
  unfold cs' in H0. clear -H0 Hl Hf. revert ps Hf Hl H0. induction cs as [|x cs IH]; intros [|q ps] Hf Hl H0 y Hy; try discriminate; [destruct Hy|].
  cbn [combine map] in H0. destruct Hy as [<-|Hy].
  - specialize (H0 _ (or_introl eq_refl)). cbn in H0. assert (Hq : f q <> 0) by (apply Hf; left; reflexivity).
    unfold Rdiv in H0. apply Rmult_integral in H0. destruct H0 as [H0|H0]; [exact H0|]. exfalso. exact (Rinv_neq_0_compat _ Hq H0).
  - apply (IH ps); [intros z Hz; apply Hf; right; exact Hz|cbn in Hl; lia|intros z Hz; apply H0; right; exact Hz|exact Hy].
Qed.
