(** Numerical routines that meet the specification of ComposeSpec.v: it can be
    met, and the examples of ComposeProps.v can be instantiated. *)
From Verif Require Import PyBase TargetModel TunerModel TunerSpec SeriesLemmas NewtonModel EstimatorModel EstimatorProofs GradientProps KernelR ComposeSpec.
From Coq Require Import Lra.
Local Open Scope R_scope.

(** Entry of an array. *)
Definition ent (a : list num) (i : nat) : R := match nth i a NaN with Fin r => r | _ => 0 end.
Definition out (n : nat) (u : nat -> R) : list num := map (fun i => Fin (u i)) (seq 0 n).

Definition ref_ortho (rows : list (list num)) : res (list num) :=
  let n := length (hd [] rows) in
  match kernel Nat.eq_dec (length rows) (seq 0 n) (map ent rows) with
  | Some u => Ok (out n u)
  | None => Raise ValueError
  end.

Definition ref_calc (ms : list measurement) : res (list num * list (list num)) :=
  match ms with
  | [] => Raise ValueError
  | m0 :: ms' =>
      let n := length (m_pos m0) in
      let at_ (m : measurement) := ent (map snd (m_pos m)) in
      let val (m : measurement) := ent [snd (fst m)] 0%nat in
      let diffs := map (fun m i => at_ m i - at_ m0 i) ms' in
      match kernel Nat.eq_dec (length diffs) (seq 0 n) diffs with
      | Some _ => Raise EvaluationError
      | None =>
          let rows := map (fun m i => if Nat.eqb i n then - (val m - val m0) else at_ m i - at_ m0 i) ms' in
          match kernel Nat.eq_dec (length rows) (seq 0 (S n)) rows with
          | Some w => Ok (out n (fun i => w i / w n), [])
          | None => Raise EvaluationError
          end
      end
  end.

Definition ref_lstsq (rows : list series) (b : list num) : res (list num) :=
  let n := length (hd [] rows) in
  let k := length rows in
  let row j := ent (map snd (nth j rows [])) in
  let eqs := map (fun j i => if Nat.eqb i k then - ent b j else dot (seq 0 n) (row i) (row j)) (seq 0 k) in
  match kernel Nat.eq_dec (length eqs) (seq 0 (S k)) eqs with
  | Some w => Ok (out n (fun l => sum (seq 0 k) (fun i => w i / w k * row i l)))
  | None => Raise LinAlgError
  end.

(** Positions in a list of labels. *)
Fixpoint pos (l : label) (ls : list label) : nat :=
  match ls with [] => 0%nat | k :: ls' => if label_eqb l k then 0%nat else S (pos l ls') end.
Lemma nth_pos l ls : In l ls -> nth (pos l ls) ls EmptyString = l.
Proof.
  induction ls as [|k ls IH]; cbn; [intros []|]. unfold label_eqb. destruct (String.eqb_spec l k) as [->|Hne]; [reflexivity|].
  intros [E|H]; [congruence|]. apply IH, H.
Qed.
Lemma map_pos ls : NoDup ls -> map (fun l => pos l ls) ls = seq 0 (length ls).
Proof.
  assert (H : forall ls k, NoDup ls -> map (fun l => (k + pos l ls)%nat) ls = seq k (length ls)).
  { clear. induction ls as [|l ls IH]; intros k Hn; [reflexivity|]. inversion Hn; subst. cbn [map length seq]. f_equal.
    - cbn. unfold label_eqb. rewrite String.eqb_refl. lia.
    - rewrite <- (IH (S k)) by assumption. apply map_ext_in. intros x Hx. cbn. unfold label_eqb. destruct (String.eqb_spec x l) as [->|]; [contradiction|lia]. }
  intros Hn. rewrite <- (H ls 0%nat Hn). reflexivity.
Qed.
Lemma sum_map {A B} (h : A -> B) (ls : list A) (g : B -> R) : sum (map h ls) g = sum ls (fun a => g (h a)).
Proof. induction ls; cbn; congruence. Qed.
Lemma sum_seq ls g : NoDup ls -> sum (seq 0 (length ls)) g = sum ls (fun l => g (pos l ls)).
Proof. intros H. rewrite <- (map_pos ls H). apply sum_map. Qed.
Lemma out_array ls u : NoDup ls -> out (length ls) u = array ls (fun l => u (pos l ls)).
Proof. intros H. unfold out, array. rewrite <- (map_pos ls H), map_map. reflexivity. Qed.
Lemma ent_array ls u i : (i < length ls)%nat -> ent (array ls u) i = u (nth i ls EmptyString).
Proof.
  intros H. unfold ent, array. rewrite (nth_indep _ NaN (Fin (u EmptyString))) by (rewrite map_length; exact H).
  rewrite (map_nth (fun l => Fin (u l))). reflexivity.
Qed.
Lemma pos_lt l ls : In l ls -> (pos l ls < length ls)%nat.
Proof.
  induction ls as [|k ls IH]; intros H; [destruct H|]. cbn. unfold label_eqb. destruct (String.eqb_spec l k); [lia|].
  destruct H as [->|H]; [congruence|]. apply IH in H. lia.
Qed.
Lemma ent_pos ls u l : In l ls -> ent (array ls u) (pos l ls) = u l.
Proof.
  intros H. rewrite ent_array by (apply pos_lt; exact H). rewrite nth_pos by exact H. reflexivity.
Qed.
Lemma dot_seq ls (u : nat -> R) v : NoDup ls -> dot (seq 0 (length ls)) u (ent (array ls v)) = dot ls (fun l => u (pos l ls)) v.
Proof. intros H. unfold dot. rewrite sum_seq by exact H. apply sum_ext. intros l Hl. rewrite ent_pos by exact Hl. reflexivity. Qed.
Lemma length_array ls u : length (array ls u) = length ls.
Proof. apply map_length. Qed.
Lemma snd_vec ls u : map snd (vec ls u) = array ls u.
Proof. unfold vec, array. rewrite map_map. reflexivity. Qed.
Lemma nth_seq_pos ls i : NoDup ls -> (i < length ls)%nat -> pos (nth i ls EmptyString) ls = i.
Proof.
  intros Hn Hi. pose proof (map_pos ls Hn) as H. apply (f_equal (fun l => nth i l 0%nat)) in H. rewrite seq_nth in H by exact Hi.
  rewrite (nth_indep _ 0%nat (pos EmptyString ls)) in H by (rewrite map_length; exact Hi). rewrite (map_nth (fun l => pos l ls)) in H. exact H.
Qed.

(** Kernels of labelled vectors. *)
Lemma kernel_labels ls (vs : list (label -> R)) (rows : list (nat -> R)) : NoDup ls ->
  Forall2 (fun v r => forall u, dot (seq 0 (length ls)) u r = dot ls (fun l => u (pos l ls)) v) vs rows ->
  match kernel Nat.eq_dec (length rows) (seq 0 (length ls)) rows with
  | Some u => nonzero ls (fun l => u (pos l ls)) /\ orthogonal ls (fun l => u (pos l ls)) vs
  | None => forall u, orthogonal ls u vs -> ~ nonzero ls u
  end.
Proof.
  intros Hn Hf. destruct (kernel _ _ _ _) as [u|] eqn:Hk.
  - apply kernel_sound in Hk; [|lia|apply seq_NoDup]. destruct Hk as [[i [Hi Hu]] Ho]. split.
    + apply in_seq in Hi. exists (nth i ls EmptyString). split; [apply nth_In; exact (proj2 Hi)|]. rewrite nth_seq_pos by (exact Hn || exact (proj2 Hi)). exact Hu.
    + intros v Hv. clear -Hf Ho Hv. induction Hf as [|v' r vs rows Hd Hf IH]; [destruct Hv|]. destruct Hv as [<-|Hv].
      * rewrite <- Hd. apply Ho. left. reflexivity.
      * apply IH; [intros; apply Ho; right; assumption|exact Hv].
  - intros u Ho [l [Hl Hu]]. apply Hu.
    pose proof (kernel_complete Nat.eq_dec (length rows) (seq 0 (length ls)) rows (le_n _) (seq_NoDup _ _) Hk (ent (array ls u))) as Hz.
    rewrite <- (ent_pos ls u l Hl). apply Hz.
    + intros r Hr. clear -Hf Ho Hr. induction Hf as [|v' r' vs rows Hd Hf IH]; [destruct Hr|]. destruct Hr as [<-|Hr].
      * rewrite Hd. rewrite (dot_ext ls _ u _ v') by (intros; try reflexivity; apply ent_pos; assumption). apply Ho. left. reflexivity.
      * apply IH; [intros v Hv; apply Ho; right; exact Hv|exact Hr].
    + rewrite <- (map_pos ls Hn). apply in_map_iff. exists l. auto.
Qed.

Theorem ref_ortho_exact : ortho_exact ref_ortho.
Proof.
  intros ls us Hn Hne Hus. unfold ref_ortho.
  assert (Hl : length (hd [] (map (array ls) us)) = length ls) by (destruct us; [contradiction|apply length_array]). rewrite Hl.
  rewrite map_map.
  pose proof (kernel_labels ls us (map (fun v => ent (array ls v)) us) Hn) as Hk. rewrite !map_length in *.
  match type of Hk with ?P -> _ => assert (Hp : P) end.
  { clear -Hn. induction us; constructor; [intros u; apply dot_seq; exact Hn|assumption]. }
  specialize (Hk Hp). destruct (kernel _ _ _ _) as [u|].
  - split; [intros _; exists (fun l => u (pos l ls)); split; [rewrite out_array by exact Hn; reflexivity|exact Hk]|].
    intros H. exfalso. destruct Hk as [K1 K2]. exact (H _ K2 K1).
  - split; [|reflexivity]. intros [u [H1 H2]]. exfalso. exact (Hk u H2 H1).
Qed.

Lemma sum_last n g : sum (seq 0 (S n)) g = sum (seq 0 n) g + g n.
Proof.
  replace (S n) with (n + 1)%nat by lia. rewrite seq_app. cbn [seq]. rewrite Nat.add_0_l.
  generalize (seq 0 n). induction l as [|a l IH]; cbn; lra.
Qed.

Theorem ref_calc_exact : calc_exact ref_calc.
Proof.
  intros ls m0 ms Hn Hne Hl. unfold ref_calc. cbn [taken map].
  set (M := fun m : reading => (vec ls (r_at m), Fin (r_val m), snd m)). change (map (fun m => (vec ls (r_at m), Fin (r_val m), snd m)) ms) with (map M ms).
  change (m_pos (vec ls (r_at m0), Fin (r_val m0), snd m0)) with (vec ls (r_at m0)). rewrite length_vec, snd_vec.
  set (at0 := ent (array ls (r_at m0))). rewrite !map_map.
  assert (Hat : forall m, map snd (m_pos (M m)) = array ls (r_at m)) by (intros m; apply snd_vec).
  set (diffs := map (fun x i => ent (map snd (m_pos (M x))) i - at0 i) ms).
  pose proof (kernel_labels ls (steps_from m0 ms) diffs Hn) as Hk.
  match type of Hk with ?P -> _ => assert (Hp : P) end.
  { unfold diffs, steps_from. clear -Hn Hat. induction ms as [|m ms IH]; constructor; [|exact IH]. intros u. rewrite Hat. unfold at0. rewrite !dot_sub_r, !dot_seq by exact Hn. reflexivity. }
  specialize (Hk Hp). destruct (kernel Nat.eq_dec (length diffs) (seq 0 (length ls)) diffs) as [u|].
  - split; [|reflexivity]. intros H. exfalso. destruct Hk as [K1 K2]. exact (H _ K2 K1).
  - split; [intros _|intros [u [H1 H2]]; exfalso; exact (Hk u H2 H1)].
    set (rows := map _ ms).
    assert (Hr : length rows = length ls) by (unfold rows; rewrite map_length; exact Hl).
    pose proof (kernel_enough Nat.eq_dec (length rows) (seq 0 (S (length ls))) rows (le_n _) (seq_NoDup _ _)) as Hen.
    rewrite seq_length in Hen. specialize (Hen ltac:(lia)).
    destruct (kernel Nat.eq_dec (length rows) (seq 0 (S (length ls))) rows) as [w|] eqn:Hw; [|contradiction].
    apply kernel_sound in Hw; [|lia|apply seq_NoDup]. destruct Hw as [[i [Hi Hwi]] Ho].
    assert (Hrow : forall m, In m ms -> dot ls (fun l => w (pos l ls)) (fun l => r_at m l - r_at m0 l) = w (length ls) * (r_val m - r_val m0)).
    { intros m Hm. specialize (Ho _ (in_map _ _ _ Hm)). unfold dot in Ho. rewrite sum_last in Ho. rewrite Nat.eqb_refl in Ho.
      cbn [ent nth M fst snd] in Ho.
      rewrite (sum_ext _ _ (fun i => w i * (ent (array ls (r_at m)) i - at0 i))) in Ho.
      2:{ intros j Hj. apply in_seq in Hj. rewrite (proj2 (Nat.eqb_neq j (length ls))) by lia. rewrite Hat. reflexivity. }
      change (sum (seq 0 (length ls)) (fun i => w i * (ent (array ls (r_at m)) i - at0 i))) with (dot (seq 0 (length ls)) w (fun i => ent (array ls (r_at m)) i - at0 i)) in Ho.
      unfold at0 in Ho. rewrite dot_sub_r, !dot_seq in Ho by exact Hn. rewrite dot_sub_r. unfold ent in Ho. cbn in Ho. lra. }
    assert (Hw0 : w (length ls) <> 0).
    { intros E. apply (Hk (fun l => w (pos l ls))).
      - intros v Hv. apply in_map_iff in Hv. destruct Hv as [m [<- Hm]]. rewrite (Hrow m Hm), E. lra.
      - apply in_seq in Hi. destruct (Nat.eq_dec i (length ls)) as [->|Hne']; [contradiction|].
        assert (Hlt : (i < length ls)%nat) by lia.
        exists (nth i ls EmptyString). split; [apply nth_In; exact Hlt|]. rewrite nth_seq_pos by assumption. exact Hwi. }
    exists (fun l => w (pos l ls) / w (length ls)), []. split; [rewrite out_array by exact Hn; reflexivity|].
    intros m Hm. specialize (Hrow m Hm).
    transitivity (/ w (length ls) * dot ls (fun l => w (pos l ls)) (fun l => r_at m l - r_at m0 l)).
    + rewrite (dot_comm ls (fun l => w (pos l ls))), <- dot_scale_r, dot_comm. apply dot_ext; intros; [reflexivity|]. unfold Rdiv. lra.
    + rewrite Hrow. field. exact Hw0.
Qed.

Lemma lincomb_nth (cs : nat -> R) (ds : list (label -> R)) l :
  sum (seq 0 (length ds)) (fun i => cs i * nth i ds (fun _ => 0) l) = lincomb (map cs (seq 0 (length ds))) ds l.
Proof. rewrite lincomb_map. apply sum_ext. intros i _. rewrite Nat.sub_0_r. reflexivity. Qed.

Lemma ref_lstsq_solution ls rows b : NoDup ls -> ls <> [] -> rows <> [] -> length b = length rows -> independent ls rows ->
  exists x, ref_lstsq (map (vec ls) rows) (map Fin b) = Ok (array ls x) /\ Forall2 (fun r y => dot ls r x = y) rows b /\
    exists w : nat -> R, forall l, x l = sum (seq 0 (length rows)) (fun i => w i * nth i rows (fun _ => 0) l).
Proof.
  intros Hn Hne Hr Hb Hi. unfold ref_lstsq.
  assert (Hl : length (hd [] (map (vec ls) rows)) = length ls) by (destruct rows; [contradiction|apply length_vec]). rewrite Hl, (map_length (vec ls)).
  set (k := length rows). set (row := fun j => ent (map snd (nth j (map (vec ls) rows) []))).
  set (rv := fun j => nth j rows (fun _ => 0)).
  assert (Hrow : forall j, (j < k)%nat -> row j = ent (array ls (rv j))).
  { intros j Hj. unfold row, rv. rewrite (nth_indep _ [] (vec ls (fun _ => 0))) by (rewrite map_length; exact Hj). rewrite (map_nth (vec ls)), snd_vec. reflexivity. }
  assert (Hgram : forall i j, (i < k)%nat -> (j < k)%nat -> dot (seq 0 (length ls)) (row i) (row j) = dot ls (rv i) (rv j)).
  { intros i j Hi' Hj. rewrite (Hrow i Hi'), (Hrow j Hj), dot_seq by exact Hn. apply dot_ext; intros; [apply ent_pos; assumption|reflexivity]. }
  match goal with |- context [kernel _ (length ?e) _ _] => set (eqs := e) end.
  assert (He : length eqs = k) by (unfold eqs; rewrite map_length, seq_length; reflexivity).
  pose proof (kernel_enough Nat.eq_dec (length eqs) (seq 0 (S k)) eqs (le_n _) (seq_NoDup _ _)) as Hen.
  rewrite seq_length in Hen. specialize (Hen ltac:(lia)).
  destruct (kernel Nat.eq_dec (length eqs) (seq 0 (S k)) eqs) as [w|] eqn:Hw; [|contradiction].
  apply kernel_sound in Hw; [|lia|apply seq_NoDup]. destruct Hw as [[i0 [Hi0 Hwi]] Ho].
  set (z := fun l => sum (seq 0 k) (fun i => w i * rv i l)).
  assert (Heq : forall j, (j < k)%nat -> dot ls z (rv j) = w k * ent (map Fin b) j).
  { intros j Hj. assert (Hin : In j (seq 0 k)) by (apply in_seq; lia). specialize (Ho _ (in_map _ _ _ Hin)). cbn beta in Ho. unfold dot at 1 in Ho. rewrite sum_last, Nat.eqb_refl in Ho.
    rewrite (sum_ext _ _ (fun i => w i * dot ls (rv i) (rv j))) in Ho.
    2:{ intros i Hi'. apply in_seq in Hi'. rewrite (proj2 (Nat.eqb_neq i k)) by lia. change (w i * dot (seq 0 (length ls)) (row i) (row j) = w i * dot ls (rv i) (rv j)). rewrite Hgram by lia. reflexivity. }
    replace (dot ls z (rv j)) with (sum (seq 0 k) (fun i => w i * dot ls (rv i) (rv j))); [lra|].
    unfold dot, z. rewrite (sum_ext ls (fun a => sum (seq 0 k) (fun i => w i * rv i a) * rv j a) (fun a => sum (seq 0 k) (fun i => w i * (rv i a * rv j a)))).
    - rewrite sum_swap. apply sum_ext. intros i _. rewrite sum_scale. reflexivity.
    - intros a _. rewrite Rmult_comm, <- sum_scale. apply sum_ext. intros; lra. }
  assert (Hw0 : w k <> 0).
  { intros E.
    assert (Hz0 : forall l, In l ls -> z l = 0).
    { destruct (zero_dec ls z) as [H|H]; [exact H|exfalso]. pose proof (dot_self_pos ls z H) as Hpos.
      assert (Hzz : dot ls z z = sum (seq 0 k) (fun i => w i * dot ls z (rv i))).
      { unfold dot. unfold z at 2. rewrite (sum_ext ls _ (fun a => sum (seq 0 k) (fun i => w i * (z a * rv i a)))).
        - rewrite sum_swap. apply sum_ext. intros i _. rewrite sum_scale. reflexivity.
        - intros a _. rewrite <- sum_scale. apply sum_ext. intros; lra. }
      rewrite (sum_zero (seq 0 k)) in Hzz; [lra|]. intros i Hi'. apply in_seq in Hi'. rewrite Heq, E by lia. lra. }
    assert (Hc : forall x, In x (map w (seq 0 k)) -> x = 0).
    { apply Hi; [rewrite map_length, seq_length; reflexivity|]. intros l Hin. unfold k. rewrite <- lincomb_nth. apply (Hz0 l Hin). }
    apply in_seq in Hi0. destruct (Nat.eq_dec i0 k) as [->|Hne']; [contradiction|]. apply Hwi, Hc. apply in_map, in_seq. lia. }
  exists (fun l => z l / w k). split.
  - rewrite out_array by exact Hn. f_equal. unfold array. apply map_ext_in. intros l Hin. f_equal. unfold z, Rdiv.
    rewrite (Rmult_comm (sum _ _)), <- sum_scale. apply sum_ext. intros i Hi'. apply in_seq in Hi'. 
    match goal with |- w i * / w k * ?r = _ => change r with (row i (pos l ls)) end. rewrite Hrow by lia. rewrite ent_pos by exact Hin. lra.
  - split; [|exists (fun i => w i / w k); intros l; unfold z, Rdiv; rewrite Rmult_comm, <- sum_scale; apply sum_ext; intros i _; fold (rv i); lra].
    assert (Hall : forall j, (j < k)%nat -> dot ls (rv j) (fun l => z l / w k) = nth j b 0).
    { intros j Hj. transitivity (/ w k * dot ls (rv j) z).
      - rewrite <- dot_scale_r. apply dot_ext; intros; [reflexivity|]. unfold Rdiv. lra.
      - rewrite dot_comm, Heq by exact Hj. unfold ent. rewrite (nth_indep _ NaN (Fin 0)) by (rewrite map_length, Hb; exact Hj).
        rewrite (map_nth Fin). field. exact Hw0. }
    generalize dependent (fun l => z l / w k). intros x Hall. unfold rv, k in Hall. clear -Hall Hb. revert b Hb Hall. induction rows as [|r rows IH]; intros [|y b] Hb Hall; try discriminate; constructor.
    + apply (Hall 0%nat). cbn. lia.
    + apply IH; [cbn in Hb; lia|]. intros j Hj. apply (Hall (S j)). cbn. lia.
Qed.

Theorem ref_lstsq_exact : lstsq_exact ref_lstsq.
Proof.
  intros ls rows b Hn Hne Hr Hb Hi. destruct (ref_lstsq_solution ls rows b Hn Hne Hr Hb Hi) as [x [H1 [H2 _]]]. exists x. auto.
Qed.
(** A combination of the rows is orthogonal to the difference of any two
    solutions. *)
Theorem ref_lstsq_shortest : lstsq_shortest ref_lstsq.
Proof.
  intros ls rows b Hn Hne Hr Hb Hi. destruct (ref_lstsq_solution ls rows b Hn Hne Hr Hb Hi) as [x [H1 [H2 [w Hw]]]]. exists x.
  split; [exact H1|]. split; [exact H2|]. intros y Hy.
  assert (Hrows : forall i, (i < length rows)%nat -> dot ls (nth i rows (fun _ => 0)) x = dot ls (nth i rows (fun _ => 0)) y).
  { clear - H2 Hy. revert b H2 Hy. induction rows as [|r rows IH]; intros b H2 Hy i Hi; [cbn in Hi; lia|]. inversion H2; subst. inversion Hy; subst.
    destruct i as [|i]; cbn [nth]; [congruence|]. apply (IH l'); [assumption|assumption|cbn in Hi; lia]. }
  assert (Hx : forall u, dot ls x u = sum (seq 0 (length rows)) (fun i => w i * dot ls (nth i rows (fun _ => 0)) u)).
  { intros u. unfold dot. rewrite (sum_ext ls _ (fun l => sum (seq 0 (length rows)) (fun i => w i * (nth i rows (fun _ => 0) l * u l)))).
    - rewrite sum_swap. apply sum_ext. intros i _. rewrite sum_scale. reflexivity.
    - intros l _. rewrite Hw, Rmult_comm, <- sum_scale. apply sum_ext. intros; lra. }
  assert (Heq : dot ls x y = dot ls x x).
  { rewrite !Hx. apply sum_ext. intros i Hin. apply in_seq in Hin. rewrite Hrows by lia. reflexivity. }
  assert (Hpos : 0 <= dot ls (fun l => y l - x l) (fun l => y l - x l)) by (apply sum_nonneg; intros; apply Rle_0_sqr).
  rewrite dot_sub_l, !dot_sub_r, (dot_comm ls y x), Heq in Hpos. lra.
Qed.
