From Verif Require Import PyBase TargetModel TunerModel TunerSpec SeriesLemmas NewtonModel EstimatorModel EstimatorProofs GradientProps KernelR ComposeSpec ComposeNumerics NumericsModel NumericsSpec.
From Coq Require Import Lra.
Local Open Scope R_scope.

Lemma arr_ext n u v : (forall i, (i < n)%nat -> u i = v i) -> arr n u = arr n v.
Proof. intros H. apply map_ext_in. intros i Hi. apply in_seq in Hi. f_equal. apply H. lia. Qed.
Lemma array_arr ls u : array ls u = arr (length ls) (fun i => u (nth i ls EmptyString)).
Proof.
  unfold array, arr. replace ls with (map (fun i => nth i ls EmptyString) (seq 0 (length ls))) at 1.
  - rewrite map_map. reflexivity.
  - apply (nth_ext _ _ EmptyString EmptyString); [rewrite map_length, seq_length; reflexivity|]. intros i Hi. rewrite map_length, seq_length in Hi.
    rewrite (nth_indep _ EmptyString (nth 0 ls EmptyString)) by (rewrite map_length, seq_length; exact Hi).
    rewrite (map_nth (fun i => nth i ls EmptyString)), seq_nth by exact Hi. reflexivity.
Qed.
Lemma arr_array ls u : NoDup ls -> arr (length ls) u = array ls (fun l => u (pos l ls)).
Proof. apply out_array. Qed.
Lemma length_arr n u : length (arr n u) = n.
Proof. unfold arr. rewrite map_length. apply seq_length. Qed.
Lemma nth_arr n u i d : (i < n)%nat -> nth i (arr n u) d = Fin (u i).
Proof. intros H. unfold arr. rewrite (nth_indep _ d (Fin (u 0%nat))) by (rewrite map_length, seq_length; exact H). rewrite (map_nth (fun j => Fin (u j))), seq_nth by exact H. reflexivity. Qed.
Lemma dot_labels (ls : list label) (u v : label -> R) : dot ls u v = dot (seq 0 (length ls)) (fun i => u (nth i ls EmptyString)) (fun i => v (nth i ls EmptyString)).
Proof.
  unfold dot. replace ls with (map (fun i => nth i ls EmptyString) (seq 0 (length ls))) at 1.
  - rewrite sum_map. reflexivity.
  - apply (nth_ext _ _ EmptyString EmptyString); [rewrite map_length, seq_length; reflexivity|]. intros i Hi. rewrite map_length, seq_length in Hi.
    rewrite (nth_indep _ EmptyString (nth 0 ls EmptyString)) by (rewrite map_length, seq_length; exact Hi).
    rewrite (map_nth (fun i => nth i ls EmptyString)), seq_nth by exact Hi. reflexivity.
Qed.

(** ** Finite arrays *)
Lemma vsub_arr n u v : vsub (arr n u) (arr n v) = arr n (fun i => u i - v i).
Proof.
  unfold vsub, arr. generalize (seq 0 n). induction l as [|i l IH]; cbn; [reflexivity|]. f_equal. exact IH.
Qed.
Lemma ndot_arr n u v : ndot (arr n u) (arr n v) = Fin (dot (seq 0 n) u v).
Proof. unfold ndot, arr, dot. generalize (seq 0 n). induction l as [|i l IH]; cbn; [reflexivity|]. unfold ndot in IH. rewrite IH. reflexivity. Qed.
Lemma column_mat n A j : (j < n)%nat -> column j (mat n A) = arr n (fun i => A i j).
Proof. intros H. unfold column, mat. rewrite map_map. apply map_ext. intros i. apply nth_arr, H. Qed.
Lemma vecmat_mat n u A : vecmat n (arr n u) (mat n A) = arr n (fun j => dot (seq 0 n) u (fun i => A i j)).
Proof.
  unfold vecmat. unfold arr at 2. apply map_ext_in. intros j Hj. apply in_seq in Hj. rewrite column_mat by lia. apply ndot_arr.
Qed.
Lemma transpose_rows n (rows : list (nat -> R)) : length rows = n -> transpose n (map (arr n) rows) = mat n (fun i j => nth j rows (fun _ => 0) i).
Proof.
  intros Hl. unfold transpose, mat. apply map_ext_in. intros i Hi. apply in_seq in Hi. unfold column. rewrite map_map.
  transitivity (map (fun r => Fin (r i)) rows); [apply map_ext; intros r; apply nth_arr; lia|]. unfold arr.
  transitivity (map (fun r => Fin (r i)) (map (fun j => nth j rows (fun _ => 0)) (seq 0 n))); [f_equal|rewrite map_map; reflexivity].
  apply (nth_ext _ _ (fun _ => 0) (fun _ => 0)); [rewrite map_length, seq_length; exact Hl|]. intros j Hj.
  rewrite (nth_indep (map _ _) (fun _ => 0) (nth 0 rows (fun _ => 0))) by (rewrite map_length, seq_length; lia).
  rewrite (map_nth (fun j => nth j rows (fun _ => 0))), seq_nth by lia. reflexivity.
Qed.
Lemma sandwich_mat n X v : sandwich n (mat n X) (arr n v) = mat n (fun i j => sum (seq 0 n) (fun k => X k i * v k * X k j)).
Proof.
  unfold sandwich, mat at 3. apply map_ext_in. intros i Hi. apply in_seq in Hi. unfold arr at 2. apply map_ext_in. intros j Hj. apply in_seq in Hj.
  rewrite !column_mat by lia.
  replace (map _ (combine (arr n (fun k => X k i)) (arr n v))) with (arr n (fun k => X k i * v k)).
  - rewrite ndot_arr. reflexivity.
  - unfold arr. generalize (seq 0 n). induction l as [|k l IH]; cbn; [reflexivity|]. f_equal. exact IH.
Qed.

(** ** The gradient *)
Lemma sum_delta n (f : nat -> R) k : (k < n)%nat -> sum (seq 0 n) (fun j => f j * delta j k) = f k.
Proof.
  assert (H : forall n s, (s <= k < s + n)%nat -> sum (seq s n) (fun j => f j * delta j k) = f k).
  { induction n0 as [|n0 IH]; intros s Hs; [lia|]. cbn [seq sum]. destruct (Nat.eq_dec s k) as [->|Hne].
    - unfold delta at 1. rewrite Nat.eqb_refl. rewrite sum_zero; [lra|]. intros j Hj. apply in_seq in Hj. unfold delta. rewrite (proj2 (Nat.eqb_neq j k)) by lia. lra.
    - unfold delta at 1. rewrite (proj2 (Nat.eqb_neq s k)) by exact Hne. rewrite IH by lia. lra. }
  intros Hk. apply H. lia.
Qed.
(** [(p X) A = p] *)
Lemma solve_left n (p : nat -> R) (X A : nat -> nat -> R) k : (k < n)%nat ->
  (forall i, (i < n)%nat -> dot (seq 0 n) (X i) (fun l => A l k) = delta i k) ->
  dot (seq 0 n) (fun l => dot (seq 0 n) p (fun i => X i l)) (fun l => A l k) = p k.
Proof.
  intros Hk H. unfold dot. rewrite (sum_ext _ _ (fun l => sum (seq 0 n) (fun i => p i * (X i l * A l k)))).
  - rewrite sum_swap. rewrite (sum_ext _ _ (fun i => p i * delta i k)).
    + apply sum_delta. exact Hk.
    + intros i Hi. apply in_seq in Hi. rewrite sum_scale. f_equal. apply H. lia.
  - intros l _. rewrite Rmult_comm, <- sum_scale. apply sum_ext. intros; lra.
Qed.

Lemma against_first {A B} (f : A -> A -> B) n (a0 : A) l : length l = n -> against f n (a0 :: l) = Some (map (fun a => f a a0) l).
Proof. intros H. unfold against. cbn [length]. rewrite H, Nat.add_1_r, Nat.eqb_refl. reflexivity. Qed.

Section Calc.
Variable inv : list (list num) -> res (list (list num)).
Hypothesis Hinv : inv_exact inv.

Lemma in_nth_lt {A} (l : list A) x d : In x l -> exists i, (i < length l)%nat /\ nth i l d = x.
Proof. intros H. destruct (In_nth l x d H) as [i Hi]. exists i. exact Hi. Qed.

(** The points are used in pairs. *)
Definition pairing (n : nat) (ms : list reading) (ps : list (reading * reading)) : Prop :=
  forall A B (f : A -> A -> B) (h : reading -> A), against f n (map h ms) = Some (map (fun q => f (h (fst q)) (h (snd q))) ps).
Definition diffs (ls : list label) (ps : list (reading * reading)) (i j : nat) : R :=
  nth j (map (fun q i => moved q (nth i ls EmptyString)) ps) (fun _ => 0) i.
Definition gains (ps : list (reading * reading)) (j : nat) : R := nth j (map gained ps) 0.

Lemma diffs_nth ls ps i j d : (j < length ps)%nat -> diffs ls ps i j = moved (nth j ps d) (nth i ls EmptyString).
Proof.
  intros H. unfold diffs. rewrite (nth_indep _ (fun _ => 0) ((fun q i => moved q (nth i ls EmptyString)) d)) by (rewrite map_length; exact H).
  rewrite (map_nth (fun q i => moved q (nth i ls EmptyString))). reflexivity.
Qed.
Lemma gains_nth ps j d : (j < length ps)%nat -> gains ps j = gained (nth j ps d).
Proof. intros H. unfold gains. rewrite (nth_indep _ 0 (gained d)) by (rewrite map_length; exact H). apply map_nth. Qed.
Lemma map_nth_seq {A B} (f : A -> B) (l : list A) d : map (fun j => f (nth j l d)) (seq 0 (length l)) = map f l.
Proof.
  transitivity (map f (map (fun j => nth j l d) (seq 0 (length l)))); [rewrite map_map; reflexivity|]. f_equal.
  apply (nth_ext _ _ d d); [rewrite map_length; apply seq_length|]. intros j Hj. rewrite map_length, seq_length in Hj.
  rewrite (nth_indep _ d (nth 0 l d)) by (rewrite map_length, seq_length; exact Hj). rewrite (map_nth (fun j => nth j l d)), seq_nth by exact Hj. reflexivity.
Qed.

Lemma calculate_points (ls : list label) ms ps : ms <> [] -> length ps = length ls -> pairing (length ls) ms ps ->
  let n := length ls in
  calculate_gradient inv (taken ls ms) =
  match inv (mat n (diffs ls ps)) with
  | Ok X => Ok (vecmat n (arr n (gains ps)) X, sandwich n X (map (fun q => nadd (snd (fst q)) (snd (snd q))) ps))
  | Raise LinAlgError => Raise EvaluationError
  | Raise e => Raise e
  end.
Proof.
  intros Hms Hl Hp n. unfold calculate_gradient. destruct ms as [|m0 ms']; [contradiction|]. set (l := m0 :: ms') in *.
  change (taken ls l) with ((vec ls (r_at m0), Fin (r_val m0), snd m0) :: taken ls ms').
  cbn iota beta. change (m_pos (vec ls (r_at m0), Fin (r_val m0), snd m0)) with (vec ls (r_at m0)). rewrite length_vec.
  change ((vec ls (r_at m0), Fin (r_val m0), snd m0) :: taken ls ms') with (taken ls l). unfold taken.
  rewrite !map_map. cbn [m_pos fst snd]. fold n. fold n in Hp. rewrite !Hp.
  replace (map (fun q : reading * reading => vsub (map snd (vec ls (r_at (fst q)))) (map snd (vec ls (r_at (snd q))))) ps)
    with (map (arr n) (map (fun q i => moved q (nth i ls EmptyString)) ps)).
  - rewrite transpose_rows by (rewrite map_length; exact Hl).
    replace (map (fun q : reading * reading => nsub (Fin (r_val (fst q))) (Fin (r_val (snd q)))) ps) with (arr n (gains ps)).
    + change (mat n (fun i j => nth j (map (fun q i0 => moved q (nth i0 ls EmptyString)) ps) (fun _ => 0) i)) with (mat n (diffs ls ps)).
      destruct (inv (mat n (diffs ls ps))) as [X|[]]; reflexivity.
    + unfold arr, n. rewrite <- Hl. destruct ps as [|d ps']; [reflexivity|]. rewrite <- (map_nth_seq _ (d :: ps') d). apply map_ext_in. intros j Hj. apply in_seq in Hj.
      rewrite (gains_nth _ j d) by lia. reflexivity.
  - rewrite map_map. apply map_ext. intros q. rewrite !snd_vec, !array_arr, vsub_arr. reflexivity.
Qed.

Lemma singular_points (ls : list label) ps : NoDup ls -> length ps = length ls ->
  singular (length ls) (diffs ls ps) <-> exists u, nonzero ls u /\ orthogonal ls u (map moved ps).
Proof.
  intros Hn Hl. split.
  - intros [u [[i [Hi Hu]] Ho]]. exists (fun l => u (pos l ls)). split.
    + exists (nth i ls EmptyString). split; [apply nth_In, Hi|]. rewrite nth_seq_pos by assumption. exact Hu.
    + intros w Hw. apply in_map_iff in Hw. destruct Hw as [q [<- Hq]]. destruct (in_nth_lt ps q q Hq) as [j [Hj Hjq]].
      assert (Hj' : (j < length ls)%nat) by (rewrite <- Hl; exact Hj).
      specialize (Ho j Hj'). rewrite dot_labels. refine (eq_trans _ Ho). apply dot_ext; intros k Hk; apply in_seq in Hk.
      * rewrite nth_seq_pos by (assumption || exact (proj2 Hk)). reflexivity.
      * rewrite (diffs_nth ls ps k j q Hj), Hjq. reflexivity.
  - intros [u [[l [Hlin Hu]] Ho]]. exists (fun i => u (nth i ls EmptyString)). split.
    + exists (pos l ls). split; [apply pos_lt, Hlin|]. rewrite nth_pos by exact Hlin. exact Hu.
    + intros j Hj. rewrite <- Hl in Hj. destruct ps as [|d ps']; [cbn in Hj; lia|].
      specialize (Ho _ (in_map moved (d :: ps') _ (nth_In (d :: ps') d Hj))). rewrite dot_labels in Ho.
      refine (eq_trans _ Ho). apply dot_ext; intros k Hk; [reflexivity|]. apply diffs_nth, Hj.
Qed.

Lemma quadratic n (X : nat -> nat -> R) (v s t : nat -> R) :
  dot (seq 0 n) s (fun i => dot (seq 0 n) (fun j => sum (seq 0 n) (fun k => X k i * v k * X k j)) t) =
  sum (seq 0 n) (fun k => v k * (dot (seq 0 n) (X k) s * dot (seq 0 n) (X k) t)).
Proof.
  unfold dot.
  transitivity (sum (seq 0 n) (fun i => sum (seq 0 n) (fun k => v k * (X k i * s i * sum (seq 0 n) (fun j => X k j * t j))))).
  - apply sum_ext. intros i _.
    rewrite (sum_ext (seq 0 n) (fun a => sum (seq 0 n) (fun k => X k i * v k * X k a) * t a) (fun a => sum (seq 0 n) (fun k => X k i * v k * (X k a * t a)))).
    + rewrite sum_swap, <- sum_scale. apply sum_ext. intros k _. rewrite sum_scale. ring.
    + intros a _. rewrite Rmult_comm, <- sum_scale. apply sum_ext. intros; ring.
  - rewrite sum_swap. apply sum_ext. intros k _.
    rewrite (sum_ext _ _ (fun i => v k * sum (seq 0 n) (fun j => X k j * t j) * (X k i * s i))) by (intros; ring). rewrite sum_scale. ring.
Qed.

Lemma regular_points (ls : list label) ms ps : NoDup ls -> ls <> [] -> ms <> [] -> length ps = length ls -> pairing (length ls) ms ps ->
  (forall u, orthogonal ls u (map moved ps) -> ~ nonzero ls u) ->
  exists g c, calculate_gradient inv (taken ls ms) = Ok (array ls g, c) /\
    (forall q, In q ps -> dot ls g (moved q) = gained q) /\
    (forall w : reading -> R, (forall q, In q ps -> snd (fst q) = Fin (w (fst q)) /\ snd (snd q) = Fin (w (snd q))) ->
       exists C, c = map (fun l => array ls (C l)) ls /\
       forall j k d, (j < length ps)%nat -> (k < length ps)%nat ->
         dot ls (moved (nth j ps d)) (fun l => dot ls (C l) (moved (nth k ps d))) = if Nat.eqb j k then w (fst (nth j ps d)) + w (snd (nth j ps d)) else 0).
Proof.
  intros Hn Hne Hms Hl Hp Hno. pose proof (calculate_points ls ms ps Hms Hl Hp) as Hc. cbn zeta in Hc.
  pose proof (singular_points ls ps Hn Hl) as Hs.
  assert (Hpos : (0 < length ls)%nat) by (destruct ls; [contradiction|cbn; lia]).
  destruct (Hinv (length ls) (diffs ls ps) Hpos) as [H1 _].
  destruct H1 as [X [HX HI]]; [intros Hsing; apply Hs in Hsing; destruct Hsing as [u [K1 K2]]; exact (Hno u K2 K1)|].
  rewrite HX in Hc. rewrite vecmat_mat, arr_array in Hc by exact Hn.
  eexists. eexists. split; [exact Hc|]. split.
  - intros q Hq. destruct (in_nth_lt ps q q Hq) as [k [Hk Hkq]].
    assert (Hk' : (k < length ls)%nat) by (rewrite <- Hl; exact Hk).
    pose proof (solve_left (length ls) (gains ps) X (diffs ls ps) k Hk' (fun i Hi => proj1 (HI i k Hi Hk'))) as K.
    rewrite (gains_nth ps k q Hk), Hkq in K. rewrite <- K, dot_labels. apply dot_ext; intros i Hi; apply in_seq in Hi.
    + rewrite nth_seq_pos by (assumption || exact (proj2 Hi)). reflexivity.
    + rewrite (diffs_nth ls ps i k q Hk), Hkq. reflexivity.
  - intros w Hw. destruct ps as [|d0 ps']; [cbn in Hl; lia|]. set (ps := d0 :: ps') in *.
    set (v := fun j => w (fst (nth j ps d0)) + w (snd (nth j ps d0))).
    assert (Hv : map (fun q : reading * reading => nadd (snd (fst q)) (snd (snd q))) ps = arr (length ls) v).
    { unfold arr. rewrite <- Hl. transitivity (map (fun q : reading * reading => Fin (w (fst q) + w (snd q))) ps); [|symmetry; exact (map_nth_seq (fun q : reading * reading => Fin (w (fst q) + w (snd q))) ps d0)].
      apply map_ext_in. intros q Hq. destruct (Hw q Hq) as [K1 K2]. unfold reading in *. rewrite K1, K2. reflexivity. }
    set (Q := fun i j => sum (seq 0 (length ls)) (fun k => X k i * v k * X k j)).
    assert (HQ : sandwich (length ls) (mat (length ls) X) (map (fun q : reading * reading => nadd (snd (fst q)) (snd (snd q))) ps) = mat (length ls) Q) by (rewrite Hv; apply sandwich_mat).
    exists (fun l l' => Q (pos l ls) (pos l' ls)). split.
    + refine (eq_trans HQ _). unfold mat. rewrite <- (map_pos ls Hn) at 1. rewrite map_map. apply map_ext. intros l. apply arr_array, Hn.
    + intros j k d Hj Hk. rewrite (nth_indep ps d d0 Hj), (nth_indep ps d d0 Hk).
      transitivity (dot (seq 0 (length ls)) (fun i => diffs ls ps i j) (fun i => dot (seq 0 (length ls)) (Q i) (fun i => diffs ls ps i k))).
      * rewrite dot_labels. apply dot_ext; intros i Hi; apply in_seq in Hi; [symmetry; apply diffs_nth, Hj|]. rewrite dot_labels.
        apply dot_ext; intros i' Hi'; apply in_seq in Hi'; [|symmetry; apply diffs_nth, Hk].
        rewrite !nth_seq_pos by (exact Hn || exact (proj2 Hi) || exact (proj2 Hi')). reflexivity.
      * unfold Q. rewrite quadratic. rewrite Hl in Hj, Hk.
        rewrite (sum_ext _ _ (fun i => v i * delta i k * delta i j)).
        -- rewrite sum_delta by exact Hj. unfold delta, v. destruct (Nat.eqb_spec j k); lra.
        -- intros i Hi. apply in_seq in Hi. rewrite (proj1 (HI i j (proj2 Hi) Hj)), (proj1 (HI i k (proj2 Hi) Hk)). ring.
Qed.
Lemma degenerate_points (ls : list label) ms ps : NoDup ls -> ls <> [] -> ms <> [] -> length ps = length ls -> pairing (length ls) ms ps ->
  (exists u, nonzero ls u /\ orthogonal ls u (map moved ps)) -> calculate_gradient inv (taken ls ms) = Raise EvaluationError.
Proof.
  intros Hn Hne Hms Hl Hp Hu. rewrite (calculate_points ls ms ps Hms Hl Hp). cbn zeta.
  assert (Hpos : (0 < length ls)%nat) by (destruct ls; [contradiction|cbn; lia]).
  rewrite (proj2 (Hinv (length ls) (diffs ls ps) Hpos)); [reflexivity|]. apply singular_points; assumption.
Qed.

(** n+1 points, pairs of points. *)
Lemma pairing_first m0 ms n : length ms = n -> pairing n (m0 :: ms) (map (fun m => (m, m0)) ms).
Proof. intros H A B f h. cbn [map]. rewrite against_first by (rewrite map_length; exact H). rewrite !map_map. reflexivity. Qed.
Lemma pairing_pairs ps n : length ps = n -> (0 < n)%nat -> pairing n (points_of ps) ps.
Proof.
  intros H Hn A B f h. unfold against. rewrite map_length.
  assert (Hlen : length (points_of ps) = (2 * n)%nat) by (rewrite <- H; clear; unfold points_of; induction ps as [|q ps IH]; [reflexivity|cbn [flat_map app length] in *; rewrite IH; lia]).
  rewrite Hlen. destruct (Nat.eqb_spec (2 * n) (n + 1)) as [E|E].
  - assert (n = 1%nat) by lia. subst n. destruct ps as [|q [|q' ps]]; cbn in *; try lia. reflexivity.
  - rewrite Nat.eqb_refl. f_equal. clear. induction ps as [|q ps IH]; cbn; [reflexivity|]. f_equal. refine (eq_trans _ IH). unfold odds. fold (points_of ps). destruct (map h (points_of ps)); reflexivity.
Qed.
Lemma moved_steps m0 ms : map moved (map (fun m => (m, m0)) ms) = steps_from m0 ms.
Proof. rewrite map_map. reflexivity. Qed.

Lemma evaluated_pairing (ls : list label) ms ps : ls <> [] -> length ps = length ls -> evaluated ms ps -> ms <> [] /\ pairing (length ls) ms ps.
Proof.
  intros Hne Hl He. assert (Hpos : (0 < length ls)%nat) by (destruct ls; [contradiction|cbn; lia]). destruct He as [->|[m0 [ms' [-> ->]]]].
  - split; [|apply pairing_pairs; assumption]. destruct ps; [cbn in Hl; lia|discriminate].
  - split; [discriminate|]. apply pairing_first. rewrite map_length in Hl. exact Hl.
Qed.
Lemma evaluated_in ms ps : evaluated ms ps -> forall q, In q ps -> In (fst q) ms /\ In (snd q) ms.
Proof.
  intros [->|[m0 [ms' [-> ->]]]] q Hq.
  - unfold points_of. split; apply in_flat_map; exists q; cbn; auto.
  - apply in_map_iff in Hq. destruct Hq as [m [<- Hm]]. cbn. auto.
Qed.

Theorem calculate_exact : calc_exact (calculate_gradient inv).
Proof.
  intros ls m0 ms Hn Hne Hl. set (ps := map (fun m => (m, m0)) ms).
  assert (Hlp : length ps = length ls) by (unfold ps; rewrite map_length; exact Hl).
  rewrite <- moved_steps. fold ps. split; intros H.
  - destruct (regular_points ls (m0 :: ms) ps Hn Hne ltac:(discriminate) Hlp (pairing_first m0 ms _ Hl) H) as [g [c [E [Hg _]]]].
    exists g, c. split; [exact E|]. intros m Hm. exact (Hg (m, m0) (in_map (fun m => (m, m0)) ms m Hm)).
  - exact (degenerate_points ls (m0 :: ms) ps Hn Hne ltac:(discriminate) Hlp (pairing_first m0 ms _ Hl) H).
Qed.
End Calc.

(** ** The orthogonal vector *)
Lemma normalised n b : nontrivial n b -> map (fun x => ndiv x (nsqrt (ndot (arr n b) (arr n b)))) (arr n b) = arr n (fun i => b i / sqrt (dot (seq 0 n) b b)) /\
  0 < sqrt (dot (seq 0 n) b b).
Proof.
  intros [i [Hi Hb]].
  assert (Hp : 0 < sqrt (dot (seq 0 n) b b)) by (apply sqrt_lt_R0, dot_self_pos; exists i; split; [apply in_seq; lia|exact Hb]).
  split; [|exact Hp]. rewrite ndot_arr. cbn [nsqrt]. unfold arr. rewrite map_map. apply map_ext. intros k. cbn [ndiv]. unfold Reqb. destruct (Req_EM_T _ 0) as [E|]; [lra|reflexivity].
Qed.

Theorem orthogonal_exact ns : nullspace_exact ns -> ortho_exact (get_orthogonal_vector ns).
Proof.
  intros Hns ls us Hn Hne Hus.
  assert (Hpos : (0 < length ls)%nat) by (destruct ls; [contradiction|cbn; lia]).
  set (rows := map (fun (u : label -> R) i => u (nth i ls EmptyString)) us).
  assert (Hrows : map (array ls) us = map (arr (length ls)) rows) by (unfold rows; rewrite map_map; apply map_ext; intros u; apply array_arr).
  destruct (Hns (length ls) rows Hpos) as [bs [Hb1 [Hb2 Hb3]]]; [unfold rows; destruct us; [contradiction|discriminate]|]. cbn zeta in Hb2, Hb3.
  unfold get_orthogonal_vector. rewrite Hrows, Hb1. split.
  - intros [u [[l [Hl Hu]] Ho]]. destruct bs as [|b bs].
    + exfalso. apply Hb3; [|reflexivity]. exists (fun i => u (nth i ls EmptyString)). split.
      * exists (pos l ls). split; [apply pos_lt, Hl|]. rewrite nth_pos by exact Hl. exact Hu.
      * intros r Hr. apply in_map_iff in Hr. destruct Hr as [v [<- Hv]]. rewrite <- dot_labels. apply Ho, Hv.
    + cbn [map]. destruct (Hb2 b (or_introl eq_refl)) as [K1 K2]. destruct (normalised _ b K1) as [E Hp]. rewrite E, arr_array by exact Hn.
      eexists. split; [reflexivity|]. destruct K1 as [i [Hi Hbi]]. split.
      * exists (nth i ls EmptyString). split; [apply nth_In, Hi|]. rewrite nth_seq_pos by assumption. unfold Rdiv. apply Rmult_integral_contrapositive_currified; [exact Hbi|apply Rinv_neq_0_compat; lra].
      * intros v Hv. rewrite dot_labels.
        rewrite (dot_ext _ _ (fun j => / sqrt (dot (seq 0 (length ls)) b b) * b j) _ (fun j => v (nth j ls EmptyString))).
        -- set (w := / sqrt _). rewrite (dot_comm _ (fun j => w * b j)), dot_scale_r, (dot_comm _ _ b). rewrite (K2 (fun j => v (nth j ls EmptyString))); [lra|]. exact (in_map (fun (u : label -> R) i => u (nth i ls EmptyString)) us v Hv).
        -- intros j Hj. apply in_seq in Hj. rewrite nth_seq_pos by (assumption || exact (proj2 Hk) || exact (proj2 Hi) || exact (proj2 Hj)). unfold Rdiv. lra.
        -- reflexivity.
  - intros Hno. destruct bs as [|b bs]; [reflexivity|]. exfalso. destruct (Hb2 b (or_introl eq_refl)) as [[i [Hi Hbi]] K2].
    apply (Hno (fun l => b (pos l ls))).
    + intros v Hv. rewrite dot_labels. refine (eq_trans _ (K2 _ (in_map (fun (u : label -> R) i => u (nth i ls EmptyString)) us v Hv))).
      apply dot_ext; [|reflexivity]. intros j Hj. apply in_seq in Hj. rewrite nth_seq_pos by (assumption || exact (proj2 Hk) || exact (proj2 Hi) || exact (proj2 Hj)). reflexivity.
    + exists (nth i ls EmptyString). split; [apply nth_In, Hi|]. rewrite nth_seq_pos by assumption. exact Hbi.
Qed.

Lemma unit_vector ns : nullspace_exact ns -> forall ls us x, NoDup ls -> ls <> [] -> us <> [] -> get_orthogonal_vector ns (map (array ls) us) = Ok x ->
  exists u, x = array ls u /\ dot ls u u = 1 /\ orthogonal ls u us.
Proof.
  intros Hns ls us x Hn Hne Hus Hx.
  assert (Hpos : (0 < length ls)%nat) by (destruct ls; [contradiction|cbn; lia]).
  set (rows := map (fun (u : label -> R) i => u (nth i ls EmptyString)) us).
  assert (Hrows : map (array ls) us = map (arr (length ls)) rows) by (unfold rows; rewrite map_map; apply map_ext; intros u; apply array_arr).
  destruct (Hns (length ls) rows Hpos) as [bs [Hb1 [Hb2 _]]]; [unfold rows; destruct us; [contradiction|discriminate]|]. cbn zeta in Hb2.
  unfold get_orthogonal_vector in Hx. rewrite Hrows, Hb1 in Hx. destruct bs as [|b bs]; [discriminate|]. cbn [map] in Hx.
  destruct (Hb2 b (or_introl eq_refl)) as [K1 K2]. destruct (normalised _ b K1) as [E Hp]. rewrite E, arr_array in Hx by exact Hn. injection Hx as Hx.
  eexists. split; [symmetry; exact Hx|].
  set (w := sqrt (dot (seq 0 (length ls)) b b)) in *.
  assert (Hscale : forall v, dot ls (fun l => b (pos l ls) / w) v = / w * dot (seq 0 (length ls)) b (fun i => v (nth i ls EmptyString))).
  { intros v. rewrite dot_labels. rewrite (dot_ext _ _ (fun i => / w * b i) _ (fun i => v (nth i ls EmptyString))).
    - rewrite (dot_comm _ (fun i => / w * b i)), dot_scale_r, (dot_comm _ _ b). reflexivity.
    - intros j Hj. apply in_seq in Hj. rewrite nth_seq_pos by (assumption || exact (proj2 Hj)). unfold Rdiv. lra.
    - reflexivity. }
  split.
  - rewrite Hscale. rewrite (dot_ext _ _ b _ (fun i => / w * b i)).
    + rewrite dot_scale_r. assert (Hw : w * w = dot (seq 0 (length ls)) b b).
      { apply sqrt_sqrt. destruct (Rle_or_lt 0 (dot (seq 0 (length ls)) b b)) as [H|H]; [exact H|]. apply sum_nonneg. intros; apply Rle_0_sqr. }
      rewrite <- Hw. field. lra.
    + reflexivity.
    + intros j Hj. apply in_seq in Hj. rewrite nth_seq_pos by (assumption || exact (proj2 Hj)). unfold Rdiv. lra.
  - intros v Hv. rewrite Hscale. rewrite (K2 _ (in_map (fun (u : label -> R) i => u (nth i ls EmptyString)) us v Hv)). lra.
Qed.

(** ** Least squares *)
Lemma residual_zero ls rows b x : length b = length rows -> (residual ls rows b x <= 0 <-> Forall2 (fun r y => dot ls r x = y) rows b).
Proof.
  unfold residual. revert b. induction rows as [|r rows IH]; intros [|y b] Hl; try discriminate; cbn [combine sum].
  - split; [constructor|lra].
  - assert (Hb : length b = length rows) by (cbn in Hl; lia). specialize (IH b Hb). cbn [fst snd].
    assert (H0 : 0 <= sum (combine rows b) (fun q => (dot ls (fst q) x - snd q) * (dot ls (fst q) x - snd q))) by (apply sum_nonneg; intros; apply Rle_0_sqr).
    pose proof (Rle_0_sqr (dot ls r x - y)) as H1. unfold Rsqr in H1. split.
    + intros H. constructor; [nra|]. apply IH. lra.
    + intros H. inversion H as [|r' y' rows' b' Hd Hf]; subst. apply IH in Hf. replace (dot ls r x - dot ls r x) with 0 by lra. lra.
Qed.
Theorem least_squares_exact lstsq : lstsq_minimal lstsq -> lstsq_exact lstsq.
Proof.
  intros H ls rows b Hn Hne Hr Hb Hi. destruct (H ls rows b Hn Hne Hr Hb Hi) as [x [Hx Hmin]]. exists x. split; [exact Hx|].
  destruct (ref_lstsq_exact ls rows b Hn Hne Hr Hb Hi) as [y [_ Hy]]. apply (residual_zero ls rows b x Hb).
  apply Rle_trans with (residual ls rows b y); [apply Hmin|]. apply (residual_zero ls rows b y Hb). exact Hy.
Qed.

(** ** Library routines that meet the specification *)
Definition ref_nullspace (rows : list (list num)) : list (list num) :=
  let n := length (hd [] rows) in
  match kernel Nat.eq_dec (length rows) (seq 0 n) (map ent rows) with
  | Some u => [arr n u]
  | None => []
  end.
Definition ref_inv (M : list (list num)) : res (list (list num)) :=
  let n := length M in
  let A i j := ent (nth i M []) j in
  match kernel Nat.eq_dec n (seq 0 n) (map (fun j i => A i j) (seq 0 n)) with
  | Some _ => Raise LinAlgError
  | None =>
      Ok (mat n (fun i =>
        match kernel Nat.eq_dec n (seq 0 (S n)) (map (fun j k => if Nat.eqb k n then - delta i j else A k j) (seq 0 n)) with
        | Some w => fun k => w k / w n
        | None => fun _ => 0
        end))
  end.

Lemma ent_arr n u i : (i < n)%nat -> ent (arr n u) i = u i.
Proof. intros H. unfold ent. rewrite nth_arr by exact H. reflexivity. Qed.
Theorem ref_nullspace_exact : nullspace_exact ref_nullspace.
Proof.
  intros n rows Hn Hr null. unfold ref_nullspace.
  assert (Hl : length (hd [] (map (arr n) rows)) = n) by (destruct rows; [contradiction|apply length_arr]). rewrite Hl, !map_length, map_map.
  assert (Hdot : forall u r, dot (seq 0 n) u (ent (arr n r)) = dot (seq 0 n) u r) by (intros u r; apply dot_ext; [reflexivity|]; intros i Hi; apply in_seq in Hi; apply ent_arr; lia).
  destruct (kernel _ _ _ _) as [u|] eqn:Hk.
  - apply kernel_sound in Hk; [|rewrite map_length; lia|apply seq_NoDup]. destruct Hk as [[i [Hi Hu]] Ho]. apply in_seq in Hi.
    exists [u]. split; [reflexivity|]. split; [|discriminate]. intros b [<-|[]]. split; [exists i; split; [lia|exact Hu]|].
    intros r Hin. rewrite <- Hdot. apply Ho. exact (in_map (fun r => ent (arr n r)) rows r Hin).
  - exists []. split; [reflexivity|]. split; [intros b []|]. intros [u [[i [Hi Hu]] Ho]]. exfalso. apply Hu.
    apply (kernel_complete Nat.eq_dec (length rows) (seq 0 n) (map (fun r => ent (arr n r)) rows) ltac:(rewrite map_length; lia) (seq_NoDup _ _) Hk).
    + intros r Hin. apply in_map_iff in Hin. destruct Hin as [r' [<- Hr']]. rewrite Hdot. apply Ho, Hr'.
    + apply in_seq. lia.
Qed.

Theorem ref_inv_exact : inv_exact ref_inv.
Proof.
  intros n A Hn. unfold ref_inv.
  assert (Hl : length (mat n A) = n) by (unfold mat; rewrite map_length; apply seq_length). rewrite Hl.
  set (B := fun i j => ent (nth i (mat n A) []) j).
  assert (HB : forall i j, (i < n)%nat -> (j < n)%nat -> B i j = A i j).
  { intros i j Hi Hj. unfold B, mat. rewrite (nth_indep _ [] (arr n (A 0%nat))) by (rewrite map_length, seq_length; exact Hi).
    rewrite (map_nth (fun i => arr n (A i))), seq_nth by exact Hi. apply ent_arr, Hj. }
  assert (Hcol : forall u j, (j < n)%nat -> dot (seq 0 n) u (fun i => B i j) = dot (seq 0 n) u (fun i => A i j)).
  { intros u j Hj. apply dot_ext; [reflexivity|]. intros i Hi. apply in_seq in Hi. apply HB; lia. }
  destruct (kernel Nat.eq_dec n (seq 0 n) (map (fun j i => ent (nth i (mat n A) []) j) (seq 0 n))) as [u|] eqn:Hk.
  - apply kernel_sound in Hk; [|rewrite map_length, seq_length; lia|apply seq_NoDup]. destruct Hk as [[i [Hi Hu]] Ho]. apply in_seq in Hi.
    assert (Hs : singular n A).
    { exists u. split; [exists i; split; [lia|exact Hu]|]. intros j Hj. rewrite <- Hcol by exact Hj. apply Ho. apply (in_map (fun j i => B i j)). apply in_seq. lia. }
    split; [contradiction|reflexivity].
  - assert (Hz : forall u, (forall j, (j < n)%nat -> dot (seq 0 n) u (fun i => A i j) = 0) -> forall i, (i < n)%nat -> u i = 0).
    { intros u Hu i Hi. apply (kernel_complete Nat.eq_dec n (seq 0 n) (map (fun j i => B i j) (seq 0 n)) ltac:(rewrite map_length, seq_length; lia) (seq_NoDup _ _) Hk).
      - intros r Hr. apply in_map_iff in Hr. destruct Hr as [j [<- Hj]]. apply in_seq in Hj. rewrite Hcol by lia. apply Hu. lia.
      - apply in_seq. lia. }
    split; [intros _|intros [u [[i [Hi Hu]] Ho]]; exfalso; exact (Hu (Hz u Ho i Hi))].
    eexists. split; [reflexivity|].
    match goal with |- forall i j, _ -> _ -> dot _ (?x i) _ = _ /\ _ => set (X := x) end.
    assert (Hleft : forall i j, (i < n)%nat -> (j < n)%nat -> dot (seq 0 n) (X i) (fun k => A k j) = delta i j).
    { intros i j Hi Hj. unfold X. set (eqs := map _ (seq 0 n)).
      assert (He : length eqs = n) by (unfold eqs; rewrite map_length; apply seq_length).
      pose proof (kernel_enough Nat.eq_dec n (seq 0 (S n)) eqs ltac:(lia) (seq_NoDup _ _)) as Hen. rewrite seq_length in Hen. specialize (Hen ltac:(lia)).
      destruct (kernel Nat.eq_dec n (seq 0 (S n)) eqs) as [w|] eqn:Hw; [|contradiction].
      apply kernel_sound in Hw; [|lia|apply seq_NoDup]. destruct Hw as [[i0 [Hi0 Hwi]] Ho].
      assert (Hrow : forall j, (j < n)%nat -> dot (seq 0 n) w (fun k => A k j) = w n * delta i j).
      { intros j' Hj'. assert (Hin : In j' (seq 0 n)) by (apply in_seq; lia). specialize (Ho _ (in_map _ _ _ Hin)). cbn beta in Ho. unfold dot in Ho. rewrite sum_last, Nat.eqb_refl in Ho.
        rewrite (sum_ext _ _ (fun k => w k * B k j')) in Ho.
        - pose proof (Hcol w j' Hj') as Hc. unfold dot in Hc |- *. rewrite <- Hc. lra.
        - intros k Hk'. apply in_seq in Hk'. rewrite (proj2 (Nat.eqb_neq k n)) by lia. reflexivity. }
      assert (Hw0 : w n <> 0).
      { intros E. apply in_seq in Hi0. destruct (Nat.eq_dec i0 n) as [->|Hne]; [contradiction|]. apply Hwi, Hz; [|lia]. intros j' Hj'. rewrite Hrow, E by exact Hj'. lra. }
      transitivity (/ w n * dot (seq 0 n) w (fun k => A k j)).
      - rewrite (dot_comm _ w), <- dot_scale_r, dot_comm. apply dot_ext; [reflexivity|]. intros k _. unfold Rdiv. lra.
      - rewrite Hrow by exact Hj. field. exact Hw0. }
    intros i j Hi Hj. split; [apply Hleft; assumption|].
    (* the rows of A X - 1 vanish *)
    cut (dot (seq 0 n) (A i) (fun k => X k j) - delta i j = 0); [lra|].
    apply (Hz (fun j => dot (seq 0 n) (A i) (fun k => X k j) - delta i j)); [|exact Hj].
    intros k Hk'. rewrite dot_sub_l.
    rewrite (solve_left n (A i) X A k Hk' (fun a Ha => Hleft a k Ha Hk')).
    rewrite dot_comm. unfold dot. rewrite (sum_ext _ _ (fun a => A a k * delta a i)).
    + rewrite sum_delta by exact Hi. lra.
    + intros a _. unfold delta. rewrite (Nat.eqb_sym i a). reflexivity.
Qed.

Theorem ref_lstsq_minimal : lstsq_minimal ref_lstsq.
Proof.
  intros ls rows b Hn Hne Hr Hb Hi. destruct (ref_lstsq_exact ls rows b Hn Hne Hr Hb Hi) as [x [Hx Hf]]. exists x. split; [exact Hx|].
  intros y. apply Rle_trans with 0; [apply residual_zero; assumption|]. apply sum_nonneg. intros; apply Rle_0_sqr.
Qed.
