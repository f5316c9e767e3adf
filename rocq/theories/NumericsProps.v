(** The helpers of qtune/util.py on top of exact library routines, and what
    follows for the whole loop. *)
From Verif Require Import PyBase TargetModel TunerModel TunerSpec SeriesLemmas NewtonModel EstimatorModel GradientProps AutotunerModel ComposeModel KernelR ComposeSpec ComposeProofs ComposeNumerics ComposeHierarchy ComposeProps NumericsModel NumericsSpec NumericsProofs.
From Coq Require Import Lra ZArith.
Local Open Scope string_scope.
Local Open Scope list_scope.

(** C98.  With exact library routines the helpers are exact: the gradient
    reproduces all differences of the values, for asymmetric and for symmetric
    steps; degenerate points give EvaluationError. *)
Theorem gradient_from_points_exact : forall inv, inv_exact inv ->
  calc_exact (calculate_gradient inv) /\
  forall ls ms ps, NoDup ls -> ls <> [] -> length ps = length ls -> evaluated ms ps ->
  ((forall u, orthogonal ls u (map moved ps) -> ~ nonzero ls u) ->
     exists g c, calculate_gradient inv (taken ls ms) = Ok (array ls g, c) /\ forall q, In q ps -> dot ls g (moved q) = gained q) /\
  ((exists u, nonzero ls u /\ orthogonal ls u (map moved ps)) -> calculate_gradient inv (taken ls ms) = Raise EvaluationError).
Proof.
  intros inv Hinv. split; [exact (calculate_exact inv Hinv)|]. intros ls ms ps Hn Hne Hl He.
  destruct (evaluated_pairing ls ms ps Hne Hl He) as [Hms Hp]. split; intros H.
  - destruct (regular_points inv Hinv ls ms ps Hn Hne Hms Hl Hp H) as [g [c [E [Hg _]]]]. exists g, c. split; [exact E|exact Hg].
  - exact (degenerate_points inv Hinv ls ms ps Hn Hne Hms Hl Hp H).
Qed.

(** The covariance gives every step the variance of its difference, and no
    covariance to different steps (although asymmetric steps share their first
    point). *)
Theorem gradient_covariance_exact : forall inv, inv_exact inv ->
  forall ls ms ps (w : reading -> R), NoDup ls -> ls <> [] -> length ps = length ls -> evaluated ms ps ->
  (forall m, In m ms -> snd m = Fin (w m)) ->
  (forall u, orthogonal ls u (map moved ps) -> ~ nonzero ls u) ->
  exists g C, calculate_gradient inv (taken ls ms) = Ok (g, map (fun l => array ls (C l)) ls) /\
    forall i j q q', nth_error ps i = Some q -> nth_error ps j = Some q' ->
      dot ls (moved q) (fun l => dot ls (C l) (moved q')) = if Nat.eqb i j then (w (fst q) + w (snd q))%R else 0%R.
Proof.
  intros inv Hinv ls ms ps w Hn Hne Hl He Hw H. destruct (evaluated_pairing ls ms ps Hne Hl He) as [Hms Hp].
  destruct (regular_points inv Hinv ls ms ps Hn Hne Hms Hl Hp H) as [g [c [E [_ Hc]]]].
  destruct (Hc w) as [C [-> HC]].
  - intros q Hq. destruct (evaluated_in ms ps He q Hq) as [K1 K2]. split; apply Hw; assumption.
  - exists (array ls g), C. split; [exact E|]. intros i j q q' Hi Hj.
    assert (Ki : i < length ps) by (apply nth_error_Some; congruence). assert (Kj : j < length ps) by (apply nth_error_Some; congruence).
    specialize (HC i j q Ki Kj). rewrite (nth_error_nth ps i q Hi), (nth_error_nth ps j q Hj) in HC. exact HC.
Qed.

(** The orthogonal vector is orthogonal, has length one, and ValueError means
    that there is none. *)
Theorem orthogonal_vector_exact : forall ns, nullspace_exact ns ->
  ortho_exact (get_orthogonal_vector ns) /\
  (forall ls us x, NoDup ls -> ls <> [] -> us <> [] -> get_orthogonal_vector ns (map (array ls) us) = Ok x ->
     exists u, x = array ls u /\ dot ls u u = 1%R /\ orthogonal ls u us).
Proof.
  intros ns Hns. split; [apply orthogonal_exact; exact Hns|]. intros ls us x Hn Hne Hus Hx.
  destruct (unit_vector ns Hns ls us x Hn Hne Hus Hx) as [u Hu]. exists u. exact Hu.
Qed.

(** C96 with the helpers of qtune/util.py instead of assumptions about them;
    least squares only has to minimise the residual. *)
Theorem hierarchy_with_library_routines :
  forall inv ns lstsq, inv_exact inv -> nullspace_exact ns -> lstsq_minimal lstsq ->
  forall (all : list label) (bs : list block) results (p0 : label -> R) (rest : list (part (newton fd))) path n,
  NoDup all -> Forall (well_formed all) bs -> Forall unlimited bs -> triangular bs -> length bs <= n ->
  (forall j b, nth_error bs j = Some b -> forall v, results j (vec all v) = Ok (vec (b_measured b) (measured all b v), tab (b_measured b) (b_var b v))) ->
  (forall p, In p rest -> coherent (fun s => index (nw_pos s)) (fun s => Some (map (fun g => Some (index (fd_pos g))) (nw_ests s))) all p) ->
  let E := newton_hierarchy (get_orthogonal_vector ns) (calculate_gradient inv) lstsq results n in
  exists m s, m <= iterations 0 bs /\
    let run := iterates E m (fresh path (mk_world (vec all p0) (map (start p0) bs ++ rest))) in
    (exists v, run = (s, Ok tt) /\ s_at s = mk_at (length bs) false None path /\ w_gates (s_w s) = vec all v /\
       (forall b, In b bs -> met all b v) /\ (forall l, In l all -> (forall b, In b bs -> ~ In l (b_gates b)) -> v l = p0 l)) \/
    (exists j b v, run = (s, Raise EvaluationError) /\ s_at s = mk_at j false None path /\ w_gates (s_w s) = vec all v /\
       nth_error bs j = Some b /\ S j < length bs /\ b_given b = false /\ met all b v).
Proof.
  intros inv ns lstsq Hi Hns Hl. apply hierarchy_completes_or_fails.
  - exact (orthogonal_exact ns Hns).
  - exact (calculate_exact inv Hi).
  - exact (least_squares_exact lstsq Hl).
Qed.

(** *** Examples *)
(** Library routines with these properties exist. *)
Example library_routines_exist : inv_exact ref_inv /\ nullspace_exact ref_nullspace /\ lstsq_minimal ref_lstsq.
Proof. split; [exact ref_inv_exact|]. split; [exact ref_nullspace_exact|exact ref_lstsq_minimal]. Qed.

Definition at_point (a b : R) (l : label) : R := if String.eqb l "A" then a else b.
Definition ex_p0 : reading := (at_point 0 0, 1%R, Fin 1).
Definition ex_p1 : reading := (at_point 1 0, 3%R, Fin 2).
Definition ex_p2 : reading := (at_point 1 1, 6%R, Fin 4).
Example gradient_from_points_exact_instance : exists g c, calculate_gradient ref_inv (taken ["A"; "B"] [ex_p0; ex_p1; ex_p2]) = Ok (array ["A"; "B"] g, c) /\ g "A" = 2%R /\ g "B" = 3%R.
Proof.
  destruct (proj2 (gradient_from_points_exact ref_inv ref_inv_exact) ["A"; "B"] [ex_p0; ex_p1; ex_p2] [(ex_p1, ex_p0); (ex_p2, ex_p0)]) as [H _].
  - repeat constructor; cbn; intuition discriminate.
  - discriminate.
  - reflexivity.
  - right. exists ex_p0, [ex_p1; ex_p2]. split; reflexivity.
  - destruct H as [g [c [E Hg]]].
    + intros u Hu [l [Hl Hul]]. apply Hul. pose proof (Hu _ (or_introl eq_refl)) as K1. pose proof (Hu _ (or_intror (or_introl eq_refl))) as K2.
      unfold dot, moved in K1, K2. cbn in K1, K2. destruct Hl as [<-|[<-|[]]]; lra.
    + exists g, c. split; [exact E|]. pose proof (Hg _ (or_introl eq_refl)) as K1. pose proof (Hg _ (or_intror (or_introl eq_refl))) as K2.
      unfold dot, moved, gained in K1, K2. cbn in K1, K2. split; lra.
Qed.
(** Symmetric steps around the origin that are parallel. *)
Example gradient_from_points_exact_degenerate :
  calculate_gradient ref_inv (taken ["A"; "B"] [(at_point (-1) (-1), 0, Fin 1); (at_point 1 1, 4, Fin 1); (at_point (-2) (-2), 0, Fin 1); (at_point 2 2, 8, Fin 1)]%R) = Raise EvaluationError.
Proof.
  apply (proj2 (gradient_from_points_exact ref_inv ref_inv_exact) ["A"; "B"] _
    [((at_point 1 1, 4, Fin 1), (at_point (-1) (-1), 0, Fin 1)); ((at_point 2 2, 8, Fin 1), (at_point (-2) (-2), 0, Fin 1))]%R).
  - repeat constructor; cbn; intuition discriminate.
  - discriminate.
  - reflexivity.
  - left. reflexivity.
  - exists (at_point 1 (-1)). split; [exists "A"; cbn; split; [left; reflexivity|lra]|].
    intros v [<-|[<-|[]]]; unfold dot, moved; cbn; lra.
Qed.
Example gradient_covariance_exact_instance : exists g C,
  calculate_gradient ref_inv (taken ["A"; "B"] [ex_p0; ex_p1; ex_p2]) = Ok (g, map (fun l => array ["A"; "B"] (C l)) ["A"; "B"]) /\
  C "A" "A" = 3%R /\ (C "A" "A" + C "A" "B" + C "B" "A" + C "B" "B" = 5)%R.
Proof.
  destruct (gradient_covariance_exact ref_inv ref_inv_exact ["A"; "B"] [ex_p0; ex_p1; ex_p2] [(ex_p1, ex_p0); (ex_p2, ex_p0)]
    (fun m => match snd m with Fin x => x | _ => 0%R end)) as [g [C [E HC]]].
  - repeat constructor; cbn; intuition discriminate.
  - discriminate.
  - reflexivity.
  - right. exists ex_p0, [ex_p1; ex_p2]. split; reflexivity.
  - intros m [<-|[<-|[<-|[]]]]; reflexivity.
  - intros u Hu [l [Hl Hul]]. apply Hul. pose proof (Hu _ (or_introl eq_refl)) as K1. pose proof (Hu _ (or_intror (or_introl eq_refl))) as K2.
    unfold dot, moved in K1, K2. cbn in K1, K2. destruct Hl as [<-|[<-|[]]]; lra.
  - exists g, C. split; [exact E|]. pose proof (HC 0 0 _ _ eq_refl eq_refl) as K1. pose proof (HC 1 1 _ _ eq_refl eq_refl) as K2.
    unfold dot, moved in K1, K2. cbn in K1, K2. split; lra.
Qed.
Example orthogonal_vector_exact_instance : exists u,
  get_orthogonal_vector ref_nullspace (map (array ["A"; "B"]) [at_point 3 4]) = Ok (array ["A"; "B"] u) /\ (25 * (u "A" * u "A") = 16)%R /\ (25 * (u "B" * u "B") = 9)%R.
Proof.
  assert (Hn : NoDup ["A"; "B"]) by (repeat constructor; cbn; intuition discriminate).
  destruct (orthogonal_vector_exact ref_nullspace ref_nullspace_exact) as [He Hu].
  destruct (He ["A"; "B"] [at_point 3 4] Hn ltac:(discriminate) ltac:(discriminate)) as [H _].
  destruct H as [u [E _]].
  { exists (at_point 4 (-3)). split; [exists "A"; cbn; split; [left; reflexivity|lra]|]. intros v [<-|[]]. unfold dot. cbn. lra. }
  destruct (Hu ["A"; "B"] [at_point 3 4] _ Hn ltac:(discriminate) ltac:(discriminate) E) as [u' [Eu [H1 H2]]].
  exists u'. rewrite <- Eu. split; [exact E|]. specialize (H2 _ (or_introl eq_refl)). unfold dot in H1, H2. cbn in H1, H2.
  assert (K : u' "A" = (- (4/3) * u' "B")%R) by lra. rewrite K in *. split; lra.
Qed.
Example hierarchy_with_library_routines_instance :
  exists m s, m <= 20 /\
    let run := iterates (newton_hierarchy (get_orthogonal_vector ref_nullspace) (calculate_gradient ref_inv) ref_lstsq ex_device 2) m
      (fresh None (mk_world (vec ex_all (fun _ => 0%R)) [start (fun _ => 0%R) (ex_low 7 false); start (fun _ => 0%R) ex_high])) in
    (exists v, run = (s, Ok tt) /\ w_gates (s_w s) = vec ex_all v /\ met ex_all (ex_low 7 false) v /\ met ex_all ex_high v) \/
    (run = (s, Raise EvaluationError) /\ a_index (s_at s) = 0).
Proof.
  destruct (hierarchy_with_library_routines ref_inv ref_nullspace ref_lstsq ref_inv_exact ref_nullspace_exact ref_lstsq_minimal
    ex_all [ex_low 7 false; ex_high] ex_device (fun _ => 0%R) [] None 2) as [m [s [Hm [[v [H1 [H2 [H3 [H4 _]]]]]|[j [b [v [H1 [H2 [H3 [H4 [H5 [H6 _]]]]]]]]]]]]].
  - exact ex_nodup.
  - constructor; [apply ex_low_wf|constructor; [apply ex_high_wf|constructor]].
  - repeat constructor.
  - apply ex_triangular.
  - cbn. lia.
  - apply ex_device_measures.
  - intros p [].
  - exists m, s. split; [exact Hm|]. left. exists v. split; [exact H1|]. split; [exact H3|]. split; apply H4; cbn; auto.
  - exists m, s. split; [exact Hm|]. right. split; [exact H1|]. rewrite H2. cbn in H5 |- *. lia.
Qed.

Print Assumptions gradient_from_points_exact.
Print Assumptions gradient_covariance_exact.
Print Assumptions orthogonal_vector_exact.
Print Assumptions hierarchy_with_library_routines.
