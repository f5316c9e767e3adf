(** Properties C22 and C26 to C30: least squares, finite differences and the
    closed loop of the NewtonSolver with finite difference estimators. *)
From mathcomp Require Import all_ssreflect all_algebra.
From Verif Require Import PyExn LinAlgModel LinAlgSpec LinAlgProofs FDProofs LoopProofs.
Set Implicit Arguments. Unset Strict Implicit. Unset Printing Implicit Defensive.
Import Order.TTheory GRing.Theory Num.Theory.
Local Open Scope ring_scope.

(** C22: the step is the shortest least-squares solution, orthogonal to the
    kernel of the Jacobian, and exact for independent gradients. *)
Theorem newton_step_least_squares : forall (F : realFieldType) k n (J : 'M[F]_(k, n)) (d : 'cV[F]_k),
  (forall x, sqn (J *m lstsq J d - d) <= sqn (J *m x - d)) /\
  (forall x, sqn (J *m x - d) = sqn (J *m lstsq J d - d) -> sqn (lstsq J d) <= sqn x /\
             (sqn x = sqn (lstsq J d) -> x = lstsq J d)) /\
  (forall x : 'cV[F]_n, J *m x = 0 -> (lstsq J d)^T *m x = 0) /\
  (row_free J -> J *m lstsq J d = d).
Proof.
move=> F k n J d; split; first by move=> x; exact: lstsq_minimises.
split; first by move=> x H; exact: (lstsq_smallest (lstsq_normal H)).
split; [by move=> x; exact: lstsq_kernel | exact: lstsq_exact].
Qed.
Print Assumptions newton_step_least_squares.

(** Two gates, one parameter: the step (1, 2) / 5 * 10 for the Jacobian (1, 2). *)
Definition case_J : 'M[rat]_(1, 2) := \row_j (if j == 0 then 1 else 2%:R).
Example case_J_free : row_free case_J.
Proof.
rewrite -row_leq_rank lt0n mxrank_eq0; apply/eqP => /matrixP /(_ 0 0) /eqP.
by rewrite !mxE eqxx oner_eq0.
Qed.
Example case_step_is_shortest : (lstsq case_J (const_mx 10%:R))^T = \row_j (if j == 0 then 2%:R else 4%:R).
Proof.
set x := \row_j _; apply: trmx_inj; rewrite trmxK.
have Hx : case_J *m x^T = const_mx 10%:R.
  by apply/matrixP => i j; rewrite !mxE big_ord_recl big_ord1 !mxE /=; apply/eqP; rewrite -subr_eq0; apply/eqP; vm_compute.
have He : case_J *m lstsq case_J (const_mx 10%:R) = const_mx 10%:R by apply: lstsq_exact; exact: case_J_free.
apply/esym; apply: (lstsq_smallest _).2; first by rewrite Hx He.
(* x is in the row space of the Jacobian, so it is the shortest solution *)
have Hr : x^T = case_J^T *m const_mx 2%:R.
  by apply/matrixP => i j; rewrite !mxE big_ord1 !mxE; case: ifP => _; apply/eqP; rewrite -subr_eq0; apply/eqP; vm_compute.
apply: le_anti; apply/andP; split; last exact: (lstsq_smallest (etrans Hx (esym He))).1.
have -> : sqn (lstsq case_J (const_mx 10%:R)) = sqn x^T + sqn (lstsq case_J (const_mx 10%:R) - x^T).
  rewrite -sqn_pyth; first by rewrite addrC subrK.
  by rewrite {1}Hr trmx_mul trmxK -mulmxA mulmxBr He Hx subrr mulmx0.
by rewrite ler_addl sqn_ge0.
Qed.

(** C26: finite differences are exact for affine functions, and EvaluationError
    if the differences do not span the gates. *)
Theorem finite_differences_exact : forall (F : realFieldType) n (g : 'rV[F]_n) (c : F) w ps,
  (size ps == n.+1) || (size ps == 2 * n)%N ->
  (voltage_diff (measured (affine g c) w ps) \in unitmx ->
     exists cov, calc_gradient (measured (affine g c) w ps) = Ok (g, cov)) /\
  (forall ms : seq (mmeas F n), (size ms == n.+1) || (size ms == 2 * n)%N ->
     voltage_diff ms \notin unitmx -> calc_gradient ms = Raise EvaluationError).
Proof. by move=> F n g c w ps Hs; split; [exact: calc_affine | exact: calc_singular]. Qed.
Print Assumptions finite_differences_exact.

(** Three points in the plane, not axis-parallel. *)
Definition case_row (a b : rat) : 'rV[rat]_2 := \row_j (if j == 0 then a else b).
Definition case_points : seq 'rV[rat]_2 := [:: case_row 1 1; case_row 2%:R 3%:R; case_row 4%:R 2%:R].
Example case_points_span : forall f w, voltage_diff (measured f w case_points) \in unitmx.
Proof.
move=> f w; rewrite unitmxE.
have -> : voltage_diff (measured f w case_points) =
  \matrix_(i, j) (if i == 0 then if j == 0 then 1 else 3%:R else if j == 0 then 2%:R else 1 : rat).
  by apply/matrixP => -[[|[|i]] Hi] [[|[|j]] Hj] //; rewrite !mxE /diff_index /= /point /= !mxE; apply/eqP; vm_compute.
rewrite (expand_det_row _ 0) big_ord_recl big_ord1 /cofactor !det_mx11 !mxE /=.
by vm_compute.
Qed.

(** C27: the covariance is symmetric positive semi-definite; with pairs of
    points it is the propagation of independent errors of the values; with a
    common base point it lacks the correlation through that point. *)
Theorem fd_covariance : forall (F : realFieldType) n (ms : seq (mmeas F n)) g c,
  calc_gradient ms = Ok (g, c) ->
  ((forall m, m \in ms -> 0 <= m.2) -> psd c) /\
  (size ms = (2 * n)%N -> n != 1%N ->
     c = propagated (gradient_of [seq m.1.1 | m <- ms]) [seq m.2 | m <- ms]) /\
  (size ms = n.+1 ->
     propagated (gradient_of [seq m.1.1 | m <- ms]) [seq m.2 | m <- ms] =
     c + (point ms 0).2 *: ((invmx (voltage_diff ms))^T *m (const_mx 1 - 1%:M) *m invmx (voltage_diff ms))).
Proof.
move=> F n ms g c H; split; first by move=> Hv; exact: (covariance_psd Hv H).
split; first by move=> Hs Hn; exact: (covariance_symmetric Hs Hn H).
by move=> Hs; exact: (covariance_asymmetric Hs H).
Qed.
Print Assumptions fd_covariance.

(** Base point and one step along each of two gates, all variances 1. *)
Definition case_axes : seq (mmeas rat_realFieldType 2) := [:: (0, 0, 1); (case_row 1 0, 1, 1); (case_row 0 1, 1, 1)].
Example case_axes_diff : voltage_diff case_axes = 1%:M.
Proof. by apply/matrixP => -[[|[|i]] Hi] [[|[|j]] Hj] //; rewrite !mxE /diff_index /= /point /= ?mxE; apply/eqP; vm_compute. Qed.
Theorem shared_base_point_correlation_refuted :
  exists g c, calc_gradient case_axes = Ok (g, c) /\ (forall m, m \in case_axes -> 0 < m.2) /\
    c 0 1 = 0 /\ propagated (gradient_of [seq m.1.1 | m <- case_axes]) [seq m.2 | m <- case_axes] 0 1 = 1.
Proof.
have [g [c H]] : exists g c, calc_gradient case_axes = Ok (g, c) by rewrite /calc_gradient /= case_axes_diff unitmx1; do 2 eexists.
exists g, c; split=> //; split.
  by move=> m; rewrite !inE => /or3P [] /eqP ->.
have Hc : c = diag_mx (diff_variances case_axes).
  by move: H; rewrite /calc_gradient /= case_axes_diff unitmx1 invmx1 trmx1 mul1mx mulmx1 => -[_ ->].
split; first by rewrite Hc !mxE.
rewrite (@covariance_asymmetric _ _ case_axes _ _ (erefl _) H) case_axes_diff invmx1 trmx1 mul1mx mulmx1 Hc !mxE /=.
by vm_compute.
Qed.
Print Assumptions shared_base_point_correlation_refuted.

(** C28: whatever null-space vectors are chosen, the points that an asymmetric
    estimator asks for determine the gradient. *)
Theorem requested_points_determine_gradient :
  forall (F : realFieldType) n (ortho : seq 'rV[F]_n -> res 'rV[F]_n) (p0 eps g : 'rV[F]_n) c w,
  chooses_orthogonal ortho -> (0 < n)%N -> (forall i, 0 < eps 0 i) ->
  exists st, fed ortho (affine g c) w n.+1 (fresh p0 eps false) = Ok st /\ mf_est st = Some g.
Proof. by move=> F n ortho p0 eps g c w Ho Hn He; exact: fed_complete. Qed.
Print Assumptions requested_points_determine_gradient.

(** Some vector of the null space. *)
Definition null_choice (F : realFieldType) n (vs : seq 'rV[F]_n) : res 'rV[F]_n :=
  let K := kermx (\matrix_(i < size vs) nth 0 vs i)^T in
  if [pick i | row i K != 0] is Some i then Ok (row i K) else Raise ValueError.
Example null_choice_chooses : forall (F : realFieldType) n, chooses_orthogonal (@null_choice F n).
Proof.
move=> F n vs; rewrite /null_choice; set M := \matrix_(i < _) _; set K := kermx _.
case: pickP => [i Hi|Hno].
- split=> // v Hv; have HM : row i K *m M^T = 0 by apply/eqP; rewrite -sub_kermx row_sub.
  have Hlt : (index v vs < size vs)%N by rewrite index_mem.
  have := congr1 (fun N : 'rV_(size vs) => N 0 (Ordinal Hlt)) HM; rewrite !mxE => <-.
  by apply: eq_bigr => j _; rewrite !mxE /= nth_index.
- split=> // ov Hov; have HK : K = 0.
    by apply/row_matrixP => i; rewrite row0; apply/eqP; have := Hno i; move/negbT; rewrite negbK.
  have : (ov <= K)%MS.
    rewrite sub_kermx; apply/eqP/rowP => j; rewrite !mxE -[RHS](Hov _ (mem_nth 0 (ltn_ord j))).
    by apply: eq_bigr => k _; rewrite !mxE.
  by rewrite HK submx0 => /eqP.
Qed.
Example case_requests : exists st, fed (@null_choice rat_realFieldType 3) (affine (const_mx 2%:R) 1) (fun _ => 0) 4
    (fresh 0 (const_mx 1) false) = Ok st /\ mf_est st = Some (const_mx 2%:R).
Proof. by apply: requested_points_determine_gradient => //; [exact: null_choice_chooses | move=> i; rewrite mxE]. Qed.

(** If the first measurement is not at the position of the estimator the
    requested point can coincide with it. *)
Theorem first_point_elsewhere_refuted :
  forall ortho : seq 'rV[rat]_1 -> res 'rV[rat]_1, ortho [:: 0] = Ok (const_mx 1) ->
  advance ortho (affine (const_mx 1) 0) (fun _ => 0)
    (measure (affine (const_mx 1) 0) (fun _ => 0) (const_mx 1) (fresh 0 (const_mx 1) false)) = Raise EvaluationError.
Proof.
move=> ortho Ho; rewrite /advance /measure /mfd_update /mfd_require /= Ho add0r.
rewrite calc_singular // unitmxE det_mx11 !mxE /diff_index /= /point /= !mxE mulr1 subrr; by rewrite unitr0.
Qed.
Print Assumptions first_point_elsewhere_refuted.

(** C29: a symmetric estimator whose first measurement is at its own position,
    as in the tuning loop, always ends in EvaluationError; fed only with the
    points it asks for it is exact. *)
Theorem symmetric_fails_in_tuning_loop :
  forall (F : realFieldType) n (ortho : seq 'rV[F]_n -> res 'rV[F]_n) (p0 eps : 'rV[F]_n) f w,
  chooses_orthogonal ortho -> (0 < n)%N ->
  fed ortho f w (2 * n) (fresh p0 eps true) = Raise EvaluationError.
Proof. by move=> F n ortho p0 eps f w Ho Hn; exact: fed_symmetric_fails. Qed.
Print Assumptions symmetric_fails_in_tuning_loop.

Theorem symmetric_exact_on_requested_points :
  forall (F : realFieldType) n (ortho : seq 'rV[F]_n -> res 'rV[F]_n) (p0 eps g : 'rV[F]_n) c w,
  chooses_orthogonal ortho -> (0 < n)%N -> (forall i, 0 < eps 0 i) ->
  exists st, asked ortho (affine g c) w (2 * n) (fresh p0 eps true) = Ok st /\ mf_est st = Some g.
Proof. by move=> F n ortho p0 eps g c w Ho Hn He; exact: asked_symmetric. Qed.
Print Assumptions symmetric_exact_on_requested_points.

Example case_symmetric :
  fed (@null_choice rat_realFieldType 2) (affine (case_row 1 2%:R) 5%:R) (fun _ => 0) 4 (fresh (case_row 1 1) (const_mx 1) true) = Raise EvaluationError /\
  exists st, asked (@null_choice rat_realFieldType 2) (affine (case_row 1 2%:R) 5%:R) (fun _ => 0) 4 (fresh (case_row 1 1) (const_mx 1) true) = Ok st /\
             mf_est st = Some (case_row 1 2%:R).
Proof.
split; first by apply: symmetric_fails_in_tuning_loop => //; exact: null_choice_chooses.
by apply: symmetric_exact_on_requested_points => //; [exact: null_choice_chooses | move=> i; rewrite mxE].
Qed.

(** C30: Newton's method with finite differences reaches the target of every
    affine system with independent gradients after n+1 evaluations and stays
    there. *)
Theorem newton_fd_reaches_target :
  forall (F : realFieldType) n k (ortho : seq 'rV[F]_n -> res 'rV[F]_n) (A : 'M[F]_(k, n)) (c : 'rV[F]_k) w
         (p0 : 'rV[F]_n) (eps : 'I_k -> 'rV[F]_n) (desired vals0 : 'rV[F]_k) m,
  chooses_orthogonal ortho -> row_free A -> (forall i j, 0 < eps i 0 j) -> (0 < k)%N ->
  exists st v,
    rounds ortho (affines A c) w (n.+1 + m) (mk_mnewton desired (fun i => fresh p0 (eps i) false) p0 vals0, p0) = Ok (st, v) /\
    affines A c v = desired.
Proof.
move=> F n k ortho A c w p0 eps des vals0 m Ho HA He Hk.
have [st [v [Hr [Hv [Hd Hest]]]]] := loop_reaches Ho c w p0 des HA He Hk vals0.
have [||st' Hs] := @stays F n k ortho (affines A c) w m st v; [by move=> i; rewrite Hest | by rewrite Hv Hd |].
by exists st', v; rewrite rounds_add Hr Hs.
Qed.
Print Assumptions newton_fd_reaches_target.

Example case_loop : exists st v,
  rounds (@null_choice rat_realFieldType 2) (affines case_J (const_mx 3%:R)) (fun _ => 0) 5
    (mk_mnewton (const_mx 7%:R) (fun _ => fresh (case_row 1 (- 1)) (case_row 1 (1 / 2%:R)) false) (case_row 1 (- 1)) 0, case_row 1 (- 1)) = Ok (st, v) /\
  affines case_J (const_mx 3%:R) v = const_mx 7%:R.
Proof.
apply: (@newton_fd_reaches_target rat_realFieldType 2 1 _ _ _ _ _ _ _ _ 2) => //.
- exact: null_choice_chooses.
- exact: case_J_free.
- by move=> i [[|[|j]] Hj] //; rewrite mxE.
Qed.
