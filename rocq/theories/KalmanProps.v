(** Properties C31 to C33 and C55 to C59: the Kalman filter that tracks a
    gradient and the measurements it asks for. *)
From mathcomp Require Import all_ssreflect all_algebra.
From Verif Require Import PyExn LinAlgModel LinAlgSpec LinAlgProofs KalmanModel KalmanSpec KalmanProofs KalmanHistory KalmanRequests.
Set Implicit Arguments. Unset Strict Implicit. Unset Printing Implicit Defensive.
Import Order.TTheory GRing.Theory Num.Theory.
Local Open Scope ring_scope.

(** ** C31 *)
Theorem kalman_covariance_psd : forall (F : realFieldType) m n (k : filter F (m * n) m) (cs : seq (call F m n)),
  psd (kf_P k) -> psd (kf_Q k) -> psd (kf_R k) ->
  (forall i c0, (i < size cs)%N -> covariances (nth c0 cs i)) -> psd (kf_P (history k cs)).
Proof. exact: history_psd. Qed.
Print Assumptions kalman_covariance_psd.

(** A filter for two values over two gates and two calls, one with process
    noise. *)
Definition case_filter m n : filter rat_realFieldType (m * n) m := mk_filter 0 1%:M 1%:M 0 1%:M 1.
Definition case_diff (a b : rat) : 'rV[rat]_2 := \row_j (if j == 0 then a else b).
Lemma psd1 (F : realFieldType) d : psd (1%:M : 'M[F]_d).
Proof. by split; [rewrite trmx1 | move=> v; rewrite mulmx1 -sqn_row sqn_ge0]. Qed.
Lemma psd0 (F : realFieldType) d : psd (0 : 'M[F]_d).
Proof. by split; [rewrite trmx0 | move=> v; rewrite mulmx0 mul0mx mxE]. Qed.
Example case_psd : psd (kf_P (history (case_filter 2 2)
  [:: mk_call (case_diff 1 2%:R) (const_mx 3%:R) (Some 1%:M) (Some 1%:M) true;
      mk_call (case_diff 0 1) (const_mx 1) None None true])).
Proof.
apply: kalman_covariance_psd; [exact: psd1 | exact: psd0 | exact: psd1 |].
by case=> [|[|i]] c0 // _; split=> r // [<-]; exact: psd1.
Qed.

(** ** C32 *)
Theorem kalman_never_more_uncertain :
  forall (F : realFieldType) m n (k : filter F (m * n) m), static k -> psd (kf_P k) -> psd (kf_R k) ->
  (forall cs : seq (call F m n),
     (forall i c0, (i < size cs)%N -> covariances (nth c0 cs i) /\ c_Q (nth c0 cs i) = None) ->
     forall v, variance (kf_P (history k cs)) v <= variance (kf_P k) v) /\
  (forall c : call F m n, covariances c -> c_Q c = None ->
     (kg_update (c_diff c) (c_vals c) (c_R c) (c_Q c) (c_predict c) k).2 = Ok tt ->
     (forall i, 0 < variance (kf_P k) (along i (c_diff c)) ->
        variance (kf_P (run_call k c)) (along i (c_diff c)) < variance (kf_P k) (along i (c_diff c))) /\
     (forall v, (forall i, correlation (kf_P k) v (along i (c_diff c)) = 0) ->
        variance (kf_P (run_call k c)) v = variance (kf_P k) v /\ v *m kf_x (run_call k c) = v *m kf_x k)) /\
  (forall c : call F m n, proper c ->
     (kg_update (c_diff c) (c_vals c) (c_R c) (c_Q c) (c_predict c) k).2 = Ok tt).
Proof.
move=> F m n k Hs HP HR; split; first by move=> cs Hc v; exact: history_variance.
split=> c; last first.
  move=> [HQ [r [Hr [Hpr Hur]]]]; rewrite /kg_update HQ predict_static // if_same /correct Hr.
  by rewrite psd_unit_add //; exact: psd_congr.
move=> Hcov HQ Hok; have HR' : psd (used_R k c) by rewrite /used_R; case E: (c_R c) => [r|] //; exact: Hcov.1.
split; [exact: call_strict | by move=> v; exact: call_uncorrelated].
Qed.
Print Assumptions kalman_never_more_uncertain.

Theorem kalman_variance_along_step :
  forall (F : realFieldType) n (k : filter F (1 * n) 1) (c : call F 1 n) r,
  static k -> c_Q c = None -> psd (kf_P k) -> c_R c = Some r%:M -> 0 < r ->
  let q := variance (kf_P k) (along 0 (c_diff c)) in
  variance (kf_P (run_call k c)) (along 0 (c_diff c)) = q * r / (q + r).
Proof. exact: single_variance. Qed.
Print Assumptions kalman_variance_along_step.

Example case_static m n : static (case_filter m n).
Proof. by []. Qed.
(** Step (1, 2), variance 5 before the update, noise 5: 5/2 afterwards. *)
Example case_variance :
  variance (kf_P (run_call (case_filter 1 2) (mk_call (case_diff 1 2%:R) 0 (Some (5%:R)%:M) None true))) (along 0 (case_diff 1 2%:R)) = 5%:R / 2%:R.
Proof.
rewrite (@kalman_variance_along_step _ _ _ _ 5%:R) //=; last exact: psd1.
have -> : variance (1%:M : 'M[rat]_(1 * 2)) (along 0 (case_diff 1 2%:R)) = 5%:R; last by apply/eqP; vm_compute.
rewrite /variance mulmx1 -sqn_row /sqn big_ord1 sum_mxvec big_ord1 big_ord_recl big_ord1 !mxvecE !mxE eqxx /=.
by apply/eqP; vm_compute.
Qed.

(** ** C33 *)
Theorem kalman_fixed_point :
  forall (F : realFieldType) m n (k : filter F (m * n) m) (c : call F m n), static k -> c_Q c = None ->
  (c_vals c = grad k *m (c_diff c)^T -> grad (run_call k c) = grad k) /\
  (psd (kf_P k) -> c_R c = Some 0 ->
   (kg_update (c_diff c) (c_vals c) (c_R c) (c_Q c) (c_predict c) k).2 = Ok tt ->
   grad (run_call k c) *m (c_diff c)^T = c_vals c).
Proof.
move=> F m n k c Hs HQ; split; first by move=> Hv; rewrite /grad call_fixed.
by move=> HP HR Hok; apply: call_exact => //; exact: HP.1.
Qed.
Print Assumptions kalman_fixed_point.

Example case_noise_free :
  grad (run_call (case_filter 1 2) (mk_call (case_diff 1 2%:R) (const_mx 3%:R) (Some 0) None true)) *m (case_diff 1 2%:R)^T = const_mx 3%:R.
Proof.
apply: (kalman_fixed_point (case_static 1 2) _).2 => //; first exact: psd1.
rewrite /kg_update predict_static // /correct addr0 mulmx1.
have -> // : create_H 1 (case_diff 1 2%:R) *m (create_H 1 (case_diff 1 2%:R))^T \in unitmx.
rewrite gram_row_free // -row_leq_rank lt0n mxrank_eq0; apply/eqP => /matrixP /(_ 0 (mxvec_index 0 0)) /eqP.
by rewrite mxE mxvecE !mxE eqxx mul1r oner_eq0.
Qed.

(** ** C55: the order of the measurements does not matter. *)
Theorem kalman_order_independent :
  forall (F : realFieldType) m n (k : filter F (m * n) m) (cs : seq (call F m n)) c0 (s : seq nat),
  static k -> psd (kf_P k) -> kf_P k \in unitmx ->
  (forall i, (i < size cs)%N -> proper (nth c0 cs i)) -> perm_eq s (iota 0 (size cs)) ->
  kf_P (history k [seq nth c0 cs i | i <- s]) = kf_P (history k cs) /\
  grad (history k [seq nth c0 cs i | i <- s]) = grad (history k cs).
Proof.
move=> F m n k cs c0 s Hs HP Hu Hc Hp; have [E1 E2] := history_order Hs HP Hu Hc Hp.
by rewrite E1 /grad E2.
Qed.
Print Assumptions kalman_order_independent.

Lemma proper1 n (d : 'rV[rat]_n) y b : proper (mk_call d y (Some (1%:M : 'M[rat_realFieldType]_1)) None b).
Proof. by split=> //; exists 1%:M; split=> //; split; [exact: psd1 | exact: unitmx1]. Qed.
Definition case_c1 : call rat_realFieldType 1 2 := mk_call (case_diff 1 2%:R) (const_mx 3%:R) (Some 1%:M) None true.
Definition case_c2 : call rat_realFieldType 1 2 := mk_call (case_diff 0 1) (const_mx (- 1)) (Some 1%:M) None true.
Example case_order : grad (history (case_filter 1 2) [:: case_c2; case_c1]) = grad (history (case_filter 1 2) [:: case_c1; case_c2]).
Proof.
have H : forall i, (i < size [:: case_c1; case_c2])%N -> proper (nth case_c1 [:: case_c1; case_c2] i).
  by case=> [|[|i]] // _; exact: proper1.
have HP : psd (kf_P (case_filter 1 2)) by exact: psd1.
by have [//|_] := @kalman_order_independent _ _ _ (case_filter 1 2) [:: case_c1; case_c2] case_c1 [:: 1; 0]%N (case_static 1 2) HP (unitmx1 _ _) H.
Qed.

(** ** C56: exact measurements: the error of the gradient shrinks exactly as the
    covariance does, however the values came out before. *)
Theorem kalman_error_law :
  forall (F : realFieldType) m n (g : 'M[F]_(m, n)) (k : filter F (m * n) m) (cs : seq (call F m n)),
  static k -> psd (kf_P k) -> kf_P k \in unitmx ->
  (forall i c0, (i < size cs)%N -> proper (nth c0 cs i) /\ noiseless g (nth c0 cs i)) ->
  kf_x (history k cs) - (mxvec g)^T = kf_P (history k cs) *m invmx (kf_P k) *m (kf_x k - (mxvec g)^T).
Proof. exact: noiseless_error. Qed.
Print Assumptions kalman_error_law.
Example case_error : let cs := [:: case_c1; case_c2] in
  kf_x (history (case_filter 1 2) cs) - (mxvec (case_diff 5%:R (- 1)))^T = kf_P (history (case_filter 1 2) cs) *m invmx 1%:M *m (0 - (mxvec (case_diff 5%:R (- 1)))^T).
Proof.
apply: kalman_error_law; [exact: case_static | exact: psd1 | exact: unitmx1 |].
case=> [|[|i]] c0 // _; split; try exact: proper1;
  by rewrite /noiseless /=; apply/matrixP => a b; rewrite !mxE big_ord_recl big_ord1 !mxE /=; apply/eqP; vm_compute.
Qed.

(** ** C57: no request with a uniform maximum means that the variance is below
    the maximum in every direction; a request is a step along the direction of
    largest variance.  With individual maxima only the square root of the number
    of gates times the maximum is guaranteed. *)
Theorem kalman_requests :
  forall (F : realFieldType) n (P vecs : 'M[F]_n) (vals eps pos : 'rV[F]_n), eigenbasis P vecs vals -> psd P ->
  (forall M, 0 < M ->
   match kal_require vals vecs (const_mx M^-1) eps pos with
   | None => forall u, variance P u <= M * sqn u
   | Some p => exists v, p = pos + scale v eps /\ sqn v = 1 /\ M < variance P v /\
                         forall u, variance P u <= variance P v * sqn u
   end) /\
  (forall (inv_max : 'rV[F]_n) i M, 0 < M -> inv_max 0 i = M^-1 -> kal_require vals vecs inv_max eps pos = None ->
   P i i ^+ 2 <= n%:R * M ^+ 2).
Proof.
move=> F n P vecs vals eps pos HE HP; split; last first.
  by move=> inv_max i M HM Hi H; exact: (require_gate_bound HE HM Hi H HP).
move=> M HM; have := require_uniform HE eps pos HP HM; case: kal_require => // p [j [Hp [Hv [Hj [HMj Hmax]]]]].
exists (col j vecs)^T; rewrite (eigen_col_variance HE); split=> //; split=> //; split=> // u.
exact: (eigen_bound HE).
Qed.
Print Assumptions kalman_requests.

Definition case_vecs : 'M[rat]_2 :=
  \matrix_(i, j) (if i == 0 then if j == 0 then 3%:R / 5%:R else - (4%:R / 5%:R) else if j == 0 then 4%:R / 5%:R else 3%:R / 5%:R).
Definition case_vals : 'rV[rat]_2 := case_diff (5%:R / 3%:R) (5%:R / 4%:R).
Lemma case_eigen vals : eigenbasis (case_vecs *m diag_mx vals *m case_vecs^T) case_vecs vals.
Proof.
have H : case_vecs^T *m case_vecs = 1%:M.
  by apply/matrixP => -[[|[|i]] Hi] [[|[|j]] Hj] //; rewrite !mxE big_ord_recl big_ord1 !mxE /=; apply/eqP; vm_compute.
by split=> //; rewrite -(mulmxA _ _ case_vecs) H mulmx1.
Qed.
Lemma case_eigen_psd : psd (case_vecs *m diag_mx case_vals *m case_vecs^T).
Proof. by apply: (@diag_psd rat_realFieldType) => -[[|[|i]] Hi] //; rewrite mxE /=; vm_compute. Qed.
Example case_request : exists p, kal_require case_vals case_vecs (const_mx 1^-1) (const_mx 1) 0 = Some p.
Proof.
have [H _] := kalman_requests (const_mx 1) 0 (case_eigen case_vals) case_eigen_psd.
have := H 1 ltr01; case: kal_require => [p _|H0]; first by exists p.
have := H0 (col 0 case_vecs)^T; rewrite (eigen_col_variance (case_eigen _)) sqn_row trmxK -sqn_col (col_sqn (case_eigen case_vals)) mxE /=.
by move=> Hf; exfalso; move: Hf; vm_compute.
Qed.

(** The maximum 1 of the first gate is exceeded (7/5), the second gate is
    ignored, and nothing is asked for. *)
Theorem gate_maximum_refuted :
  let P := case_vecs *m diag_mx case_vals *m case_vecs^T in
  eigenbasis P case_vecs case_vals /\ psd P /\
  kal_require case_vals case_vecs (case_diff 1 0) (const_mx 1) 0 = None /\ P 0 0 = 7%:R / 5%:R.
Proof.
split; first exact: case_eigen.
split; first exact: case_eigen_psd.
split; last first.
  rewrite mxE big_ord_recl big_ord1 !mul_mx_diag !mxE /=; by apply/eqP; vm_compute.
have E : forall j, length2 case_vals case_vecs (case_diff 1 0) j = 1.
  move=> -[[|[|j]] Hj]; [| | by exfalso]; rewrite /length2 big_ord_recl big_ord1 !mxE; apply/eqP; by vm_compute.
by rewrite /kal_require; case: existsP => // -[j]; rewrite E ltxx.
Qed.
Print Assumptions gate_maximum_refuted.

(** ** C58: the estimator does not ask forever: every granted request lowers the
    trace of the covariance by at least a fixed amount. *)
Theorem kalman_requests_terminate :
  forall (F : realFieldType) n M (eps : 'rV[F]_n) rmax emin emax N (k k' : filter F (1 * n) 1),
  static k -> psd (kf_P k) -> 0 < M -> 0 < emin -> (forall i, emin <= eps 0 i <= emax) ->
  requests M eps rmax N k k' ->
  N%:R * (M ^+ 2 * emin ^+ 2 / (M * emax ^+ 2 + rmax)) <= \tr (kf_P k).
Proof. exact: requests_bounded. Qed.
Print Assumptions kalman_requests_terminate.

(** One gate, variance 2, maximum 1: a request is granted. *)
Definition case_k1 : filter rat_realFieldType (1 * 1) 1 := mk_filter 0 (2%:R)%:M 1%:M 0 1%:M 1.
Example case_granted : exists k', requests (1 : rat) (const_mx 1) 1 1 case_k1 k'.
Proof.
have HC : gate_cov case_k1 = (2%:R)%:M.
  by apply/matrixP => i j; rewrite !mxE !ord1 !eqxx.
have HE : eigenbasis (gate_cov case_k1) 1%:M (const_mx 2%:R).
  split; first by rewrite trmx1 mulmx1.
  by rewrite HC mulmx1 mul1mx; apply/matrixP => i j; rewrite !mxE.
have HP : psd (gate_cov case_k1) by rewrite HC -scalemx1; apply: psd_scale => //; exact: psd1.
have [H _] := kalman_requests (const_mx 1) 0 HE HP.
have := H 1 ltr01; case E: kal_require => [p|] H1; last first.
  exfalso; have := H1 1%:M; rewrite /variance mul1mx trmx1 mulmx1 HC mul1r sqn_row trmx1 mulmx1 !mxE.
  by vm_compute.
eexists; apply: (one_more (r := 1)) => //; last exact: no_request.
exact: (Granted _ 0 HE E).
Qed.

(** ** C59: with a tuned Jacobian only the basis vectors of its null space are
    tested; a uniform step width keeps the tuned parameters, to first order. *)
Theorem tuned_requests :
  forall (F : realFieldType) n k (cov : 'M[F]_n) basis M (eps pos : 'rV[F]_n) (J : 'M[F]_(k, n)),
  (forall v, v \in basis -> J *m v^T = 0) ->
  match kal_require_tuned cov basis M eps pos with
  | None => forall v, v \in basis -> variance cov v <= M
  | Some p => (exists v, v \in basis /\ p = pos + scale v eps /\ M < variance cov v /\
                        forall u, u \in basis -> variance cov u <= variance cov v) /\
              (forall e, eps = const_mx e -> J *m (p - pos)^T = 0)
  end.
Proof.
move=> F n k cov basis M eps pos J HJ; have := require_tuned cov basis M eps pos; case: kal_require_tuned => // p H.
split=> // e He; have [v [Hv [-> _]]] := H; rewrite addrC addKr He.
have -> : scale v (const_mx e) = e *: v by apply/rowP => i; rewrite !mxE mulrC.
by rewrite linearZ /= -scalemxAr HJ // scaler0.
Qed.
Print Assumptions tuned_requests.

Definition case_cov : 'M[rat]_3 := \matrix_(i, j) (if i == j then 1 else if (i + j == 1)%N then 4%:R / 5%:R else 0).
Definition case_unit (i : nat) : 'rV[rat]_3 := \row_j (j == i :> nat)%:R.
Definition case_oblique : 'rV[rat]_3 := \row_j (if j == 0 then 3%:R / 5%:R else if j == 1 then 4%:R / 5%:R else 0).
(** The null space of (0, 0, 1) is spanned by the first two gates. *)
Theorem tuned_directions_refuted :
  kal_require_tuned case_cov [:: case_unit 0; case_unit 1] 1 (const_mx 1) 0 = None /\
  (forall v, v \in [:: case_unit 0; case_unit 1] -> case_unit 2 *m v^T = 0) /\
  case_unit 2 *m case_oblique^T = 0 /\ sqn case_oblique = 1 /\ 1 < variance case_cov case_oblique.
Proof.
have Hv : forall u, variance case_cov u = \sum_j (\sum_i u 0 i * case_cov i j) * u 0 j.
  by move=> u; rewrite /variance mxE; apply: eq_bigr => j _; rewrite [(u^T) _ _]mxE [X in X * _]mxE.
split; last first.
  split.
    move=> v; rewrite !inE => /orP [] /eqP ->; apply/matrixP => i j; rewrite !mxE !big_ord_recl big_ord0 !mxE /=; by apply/eqP; vm_compute.
  split; first by apply/matrixP => i j; rewrite !mxE !big_ord_recl big_ord0 !mxE /=; apply/eqP; vm_compute.
  split; first by rewrite /sqn big_ord1 !big_ord_recl big_ord0 !mxE /=; apply/eqP; vm_compute.
  by rewrite Hv !big_ord_recl !big_ord0 !mxE /=; vm_compute.
rewrite /kal_require_tuned; case: ifP => // /hasP [v Hin] Hv0; exfalso; move: Hv0; rewrite -/(variance case_cov v) Hv.
by move: Hin; rewrite !inE => /orP [] /eqP ->; rewrite !big_ord_recl !big_ord0 !mxE /=; vm_compute.
Qed.
Print Assumptions tuned_directions_refuted.

(** Different step widths leave the null space of (4, -3). *)
Theorem tuned_step_width_refuted :
  let J := case_diff 4%:R (- 3%:R) in let v := case_diff (3%:R / 5%:R) (4%:R / 5%:R) in
  J *m v^T = 0 /\ sqn v = 1 /\
  exists p, kal_require_tuned (2%:R)%:M [:: v] 1 (case_diff 1 2%:R) 0 = Some p /\ J *m (p - 0)^T != 0.
Proof.
move=> J v; split; first by apply/matrixP => i j; rewrite !mxE big_ord_recl big_ord1 !mxE /=; apply/eqP; vm_compute.
have Hv : sqn v = 1 by rewrite /sqn big_ord1 big_ord_recl big_ord1 !mxE /=; apply/eqP; vm_compute.
split=> //.
have := @require_tuned rat_realFieldType 2 (2%:R)%:M [:: v] 1 (case_diff 1 2%:R) 0; case: kal_require_tuned => [p|]; last first.
  move/(_ v); rewrite mem_head => /(_ isT); rewrite /variance mul_mx_scalar -scalemxAl mxE -sqn_row Hv => Hf.
  by exfalso; move: Hf; vm_compute.
move=> [u [Hu [-> _]]]; exists (0 + scale u (case_diff 1 2%:R)); split=> //.
move: Hu; rewrite inE => /eqP ->; rewrite add0r subr0; apply/eqP => /matrixP /(_ 0 0) /eqP.
by rewrite !mxE big_ord_recl big_ord1 !mxE /=; vm_compute.
Qed.
Print Assumptions tuned_step_width_refuted.
