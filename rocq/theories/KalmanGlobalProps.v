(** Property C139: Newton's method with Kalman estimators from any first
    gradients. *)
From mathcomp Require Import all_ssreflect all_algebra.
From Verif Require Import PyExn LinAlgModel LinAlgSpec LinAlgProofs FDProofs LoopProofs KalmanModel KalmanSpec KalmanProofs KalmanHistory KalmanRequests KalmanLoopModel KalmanLoopSpec KalmanLoopProofs KalmanLoopProps KalmanFitSpec KalmanFitProofs KalmanGlobalSpec KalmanGlobalProofs.
Set Implicit Arguments. Unset Strict Implicit. Unset Printing Implicit Defensive.
Import Order.TTheory GRing.Theory Num.Theory.
Local Open Scope ring_scope.

(** ** No round raises *)
(** Whatever the device returns and whatever the estimators ask for: as long as
    the reported variances are positive, the loop can go on for ever. *)
Theorem kalman_runs :
  forall (F : realFieldType) n k (request : 'I_k -> mkal F n -> option 'rV[F]_n) (f w : nat -> 'rV[F]_n -> 'rV[F]_k) (st0 : mkn F n k) v0,
  (forall t p i, 0 < w t p 0 i) -> (forall i, untold (kn_ests st0 i)) ->
  exists s, s 0%N = (st0, v0) /\ run_of request f w s.
Proof.
move=> F n k request f w st0 v0 Hw H0.
pose s := fix s (t : nat) : mkn F n k * 'rV[F]_n :=
  if t is t'.+1 then if kn_round request (f t') (w t') (s t') is Ok s' then s' else s t' else (st0, v0).
exists s; split=> //.
have Hall t : good (s t).1 /\ kn_round request (f t) (w t) (s t) = Ok (s t.+1).
  elim: t => [|t [Hg Hr]].
    have Hg : good (s 0%N).1 by move=> i; have [? ? ? _] := H0 i.
    split=> //; have [st' [[E _ _ _] _]] := kn_learns 0 (s 0%N).2 (f 0%N (s 0%N).2) Hg (Hw 0%N (s 0%N).2).
    by rewrite /= /kn_round E.
  have [st' [[E G _ _] _]] := kn_learns 0 (s t).2 (f t (s t).2) Hg (Hw t (s t).2).
  have Es : Ok (st', kn_suggest request st') = Ok (s t.+1) by rewrite -Hr /kn_round E.
  have Es' : (st', kn_suggest request st') = s t.+1 := congr1 (fun r => if r is Ok x then x else (st0, v0)) Es.
  have Hg' : good (s t.+1).1 by rewrite -Es'.
  split=> //; have [st2 [[E2 _ _ _] _]] := kn_learns 0 (s t.+1).2 (f t.+1 (s t.+1).2) Hg' (Hw t.+1 (s t.+1).2).
  have Er : kn_round request (f t.+1) (w t.+1) (s t.+1) = Ok (st2, kn_suggest request st2) by rewrite /kn_round E2.
  by rewrite Er -[s t.+2]/(if kn_round request (f t.+1) (w t.+1) (s t.+1) is Ok s' then s' else s t.+1) Er.
by move=> t; have [] := Hall t.
Qed.
Print Assumptions kalman_runs.

(** ** Any device, any errors of measurement, any requests *)
(** The sum of the squared distances to the target after all Newton steps, each
    divided by the largest variance of the value plus that of the prediction,
    is limited by the squared errors of the first gradients, in units of their
    covariances, and by the squares of all changes the linear model [A] does
    not explain, in units of the reported variances.  [A] is any matrix. *)
Theorem kalman_regret :
  forall (F : realFieldType) n k (A : 'M[F]_(k, n)) (request : 'I_k -> mkal F n -> option 'rV[F]_n) (f w : nat -> 'rV[F]_n -> 'rV[F]_k)
         (s : nat -> mkn F n k * 'rV[F]_n) (lam wmax : F) N,
  let des := kn_desired (s 0%N).1 in
  (forall t p i, 0 < w t p 0 i <= wmax) -> (forall i, untold (kn_ests (s 0%N).1 i)) ->
  0 <= lam -> (forall i u, variance (kf_P (mk_kf (kn_ests (s 0%N).1 i))) u <= lam * sqn u) -> run_of request f w s ->
  \sum_(t < N | newton request s t.+1) sqn (des - f t.+1 (s t.+1).2) / (wmax + lam * sqn (step_of s t.+1)) <=
  \sum_i prior_error (row i A) (kn_ests (s 0%N).1 i) +
  \sum_(t < N | long s t.+1) \sum_i unexplained A f s t.+1 i ^+ 2 / w t.+1 (s t.+1).2 0 i.
Proof.
move=> F n k A request f w s lam wmax N des Hw H0 HL Hv Hrun.
have Hw0 t p i : 0 < w t p 0 i by have /andP [] := Hw t p i.
apply: (regret A Hw0 H0 Hrun N HL) => [t i u _|t p i]; last by have /andP [] := Hw t p i.
have [_ _ _ _ C] := run_facts A Hw0 H0 Hrun t; exact: le_trans (C i u) (Hv i u).
Qed.
Print Assumptions kalman_regret.

(** ** Affine devices without errors *)
Lemma exact_unexplained (F : realFieldType) n k (A : 'M[F]_(k, n)) (c : 'rV[F]_k) request (f w : nat -> 'rV[F]_n -> 'rV[F]_k)
    (s : nat -> mkn F n k * 'rV[F]_n) t i :
  (forall t p i, 0 < w t p 0 i) -> (forall i, untold (kn_ests (s 0%N).1 i)) -> run_of request f w s ->
  (forall t, f t = affines A c) -> unexplained A f s t.+1 i = 0.
Proof.
move=> Hw H0 Hrun Hf; have Hg : good (s t).1.
  by case: t => [|t]; [exact: start_good | have [] := run_facts A Hw H0 Hrun t].
have [[_ _ _ _] [P V _ _ _]] := round_learns A Hw Hrun Hg.
rewrite /unexplained /step_of V P !Hf affines_diff; apply/eqP; rewrite subr_eq0; apply/eqP.
by rewrite -row_mul !mxE.
Qed.

(** Only few Newton steps of length up to the root of [D] end further from the
    target than the root of [eps2]. *)
Theorem kalman_far_rounds :
  forall (F : realFieldType) n k (A : 'M[F]_(k, n)) (c : 'rV[F]_k) (request : 'I_k -> mkal F n -> option 'rV[F]_n) (f w : nat -> 'rV[F]_n -> 'rV[F]_k)
         (s : nat -> mkn F n k * 'rV[F]_n) (lam wmax D eps2 : F) N,
  let des := kn_desired (s 0%N).1 in
  (forall t, f t = affines A c) -> 0 < wmax -> (forall t p i, 0 < w t p 0 i <= wmax) -> (forall i, untold (kn_ests (s 0%N).1 i)) ->
  0 <= lam -> (forall i u, variance (kf_P (mk_kf (kn_ests (s 0%N).1 i))) u <= lam * sqn u) -> run_of request f w s -> 0 <= D ->
  #|[pred t : 'I_N | [&& newton request s t.+1, sqn (step_of s t.+1) <= D & eps2 <= sqn (des - f t.+1 (s t.+1).2)]]|%:R * eps2 <=
  (\sum_i prior_error (row i A) (kn_ests (s 0%N).1 i)) * (wmax + lam * D).
Proof.
move=> F n k A c request f w s lam wmax D eps2 N des Hf Hwm Hw H0 HL Hv Hrun HD.
have Hw0 t p i : 0 < w t p 0 i by have /andP [] := Hw t p i.
have := kalman_regret A N Hw H0 HL Hv Hrun.
have -> : \sum_(t < N | long s t.+1) \sum_i unexplained A f s t.+1 i ^+ 2 / w t.+1 (s t.+1).2 0 i = 0.
  by apply: big1 => t _; apply: big1 => i _; rewrite (exact_unexplained _ _ Hw0 H0 Hrun Hf) expr0n mul0r.
rewrite addr0 => Hr.
have Hden : 0 < wmax + lam * D by apply: ltr_paddr => //; exact: mulr_ge0.
rewrite -ler_pdivr_mulr //; apply: le_trans Hr; rewrite mulr_natl mulrnAl -sumr_const /=.
rewrite big_mkcond [X in _ <= X]big_mkcond; apply: ler_sum => t _; rewrite inE /=.
have Hp x : 0 <= x -> 0 < wmax + lam * x by move=> Hx; apply: ltr_paddr => //; exact: mulr_ge0.
case: (newton request s t.+1) => //=; case: ifP => [/andP [H1 H2]|_]; last first.
  by apply: divr_ge0; [exact: sqn_ge0 | apply: ltW; apply: Hp; exact: sqn_ge0].
apply: (@le_trans _ _ (sqn (des - f t.+1 (s t.+1).2) / (wmax + lam * D))).
  by rewrite ler_pmul2r ?invr_gt0.
apply: ler_wpmul2l; first exact: sqn_ge0.
have Hs := Hp _ (sqn_ge0 (step_of s t.+1)).
by rewrite lef_pinv ?posrE // ler_add2l; apply: ler_wpmul2l.
Qed.
Print Assumptions kalman_far_rounds.

(** ** Requests *)
(** Only few rounds are spent on requests, on any device. *)
Theorem kalman_requests_few :
  forall (F : realFieldType) n k (request : 'I_k -> mkal F n -> option 'rV[F]_n) (f w : nat -> 'rV[F]_n -> 'rV[F]_k)
         (s : nat -> mkn F n k * 'rV[F]_n) (M wmax emin emax : F) (eps : 'rV[F]_n) N,
  (forall t p i, 0 < w t p 0 i <= wmax) -> 0 <= wmax -> (forall i, untold (kn_ests (s 0%N).1 i)) -> run_of request f w s ->
  0 < M -> asks_like M eps request -> 0 < emin -> (forall j, emin <= eps 0 j <= emax) -> shortest2 F <= emin ^+ 2 ->
  #|[pred t : 'I_N | asks request s t.+1]|%:R * (M ^+ 2 * emin ^+ 2 / (M * emax ^+ 2 + wmax)) <=
  \sum_i \tr (kf_P (mk_kf (kn_ests (s 0%N).1 i))).
Proof.
move=> F n k request f w s M wmax emin emax eps N Hw Hwm H0 Hrun HM Hask Hemin Heps Hsh.
have Hw0 t p i : 0 < w t p 0 i by have /andP [] := Hw t p i.
have Hmax t p i : w t p 0 i <= wmax by have /andP [] := Hw t p i.
exact: (asks_bounded 0 Hw0 H0 Hrun HM Hask Hmax Hemin Heps N Hsh Hwm).
Qed.
Print Assumptions kalman_requests_few.

(** With requests the tuning of an affine device converges from any first
    gradients, if the maximum covariance is small enough for their errors: each
    round that is not spent on a request reduces the squared distance to the
    target by a fixed factor. *)
Theorem kalman_requests_converge :
  forall (F : realFieldType) n k (A : 'M[F]_(k, n)) (c : 'rV[F]_k) (request : 'I_k -> mkal F n -> option 'rV[F]_n) (f w : nat -> 'rV[F]_n -> 'rV[F]_k)
         (s : nat -> mkn F n k * 'rV[F]_n) (M a2 : F) (eps : 'rV[F]_n),
  let des := kn_desired (s 0%N).1 in
  let e2 := M * \sum_i prior_error (row i A) (kn_ests (s 0%N).1 i) in
  let q := 2%:R * e2 / (a2 - 2%:R * e2) in
  (forall t, f t = affines A c) -> (forall t p i, 0 < w t p 0 i) -> (forall i, untold (kn_ests (s 0%N).1 i)) -> run_of request f w s ->
  0 < M -> asks_like M eps request -> bounded_below A a2 -> 4%:R * e2 < a2 ->
  0 <= q < 1 /\
  (forall t, asks request s t.+1 \/ sqn (des - f t.+1 (s t.+1).2) <= q * sqn (des - f t (s t).2)) /\
  (forall t m, (forall j, (j < m)%N -> ~~ asks request s (t + j).+1) ->
    sqn (des - f (t + m)%N (s (t + m)%N).2) <= q ^+ m * sqn (des - f t (s t).2)).
Proof.
move=> F n k A c request f w s M a2 eps des e2 q Hf Hw H0 Hrun HM Hask HA He.
have HE0 : 0 <= \sum_i prior_error (row i A) (kn_ests (s 0%N).1 i).
  by apply: (total_ge0 A); exact: (start_good H0).
have He0 : 0 <= e2 by apply: mulr_ge0 => //; exact: ltW.
have Hq := rate_lt1 He He0.
have Hone t : asks request s t.+1 \/ sqn (des - f t.+1 (s t.+1).2) <= q * sqn (des - f t (s t).2).
  have [Ha|Ha] := boolP (asks request s t.+1); [by left | right].
  have Hg : good (s t).1 by case: t Ha => [|t] _; [exact: start_good | have [] := run_facts A Hw H0 Hrun t].
  have [_ [P V _ _ _]] := round_learns A Hw Hrun Hg.
  have [G _ D E _] := run_facts A Hw H0 Hrun t.
  have HJ : sqn (kn_jacobian (kn_ests (s t.+1).1) - A) <= e2.
    rewrite sqn_rows; apply: (@le_trans _ _ (M * total A (s t.+1).1)).
      rewrite mulr_sumr; apply: ler_sum => i _.
      have -> : row i (kn_jacobian (kn_ests (s t.+1).1) - A) = grad (mk_kf (kn_ests (s t.+1).1 i)) - row i A by apply/rowP => j; rewrite !mxE.
      apply: energy_error; [exact: G | exact: ltW | exact: (quiet_variance A Hw H0 Hrun HM Hask Ha i)].
    apply: ler_wpmul2l; first exact: ltW.
    have := run_learns A Hw H0 Hrun t.
    have -> : \sum_(t0 < t | long s t0.+1) \sum_i unexplained A f s t0.+1 i ^+ 2 / w t0.+1 (s t0.+1).2 0 i = 0.
      by apply: big1 => t0 _; apply: big1 => i _; rewrite (exact_unexplained _ _ Hw H0 Hrun Hf) expr0n mul0r.
    rewrite addr0; apply: le_trans; rewrite ler_addl; apply: sumr_ge0 => t0 _; apply: sumr_ge0 => i _.
    have [G0 _ _ _ _] := run_facts A Hw H0 Hrun t0; have [_ HP _] := G0 i.
    by apply: divr_ge0; [exact: sqr_ge0 | apply: addr_ge0; [exact: HP.2 | exact: ltW]].
  have -> : (s t.+1).2 = (s t).2 + (lstsq (kn_jacobian (kn_ests (s t.+1).1)) (des - f t (s t).2)^T)^T.
    rewrite E /kn_suggest; case Ep: (pmap _ _) => [|p l]; first by rewrite P D V.
    have : p \in pmap (fun i => request i (kn_ests (s t.+1).1 i)) (enum 'I_k) by rewrite Ep mem_head.
    rewrite mem_pmap => /mapP [i _ Ei]; case/negP: Ha; apply/existsP; exists i; by rewrite -Ei.
  rewrite !Hf; set x := lstsq _ _.
  have -> : des - affines A c ((s t).2 + x^T) = (des - affines A c (s t).2) - (A *m x)^T.
    have := affines_diff A c ((s t).2 + x^T) (s t).2; rewrite addrAC subrr add0r trmxK => <-.
    by rewrite opprB addrA subrK.
  exact: newton_contracts.
split=> //; split=> // t; elim=> [|m IH] Hno; first by rewrite addn0 expr0 mul1r.
have [Ha|Hc] := Hone (t + m)%N; first by have := Hno m (ltnSn m); rewrite Ha.
rewrite addnS exprS -mulrA; apply: (le_trans Hc); apply: ler_wpmul2l; first by case/andP: Hq.
by apply: IH => j Hj; apply: Hno; exact: ltnW.
Qed.
Print Assumptions kalman_requests_converge.

(** One gate, one parameter of slope 2, target 1.  The first estimate of the
    slope is -1 with variance 9: even its sign is wrong. *)
Definition wrong : mkn rat_realFieldType 1 1 := one_start (- 1) 9%:R.
Definition asker (M : rat) (i : 'I_1) (e : mkal rat_realFieldType 1) : option 'rV[rat_realFieldType]_1 :=
  kal_require (const_mx (gate_cov (mk_kf e) 0 0)) 1%:M (const_mx M^-1) (const_mx 1) (mk_pos e).
Lemma asker_asks M : asks_like M (const_mx 1) (asker M).
Proof.
move=> i e _; exists (const_mx (gate_cov (mk_kf e) 0 0)), 1%:M; split=> //; split; first by rewrite trmx1 mulmx1.
by rewrite mulmx1 mul1mx; apply/matrixP => a b; rewrite !ord1 !mxE eqxx mulr1n.
Qed.
Lemma wrong_untold i : untold (kn_ests wrong i).
Proof. split=> //=; [exact: psd_scalar | by rewrite unitmxE det_scalar unitfE]. Qed.
Lemma wrong_prior i : prior_error (row i (one 2%:R)) (kn_ests wrong i) = 1.
Proof.
rewrite /prior_error /=; have -> : (mxvec (row i (one 2%:R)))^T - const_mx (- 1) = const_mx 3%:R :> 'cV[rat_realFieldType]_(1 * 1).
  apply/matrixP => a b; case/mxvec_indexP: a => a a'; rewrite (ord1 b).
  have -> : ((mxvec (row i (one 2%:R)))^T - const_mx (- 1)) (mxvec_index a a') 0 = row i (one 2%:R) a a' + 1.
    by rewrite mxE [X in X + _]mxE mxvecE; congr (_ + _); rewrite mxE mxE opprK.
  by rewrite !mxE (ord1 i) (ord1 a'); apply/eqP; vm_compute.
by rewrite /quad invmx_scalar mul_mx_scalar -scalemxAl mxE mxE big_ord1 !mxE; apply/eqP; vm_compute.
Qed.
Lemma wrong_sum : \sum_i prior_error (row i (one 2%:R)) (kn_ests wrong i) = 1.
Proof. by rewrite big_ord1 wrong_prior. Qed.
Lemma wrong_covariance i u : variance (kf_P (mk_kf (kn_ests wrong i))) u <= 9%:R * sqn u.
Proof. by rewrite /variance /= mul_mx_scalar -scalemxAl mxE -sqn_row. Qed.
Lemma one_bounded : bounded_below (one 2%:R) 4%:R.
Proof. by move=> y; rewrite mul_mx_scalar sqnZ. Qed.

(** At most 54 requests; every other round divides the squared distance by 3. *)
Example converge_ex : exists s : nat -> mkn rat_realFieldType 1 1 * 'rV[rat_realFieldType]_1, s 0%N = (wrong, 0) /\
  let f := affines (one 2%:R) 0 in
  run_of (asker (1 / 2%:R)) (fun _ => f) (fun _ _ => one 1) s /\
  (forall N, (#|[pred t : 'I_N | asks (asker (1 / 2%:R)) s t.+1]| <= 54)%N) /\
  forall t, asks (asker (1 / 2%:R)) s t.+1 \/ sqn (one 1 - f (s t.+1).2) <= 3%:R^-1 * sqn (one 1 - f (s t).2).
Proof.
pose f := affines (one 2%:R) 0.
have Hw (t : nat) (p : 'rV[rat_realFieldType]_1) (i : 'I_1) : (0 : rat) < one 1 0 i by rewrite ord1 mxE.
have [s [E0 Hrun]] := kalman_runs (asker (1 / 2%:R)) (fun _ => f) 0 Hw wrong_untold.
have H0 i : untold (kn_ests (s 0%N).1 i) by rewrite E0; exact: wrong_untold.
have HM : (0 : rat_realFieldType) < 1 / 2%:R by vm_compute.
exists s; split=> //; split=> //; split.
- move=> N.
  have Hw1 (t : nat) (p : 'rV[rat_realFieldType]_1) (i : 'I_1) : (0 : rat_realFieldType) < (one 1 : 'rV[rat_realFieldType]_1) 0 i <= 1 by rewrite ord1 mxE.
  have He (j : 'I_1) : (1 : rat_realFieldType) <= (const_mx 1 : 'rV[rat_realFieldType]_1) 0 j <= 1 by rewrite mxE lexx.
  have Hs : shortest2 rat_realFieldType <= 1 ^+ 2 by apply: (@shortest_le rat_realFieldType); vm_compute.
  have := kalman_requests_few N Hw1 ler01 H0 Hrun HM (@asker_asks _) ltr01 He Hs; clear Hs.
  have -> : \sum_i \tr (kf_P (mk_kf (kn_ests (s 0%N).1 i))) = 9%:R by rewrite E0 big_ord1 /= mxtrace_scalar.
  have -> : (1 / 2%:R) ^+ 2 * 1 ^+ 2 / (1 / 2%:R * 1 ^+ 2 + 1) = 6%:R^-1 :> rat_realFieldType by apply/eqP; vm_compute.
  by rewrite ler_pdivr_mulr // -natrM ler_nat.
- have := @kalman_requests_converge rat_realFieldType 1 1 (one 2%:R) 0 (asker (1 / 2%:R)) (fun _ => f) (fun _ _ => one 1) s (1 / 2%:R) 4%:R (const_mx 1).
  rewrite E0 wrong_sum mulr1 => H; have {H} := H _ Hw _ Hrun HM (asker_asks _) one_bounded _.
  have -> : 2%:R * (1 / 2%:R) / (4%:R - 2%:R * (1 / 2%:R)) = 3%:R^-1 :> rat_realFieldType by apply/eqP; vm_compute.
  by move=> H; have [||_ [H1 _]] := H _ wrong_untold _.
Qed.

(** Errors of measurement of a tenth, alternating in sign, and no requests: the
    sum over [N] rounds is at most [1 + N / 25]. *)
Definition shaky (t : nat) (p : 'rV[rat_realFieldType]_1) : 'rV[rat_realFieldType]_1 :=
  affines (one 2%:R) 0 p + one ((- 1) ^+ t / 10%:R).
Lemma sign_change t : ((- 1) ^+ t.+1 / 10%:R - (- 1) ^+ t / 10%:R) ^+ 2 = 25%:R^-1 :> rat_realFieldType.
Proof. by rewrite -signr_odd -(signr_odd _ t) /=; case: (odd t); apply/eqP; vm_compute. Qed.
Lemma sum_le_const (F : realFieldType) N (P : pred 'I_N) (g : 'I_N -> F) (c : F) : 0 <= c -> (forall t, g t <= c) -> \sum_(t < N | P t) g t <= N%:R * c.
Proof.
move=> Hc Hg; rewrite mulr_natl -[X in _ *+ X]card_ord -sumr_const big_mkcond /=.
by apply: ler_sum => t _; case: (P t).
Qed.
Example regret_ex : exists s : nat -> mkn rat_realFieldType 1 1 * 'rV[rat_realFieldType]_1, s 0%N = (wrong, 0) /\
  run_of ask_none shaky (fun _ _ => one 1) s /\
  forall N, \sum_(t < N | newton ask_none s t.+1) sqn (one 1 - shaky t.+1 (s t.+1).2) / (1 + 9%:R * sqn (step_of s t.+1)) <= 1 + N%:R / 25%:R.
Proof.
have Hw (t : nat) (p : 'rV[rat_realFieldType]_1) (i : 'I_1) : (0 : rat) < one 1 0 i by rewrite ord1 mxE.
have [s [E0 Hrun]] := kalman_runs ask_none shaky 0 Hw wrong_untold.
have H0 i : untold (kn_ests (s 0%N).1 i) by rewrite E0; exact: wrong_untold.
exists s; split=> //; split=> // N.
have Hu t i : unexplained (one 2%:R) shaky s t.+1 i ^+ 2 = 25%:R^-1.
  have Hg : good (s t).1 by case: t => [|t]; [exact: start_good | have [] := run_facts (one 2%:R) Hw H0 Hrun t].
  have [_ [P V _ _ _]] := round_learns (one 2%:R) Hw Hrun Hg.
  rewrite /unexplained /step_of V P /shaky opprD addrACA affines_diff.
  have -> : forall a b : 'rV[rat_realFieldType]_1, (a + b) 0 i = a 0 i + b 0 i by move=> a b; rewrite mxE.
  rewrite (ord1 i) [X in (X + _ - _) ^+ 2](_ : _ = (row 0 (one 2%:R) *m ((s t.+1).2 - (s t).2)^T) 0 0); last by rewrite -row_mul !mxE.
  rewrite addrAC subrr add0r -[one _ - _]/(_%:M - _%:M) -raddfB /= mxE mulr1n.
  exact: sign_change.
have := @kalman_regret rat_realFieldType 1 1 (one 2%:R) ask_none shaky (fun _ _ => one 1) s 9%:R 1 N.
rewrite E0 wrong_sum => H; apply: le_trans (H _ wrong_untold _ wrong_covariance Hrun) _ => //.
- by move=> t p i; rewrite ord1 mxE.
- rewrite ler_add2l; apply: (@sum_le_const rat_realFieldType).
  + by rewrite invr_ge0 ler0n.
  + by move=> t; rewrite big_ord1 Hu mxE divr1 lexx.
Qed.

(** Without errors and requests at most ten steps of length up to 1 end at a
    distance of 1 or more. *)
Example far_ex : exists s : nat -> mkn rat_realFieldType 1 1 * 'rV[rat_realFieldType]_1, s 0%N = (wrong, 0) /\
  let f := affines (one 2%:R) 0 in
  run_of ask_none (fun _ => f) (fun _ _ => one 1) s /\
  forall N, (#|[pred t : 'I_N | [&& newton ask_none s t.+1, (sqn (step_of s t.+1) <= 1)%R & (1 <= sqn (one 1 - f (s t.+1).2))%R]]| <= 10)%N.
Proof.
pose f := affines (one 2%:R) 0.
have Hw (t : nat) (p : 'rV[rat_realFieldType]_1) (i : 'I_1) : (0 : rat) < one 1 0 i by rewrite ord1 mxE.
have Hw1 (t : nat) (p : 'rV[rat_realFieldType]_1) (i : 'I_1) : (0 : rat_realFieldType) < (one 1 : 'rV[rat_realFieldType]_1) 0 i <= 1 by rewrite ord1 mxE.
have [s [E0 Hrun]] := kalman_runs ask_none (fun _ => f) 0 Hw wrong_untold.
have H0 i : untold (kn_ests (s 0%N).1 i) by rewrite E0; exact: wrong_untold.
exists s; split=> //; split=> // N.
have Hc i u : variance (kf_P (mk_kf (kn_ests (s 0%N).1 i))) u <= 9%:R * sqn u by rewrite E0; exact: wrong_covariance.
have H9 : (0 : rat_realFieldType) <= 9%:R by rewrite ler0n.
have := kalman_far_rounds 1 N (fun _ => erefl) ltr01 Hw1 H0 H9 Hc Hrun ler01.
rewrite E0 wrong_sum mulr1 mul1r mulr1.
have -> : 1 + 9%:R = 10%:R :> rat_realFieldType by [].
by rewrite ler_nat => H; exact: H.
Qed.
