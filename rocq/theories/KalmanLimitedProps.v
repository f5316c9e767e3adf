(** Property C141: Newton's method with Kalman estimators and limited steps. *)
From mathcomp Require Import all_ssreflect all_algebra.
From Verif Require Import PyExn LinAlgModel LinAlgSpec LinAlgProofs FDProofs LoopProofs LimitedModel LimitedSpec LimitedProofs LimitedProps KalmanModel KalmanSpec KalmanProofs KalmanLoopModel KalmanLoopSpec KalmanLoopProofs KalmanLoopProps KalmanGlobalSpec KalmanGlobalProofs KalmanGlobalProps KalmanLimitedModel KalmanLimitedSpec KalmanLimitedProofs.
Set Implicit Arguments. Unset Strict Implicit. Unset Printing Implicit Defensive.
Import Order.TTheory GRing.Theory Num.Theory.
Local Open Scope ring_scope.

(** ** No round raises *)
(** With any requests, limit and queue, and on any device with positive
    variances. *)
Theorem limited_runs :
  forall (F : realFieldType) n k (request : 'I_k -> mkal F n -> option 'rV[F]_n) norm int_of limit number (f w : nat -> 'rV[F]_n -> 'rV[F]_k) (s0 : ktuner F n k),
  (forall t p i, 0 < w t p 0 i) -> (forall i, untold (kn_ests (kt_solver s0) i)) ->
  exists S, S 0%N = s0 /\ rounds_of request norm int_of limit number f w S.
Proof.
move=> F n k request norm int_of limit number f w s0 Hw H0.
pose S := fix S (t : nat) : ktuner F n k :=
  if t is t'.+1 then if kt_round request norm int_of limit number f w (S t') is Ok s' then s' else S t' else s0.
exists S; split=> //.
have step (s : ktuner F n k) : good (kt_solver s) -> exists s', kt_round request norm int_of limit number f w s = Ok s' /\ good (kt_solver s').
  move=> Hg; rewrite /kt_round /kt_check; case: (kt_queue s == 0%N); last first.
    by case: (cut_step norm int_of limit number _ _ _) => v q; eexists; split; first reflexivity.
  have [st' [[-> G _ _] _]] := kn_learns 0 (kt_volt s) (f (kt_evals s) (kt_volt s)) Hg (Hw (kt_evals s) (kt_volt s)).
  by case: (cut_step norm int_of limit number _ _ _) => v q; eexists; split; first reflexivity.
have Hg j : good (kt_solver (S j)).
  elim: j => [|j IH]; first by move=> i; have [? ? ? _] := H0 i.
  by rewrite /=; have [s' [-> G]] := step _ IH.
by move=> j; rewrite /=; have [s' [-> _]] := step _ (Hg j).
Qed.
Print Assumptions limited_runs.

(** ** The predictions of the estimators *)
(** Whoever chooses the voltages, whatever the device and the errors of
    measurement: the sum of the squared errors of all predicted changes, each
    divided by the largest variance of the value plus that of the prediction,
    is limited by the squared errors of the first gradients, in units of their
    covariances, and by the squares of all changes that the linear model [A]
    does not explain. *)
Theorem kalman_predictions :
  forall (F : realFieldType) n k (A : 'M[F]_(k, n)) (f w : nat -> 'rV[F]_n -> 'rV[F]_k) (s : nat -> mkn F n k * 'rV[F]_n) (lam wmax : F) N,
  (forall t p i, 0 < w t p 0 i <= wmax) -> (forall i, untold (kn_ests (s 0%N).1 i)) ->
  0 <= lam -> (forall i u, variance (kf_P (mk_kf (kn_ests (s 0%N).1 i))) u <= lam * sqn u) -> taken f w s ->
  \sum_(t < N | long s t.+1) (\sum_i misjudged f s t.+1 i ^+ 2) / (wmax + lam * sqn (step_of s t.+1)) <=
  \sum_i prior_error (row i A) (kn_ests (s 0%N).1 i) +
  \sum_(t < N | long s t.+1) \sum_i unexplained A f s t.+1 i ^+ 2 / w t.+1 (s t.+1).2 0 i.
Proof.
move=> F n k A f w s lam wmax N Hw H0 HL Hv Hrun.
have Hw0 t p i : 0 < w t p 0 i by have /andP [] := Hw t p i.
by apply: (predictions A Hw0 H0 Hrun N HL Hv) => t p i; have /andP [] := Hw t p i.
Qed.
Print Assumptions kalman_predictions.

(** Voltages that do not depend on the estimates at all. *)
Lemma any_voltages (F : realFieldType) n k (f w : nat -> 'rV[F]_n -> 'rV[F]_k) (st0 : mkn F n k) (v : nat -> 'rV[F]_n) :
  (forall t p i, 0 < w t p 0 i) -> (forall i, untold (kn_ests st0 i)) -> exists s, [/\ (s 0%N).1 = st0, forall t, (s t).2 = v t & taken f w s].
Proof.
move=> Hw H0.
pose g := fix g (t : nat) : mkn F n k :=
  if t is t'.+1 then if kn_update (v t') (f t' (v t')) (w t' (v t')) (g t') is Ok st then st else g t' else st0.
exists (fun t => (g t, v t)); split=> //.
have Hg t : good (g t).
  elim: t => [|t IH]; first by move=> i; have [? ? ? _] := H0 i.
  by rewrite /=; have [st' [[-> G _ _] _]] := kn_learns 0 (v t) (f t (v t)) IH (Hw t (v t)).
by move=> t /=; have [st' [[-> _ _ _] _]] := kn_learns 0 (v t) (f t (v t)) (Hg t) (Hw t (v t)).
Qed.
(** Slope 2, first estimate -1 with variance 9, voltages 0, 1, 0, 1, ...: the
    squared errors of all predictions have a sum of at most 10. *)
Example predictions_ex : exists s : nat -> mkn rat_realFieldType 1 1 * 'rV[rat_realFieldType]_1,
  (s 0%N).1 = wrong /\ taken (fun _ => affines (one 2%:R) 0) (fun _ _ => one 1) s /\
  forall N, \sum_(t < N | long s t.+1) misjudged (fun _ => affines (one 2%:R) 0) s t.+1 0 ^+ 2 / 10%:R <= 1.
Proof.
have Hw (t : nat) (p : 'rV[rat_realFieldType]_1) (i : 'I_1) : (0 : rat_realFieldType) < (one 1 : 'rV[rat_realFieldType]_1) 0 i by rewrite ord1 mxE.
have Hw1 (t : nat) (p : 'rV[rat_realFieldType]_1) (i : 'I_1) : (0 : rat_realFieldType) < (one 1 : 'rV[rat_realFieldType]_1) 0 i <= 1 by rewrite ord1 mxE.
have [s [E0 Hv Ht]] := any_voltages (fun _ => affines (one 2%:R) 0) (fun t : nat => one (if odd t then 1 else 0)) Hw wrong_untold.
exists s; split=> //; split=> // N.
have H0 i : untold (kn_ests (s 0%N).1 i) by rewrite E0; exact: wrong_untold.
have Hc i u : variance (kf_P (mk_kf (kn_ests (s 0%N).1 i))) u <= 9%:R * sqn u by rewrite E0; exact: wrong_covariance.
have H9 : (0 : rat_realFieldType) <= 9%:R by rewrite ler0n.
have := kalman_predictions (one 2%:R) N Hw1 H0 H9 Hc Ht.
rewrite E0 wrong_sum.
have -> : \sum_(t < N | long s t.+1) \sum_i unexplained (one 2%:R) (fun _ => affines (one 2%:R) 0) s t.+1 i ^+ 2 / one 1 0 i = 0.
  by apply: big1 => t _; apply: big1 => i _; rewrite (no_unexplained Hw H0 Ht (fun _ => erefl)) expr0n mul0r.
rewrite addr0; apply: le_trans; apply: ler_sum => t _; rewrite big_ord1.
have -> : sqn (step_of s t.+1) = 1.
  rewrite (step_taken (one 2%:R) Hw H0 Ht) !Hv one_sqnB /=; by case: (odd t); apply/eqP; vm_compute.
by rewrite mulr1.
Qed.

(** ** The measurements of the tuner *)
(** Without requests each Newton step is made in up to [number] rounds: either
    the whole step, or a part of it of one to [number] times the limit.  Then
    the next measurement follows. *)
Theorem limited_measurements :
  forall (F : realFieldType) n k request norm int_of (m : F) number (f w : nat -> 'rV[F]_n -> 'rV[F]_k) (S : nat -> ktuner F n k),
  is_norm norm -> is_int int_of -> 0 < m -> (0 < number)%N -> never_asks request ->
  rounds_of request norm int_of (Some m) number f w S -> kt_queue (S 0%N) = 0%N -> kt_evals (S 0%N) = 0%N ->
  exists T s, [/\ seen_in S T s, taken f w s & forall t, (T t.+1 <= T t + number)%N /\ part_of m (number%:R * m) (whole_step s t) (step_of s t.+1)].
Proof.
move=> F n k request norm int_of m number f w S Hn Hi Hm Hnum Ha Hr Hq He.
exists (eval_at S), (visits S); split.
- exact: (visits_seen Hn Hi Hm Hnum Ha Hr Hq He).
- exact: (visits_taken Hn Hi Hm Hnum Ha Hr Hq He).
- exact: (visits_part Hn Hi Hm Hnum Ha Hr Hq He).
Qed.
Print Assumptions limited_measurements.

(** ** The way to the target *)
(** An affine device without errors, as many parameters as gates, any first
    gradients: only few steps are shortened, and only few whole steps end
    further from the target than the root of [eta].  [b] is the change of the
    values that a step of the length of the limit makes at least. *)
Theorem limited_far :
  forall (F : realFieldType) n k (A : 'M[F]_(k, n)) (c : 'rV[F]_k) normk (f w : nat -> 'rV[F]_n -> 'rV[F]_k) (s : nat -> mkn F n k * 'rV[F]_n) (a m M lam wmax : F) N,
  let b := a * m in
  let C := (\sum_i prior_error (row i A) (kn_ests (s 0%N).1 i)) * (wmax + lam * M ^+ 2) in
  let r t := kn_desired (s 0%N).1 - f t (s t).2 in
  (forall t, f t = affines A c) -> is_norm normk -> 0 < a -> expands a A -> 0 < m ->
  0 < wmax -> (forall t p i, 0 < w t p 0 i <= wmax) -> (forall i, untold (kn_ests (s 0%N).1 i)) ->
  0 <= lam -> (forall i u, variance (kf_P (mk_kf (kn_ests (s 0%N).1 i))) u <= lam * sqn u) -> taken f w s ->
  (forall t, (t < N)%N -> [/\ row_free (kn_jacobian (kn_ests (s t.+1).1)), long s t.+1 & part_of m M (whole_step s t) (step_of s t.+1)]) ->
  #|[pred t : 'I_N | shortened s t]|%:R * b ^+ 2 <= 4%:R * b * normk (r 0%N) + 12%:R * C /\
  forall eta, #|[pred t : 'I_N | ~~ shortened s t && (eta <= sqn (r t.+1))]|%:R * eta <= C.
Proof.
move=> F n k A c normk f w s a m M lam wmax N b C r Hf Hn Ha Hexp Hm Hwm Hw H0 HL Hv Hrun Hst.
have Hw0 t p i : 0 < w t p 0 i by have /andP [] := Hw t p i.
have Hmax t p i : w t p 0 i <= wmax by have /andP [] := Hw t p i.
split; first exact: (shortened_few Hw0 H0 Hrun Hf Hn Ha Hm Hexp HL Hwm Hmax Hv Hst).
by move=> eta; exact: (whole_few Hw0 H0 Hrun Hf Hn HL Hwm Hmax Hv Hst).
Qed.
Print Assumptions limited_far.

(** The tuner therefore comes as close to the target as wanted within a number
    of measurements that is known beforehand, unless the estimated gradients
    become dependent or a step is shorter than 1e-7. *)
Theorem limited_reaches :
  forall (F : realFieldType) n k (A : 'M[F]_(k, n)) (c : 'rV[F]_k) request normn normk int_of (w : nat -> 'rV[F]_n -> 'rV[F]_k) (S : nat -> ktuner F n k)
         (a m lam wmax eta : F) number N,
  let f := affines A c in
  let des := kn_desired (kt_solver (S 0%N)) in
  let b := a * m in
  let C := (\sum_i prior_error (row i A) (kn_ests (kt_solver (S 0%N)) i)) * (wmax + lam * (number%:R * m) ^+ 2) in
  is_norm normn -> is_norm normk -> is_int int_of -> 0 < a -> expands a A -> 0 < m -> (0 < number)%N ->
  0 < wmax -> (forall t p i, 0 < w t p 0 i <= wmax) -> (forall i, untold (kn_ests (kt_solver (S 0%N)) i)) ->
  0 <= lam -> (forall i u, variance (kf_P (mk_kf (kn_ests (kt_solver (S 0%N)) i))) u <= lam * sqn u) ->
  never_asks request -> rounds_of request normn int_of (Some m) number (fun _ => f) w S -> kt_queue (S 0%N) = 0%N -> kt_evals (S 0%N) = 0%N ->
  0 < eta -> (4%:R * b * normk (des - f (kt_volt (S 0%N))) + 12%:R * C) * eta + C * b ^+ 2 < N%:R * (b ^+ 2 * eta) ->
  exists T s, [/\ seen_in S T s, taken (fun _ => f) w s, forall t, (T t <= t * number)%N &
    exists t, (t < N)%N /\ [|| sqn (des - f (kt_volt (S (T t.+1)))) < eta, ~~ row_free (kn_jacobian (kn_ests (s t.+1).1)) | ~~ long s t.+1]].
Proof.
move=> F n k A c request normn normk int_of w S a m lam wmax eta number N f des b C Hn Hnk Hi Ha Hexp Hm Hnum Hwm Hw H0 HL Hv Hask Hr Hq He Heta HN.
have [T [s [Hseen Htaken Hpart]]] := limited_measurements Hn Hi Hm Hnum Hask Hr Hq He.
exists T, s; split=> //.
  elim=> [|t IH]; first by have [-> _] := seen_first Hseen.
  by apply: leq_trans (Hpart t).1 _; rewrite mulSn addnC leq_add2l.
have [Es0] : s 0%N = (kt_solver (S 0%N), kt_volt (S 0%N)) by have [_] := seen_first Hseen.
pose P t := [|| sqn (des - f (kt_volt (S (T t.+1)))) < eta, ~~ row_free (kn_jacobian (kn_ests (s t.+1).1)) | ~~ long s t.+1].
have [[t Ht]|Hno] := pickP (fun t : 'I_N => P t); first by exists t; split.
exfalso; have Hst t : (t < N)%N -> [/\ row_free (kn_jacobian (kn_ests (s t.+1).1)), long s t.+1 & part_of m (number%:R * m) (whole_step s t) (step_of s t.+1)].
  move=> Ht; have := Hno (Ordinal Ht); rewrite /P /= => /negbT; rewrite !negb_or !negbK => /and3P [_ H1 H2]; split=> //; exact: (Hpart t).2.
have H0' i : untold (kn_ests (s 0%N).1 i) by rewrite Es0.
have Hv' i u : variance (kf_P (mk_kf (kn_ests (s 0%N).1 i))) u <= lam * sqn u by rewrite Es0.
have [] := limited_far (fun _ => erefl) Hnk Ha Hexp Hm Hwm Hw H0' HL Hv' Htaken Hst.
rewrite Es0 -/des -/f -/b -/C => H1 /(_ eta) H2.
have Hall : #|[pred t : 'I_N | ~~ shortened s t && (eta <= sqn (des - f (s t.+1).2))]| = #|[pred t : 'I_N | ~~ shortened s t]|.
  apply: eq_card => t; rewrite !inE; have := Hno t; rewrite /P /= => /negbT; rewrite !negb_or => /andP [H _].
  by rewrite (seen_volt Hseen) leNgt H andbT.
rewrite Hall in H2.
have Hsum : #|[pred t : 'I_N | shortened s t]|%:R + #|[pred t : 'I_N | ~~ shortened s t]|%:R = N%:R :> F.
  by rewrite -natrD; congr _%:R; have := cardC [pred t : 'I_N | shortened s t]; rewrite card_ord.
have Hb2 : 0 <= b ^+ 2 by exact: sqr_ge0.
have := ler_add (ler_wpmul2r (ltW Heta) H1) (ler_wpmul2r Hb2 H2).
have -> : forall x y z u : F, x * y * z + u * z * y = (x + u) * (y * z).
  by move=> x y z u; rewrite mulrDl !mulrA [u * z * y]mulrAC.
rewrite Hsum => H3; by have := le_lt_trans H3 HN; rewrite ltxx.
Qed.
Print Assumptions limited_reaches.

(** One gate, one parameter of slope 2, target 1, first estimate of the slope -1
    with variance 9; steps of up to three times 2/5 between the measurements. *)
Definition limited_wrong : ktuner rat_realFieldType 1 1 := mk_ktuner wrong 0 0 0.
Definition ones (t : nat) (p : 'rV[rat_realFieldType]_1) : 'rV[rat_realFieldType]_1 := one 1.
Lemma ones_range t p i : (0 : rat_realFieldType) < ones t p 0 i <= 1.
Proof. by rewrite ord1 mxE. Qed.
Lemma one_expands : expands (2%:R : rat_realFieldType) (one 2%:R).
Proof. by move=> x; rewrite /one tr_scalar_mx mul_mx_scalar sqnZ. Qed.
Lemma limited_run : exists S, S 0%N = limited_wrong /\ rounds_of ask_none abs1 int_rat (Some (2%:R / 5%:R)) 3 (fun _ => affines (one 2%:R) 0) ones S.
Proof.
apply: limited_runs; last exact: wrong_untold.
by move=> t p i; have /andP [] := ones_range t p i.
Qed.
Lemma limit_pos : (0 : rat_realFieldType) < 2%:R / 5%:R. Proof. by vm_compute. Qed.
(** Within 2000 measurements one is closer to the target than a tenth, unless
    the estimated slope is zero or a step is too short. *)
Example reaches_ex : exists S T s, S 0%N = limited_wrong /\
  rounds_of ask_none abs1 int_rat (Some (2%:R / 5%:R)) 3 (fun _ => affines (one 2%:R) 0) ones S /\
  seen_in S T s /\ exists t, (t < 2000)%N /\
  [|| sqn (one 1 - affines (one 2%:R) 0 (kt_volt (S (T t.+1)))) < 1 / 100%:R, ~~ row_free (kn_jacobian (kn_ests (s t.+1).1)) | ~~ long s t.+1].
Proof.
have [S [E0 Hrun]] := limited_run.
have H0 i : untold (kn_ests (kt_solver (S 0%N)) i) by rewrite E0; exact: wrong_untold.
have Hc i u : variance (kf_P (mk_kf (kn_ests (kt_solver (S 0%N)) i))) u <= 9%:R * sqn u by rewrite E0; exact: wrong_covariance.
have H9 : (0 : rat_realFieldType) <= 9%:R by rewrite ler0n.
have H2 : (0 : rat_realFieldType) < 2%:R by rewrite ltr0n.
have Heta : (0 : rat_realFieldType) < 1 / 100%:R by vm_compute.
have := @limited_reaches rat_realFieldType 1 1 (one 2%:R) 0 ask_none abs1 abs1 int_rat ones S 2%:R (2%:R / 5%:R) 9%:R 1 (1 / 100%:R) 3 2000
  abs1_norm abs1_norm int_rat_is H2 one_expands limit_pos (erefl : (0 < 3)%N) ltr01 ones_range H0 H9 Hc (fun _ _ => erefl) Hrun.
rewrite E0 -[kt_solver limited_wrong]/wrong -[kt_volt limited_wrong]/(0 : 'rV_1) wrong_sum => /(_ erefl erefl Heta).
have -> : one 1 - affines (one 2%:R) 0 0 = one 1.
  by rewrite /affines trmx0 mulmx0 trmx0 add0r subr0.
have -> : abs1 (one 1) = 1 by rewrite /abs1 mxE.
move=> H; case: H => [|T [s [Hseen _ _ Ht]]]; first by vm_compute.
exists S, T, s; split; first exact: E0.
split; first exact: Hrun.
split; [exact: Hseen | exact: Ht].
Qed.

(** The first step meets the conditions: the estimated slope is -1, and the
    tuner goes into the wrong direction. *)
Example first_ex : exists S T s, S 0%N = limited_wrong /\
  rounds_of ask_none abs1 int_rat (Some (2%:R / 5%:R)) 3 (fun _ => affines (one 2%:R) 0) ones S /\
  seen_in S T s /\ whole_step s 0 = one (- 1) /\ 
  [/\ row_free (kn_jacobian (kn_ests (s 1%N).1)), long s 1 & part_of (2%:R / 5%:R) (3%:R * (2%:R / 5%:R)) (whole_step s 0) (step_of s 1)].
Proof.
have [S [E0 Hrun]] := limited_run.
have Hq : kt_queue (S 0%N) = 0%N by rewrite E0.
have He : kt_evals (S 0%N) = 0%N by rewrite E0.
have [T [s [Hseen Htaken Hpart]]] := limited_measurements abs1_norm int_rat_is limit_pos (erefl : (0 < 3)%N) (fun _ _ => erefl) Hrun Hq He.
exists S, T, s; split; first exact: E0.
split; first exact: Hrun.
split; first exact: Hseen.
have Es : s 0%N = (wrong, 0) by have [_ ->] := seen_first Hseen; rewrite E0.
have E1 : (s 1%N).1 = mk_mkn (one 1) (fun i => mk_mkal (mk_kf (kn_ests wrong i)) 0 (Some (affines (one 2%:R) 0 0 0 i))) 0 (affines (one 2%:R) 0 0).
  by have := Htaken 0%N; rewrite Es /kn_update first_exn_ok //= => -[].
have EJ : kn_jacobian (kn_ests (s 1%N).1) = one (- 1) by rewrite E1 -(one_jacobian (- 1) 9%:R).
have Hf : row_free (one (- 1)) by rewrite row_free_unit unitmxE det_scalar expr1 unitfE.
have EW : whole_step s 0 = one (- 1).
  rewrite /whole_step EJ E1 /=; set b := (_ - _)^T; have := lstsq_exact b Hf; rewrite {1}/one mul_scalar_mx scaleN1r => E.
  have -> : lstsq (one (- 1)) b = - b by apply/eqP; rewrite -eqr_oppLR E.
  have -> : b = one 1 by rewrite /b /affines trmx0 mulmx0 trmx0 add0r subr0 /one tr_scalar_mx.
  by apply/matrixP => i j; rewrite !ord1 !mxE.
have Hp := (Hpart 0%N).2.
split; first exact: EW.
split; [by rewrite EJ | | exact: Hp].
case: Hp => c [_ Ec Hor _]; rewrite /long; case: Hor => [Hc1|Hm].
- rewrite Ec Hc1 scale1r EW sqn_one; apply: (@shortest_le rat_realFieldType); by vm_compute.
- apply: le_trans Hm; apply: (@shortest_le rat_realFieldType); by vm_compute.
Qed.
