(** Property C136: the Kalman gradient is the best fit to all measurements, and
    its reported variance bounds its error. *)
From mathcomp Require Import all_ssreflect all_algebra.
From Verif Require Import PyExn LinAlgModel LinAlgSpec LinAlgProofs KalmanModel KalmanSpec KalmanProofs KalmanHistory KalmanProps KalmanFitSpec KalmanFitProofs.
Set Implicit Arguments. Unset Strict Implicit. Unset Printing Implicit Defensive.
Import Order.TTheory GRing.Theory Num.Theory.
Local Open Scope ring_scope.

(** Among all gradients, the estimate has the smallest squared misfit to the
    prior guess and to all measurements, each weighted with the inverse of its
    covariance and with the fading memory; no other gradient has it; the
    covariance tells how fast the misfit grows away from it. *)
Theorem kalman_best_fit :
  forall (F : realFieldType) m n (k : filter F (m * n) m) (cs : seq (call F m n)) (G : 'M[F]_(m, n)),
  kf_F k = 1%:M -> kf_Q k = 0 -> kf_alpha k != 0 -> psd (kf_P k) -> kf_P k \in unitmx ->
  (forall i c0, (i < size cs)%N -> weighted (kf_R k) (nth c0 cs i)) ->
  let cost := fit_cost (kf_alpha k) (kf_R k) (kf_x k) (kf_P k) (rev cs) in
  let k' := history k cs in
  [/\ cost (grad k') <= cost G, cost G = cost (grad k') -> G = grad k' &
      cost G = cost (grad k') + quad (invmx (kf_P k')) ((mxvec G)^T - kf_x k')].
Proof.
move=> F m n k cs G EF EQ Ha HP Hu Hc cost k'.
have Hf := fits_history Ha HP Hu EF EQ erefl erefl erefl erefl Hc.
have E := fits_best G Hf; rewrite -/cost -/k' in E.
case: Hf => _ _ _ _ [HP' Hu' _]; have HI := psd_inv Hu' HP'.
split=> //; first by rewrite E ler_addl; exact: quad_ge0.
rewrite E => /eqP; rewrite -subr_eq0 addrAC subrr add0r => /eqP H0.
have Hiu : invmx (kf_P k') \in unitmx by rewrite unitmx_inv.
have /eqP := quad_eq0 HI Hiu H0; rewrite subr_eq0 => /eqP EG.
by rewrite /grad -EG trmxK mxvecK.
Qed.
Print Assumptions kalman_best_fit.

(** Whatever the true gradient [g] and the errors of the measurements are: the
    error of the predicted change of a value along any step is, in units of its
    reported standard deviation, at most the root of the misfit of [g], which
    consists of the prior error and the errors of the measurements only. *)
Theorem kalman_error_within :
  forall (F : realFieldType) m n (g : 'M[F]_(m, n)) (k : filter F (m * n) m) (cs : seq (call F m n)) (i : 'I_m) (diff : 'rV[F]_n),
  kf_F k = 1%:M -> kf_Q k = 0 -> kf_alpha k != 0 -> psd (kf_P k) -> kf_P k \in unitmx ->
  (forall i c0, (i < size cs)%N -> weighted (kf_R k) (nth c0 cs i)) ->
  ((grad (history k cs) *m diff^T - g *m diff^T) i 0) ^+ 2 <=
    variance (kf_P (history k cs)) (along i diff) * fit_cost (kf_alpha k) (kf_R k) (kf_x k) (kf_P k) (rev cs) g.
Proof.
move=> F m n g k cs i diff EF EQ Ha HP Hu Hc; set k' := history k cs.
have Hf := fits_history Ha HP Hu EF EQ erefl erefl erefl erefl Hc.
have E := fits_best g Hf; rewrite -/k' in E Hf.
have H0 : 0 <= fit_cost (kf_alpha k) (kf_R k) (kf_x k) (kf_P k) (rev cs) (grad k').
  have Hw : forall j c0, (j < size (rev cs))%N -> weighted (kf_R k) (nth c0 (rev cs) j).
    by move=> j c0; rewrite size_rev => Hj; rewrite nth_rev //; apply: Hc; rewrite ltn_subrL; case: (cs) Hj.
  elim: (rev cs) Hw => [|c l IH] Hw /=; first by apply: quad_ge0; exact: psd_inv.
  have [_ [H1 H2]] := Hw 0%N c isT.
  apply: addr_ge0; last by apply: quad_ge0; exact: psd_inv.
  apply: mulr_ge0; first by case: c_predict; rewrite ?invr_ge0 ?sqr_ge0 ?ler01.
  by apply: IH => j c0 Hj; exact: (Hw j.+1).
case: Hf => _ _ _ _ [HP' Hu' _].
have -> : (grad k' *m diff^T - g *m diff^T) i 0 = (along i diff *m (- ((mxvec g)^T - kf_x k'))) 0 0.
  rewrite -row_create_H -row_mul [RHS]mxE opprB mulmxBr !create_H_mul trmxK mxvecK.
  by rewrite [in RHS]mxE [in LHS]mxE.
apply: (le_trans (quad_schwarz HP' Hu' _ _)).
rewrite quadN E; apply: ler_wpmul2l; first exact: HP'.2.
by rewrite ler_addr.
Qed.
Print Assumptions kalman_error_within.

(** Fading memory: two gates, two measurements that contradict each other. *)
Definition fading : filter rat_realFieldType (1 * 2) 1 := mk_filter 0 1%:M 1%:M 0 1%:M 2%:R.
Definition twice : seq (call rat_realFieldType 1 2) :=
  [:: mk_call (case_diff 1 2%:R) (const_mx 3%:R) (Some 1%:M) None true; mk_call (case_diff 1 2%:R) (const_mx 4%:R) None None true].
Lemma twice_weighted i c0 : (i < size twice)%N -> weighted 1%:M (nth c0 twice i).
Proof. by case: i => [|[|i]] // _; split=> //; split; rewrite /weight /=; try exact: psd1; exact: unitmx1. Qed.
Example case_best : fit_cost 2%:R 1%:M 0 1%:M (rev twice) (grad (history fading twice)) <= fit_cost 2%:R 1%:M 0 1%:M (rev twice) (case_diff 1 1).
Proof.
have Ha : kf_alpha fading != 0 by [].
by have [] := @kalman_best_fit _ 1 2 fading twice (case_diff 1 1) erefl erefl Ha (psd1 _ _) (unitmx1 _ _) twice_weighted.
Qed.
Example case_within :
  ((grad (history fading twice) *m (case_diff 1 0)^T - case_diff 1 1 *m (case_diff 1 0)^T) 0 0) ^+ 2 <=
  variance (kf_P (history fading twice)) (along 0 (case_diff 1 0)) * fit_cost 2%:R 1%:M 0 1%:M (rev twice) (case_diff 1 1).
Proof.
have Ha : kf_alpha fading != 0 by [].
exact: (@kalman_error_within _ 1 2 (case_diff 1 1) fading twice 0 (case_diff 1 0) erefl erefl Ha (psd1 _ _) (unitmx1 _ _) twice_weighted).
Qed.
