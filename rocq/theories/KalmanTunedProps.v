(** Property C144: requests with tuned parameters end with equal step widths,
    but can drive the voltages away for ever with different ones. *)
From mathcomp Require Import all_ssreflect all_algebra.
From Verif Require Import PyExn LinAlgModel LinAlgSpec LinAlgProofs FDProofs LoopProofs KalmanModel KalmanSpec KalmanProofs KalmanHistory KalmanProps KalmanRequests
  KalmanLoopModel KalmanLoopSpec KalmanLoopProofs KalmanLoopProps KalmanFitSpec KalmanFitProofs KalmanGlobalSpec KalmanGlobalProofs KalmanGlobalProps
  KalmanFadeProofs KalmanTunedSpec KalmanTunedProofs.
Set Implicit Arguments. Unset Strict Implicit. Unset Printing Implicit Defensive.
Import Order.TTheory GRing.Theory Num.Theory.
Local Open Scope ring_scope.

(** With one step width [e] for all gates the number of rounds in which somebody
    asks is limited by the first covariances, on any device and whatever the
    tuned gradients are in each round. *)
Theorem tuned_requests_few :
  forall (F : realFieldType) n k (request : 'I_k -> mkal F n -> option 'rV[F]_n) (f w : nat -> 'rV[F]_n -> 'rV[F]_k) s (M e wmax : F) N,
  (forall t p i, 0 < w t p 0 i <= wmax) -> 0 <= wmax -> (forall i, untold (kn_ests (s 0%N).1 i)) -> run_of request f w s ->
  0 < M -> asks_tuned M (const_mx e) request -> shortest2 F <= e ^+ 2 ->
  #|[pred t : 'I_N | asks request s t.+1]|%:R * (M ^+ 2 * e ^+ 2 / (M * e ^+ 2 + wmax)) <= \sum_i \tr (kf_P (mk_kf (kn_ests (s 0%N).1 i))).
Proof.
move=> F n k request f w s M e wmax N Hw Hwm H0 Hrun HM Hask Hsh.
have Hw1 t p i : 0 < w t p 0 i by case/andP: (Hw t p i).
have Hw2 t p i : w t p 0 i <= wmax by case/andP: (Hw t p i).
exact: (tuned_asks_bounded Hw1 H0 Hrun HM Hw2 Hask Hsh N Hwm).
Qed.
Print Assumptions tuned_requests_few.

(** With different step widths the requested step [d = v * eps] is not along
    [v].  If an estimator does not know the direction [u] orthogonal to [d] well
    enough, it asks for the same step in every round, on any device: the
    voltages move away in a straight line for ever.  The tuned parameters whose
    gradients are known keep these gradients, so that [v] stays the vector of
    their null space, but they change by the same amount in each round. *)
Theorem tuned_runaway :
  forall (F : realFieldType) n k (v eps : 'rV[F]_n) (M : F) (f w : nat -> 'rV[F]_n -> 'rV[F]_k) s (i : 'I_k) (u : 'rV[F]_n),
  (forall t p i, 0 < w t p 0 i) -> (forall i, untold (kn_ests (s 0%N).1 i)) -> run_of (asks_along v M eps) f w s ->
  let d := scale v eps in
  (d *m u^T) 0 0 = 0 -> M * quad (invmx (kf_P (mk_kf (kn_ests (s 0%N).1 i)))) (mxvec u)^T < (v *m u^T) 0 0 ^+ 2 ->
  [/\ forall t, isSome (asks_along v M eps i (kn_ests (s t.+1).1 i)), forall t, (s t).2 = (s 0%N).2 + t%:R *: d &
      forall j g c, (forall t p, f t p 0 j = (g *m p^T) 0 0 + c) -> grad (mk_kf (kn_ests (s 0%N).1 j)) = g ->
        (forall t, grad (mk_kf (kn_ests (s t).1 j)) = g) /\
        forall t, f t (s t).2 0 j = f 0%N (s 0%N).2 0 j + t%:R * (g *m d^T) 0 0].
Proof.
move=> F n k v eps M f w s i u Hw H0 Hrun d Hd Hbig.
have R t := runaway Hw H0 Hrun Hd Hbig t.
have Hpos t : (s t).2 = (s 0%N).2 + t%:R *: d.
  elim: t => [|t IH]; first by rewrite scale0r addr0.
  by have [_ ->] := R t; rewrite IH -addrA -[X in _ + (_ + X)]scale1r -scalerDl -[t.+1]addn1 natrD.
split=> //; first by move=> t; apply: (along_asks Hw H0 Hrun Hbig); have [] := R t.
move=> j g c Hex Hg; split; first exact: (gradient_kept Hw H0 Hrun Hex Hg).
move=> t; rewrite !Hex Hpos (linearD (trmx_linear _ _ _)) /= mulmxDr linearZ /= -scalemxAr [X in X + _ = _]mxE [X in _ + X + _ = _]mxE.
by rewrite addrAC.
Qed.
Print Assumptions tuned_runaway.

(** Two gates, two parameters, the first one with the known gradient (4, -3): its
    null space is spanned by (3/5, 4/5).  The step widths are 4 and 3. *)
Definition two_grad (x y : rat) : 'cV[rat_realFieldType]_(1 * 2) := (mxvec (case_diff x y))^T.
Definition two_start : mkn rat_realFieldType 2 2 :=
  mk_mkn 0 (fun i => mk_mkal (mk_filter (if i == 0 then two_grad 4%:R (- 3%:R) else 0) (100%:R)%:M 1%:M 0 1%:M 1) 0 None) 0 0.
Definition two_slopes : 'M[rat_realFieldType]_2 := \matrix_(i, j) (if i == 0 then case_diff 4%:R (- 3%:R) 0 j else case_diff 1 1 0 j).
Definition null_vec : 'rV[rat_realFieldType]_2 := case_diff (3%:R / 5%:R) (4%:R / 5%:R).
Lemma null_unit : sqn null_vec = 1.
Proof. by rewrite /sqn big_ord1 big_ord_recl big_ord1 !mxE /=; apply/eqP; vm_compute. Qed.
Lemma two_untold i : untold (kn_ests two_start i).
Proof. split=> //=; [exact: psd_scalar | by rewrite unitmxE det_scalar unitfE expf_neq0]. Qed.
Lemma two_ones (t : nat) (p : 'rV[rat_realFieldType]_2) (i : 'I_2) : (0 : rat_realFieldType) < (const_mx 1 : 'rV[rat_realFieldType]_2) 0 i.
Proof. by rewrite mxE. Qed.
Lemma two_ones_le (t : nat) (p : 'rV[rat_realFieldType]_2) (i : 'I_2) : (0 : rat_realFieldType) < (const_mx 1 : 'rV[rat_realFieldType]_2) 0 i <= 1.
Proof. by rewrite mxE ltr01 lexx. Qed.
Lemma two_dot (a b c e : rat) : (case_diff a b *m (case_diff c e)^T) 0 0 = a * c + b * e :> rat_realFieldType.
Proof. by rewrite mxE big_ord_recl big_ord1 !mxE. Qed.
Lemma two_scale a b c e : scale (case_diff a b) (case_diff c e) = case_diff (a * c) (b * e).
Proof. by apply/rowP => j; rewrite !mxE; case: ifP. Qed.
Example runaway_ex : exists s : nat -> mkn rat_realFieldType 2 2 * 'rV[rat_realFieldType]_2, [/\ s 0%N = (two_start, 0),
  run_of (asks_along null_vec 1 (case_diff 4%:R 3%:R)) (fun _ => affines two_slopes 0) (fun _ _ => const_mx 1) s,
  forall t, (s t).2 = t%:R *: case_diff (12%:R / 5%:R) (12%:R / 5%:R) &
  forall t, affines two_slopes 0 (s t).2 0 0 = t%:R * (12%:R / 5%:R)].
Proof.
have [s [E0 Hrun]] := kalman_runs (asks_along null_vec 1 (case_diff 4%:R 3%:R)) (fun _ => affines two_slopes 0) 0 two_ones two_untold.
have H0 i : untold (kn_ests (s 0%N).1 i) by rewrite E0; exact: two_untold.
have Ed : scale null_vec (case_diff 4%:R 3%:R) = case_diff (12%:R / 5%:R) (12%:R / 5%:R).
  by rewrite two_scale; congr case_diff; apply/eqP; vm_compute.
have Hd : (scale null_vec (case_diff 4%:R 3%:R) *m (case_diff 1 (- 1))^T) 0 0 = 0.
  by rewrite Ed two_dot; apply/eqP; vm_compute.
have Hbig : 1 * quad (invmx (kf_P (mk_kf (kn_ests (s 0%N).1 0)))) (mxvec (case_diff 1 (- 1)))^T < (null_vec *m (case_diff 1 (- 1))^T) 0 0 ^+ 2.
  rewrite E0 two_dot /= /quad invmx_scalar mul_mx_scalar -scalemxAl mxE -sqn_col mul1r.
  have -> : sqn (mxvec (case_diff 1 (- 1)))^T = 2%:R :> rat_realFieldType.
    by rewrite sqn_col trmxK -sqn_row sqn_mxvec /sqn big_ord1 big_ord_recl big_ord1 !mxE /=; apply/eqP; vm_compute.
  by vm_compute.
have [_ Hp Hk] := tuned_runaway two_ones H0 Hrun Hd Hbig.
exists s; split=> //; first by move=> t; rewrite Hp E0 Ed add0r.
have Hex (t : nat) p : affines two_slopes 0 p 0 0 = (case_diff 4%:R (- 3%:R) *m p^T) 0 0 + 0 :> rat_realFieldType.
  by rewrite /affines mxE [X in X + _]mxE [X in _ + X]mxE !mxE; congr (_ + _); apply: eq_bigr => j _; rewrite !mxE.
have Hg : grad (mk_kf (kn_ests (s 0%N).1 0)) = case_diff 4%:R (- 3%:R) by rewrite E0 /= /grad /= /two_grad trmxK mxvecK.
have [_ H] := Hk 0 _ 0 Hex Hg => t.
rewrite H (Hex 0%N) E0 trmx0 mulmx0 Ed two_dot mxE !add0r.
have -> : 4%:R * (12%:R / 5%:R) + - 3%:R * (12%:R / 5%:R) = 12%:R / 5%:R :> rat by apply/eqP; vm_compute.
by [].
Qed.
(** The same with step width 1 for both gates: at most 800 requests. *)
Lemma two_tuned : asks_tuned 1 (const_mx 1) (asks_along null_vec 1 (const_mx 1) : 'I_2 -> _).
Proof. by move=> i e; exists [:: null_vec]; split=> // v; rewrite inE => /eqP ->; exact: null_unit. Qed.
Example few_ex : exists s : nat -> mkn rat_realFieldType 2 2 * 'rV[rat_realFieldType]_2, [/\ s 0%N = (two_start, 0),
  run_of (asks_along null_vec 1 (const_mx 1)) (fun _ => affines two_slopes 0) (fun _ _ => const_mx 1) s &
  forall N, (#|[pred t : 'I_N | asks (asks_along null_vec 1%R (const_mx 1%R)) s t.+1]| <= 800)%N].
Proof.
have [s [E0 Hrun]] := kalman_runs (asks_along null_vec 1 (const_mx 1)) (fun _ => affines two_slopes 0) 0 two_ones two_untold.
have H0 i : untold (kn_ests (s 0%N).1 i) by rewrite E0; exact: two_untold.
exists s; split=> // N.
have Hs : shortest2 rat_realFieldType <= 1 ^+ 2 by apply: (@shortest_le rat_realFieldType); vm_compute.
have := tuned_requests_few N two_ones_le ler01 H0 Hrun ltr01 two_tuned Hs; clear Hs.
have -> : \sum_i \tr (kf_P (mk_kf (kn_ests (s 0%N).1 i))) = 400%:R by rewrite E0 big_ord_recl big_ord1 /= mxtrace_scalar -mulrnA -natrD.
have -> : 1 ^+ 2 * 1 ^+ 2 / (1 * 1 ^+ 2 + 1) = 2%:R^-1 :> rat_realFieldType by apply/eqP; vm_compute.
by rewrite ler_pdivr_mulr // -natrM ler_nat.
Qed.
