(** Property C145: requests with one maximum covariance per gate. *)
From mathcomp Require Import all_ssreflect all_algebra.
From Verif Require Import PyExn LinAlgModel LinAlgSpec LinAlgProofs FDProofs LoopProofs KalmanModel KalmanSpec KalmanProofs KalmanHistory KalmanProps KalmanRequests
  KalmanLoopModel KalmanLoopSpec KalmanLoopProofs KalmanLoopProps KalmanFitSpec KalmanFitProofs KalmanGlobalSpec KalmanGlobalProofs KalmanGlobalProps
  KalmanFadeProofs KalmanTunedProofs KalmanTunedProps KalmanEachSpec KalmanEachProofs.
Set Implicit Arguments. Unset Strict Implicit. Unset Printing Implicit Defensive.
Import Order.TTheory GRing.Theory Num.Theory.
Local Open Scope ring_scope.

(** On any device only few rounds are spent on requests, if no maximum is below
    [M]; some or all gates may be ignored. *)
Theorem each_requests_few :
  forall (F : realFieldType) n k (request : 'I_k -> mkal F n -> option 'rV[F]_n) (f w : nat -> 'rV[F]_n -> 'rV[F]_k) s
         (inv_max : 'I_k -> 'rV[F]_n) (M T wmax emin emax : F) (eps : 'rV[F]_n) N,
  (forall t p i, 0 < w t p 0 i <= wmax) -> (forall i, untold (kn_ests (s 0%N).1 i)) -> run_of request f w s ->
  asks_each inv_max eps request s -> 0 < M -> (forall i j, 0 <= inv_max i 0 j <= M^-1) ->
  (forall i, \tr (kf_P (mk_kf (kn_ests (s 0%N).1 i))) <= T) ->
  0 < emin -> (forall j, emin <= eps 0 j <= emax) -> shortest2 F <= emin ^+ 2 ->
  #|[pred t : 'I_N | asks request s t.+1]|%:R * (M ^+ 2 * emin ^+ 2 / (T * emax ^+ 2 + wmax)) <=
  \sum_i \tr (kf_P (mk_kf (kn_ests (s 0%N).1 i))).
Proof.
move=> F n k request f w s inv_max M T wmax emin emax eps N Hw H0 Hrun Hask HM Hinv HT Hemin Heps Hsh.
have Hw0 t p i : 0 < w t p 0 i by have /andP [] := Hw t p i.
have Hmax t p i : w t p 0 i <= wmax by have /andP [] := Hw t p i.
exact: (each_asks_bounded Hw0 H0 Hrun Hask HM Hinv HT Hmax Hemin Heps Hsh N).
Qed.
Print Assumptions each_requests_few.

(** On an affine device each round without request reduces the squared distance
    to the target by a fixed factor, if no gate is ignored and the largest
    maximum [M] is small enough for the errors of the first gradients. *)
Theorem each_requests_converge :
  forall (F : realFieldType) n k (A : 'M[F]_(k, n)) (c : 'rV[F]_k) (request : 'I_k -> mkal F n -> option 'rV[F]_n) (f w : nat -> 'rV[F]_n -> 'rV[F]_k)
         (s : nat -> mkn F n k * 'rV[F]_n) (inv_max : 'I_k -> 'rV[F]_n) (M a2 : F) (eps : 'rV[F]_n),
  let des := kn_desired (s 0%N).1 in
  let e2 := M * \sum_i prior_error (row i A) (kn_ests (s 0%N).1 i) in
  let q := 2%:R * e2 / (a2 - 2%:R * e2) in
  (forall t, f t = affines A c) -> (forall t p i, 0 < w t p 0 i) -> (forall i, untold (kn_ests (s 0%N).1 i)) -> run_of request f w s ->
  asks_each inv_max eps request s -> 0 < M -> (forall i j, M^-1 <= inv_max i 0 j) -> bounded_below A a2 -> 4%:R * e2 < a2 ->
  0 <= q < 1 /\
  (forall t, asks request s t.+1 \/ sqn (des - f t.+1 (s t.+1).2) <= q * sqn (des - f t (s t).2)) /\
  (forall t m, (forall j, (j < m)%N -> ~~ asks request s (t + j).+1) ->
    sqn (des - f (t + m)%N (s (t + m)%N).2) <= q ^+ m * sqn (des - f t (s t).2)).
Proof.
move=> F n k A c request f w s inv_max M a2 eps des e2 q Hf Hw H0 Hrun Hask HM Hinv HA He.
have HE0 : 0 <= \sum_i prior_error (row i A) (kn_ests (s 0%N).1 i).
  by apply: (total_ge0 A); exact: (start_good H0).
have He0 : 0 <= e2 by apply: mulr_ge0 => //; exact: ltW.
have Hq := rate_lt1 He He0.
have Hone t : asks request s t.+1 \/ sqn (des - f t.+1 (s t.+1).2) <= q * sqn (des - f t (s t).2).
  have [Ha|Ha] := boolP (asks request s t.+1); [by left | right].
  have Hg : good (s t).1 by case: t Ha => [|t] _; [exact: start_good | have [] := run_facts A Hw H0 Hrun t].
  have [_ [P V _ _ _]] := round_learns A Hw Hrun Hg.
  have [G _ D E _] := run_facts A Hw H0 Hrun t.
  have HJ : sqn (kn_jacobian (kn_ests (s t.+1).1) - A) <= e2.
    rewrite sqn_rows; apply: (@le_trans _ _ (M * total A (s t.+1).1)).
      rewrite mulr_sumr; apply: ler_sum => i _.
      have -> : row i (kn_jacobian (kn_ests (s t.+1).1) - A) = grad (mk_kf (kn_ests (s t.+1).1 i)) - row i A by apply/rowP => j; rewrite !mxE.
      apply: energy_error; [exact: G | exact: ltW | exact: (each_quiet Hw H0 Hrun Hask HM Hinv Ha i)].
    apply: ler_wpmul2l; first exact: ltW.
    have := run_learns A Hw H0 Hrun t.
    have -> : \sum_(t0 < t | long s t0.+1) \sum_i unexplained A f s t0.+1 i ^+ 2 / w t0.+1 (s t0.+1).2 0 i = 0.
      by apply: big1 => t0 _; apply: big1 => i _; rewrite (exact_unexplained _ _ Hw H0 Hrun Hf) expr0n mul0r.
    rewrite addr0; apply: le_trans; rewrite ler_addl; apply: sumr_ge0 => t0 _; apply: sumr_ge0 => i _.
    have [G0 _ _ _ _] := run_facts A Hw H0 Hrun t0; have [_ HP _] := G0 i.
    by apply: divr_ge0; [exact: sqr_ge0 | apply: addr_ge0; [exact: HP.2 | exact: ltW]].
  have -> : (s t.+1).2 = (s t).2 + (lstsq (kn_jacobian (kn_ests (s t.+1).1)) (des - f t (s t).2)^T)^T.
    rewrite E /kn_suggest; case Ep: (pmap _ _) => [|p l]; first by rewrite P D V.
    have : p \in pmap (fun i => request i (kn_ests (s t.+1).1 i)) (enum 'I_k) by rewrite Ep mem_head.
    rewrite mem_pmap => /mapP [i _ Ei]; case/negP: Ha; apply/existsP; exists i; by rewrite -Ei.
  rewrite !Hf; set x := lstsq _ _.
  have -> : des - affines A c ((s t).2 + x^T) = (des - affines A c (s t).2) - (A *m x)^T.
    have := affines_diff A c ((s t).2 + x^T) (s t).2; rewrite addrAC subrr add0r trmxK => <-.
    by rewrite opprB addrA subrK.
  exact: newton_contracts.
split=> //; split=> // t; elim=> [|m IH] Hno; first by rewrite addn0 expr0 mul1r.
have [Ha|Hc] := Hone (t + m)%N; first by have := Hno m (ltnSn m); rewrite Ha.
rewrite addnS exprS -mulrA; apply: (le_trans Hc); apply: ler_wpmul2l; first by case/andP: Hq.
by apply: IH => j Hj; apply: Hno; exact: ltnW.
Qed.
Print Assumptions each_requests_converge.

(** A gate that all estimators ignore, that is uncorrelated with the others and
    whose first gradients are 0 is never moved, on any device: its gradients are
    never learned. *)
Theorem each_ignored_gate :
  forall (F : realFieldType) n k (request : 'I_k -> mkal F n -> option 'rV[F]_n) (f w : nat -> 'rV[F]_n -> 'rV[F]_k) s
         (inv_max : 'I_k -> 'rV[F]_n) (eps : 'rV[F]_n) (g : 'I_n),
  (forall t p i, 0 < w t p 0 i) -> (forall i, untold (kn_ests (s 0%N).1 i)) -> run_of request f w s ->
  asks_apart g inv_max eps request s -> (forall i, inv_max i 0 g = 0) ->
  (forall i, alone g (gate_cov (mk_kf (kn_ests (s 0%N).1 i)))) -> (forall i, grad (mk_kf (kn_ests (s 0%N).1 i)) 0 g = 0) ->
  forall t, (s t).2 0 g = (s 0%N).2 0 g /\ forall i, grad (mk_kf (kn_ests (s t.+1).1 i)) 0 g = 0.
Proof.
move=> F n k request f w s inv_max eps g Hw H0 Hrun Hask Hinv Hal Hgr t.
pose u (g : 'I_n) : 'rV[F]_n := delta_mx 0 g.
have Hdot (x : 'rV[F]_n) : x *m (u g)^T = (x 0 g)%:M.
  by rewrite /u trmx_delta -colE [LHS]mx11_scalar mxE.
pose c i := gate_cov (mk_kf (kn_ests (s 0%N).1 i)) g g.
have Hstart i : mxvec (u g) *m kf_P (mk_kf (kn_ests (s 0%N).1 i)) = c i *: mxvec (u g) /\ grad (mk_kf (kn_ests (s 0%N).1 i)) *m (u g)^T = 0.
  split; last by rewrite Hdot Hgr raddf0.
  have [_ HP _ _] := H0 i; have [/(_ (Hal i)) [a Ha] _] := alone_kept g HP; rewrite Ha; congr (_ *: _).
  have := congr1 (fun X : 'rV[F]_(1 * n) => X 0 (mxvec_index 0 g)) Ha; rewrite (mxE _ (fun _ _ => a * _)) delta_index eqxx mulr1 => <-.
  rewrite mxE (bigD1 (mxvec_index 0 g)) //= big1 ?addr0 => [|b]; first by rewrite delta_index eqxx mul1r /c gate_entry.
  by case/mxvec_indexP: b => b b'; rewrite (ord1 b) (@index_inj F n) delta_index => /negPf ->; rewrite mul0r.
have Hreq t' i p : (forall i, mxvec (u g) *m kf_P (mk_kf (kn_ests (s t'.+1).1 i)) = c i *: mxvec (u g) /\
    grad (mk_kf (kn_ests (s t'.+1).1 i)) *m (u g)^T = 0) -> request i (kn_ests (s t'.+1).1 i) = Some p -> (p - (s t').2) *m (u g)^T = 0.
  move=> Hk Er; have [G S _ _ _] := run_facts 0 Hw H0 Hrun t'; have [_ HP _] := G i; have [Hp _] := S i.
  have Ha : alone g (gate_cov (mk_kf (kn_ests (s t'.+1).1 i))) by apply/(alone_kept g HP); exists (c i); case: (Hk i).
  have [vals [vecs [Hap Hr]]] := Hask t' i Ha; rewrite Er in Hr.
  have := apart_request Hap (Hinv i) (esym Hr); rewrite Hp => Eg.
  by have [Hq _] := run_pos Hw H0 Hrun t'; rewrite Hdot [X in X%:M]mxE Eg Hq [X in _ + X]mxE subrr raddf0.
split.
  have := ignored Hw H0 Hrun Hreq Hstart t; rewrite !Hdot => /matrixP /(_ 0 0).
  by rewrite [LHS]mxE [RHS]mxE eqxx !mulr1n.
move=> i; have [_] := ignored_kept Hw H0 Hrun Hreq Hstart t i; rewrite Hdot => /matrixP /(_ 0 0).
by rewrite [LHS]mxE [RHS]mxE eqxx mulr1n.
Qed.
Print Assumptions each_ignored_gate.

(** Two gates, one parameter of slope 2 in the first gate, target 1.  The first
    estimate of the slope is -1 with variance 9; the second gate has variance
    1/8.  The maxima are 1/2 and 1/4. *)
Definition pair_start : mkn rat_realFieldType 2 1 :=
  mk_mkn (const_mx 1) (fun _ => mk_mkal (mk_filter (two_grad (- 1) 0) (diag_mx (mxvec (case_diff 9%:R (1 / 8%:R)))) 1%:M 0 1%:M 1) 0 None) 0 0.
Definition pair_asker (inv_max : 'rV[rat_realFieldType]_2) (i : 'I_1) (e : mkal rat_realFieldType 2) : option 'rV[rat_realFieldType]_2 :=
  kal_require (\row_j gate_cov (mk_kf e) j j) 1%:M inv_max (const_mx 1) (mk_pos e).

Lemma diag_variance (d v : 'rV[rat_realFieldType]_(1 * 2)) : (v *m diag_mx d *m v^T) 0 0 = \sum_c d 0 c * v 0 c ^+ 2.
Proof. by rewrite mxE; apply: eq_bigr => c _; rewrite mul_mx_diag !mxE mulrAC mulrC expr2. Qed.
Lemma pair_diag c : 0 < mxvec (case_diff 9%:R (1 / 8%:R)) 0 c :> rat_realFieldType.
Proof. by case/mxvec_indexP: c => a b; rewrite mxvecE mxE; case: ifP. Qed.
Lemma pair_untold i : untold (kn_ests pair_start i).
Proof.
split=> //=.
- split; first by rewrite tr_diag_mx.
  by move=> v; rewrite diag_variance; apply: sumr_ge0 => c _; rewrite mulr_ge0 ?sqr_ge0 // ltW // pair_diag.
- by rewrite unitmxE det_diag unitfE; apply/prodf_neq0 => c _; rewrite gt_eqF // pair_diag.
Qed.
Lemma pair_cov i : gate_cov (mk_kf (kn_ests pair_start i)) = diag_mx (case_diff 9%:R (1 / 8%:R)).
Proof.
apply/matrixP => a b; rewrite gate_entry /= [LHS]mxE [RHS]mxE (@index_inj rat_realFieldType 2); case: (a == b); last by rewrite !mulr0n.
by rewrite !mulr1n mxvecE.
Qed.
Lemma pair_alone i : alone 1 (gate_cov (mk_kf (kn_ests pair_start i))).
Proof. by move=> j Hj; rewrite pair_cov [X in X = 0 /\ _]mxE [X in _ /\ X = 0]mxE eq_sym (negPf Hj) !mulr0n. Qed.
Lemma pair_grad i : grad (mk_kf (kn_ests pair_start i)) = case_diff (- 1) 0.
Proof. by rewrite /grad /= trmxK mxvecK. Qed.
Lemma one_apart : apart 1 (1%:M : 'M[rat_realFieldType]_2).
Proof. by move=> j; have [->|Hj] := eqVneq j 1; [right=> l Hl; rewrite mxE (negPf Hl) | left; rewrite mxE eq_sym (negPf Hj)]. Qed.
Lemma pair_trace i : \tr (kf_P (mk_kf (kn_ests pair_start i))) = 73%:R / 8%:R.
Proof.
by rewrite -gate_trace pair_cov mxtrace_diag big_ord_recl big_ord1 !mxE /=; apply/eqP; vm_compute.
Qed.
Lemma pair_ones (t : nat) (p : 'rV[rat_realFieldType]_2) (i : 'I_1) : (0 : rat_realFieldType) < (const_mx 1 : 'rV[rat_realFieldType]_1) 0 i.
Proof. by rewrite mxE. Qed.

(** The second gate is ignored, but the parameter depends only on it: its value
    stays 0 for ever. *)
Example ignored_ex : exists s : nat -> mkn rat_realFieldType 2 1 * 'rV[rat_realFieldType]_2, [/\ s 0%N = (pair_start, 0),
  run_of (pair_asker (case_diff 2%:R 0)) (fun _ => affines (case_diff 0 2%:R) 0) (fun _ _ => const_mx 1) s &
  forall t, affines (case_diff 0 2%:R) 0 (s t).2 = 0].
Proof.
have [s [E0 Hrun]] := kalman_runs (pair_asker (case_diff 2%:R 0)) (fun _ => affines (case_diff 0 2%:R) 0) 0 pair_ones pair_untold.
have H0 i : untold (kn_ests (s 0%N).1 i) by rewrite E0; exact: pair_untold.
exists s; split=> // t.
have Hask : asks_apart 1 (fun _ => case_diff 2%:R 0) (const_mx 1) (pair_asker (case_diff 2%:R 0)) s.
  by move=> t' i e _; exists (\row_j gate_cov (mk_kf e) j j), 1%:M; split=> //; exact: one_apart.
have Hinv (i : 'I_1) : case_diff 2%:R 0 0 1 = 0 :> rat_realFieldType by rewrite mxE.
have Hal i : alone 1 (gate_cov (mk_kf (kn_ests (s 0%N).1 i))) by rewrite E0; exact: pair_alone.
have Hgr i : grad (mk_kf (kn_ests (s 0%N).1 i)) 0 1 = 0 by rewrite E0 pair_grad mxE.
have [Hg _] := each_ignored_gate pair_ones H0 Hrun Hask Hinv Hal Hgr t.
apply/rowP => j; rewrite (ord1 j) /affines mxE [X in X + _]mxE [X in _ + X]mxE addr0 mxE big_ord_recl big_ord1 !mxE /= mul0r add0r.
have -> : lift ord0 (ord0 : 'I_1) = 1 :> 'I_2 by apply/val_inj.
by rewrite Hg E0 mxE mulr0.
Qed.

Lemma pair_vec_trace (C : 'M[rat_realFieldType]_2) : alone 1 C -> C *m 1%:M = 1%:M *m diag_mx (\row_j C j j).
Proof.
move=> Ha; rewrite mulmx1 mul1mx; apply/matrixP => a b; rewrite !mxE; have [->|Hab] := eqVneq a b; first by rewrite mulr1n.
rewrite mulr0n; have [Ea|Na] := eqVneq a 1; first by rewrite Ea; apply: (Ha b _).1; rewrite eq_sym -Ea.
have [Eb|Nb] := eqVneq b 1; first by rewrite Eb; apply: (Ha a Na).2.
by case/eqP: Hab; apply/val_inj; case: a b Na Nb => [[|[|?]] Ha'] [[|[|?]] Hb'].
Qed.
(** The largest of the maxima is 1/2: every round that is not spent on a request
    divides the squared distance by 3, and at most 1478 are. *)
Example pair_converge_ex : exists s : nat -> mkn rat_realFieldType 2 1 * 'rV[rat_realFieldType]_2, s 0%N = (pair_start, 0) /\
  let request := pair_asker (case_diff 2%:R 4%:R) in let f := affines (case_diff 2%:R 0) 0 in
  run_of request (fun _ => f) (fun _ _ => const_mx 1) s /\
  (forall N, (#|[pred t : 'I_N | asks request s t.+1]| <= 1478)%N) /\
  forall t, asks request s t.+1 \/ sqn (const_mx 1 - f (s t.+1).2) <= 3%:R^-1 * sqn (const_mx 1 - f (s t).2).
Proof.
pose request := pair_asker (case_diff 2%:R 4%:R); pose f := affines (case_diff 2%:R 0) 0 : 'rV[rat_realFieldType]_2 -> 'rV[rat_realFieldType]_1.
have [s [E0 Hrun]] := kalman_runs request (fun _ => f) 0 pair_ones pair_untold.
have H0 i : untold (kn_ests (s 0%N).1 i) by rewrite E0; exact: pair_untold.
exists s; split=> //; split=> //.
pose u : 'rV[rat_realFieldType]_2 := delta_mx 0 1.
have Hdot (x : 'rV[rat_realFieldType]_2) : x *m u^T = (x 0 1)%:M by rewrite /u trmx_delta -colE [LHS]mx11_scalar mxE.
pose c (i : 'I_1) : rat_realFieldType := 1 / 8%:R.
have Hstart i : mxvec u *m kf_P (mk_kf (kn_ests (s 0%N).1 i)) = c i *: mxvec u /\ grad (mk_kf (kn_ests (s 0%N).1 i)) *m u^T = 0.
  rewrite E0; split; last by rewrite pair_grad Hdot mxE raddf0.
  apply/rowP => a; rewrite mul_mx_diag [LHS]mxE [RHS]mxE; case/mxvec_indexP: a => a b; rewrite (ord1 a) delta_index !mxvecE mxE.
  by case: b => [[|[|?]] ?] //=; rewrite ?mulr0 ?mul0r ?mul1r ?mulr1.
have Hvar t' i : mxvec u *m kf_P (mk_kf (kn_ests (s t').1 i)) = c i *: mxvec u -> gate_cov (mk_kf (kn_ests (s t').1 i)) 1 1 = 1 / 8%:R.
  move=> Hk; have := congr1 (fun X : 'rV[rat_realFieldType]_(1 * 2) => X 0 (mxvec_index 0 1)) Hk.
  rewrite [RHS]mxE delta_index eqxx mulr1 => Hc; rewrite -[RHS]/(c i) -Hc.
  rewrite [RHS]mxE (bigD1 (mxvec_index 0 1)) //= big1 ?addr0 => [|b]; first by rewrite delta_index eqxx mul1r gate_entry.
  by case/mxvec_indexP: b => a b; rewrite (ord1 a) (@index_inj rat_realFieldType 2) delta_index => /negPf ->; rewrite mul0r.
have Hreq t' i p : (forall i, mxvec u *m kf_P (mk_kf (kn_ests (s t'.+1).1 i)) = c i *: mxvec u /\
    grad (mk_kf (kn_ests (s t'.+1).1 i)) *m u^T = 0) -> request i (kn_ests (s t'.+1).1 i) = Some p -> (p - (s t').2) *m u^T = 0.
  move=> Hk; have [G S _ _ _] := run_facts 0 pair_ones H0 Hrun t'; have [Hp _] := S i.
  have [Hq _] := run_pos pair_ones H0 Hrun t'; have [/Hvar Hv _] := Hk i.
  rewrite /request /pair_asker /kal_require; case: existsP => [[j Hj]|//].
  have [l [-> Hmax]] := argmax_max (length2 (\row_j gate_cov (mk_kf (kn_ests (s t'.+1).1 i)) j j) 1%:M (case_diff 2%:R 4%:R)) (isT : (0 < 2)%N).
  case=> <-; rewrite Hdot Hp Hq addrAC subrr add0r [X in X%:M]mxE [X in X * _]mxE [X in X * _]mxE.
  have Hl : 1 < length2 (\row_j gate_cov (mk_kf (kn_ests (s t'.+1).1 i)) j j) 1%:M (case_diff 2%:R 4%:R) l by apply: lt_le_trans Hj (Hmax j).
  have [El|Nl] := eqVneq l 1; last by rewrite mxE eq_sym (negPf Nl) mul0r raddf0.
  exfalso; move: Hl; rewrite El /length2 big_ord_recl big_ord1.
  have -> : (\row_j gate_cov (mk_kf (kn_ests (s t'.+1).1 i)) j j) 0 1 = 1 / 8%:R by rewrite mxE Hv.
  by rewrite !mxE /=; vm_compute.
have Hkept t i := ignored_kept pair_ones H0 Hrun Hreq Hstart t i.
have Hask : asks_each (fun _ => case_diff 2%:R 4%:R) (const_mx 1) request s.
  move=> t i e; exists (\row_j gate_cov (mk_kf e) j j), 1%:M; split=> //; split; first by rewrite trmx1 mulmx1.
  apply: pair_vec_trace; have [G _ _ _ _] := run_facts 0 pair_ones H0 Hrun t; have [_ HP _] := G i.
  by apply/(alone_kept 1 HP); exists (c i); case: (Hkept t i).
split.
- move=> N.
  have Hw1 (t : nat) (p : 'rV[rat_realFieldType]_2) (i : 'I_1) : (0 : rat_realFieldType) < (const_mx 1 : 'rV[rat_realFieldType]_1) 0 i <= 1 by rewrite mxE.
  have He (j : 'I_2) : (1 : rat_realFieldType) <= (const_mx 1 : 'rV[rat_realFieldType]_2) 0 j <= 1 by rewrite mxE lexx.
  have HM : (0 : rat_realFieldType) < 1 / 4%:R by vm_compute.
  have Hinv (i : 'I_1) (j : 'I_2) : (0 : rat_realFieldType) <= case_diff 2%:R 4%:R 0 j <= (1 / 4%:R)^-1 by rewrite mxE; case: ifP.
  have HT i : \tr (kf_P (mk_kf (kn_ests (s 0%N).1 i))) <= 73%:R / 8%:R by rewrite E0 pair_trace.
  have Hs : shortest2 rat_realFieldType <= 1 ^+ 2 by apply: (@shortest_le rat_realFieldType); vm_compute.
  have := each_requests_few N Hw1 H0 Hrun Hask HM Hinv HT ltr01 He Hs; clear Hs.
  have -> : \sum_i \tr (kf_P (mk_kf (kn_ests (s 0%N).1 i))) = 73%:R / 8%:R by rewrite E0 big_ord1 pair_trace.
  have -> : (1 / 4%:R) ^+ 2 * 1 ^+ 2 / (73%:R / 8%:R * 1 ^+ 2 + 1) = 162%:R^-1 :> rat_realFieldType by apply/eqP; vm_compute.
  rewrite ler_pdivr_mulr // => Hle.
  rewrite -ltnS -(ltr_nat rat_realFieldType); apply: le_lt_trans Hle _; by vm_compute.
- have HM : (0 : rat_realFieldType) < 1 / 2%:R by vm_compute.
  have Hinv (i : 'I_1) (j : 'I_2) : (1 / 2%:R)^-1 <= case_diff 2%:R 4%:R 0 j :> rat_realFieldType by rewrite mxE; case: ifP.
  have HA : bounded_below (case_diff 2%:R 0 : 'M[rat_realFieldType]_(1, 2)) 4%:R.
    move=> y; have -> : y *m case_diff 2%:R 0 = y 0 0 *: case_diff 2%:R 0 by rewrite {1}(mx11_scalar y) mul_scalar_mx.
    rewrite sqnZ mulrC /sqn !big_ord1 big_ord_recl big_ord1 !mxE /=.
    by apply: ler_wpmul2l; [exact: sqr_ge0 | vm_compute].
  have HS : \sum_i prior_error (row i (case_diff 2%:R 0)) (kn_ests pair_start i) = 1.
    rewrite big_ord1 /prior_error /=.
    have -> : (mxvec (row 0 (case_diff 2%:R 0)))^T - two_grad (- 1) 0 = diag_mx (mxvec (case_diff 9%:R (1 / 8%:R))) *m two_grad (1 / 3%:R) 0.
      apply/colP => a; rewrite mul_diag_mx [LHS]mxE [X in X + _]mxE [X in _ + X]mxE [X in _ - X]mxE [RHS]mxE [X in _ = _ * X]mxE.
      by case/mxvec_indexP: a => a b; rewrite !mxvecE !mxE; case: (b == 0); apply/eqP; vm_compute.
    have Hu : diag_mx (mxvec (case_diff 9%:R (1 / 8%:R))) \in unitmx by have [] := pair_untold 0.
    rewrite /quad trmx_mul tr_diag_mx -!mulmxA (mulKmx Hu) mulmxA.
    have -> : (two_grad (1 / 3%:R) 0)^T *m diag_mx (mxvec (case_diff 9%:R (1 / 8%:R))) = mxvec (case_diff 3%:R 0).
      apply/rowP => a; rewrite mul_mx_diag mxE [X in X * _]mxE [X in X * _]mxE; case/mxvec_indexP: a => a b; rewrite !mxvecE !mxE.
      by case: (b == 0); apply/eqP; vm_compute.
    by rewrite mxvec_dot two_dot; apply/eqP; vm_compute.
  have := @each_requests_converge rat_realFieldType 2 1 (case_diff 2%:R 0) 0 request (fun _ => f) (fun _ _ => const_mx 1) s (fun _ => case_diff 2%:R 4%:R) (1 / 2%:R) 4%:R (const_mx 1).
  rewrite E0 HS mulr1 => H; have {H} := H _ pair_ones _ Hrun Hask HM Hinv HA _.
  have -> : 2%:R * (1 / 2%:R) / (4%:R - 2%:R * (1 / 2%:R)) = 3%:R^-1 :> rat_realFieldType by apply/eqP; vm_compute.
  by move=> H; have [||_ [H1 _]] := H _ pair_untold _.
Qed.
