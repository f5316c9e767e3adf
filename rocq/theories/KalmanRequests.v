(** Requests of a KalmanGradientEstimator. *)
From mathcomp Require Import all_ssreflect all_algebra.
From Verif Require Import PyExn LinAlgModel LinAlgSpec LinAlgProofs KalmanModel KalmanSpec KalmanProofs KalmanHistory.
Set Implicit Arguments. Unset Strict Implicit. Unset Printing Implicit Defensive.
Import Order.TTheory GRing.Theory Num.Theory.
Local Open Scope ring_scope.

Section Argmax.
Variables (F : realFieldType) (k : nat) (h : 'I_k -> F).
Let step acc i : option 'I_k := if acc is Some j then if h j < h i then Some i else Some j else Some i.

Lemma argmax_fold (l : seq 'I_k) :
  match foldl step None l with
  | Some j => j \in l /\ forall i, i \in l -> h i <= h j
  | None => l = [::]
  end.
Proof.
elim/last_ind: l => // l i IH; rewrite foldl_rcons.
case: (foldl step None l) IH => [j [Hj Hall]|->] /=; last first.
  by split=> [|i']; rewrite inE // => /eqP ->.
case: ifP => Hlt; split; rewrite ?mem_rcons ?inE ?eqxx ?Hj ?orbT //.
- move=> i'; rewrite mem_rcons inE => /orP [/eqP -> //|Hi']; exact: (le_trans (Hall _ Hi') (ltW Hlt)).
- move=> i'; rewrite mem_rcons inE => /orP [/eqP ->|Hi']; [by rewrite leNgt Hlt | exact: Hall].
Qed.

Lemma argmax_max : (0 < k)%N -> exists j, argmax h = Some j /\ forall i, h i <= h j.
Proof.
move=> Hk; have := argmax_fold (enum 'I_k); rewrite /argmax -/step; case: foldl => [j [_ H]|E].
  by exists j; split=> // i; apply: H; rewrite mem_enum.
by move/(congr1 size): E; rewrite size_enum_ord => E; rewrite E in Hk.
Qed.
End Argmax.

Section Eigen.
Variables (F : realFieldType) (n : nat) (P vecs : 'M[F]_n) (vals : 'rV[F]_n).
Hypothesis HE : eigenbasis P vecs vals.

Lemma vecs_tr : vecs *m vecs^T = 1%:M.
Proof. exact: mulmx1C HE.1. Qed.
Lemma eigen_P : P = vecs *m diag_mx vals *m vecs^T.
Proof. by rewrite -HE.2 -mulmxA vecs_tr mulmx1. Qed.
Lemma col_sqn j : sqn (col j vecs) = 1.
Proof.
transitivity ((vecs^T *m vecs) j j); last by rewrite HE.1 mxE eqxx.
by rewrite /sqn mxE; apply: eq_bigr => i _; rewrite big_ord1 !mxE expr2.
Qed.
Lemma eigen_col j : (col j vecs)^T *m P = vals 0 j *: (col j vecs)^T.
Proof.
have HT : vecs^T *m P = diag_mx vals *m vecs^T by rewrite eigen_P !mulmxA HE.1 mul1mx.
have := congr1 (row j) HT; rewrite row_mul tr_col => ->.
by apply/rowP => i; rewrite mul_diag_mx !mxE.
Qed.
Lemma eigen_variance u : variance P u = \sum_j vals 0 j * (u *m vecs) 0 j ^+ 2.
Proof.
rewrite /variance {1}eigen_P !mulmxA -mulmxA -trmx_mul mxE.
by apply: eq_bigr => j _; rewrite mul_mx_diag !mxE expr2 mulrA [vals 0 j * _]mulrC mulrAC.
Qed.
Lemma eigen_sqn (u : 'rV[F]_n) : sqn u = \sum_j (u *m vecs) 0 j ^+ 2.
Proof.
transitivity (sqn (u *m vecs)); last by rewrite /sqn big_ord1.
by rewrite !sqn_row trmx_mul mulmxA -(mulmxA u) vecs_tr mulmx1.
Qed.
Lemma eigen_bound L u : (forall j, vals 0 j <= L) -> variance P u <= L * sqn u.
Proof.
move=> HL; rewrite eigen_variance eigen_sqn mulr_sumr; apply: ler_sum => j _.
by apply: ler_wpmul2r => //; exact: sqr_ge0.
Qed.
Lemma eigen_col_variance j : variance P (col j vecs)^T = vals 0 j.
Proof.
by rewrite /variance eigen_col -scalemxAl mxE -sqn_row -[RHS]mulr1 -(col_sqn j) !sqn_row !sqn_col trmxK.
Qed.
Lemma eigen_ge0 j : psd P -> 0 <= vals 0 j.
Proof. by move=> HP; rewrite -eigen_col_variance; exact: HP.2. Qed.

Lemma length2_uniform M j : length2 vals vecs (const_mx M^-1) j = (vals 0 j / M) ^+ 2.
Proof.
rewrite -[RHS]mulr1 -(col_sqn j) /length2 /sqn mulr_sumr; apply: eq_bigr => i _.
by rewrite big_ord1 !mxE -exprMn mulrAC.
Qed.

(** Requests with a uniform maximum covariance. *)
Lemma require_uniform M eps pos : psd P -> 0 < M ->
  match kal_require vals vecs (const_mx M^-1) eps pos with
  | None => forall u, variance P u <= M * sqn u
  | Some p => exists j, let v := (col j vecs)^T in
      p = pos + scale v eps /\ sqn v = 1 /\ v *m P = vals 0 j *: v /\ M < vals 0 j /\ forall i, vals 0 i <= vals 0 j
  end.
Proof.
move=> HP HM; rewrite /kal_require; have HM0 : 0 <= M^-1 by rewrite invr_ge0 ltW.
have Hpos : forall j, 0 <= vals 0 j / M by move=> j; rewrite mulr_ge0 // eigen_ge0.
case: existsP => [[j Hj]|Hno].
- have Hn : (0 < n)%N by apply: leq_ltn_trans (ltn_ord j).
  have [i [-> Hi]] := argmax_max (length2 vals vecs (const_mx M^-1)) Hn.
  exists i => /=; split=> //; split; first by rewrite sqn_row trmxK -sqn_col col_sqn.
  split; first exact: eigen_col.
  have Hmax : forall l, vals 0 l <= vals 0 i.
    move=> l; have := Hi l; rewrite !length2_uniform ler_pexpn2r ?nnegrE ?Hpos // ler_pmul2r ?invr_gt0 //.
  split=> //; apply: lt_le_trans (Hmax j); move: Hj; rewrite length2_uniform.
  by rewrite -(expr1n _ 2) ltr_pexpn2r ?nnegrE ?ler01 ?Hpos // ltr_pdivl_mulr // mul1r.
- move=> u; apply: eigen_bound => j; rewrite leNgt; apply/negP => Hj; apply: Hno; exists j.
  by rewrite length2_uniform -(expr1n _ 2) ltr_pexpn2r ?nnegrE ?ler01 ?Hpos // ltr_pdivl_mulr // mul1r.
Qed.

(** Individual maxima: the variance of a gate's component is only limited up to
    the square root of the number of gates. *)
Lemma cauchy_sum (a b : 'I_n -> F) : (\sum_j b j ^+ 2) = 1 -> (\sum_j a j * b j) ^+ 2 <= \sum_j a j ^+ 2.
Proof.
move=> Hb; set s := \sum_j a j * b j.
have : 0 <= \sum_j (a j - s * b j) ^+ 2 by apply: sumr_ge0 => j _; exact: sqr_ge0.
have -> : \sum_j (a j - s * b j) ^+ 2 = \sum_j a j ^+ 2 - s ^+ 2; last by rewrite subr_ge0.
transitivity (\sum_j (a j ^+ 2 - (s * (a j * b j)) *+ 2 + s ^+ 2 * b j ^+ 2)).
  by apply: eq_bigr => j _; rewrite sqrrB mulrCA exprMn.
rewrite big_split sumrB /= -mulr_sumr Hb mulr1 sumrMnl -mulr_sumr -/s.
by rewrite -expr2 mulr2n opprD addrA subrK.
Qed.

Lemma require_gate_bound (inv_max eps pos : 'rV[F]_n) i M : 0 < M -> inv_max 0 i = M^-1 ->
  kal_require vals vecs inv_max eps pos = None -> psd P -> P i i ^+ 2 <= n%:R * M ^+ 2.
Proof.
move=> HM Hi; rewrite /kal_require; case: existsP => [[j Hj]|Hno].
  have Hn : (0 < n)%N by apply: leq_ltn_trans (ltn_ord j).
  by have [l [-> _]] := argmax_max (length2 vals vecs inv_max) Hn.
move=> _ HP.
have HPii : P i i = \sum_j (vals 0 j * vecs i j) * vecs i j.
  rewrite eigen_P mxE; apply: eq_bigr => j _; rewrite mul_mx_diag !mxE; by rewrite [_ * vals _ _]mulrC.
have Hrow : \sum_j vecs i j ^+ 2 = 1.
  transitivity ((vecs *m vecs^T) i i); last by rewrite vecs_tr mxE eqxx.
  by rewrite mxE; apply: eq_bigr => j _; rewrite mxE expr2.
rewrite HPii; apply: le_trans (cauchy_sum _ Hrow) _.
rewrite mulr_natl -[n in _ *+ n]card_ord -sumr_const; apply: ler_sum => j _.
have Hle : length2 vals vecs inv_max j <= 1 by rewrite leNgt; apply/negP => H; apply: Hno; exists j.
have : (vals 0 j * vecs i j * inv_max 0 i) ^+ 2 <= 1.
  apply: le_trans Hle; rewrite /length2 (bigD1 i) //= ler_addl; apply: sumr_ge0 => l _; exact: sqr_ge0.
by rewrite Hi expr_div_n ler_pdivr_mulr ?mul1r ?exprn_gt0.
Qed.
End Eigen.

Section Terminate.
Variables (F : realFieldType) (n : nat).

Lemma trace_ge0 d (P : 'M[F]_d) : psd P -> 0 <= \tr P.
Proof.
move=> [_ HP]; apply: sumr_ge0 => i _; have := HP (delta_mx 0 i).
by rewrite trmx_delta -rowE -colE !mxE.
Qed.

Definition place : 'M[F]_(n, 1 * n) := \matrix_(j, c) (c == mxvec_index 0 j)%:R.
Lemma index_inj (i j : 'I_n) : (mxvec_index (0 : 'I_1) i == mxvec_index 0 j) = (i == j).
Proof.
apply/eqP/eqP => [H|-> //].
have := congr1 (fun c => mxvec (\row_b (b == j)%:R : 'rV[F]_n) 0 c) H; rewrite !mxvecE !mxE eqxx.
by case: eqP => // _ /eqP; rewrite eq_sym oner_eq0.
Qed.
Lemma place_mul (A : 'rV[F]_n) c : (A *m place) 0 c = \sum_j A 0 j * (c == mxvec_index 0 j)%:R.
Proof. by rewrite mxE; apply: eq_bigr => j _; rewrite mxE. Qed.
Lemma place_H (d : 'rV[F]_n) : create_H 1 d = d *m place.
Proof.
apply/matrixP => i c; rewrite ord1; case/mxvec_indexP: c => i' j; rewrite (ord1 i') mxE mxvecE mxE eqxx mul1r.
rewrite place_mul (bigD1 j) //= eqxx mulr1 big1 ?addr0 // => l Hl.
by rewrite index_inj eq_sym (negbTE Hl) mulr0.
Qed.
Lemma place_tr : place^T *m place = 1%:M.
Proof.
apply/matrixP => c c'; case/mxvec_indexP: c => i j; case/mxvec_indexP: c' => i' j'; rewrite (ord1 i) (ord1 i') !mxE.
rewrite (bigD1 j) //= !mxE eqxx mul1r big1 ?addr0; first by rewrite eq_sym.
by move=> l Hl; rewrite !mxE index_inj eq_sym (negbTE Hl) mul0r.
Qed.
Lemma place_sqn (X : 'rV[F]_(1 * n)) : sqn (X *m place^T) = sqn X.
Proof. by rewrite !sqn_row trmx_mul trmxK mulmxA -(mulmxA X) place_tr mulmx1. Qed.
Lemma place_gate (k : filter F (1 * n) 1) : gate_cov k = place *m kf_P k *m place^T.
Proof.
apply/matrixP => i j; rewrite !mxE (bigD1 (mxvec_index 0 j)) //= big1 ?addr0; last first.
  by move=> c Hc; rewrite [X in _ * X]mxE [X in _ * X]mxE (negbTE Hc) mulr0.
rewrite [X in _ * X]mxE [X in _ * X]mxE eqxx mulr1 mxE (bigD1 (mxvec_index 0 i)) //= big1 ?addr0; last first.
  by move=> c Hc; rewrite mxE (negbTE Hc) mul0r.
by rewrite mxE eqxx mul1r.
Qed.
Lemma gate_trace (k : filter F (1 * n) 1) : \tr (gate_cov k) = \tr (kf_P k).
Proof. by rewrite place_gate mxtrace_mulC mulmxA place_tr mul1mx. Qed.
Lemma gate_psd (k : filter F (1 * n) 1) : psd (kf_P k) -> psd (gate_cov k).
Proof. by move=> H; rewrite place_gate; exact: psd_congr. Qed.

(** One update with a single value. *)
Lemma gate_update (k : filter F (1 * n) 1) (d : 'rV[F]_n) y r b :
  static k -> psd (kf_P k) -> 0 < r ->
  let k' := (kg_update d y (Some r%:M) None b k).1 in
  let C := gate_cov k in
  [/\ static k', psd (kf_P k') & \tr (gate_cov k') = \tr C - sqn (d *m C) / (variance C d + r)].
Proof.
move=> Hs HP Hr k' C.
pose c := mk_call d y (Some r%:M) None b.
have Hk' : k' = run_call k c by [].
have HR : psd (r%:M : 'M[F]_1).
  split; first by rewrite tr_scalar_mx.
  by move=> v; rewrite mul_mx_scalar -scalemxAl mxE -sqn_row mulr_ge0 ?sqn_ge0 // ltW.
have HuR : (r%:M : 'M[F]_1) \in unitmx by rewrite unitmxE det_scalar1 unitfE lt0r_neq0.
have Hu : create_H 1 d *m kf_P k *m (create_H 1 d)^T + r%:M \in unitmx by apply: psd_unit_add => //; exact: psd_congr.
have Hok : (kg_update (c_diff c) (c_vals c) (c_R c) (c_Q c) (c_predict c) k).2 = Ok tt.
  by rewrite /kg_update /= predict_static // if_same /correct Hu.
have [_ _ HP'] := call_effect Hs (erefl : c_Q c = None) HP HR Hok.
have HQ0 : psd (kf_Q k) by rewrite Hs.2.1; split; [rewrite trmx0 | move=> u; rewrite mulmx0 mul0mx mxE].
split; first by rewrite Hk'; exact: static_keep.
- by rewrite Hk' static_call // /correct /= Hu /=; apply: psd_add; exact: psd_congr.
rewrite !gate_trace Hk' HP' linearB /=; congr (_ - _).
rewrite /gain /used_R /= place_H.
have HS : d *m place *m kf_P k *m (d *m place)^T + r%:M = (variance C d + r)%:M.
  rewrite /variance /C place_gate raddfD /= [X in X%:M + _](_ : _ = (d *m place *m kf_P k *m (d *m place)^T) 0 0); last first.
    by rewrite trmx_mul !mulmxA.
  by congr (_ + _); exact: mx11_scalar.
rewrite HS invmx_scalar mul_mx_scalar -scalemxAl linearZ /= mulrC; congr (_ / _).
rewrite mxtrace_mulC.
have -> : d *m C = d *m place *m kf_P k *m place^T by rewrite /C place_gate !mulmxA.
have HX : kf_P k *m (d *m place)^T = (d *m place *m kf_P k)^T by rewrite [RHS]trmx_mul HP.1.
by rewrite place_sqn sqn_row /mxtrace big_ord1 HX.
Qed.

Lemma cauchy (x v : 'rV[F]_n) : sqn v = 1 -> (dot x v) ^+ 2 <= sqn x.
Proof.
rewrite /sqn !big_ord1 => Hv; exact: cauchy_sum.
Qed.

Lemma drop_bound (C : 'M[F]_n) (v eps : 'rV[F]_n) lam M emin emax r rmax :
  psd C -> sqn v = 1 -> v *m C = lam *: v -> 0 < M -> M <= lam -> (forall u, variance C u <= lam * sqn u) ->
  0 < emin -> (forall i, emin <= eps 0 i <= emax) -> 0 < r -> r <= rmax ->
  M ^+ 2 * emin ^+ 2 / (M * emax ^+ 2 + rmax) <= sqn (scale v eps *m C) / (variance C (scale v eps) + r).
Proof.
move=> HC Hv HvC HM Hlam Hbound Hemin Heps Hr Hrmax; set d := scale v eps.
have Hl0 : 0 < lam by apply: lt_le_trans Hlam.
have Hrm : 0 < rmax by apply: lt_le_trans Hrmax.
have Hvd : 0 <= variance C d by apply: HC.2.
have Hden : 0 < variance C d + r by rewrite ltr_paddl.
have Hden2 : 0 < M * emax ^+ 2 + rmax by rewrite ltr_paddl // mulr_ge0 ?sqr_ge0 // ltW.
have Hvsum : \sum_i v 0 i ^+ 2 = 1 by rewrite -Hv /sqn big_ord1.
have Hdot : emin <= dot d v.
  rewrite -[emin]mulr1 -Hvsum mulr_sumr; apply: ler_sum => i _.
  have -> : d 0 i * v 0 i = eps 0 i * v 0 i ^+ 2 by rewrite mxE expr2 mulrA [v 0 i * _]mulrC.
  by apply: ler_wpmul2r; [exact: sqr_ge0 | case/andP: (Heps i)].
have Hnum : lam ^+ 2 * emin ^+ 2 <= sqn (d *m C).
  apply: le_trans (cauchy (d *m C) Hv).
  have -> : dot (d *m C) v = lam * dot d v.
    have -> : dot (d *m C) v = (d *m C *m v^T) 0 0 by rewrite mxE; apply: eq_bigr => i _; rewrite [(v^T) _ _]mxE.
    rewrite -mulmxA -[C in d *m (C *m _)]trmxK -trmx_mul HC.1 HvC linearZ /= -scalemxAr mxE; congr (_ * _).
    by rewrite mxE; apply: eq_bigr => i _; rewrite [(v^T) _ _]mxE.
  rewrite -exprMn ler_pexpn2r ?nnegrE ?mulr_ge0 ?(ltW Hl0) ?(ltW Hemin) //; last exact: le_trans (ltW Hemin) Hdot.
  by rewrite ler_pmul2l.
have Hvar : variance C d <= lam * emax ^+ 2.
  apply: le_trans (Hbound d) _; rewrite ler_pmul2l // -[emax ^+ 2]mulr1 -Hvsum mulr_sumr /sqn big_ord1.
  apply: ler_sum => i _; rewrite mxE exprMn mulrC; apply: ler_wpmul2r; first exact: sqr_ge0.
  have /andP [H1 H2] := Heps i; have H0 := le_trans (ltW Hemin) H1.
  by rewrite ler_pexpn2r ?nnegrE // (le_trans H0).
have Hden3 : 0 < lam * emax ^+ 2 + rmax by rewrite ltr_paddl // mulr_ge0 ?sqr_ge0 // ltW.
apply: (@le_trans _ _ (lam ^+ 2 * emin ^+ 2 / (lam * emax ^+ 2 + rmax))).
- rewrite ler_pdivr_mulr // [X in _ <= X]mulrAC ler_pdivl_mulr // !mulrDr.
  apply: ler_add.
    have E : forall a e l b : F, a ^+ 2 * e * (l * b) = (a * (l * (e * b))) * a.
      move=> a e l b; rewrite expr2 -!mulrA; congr (a * _).
      by rewrite [a * _]mulrC -!mulrA mulrCA.
    rewrite !E [lam * (M * _)]mulrCA; apply: ler_wpmul2l => //.
    apply: mulr_ge0; [exact: ltW | apply: mulr_ge0; [exact: ltW | apply: mulr_ge0; exact: sqr_ge0]].
  rewrite ler_wpmul2r ?(ltW Hrm) // ler_wpmul2r ?sqr_ge0 // ler_pexpn2r ?nnegrE ?(ltW HM) ?(ltW Hl0) //.
- apply: ler_pmul => //.
  + by apply: mulr_ge0; exact: sqr_ge0.
  + by rewrite invr_ge0 ltW.
  + by rewrite lef_pinv ?posrE // ler_add.
Qed.

Lemma granted_drop M (eps : 'rV[F]_n) r rmax emin emax (k k' : filter F (1 * n) 1) :
  static k -> psd (kf_P k) -> 0 < M -> 0 < emin -> (forall i, emin <= eps 0 i <= emax) -> 0 < r -> r <= rmax ->
  granted M eps r k k' ->
  [/\ static k', psd (kf_P k') & \tr (kf_P k') <= \tr (kf_P k) - M ^+ 2 * emin ^+ 2 / (M * emax ^+ 2 + rmax)].
Proof.
move=> Hs HP HM Hemin Heps Hr Hrmax [vals vecs pos p y HE Hreq].
have HC := gate_psd HP.
have := require_uniform HE eps pos HC HM; rewrite Hreq => -[j [Hp [Hv [HvC [Hlam Hmax]]]]].
have Hd : p - pos = scale (col j vecs)^T eps by rewrite Hp addrC addKr.
have [Hs' HP' Htr] := gate_update (p - pos) y true Hs HP Hr.
split=> //; rewrite -!gate_trace Htr ler_sub // Hd.
apply: (drop_bound HC Hv HvC HM (ltW Hlam) _ Hemin Heps Hr Hrmax).
by move=> u; exact: (eigen_bound HE).
Qed.

Lemma requests_bounded M (eps : 'rV[F]_n) rmax emin emax N (k k' : filter F (1 * n) 1) :
  static k -> psd (kf_P k) -> 0 < M -> 0 < emin -> (forall i, emin <= eps 0 i <= emax) ->
  requests M eps rmax N k k' ->
  N%:R * (M ^+ 2 * emin ^+ 2 / (M * emax ^+ 2 + rmax)) <= \tr (kf_P k).
Proof.
move=> Hs HP HM Hemin Heps H; elim: H Hs HP => {N k k'} [k|N k k1 k2 r Hr Hrmax Hg _ IH] Hs HP.
  by rewrite mul0r trace_ge0.
have [Hs1 HP1 Htr] := granted_drop Hs HP HM Hemin Heps Hr Hrmax Hg.
by rewrite mulrSr mulrDl mul1r -ler_subr_addr (le_trans (IH Hs1 HP1)).
Qed.

(** With a tuned Jacobian. *)
Lemma require_tuned (cov : 'M[F]_n) basis M eps pos :
  match kal_require_tuned cov basis M eps pos with
  | None => forall v, v \in basis -> variance cov v <= M
  | Some p => exists v, v \in basis /\ p = pos + scale v eps /\ M < variance cov v /\
                        forall u, u \in basis -> variance cov u <= variance cov v
  end.
Proof.
rewrite /kal_require_tuned; case: ifP => [/hasP [v Hv Hlt]|/negbT /hasPn Hno]; last first.
  by move=> v /Hno; rewrite -leNgt.
have Hs : (0 < size basis)%N by case: basis Hv.
have [j [-> Hj]] := argmax_max (fun j : 'I_(size basis) => ((nth 0 basis j) *m cov *m (nth 0 basis j)^T) 0 0) Hs.
have Hall : forall u, u \in basis -> variance cov u <= variance cov (nth 0 basis j).
  move=> u Hu; have Hlu : (index u basis < size basis)%N by rewrite index_mem.
  by have := Hj (Ordinal Hlu); rewrite /= nth_index.
exists (nth 0 basis j); split; first exact: mem_nth.
by split=> //; split=> //; apply: lt_le_trans (Hall v Hv).
Qed.
End Terminate.
