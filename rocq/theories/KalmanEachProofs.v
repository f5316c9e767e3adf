(** Lemmas for KalmanEachProps.v. *)
From mathcomp Require Import all_ssreflect all_algebra.
From Coq Require Import Ring Field.
From Verif Require Import PyExn FieldTac LinAlgModel LinAlgSpec LinAlgProofs FDProofs LoopProofs KalmanModel KalmanSpec KalmanProofs KalmanHistory KalmanRequests
  KalmanLoopModel KalmanLoopSpec KalmanLoopProofs KalmanFitSpec KalmanFitProofs KalmanGlobalSpec KalmanGlobalProofs KalmanFadeProofs KalmanTunedProofs KalmanEachSpec.
Set Implicit Arguments. Unset Strict Implicit. Unset Printing Implicit Defensive.
Import Order.TTheory GRing.Theory Num.Theory.
Local Open Scope ring_scope.

Section One.
Variables (F : realFieldType) (n : nat) (P vecs : 'M[F]_n) (vals : 'rV[F]_n).
Hypothesis HE : eigenbasis P vecs vals.
Hypothesis HP : psd P.

Lemma col_sum j : \sum_i vecs i j ^+ 2 = 1.
Proof. by have := col_sqn HE j; rewrite /sqn => <-; apply: eq_bigr => i _; rewrite big_ord1 mxE. Qed.

Lemma require_each (inv_max eps pos : 'rV[F]_n) M p : 0 < M -> (forall i, 0 <= inv_max 0 i <= M^-1) ->
  kal_require vals vecs inv_max eps pos = Some p ->
  exists j, let v := (col j vecs)^T in [/\ p = pos + scale v eps, sqn v = 1, v *m P = vals 0 j *: v & M < vals 0 j].
Proof.
move=> HM Hi; rewrite /kal_require; case: existsP => [[j Hj]|//].
have Hn : (0 < n)%N by apply: leq_ltn_trans (ltn_ord j).
have [i [-> Hmax]] := argmax_max (length2 vals vecs inv_max) Hn => -[<-].
exists i => /=; split=> //; first by rewrite sqn_row trmxK -sqn_col (col_sqn HE).
  exact: (eigen_col HE).
have : 1 < length2 vals vecs inv_max i by apply: lt_le_trans Hj (Hmax j).
have Hle : length2 vals vecs inv_max i <= (vals 0 i / M) ^+ 2.
  rewrite -[X in _ <= X]mulr1 -(col_sum i) mulr_sumr; apply: ler_sum => l _.
  rewrite mulrAC exprMn; apply: ler_wpmul2r; first exact: sqr_ge0.
  have /andP [H1 H2] := Hi l; have Hv := eigen_ge0 HE i HP.
  by rewrite ler_pexpn2r ?nnegrE ?mulr_ge0 ?invr_ge0 ?(ltW HM) //; apply: ler_wpmul2l.
move=> /lt_le_trans /(_ Hle); rewrite -(expr1n _ 2) ltr_pexpn2r ?nnegrE ?ler01 ?mulr_ge0 ?invr_ge0 ?(ltW HM) ?(eigen_ge0 HE) //.
by rewrite ltr_pdivl_mulr // mul1r.
Qed.

Lemma quiet_each (inv_max eps pos : 'rV[F]_n) M : 0 < M -> (forall i, M^-1 <= inv_max 0 i) ->
  kal_require vals vecs inv_max eps pos = None -> forall u, variance P u <= M * sqn u.
Proof.
move=> HM Hi; rewrite /kal_require; case: existsP => [[j Hj]|Hno].
  have Hn : (0 < n)%N by apply: leq_ltn_trans (ltn_ord j).
  by have [l [-> _]] := argmax_max (length2 vals vecs inv_max) Hn.
move=> _ u; apply: (eigen_bound HE) => j; rewrite leNgt; apply/negP => Hj; apply: Hno; exists j.
apply: (@lt_le_trans _ _ ((vals 0 j / M) ^+ 2)).
  rewrite -{1}(expr1n _ 2) ltr_pexpn2r ?nnegrE ?ler01 ?mulr_ge0 ?invr_ge0 ?(ltW HM) ?(eigen_ge0 HE) //.
  by rewrite ltr_pdivl_mulr // mul1r.
rewrite -[X in X <= _]mulr1 -(col_sum j) mulr_sumr; apply: ler_sum => l _.
rewrite [X in _ <= X ^+ 2]mulrAC [X in _ <= X]exprMn; apply: ler_wpmul2r; first exact: sqr_ge0.
have Hv := eigen_ge0 HE j HP; have H0 : 0 <= M^-1 by rewrite invr_ge0 ltW.
have H1 : 0 <= inv_max 0 l by exact: le_trans (Hi l).
by rewrite ler_pexpn2r ?nnegrE ?mulr_ge0 //; apply: ler_wpmul2l.
Qed.

Lemma trace_bound u : variance P u <= \tr P * sqn u.
Proof.
apply: (eigen_bound HE) => j.
have -> : \tr P = \sum_i vals 0 i.
  rewrite {1}(eigen_P HE) mxtrace_mulC mulmxA HE.1 mul1mx; apply: eq_bigr => i _; by rewrite mxE eqxx mulr1n.
by rewrite (bigD1 j) //= ler_addl; apply: sumr_ge0 => i _; exact: (eigen_ge0 HE).
Qed.

Lemma each_drop (v eps : 'rV[F]_n) lam M T emin emax r rmax :
  sqn v = 1 -> v *m P = lam *: v -> 0 < M -> M <= lam -> \tr P <= T ->
  0 < emin -> (forall i, emin <= eps 0 i <= emax) -> 0 < r -> r <= rmax ->
  M ^+ 2 * emin ^+ 2 / (T * emax ^+ 2 + rmax) <= sqn (scale v eps *m P) / (variance P (scale v eps) + r).
Proof.
move=> Hv HvC HM Hlam HT Hemin Heps Hr Hrmax; set d := scale v eps.
have Hl0 : 0 < lam by apply: lt_le_trans Hlam.
have Hrm : 0 < rmax by apply: lt_le_trans Hrmax.
have Hvd : 0 <= variance P d by apply: HP.2.
have HT0 : 0 <= T by apply: le_trans HT; exact: trace_ge0.
have Hvsum : \sum_i v 0 i ^+ 2 = 1 by rewrite -Hv /sqn big_ord1.
have Hdot : emin <= (d *m v^T) 0 0.
  rewrite mxE -[emin]mulr1 -Hvsum mulr_sumr; apply: ler_sum => i _.
  have -> : d 0 i * (v^T) i 0 = eps 0 i * v 0 i ^+ 2 by rewrite !mxE expr2 mulrA [v 0 i * _]mulrC.
  by apply: ler_wpmul2r; [exact: sqr_ge0 | case/andP: (Heps i)].
have Hnum : M ^+ 2 * emin ^+ 2 <= sqn (d *m P).
  have := cauchy_rows (d *m P) v; rewrite Hv mulr1; apply: le_trans.
  have -> : (d *m P *m v^T) 0 0 = lam * (d *m v^T) 0 0.
    by rewrite -mulmxA -[P in d *m (P *m _)]trmxK -trmx_mul HP.1 HvC linearZ /= -scalemxAr mxE.
  rewrite -exprMn ler_pexpn2r ?nnegrE ?mulr_ge0 ?(ltW HM) ?(ltW Hl0) ?(ltW Hemin) //; last exact: le_trans (ltW Hemin) Hdot.
  by apply: ler_pmul => //; exact: ltW.
have Hvar : variance P d <= T * emax ^+ 2.
  apply: le_trans (trace_bound d) _; apply: ler_pmul => //; [exact: trace_ge0 | exact: sqn_ge0 |].
  rewrite -[emax ^+ 2]mulr1 -Hvsum mulr_sumr /sqn big_ord1.
  apply: ler_sum => i _; rewrite mxE exprMn mulrC; apply: ler_wpmul2r; first exact: sqr_ge0.
  have /andP [H1 H2] := Heps i; have H0 := le_trans (ltW Hemin) H1.
  by rewrite ler_pexpn2r ?nnegrE // (le_trans H0).
have Hden : 0 < variance P d + r by rewrite ltr_paddl.
have Hden2 : 0 < T * emax ^+ 2 + rmax by rewrite ltr_paddl // mulr_ge0 ?sqr_ge0.
apply: ler_pmul => //.
- by apply: mulr_ge0; exact: sqr_ge0.
- by rewrite invr_ge0 ltW.
- by rewrite lef_pinv ?posrE // ler_add.
Qed.
End One.

Section Runs.
Variables (F : realFieldType) (n k : nat).
Variables (request : 'I_k -> mkal F n -> option 'rV[F]_n) (f w : nat -> 'rV[F]_n -> 'rV[F]_k) (s : nat -> mkn F n k * 'rV[F]_n).
Variables (inv_max : 'I_k -> 'rV[F]_n) (eps : 'rV[F]_n).
Hypothesis Hw : forall t p i, 0 < w t p 0 i.
Hypothesis H0 : forall i, untold (kn_ests (s 0%N).1 i).
Hypothesis Hrun : run_of request f w s.
Hypothesis Hask : asks_each inv_max eps request s.
Let A0 : 'M[F]_(k, n) := 0.

Lemma each_quiet M t : 0 < M -> (forall i j, M^-1 <= inv_max i 0 j) ->
  ~~ asks request s t.+1 -> forall i u, variance (cov_of (s t.+1).1 i) u <= M * sqn u.
Proof.
move=> HM Hi Hn i u; have [G _ _ _ _] := run_facts A0 Hw H0 Hrun t; have [_ HP _] := G i.
have HC := gate_psd HP; have [vals [vecs [HE Hr]]] := Hask t i.
have Hno : kal_require vals vecs (inv_max i) eps (mk_pos (kn_ests (s t.+1).1 i)) = None.
  by rewrite -Hr; move: Hn; rewrite negb_exists => /forallP /(_ i); case: (request _ _).
have := quiet_each HE HC HM (Hi i) Hno (u *m (place F n)^T).
by rewrite place_sqn -variance_place.
Qed.

Section Few.
Variables (M T wmax emin emax : F).
Hypothesis HM : 0 < M.
Hypothesis Hinv : forall i j, 0 <= inv_max i 0 j <= M^-1.
Hypothesis HT : forall i, \tr (cov_of (s 0%N).1 i) <= T.
Hypothesis Hmax : forall t p i, w t p 0 i <= wmax.
Hypothesis Hemin : 0 < emin.
Hypothesis Heps : forall i, emin <= eps 0 i <= emax.
Hypothesis Hsh : shortest2 F <= emin ^+ 2.
Definition edrop : F := M ^+ 2 * emin ^+ 2 / (T * emax ^+ 2 + wmax).

Lemma each_asks_drop t : asks request s t.+1 -> trace_all (s t.+2).1 <= trace_all (s t.+1).1 - edrop.
Proof.
move=> Ha; have [G S _ _ Cv] := run_facts A0 Hw H0 Hrun t.
have [_ [_ _ C _ _]] := round_learns A0 Hw Hrun G.
have [i Hi] := asked Hw H0 Hrun Ha.
rewrite /trace_all (bigD1 i) //= [X in _ <= X - _](bigD1 i) //= addrAC; apply: ler_add; last first.
  by apply: ler_sum => j _; apply: trace_variance => v; exact: C.
have [Hst HP Hu] := G i; have HC := gate_psd HP; have [vals [vecs [HE Hr]]] := Hask t i.
rewrite Hi in Hr; have [j [Ep Hv HvC Hlam]] := require_each HE HC HM (Hinv i) (esym Hr).
have [Hp _] := S i.
have Ed : step_of s t.+1 = scale (col j vecs)^T eps by rewrite /step_of Ep Hp addrAC subrr add0r.
have Hl : long s t.+1.
  rewrite /long Ed; apply: (le_trans Hsh); rewrite -[emin ^+ 2]mulr1 -Hv /sqn !big_ord1 mulr_sumr; apply: ler_sum => a _.
  have -> : scale (col j vecs)^T eps 0 a = (col j vecs)^T 0 a * eps 0 a by rewrite mxE.
  rewrite exprMn [X in _ <= X]mulrC; apply: ler_wpmul2r; first exact: sqr_ge0.
  have /andP [H1 _] := Heps a.
  by rewrite ler_pexpn2r ?nnegrE ?(ltW Hemin) // (le_trans (ltW Hemin)).
rewrite /cov_of (run_filter Hw H0 Hrun) Hl Ed -!gate_trace.
have [_ _ ->] := gate_update (scale (col j vecs)^T eps) (f t.+1 (s t.+1).2 0 i - f t (s t).2 0 i)%:M true Hst HP (Hw t.+1 (s t.+1).2 i).
rewrite ler_add2l ler_opp2; apply: (each_drop HE HC Hv HvC HM (ltW Hlam) _ Hemin Heps) => //.
by rewrite gate_trace; apply: le_trans (HT i); apply: trace_variance => u; exact: Cv.
Qed.

Lemma each_asks_bounded N : #|[pred t : 'I_N | asks request s t.+1]|%:R * edrop <= trace_all (s 0%N).1.
Proof.
have Hs : trace_all (s N.+1).1 + \sum_(t < N | asks request s t.+1) edrop <= trace_all (s 0%N).1.
  elim: N => [|N IH].
    rewrite big_ord0 addr0; apply: ler_sum => i _; apply: trace_variance => v.
    by have [_ _ _ _ C] := run_facts A0 Hw H0 Hrun 0; exact: C.
  apply: le_trans IH; rewrite big_mkcond big_ord_recr -big_mkcond /=.
  case: ifP => Ha; first by rewrite addrA addrAC ler_add2r -ler_subr_addr; exact: each_asks_drop.
  rewrite addr0 ler_add2r; apply: ler_sum => i _; apply: trace_variance => v.
  have [G _ _ _ _] := run_facts A0 Hw H0 Hrun N.
  by have [_ [_ _ C _ _]] := round_learns A0 Hw Hrun G; exact: C.
apply: le_trans Hs; rewrite sumr_const mulr_natl -[X in X <= _]add0r ler_add2r.
apply: sumr_ge0 => i _; apply: trace_ge0.
by have [G _ _ _ _] := run_facts A0 Hw H0 Hrun N; have [_ HP _] := G i.
Qed.
End Few.
End Runs.

(** ** Directions without gradient and without correlations *)
Section Direction.
Variables (F : realFieldType) (n : nat).

Lemma mxvec_dot (u v : 'rV[F]_n) : mxvec u *m (mxvec v)^T = u *m v^T.
Proof.
rewrite -(create_H1 u) create_H_mul trmxK mxvecK -[RHS]trmxK trmx_mul trmxK [LHS]mx11_scalar [in RHS](mx11_scalar (v *m _)).
by rewrite tr_scalar_mx.
Qed.

Lemma direction_kept (kf : filter F (1 * n) 1) (u d : 'rV[F]_n) c y r : static kf -> psd (kf_P kf) -> 0 < r ->
  mxvec u *m kf_P kf = c *: mxvec u -> u *m d^T = 0 -> grad kf *m u^T = 0 ->
  let kf' := (kg_update d y (Some r%:M) None true kf).1 in mxvec u *m kf_P kf' = c *: mxvec u /\ grad kf' *m u^T = 0.
Proof.
move=> Hs HP Hr Hu Hd Hg; rewrite /kg_update predict_static //=.
have HR : psd (r%:M : 'M[F]_1) by exact/psd_scalar/ltW.
have HuR : (r%:M : 'M[F]_1) \in unitmx by rewrite -scalemx1 unitmxZ ?unitmx1 // unitfE gt_eqF.
have HS : create_H 1 d *m kf_P kf *m (create_H 1 d)^T + r%:M \in unitmx by apply: psd_unit_add => //; exact: psd_congr.
have [_ [Ex EP]] := @correct_ok _ _ _ y r%:M (Some r%:M) (create_H 1 d) kf erefl HP.1 HR.1 HS.
have HK : mxvec u *m gain (kf_P kf) (create_H 1 d) r%:M = 0.
  by rewrite /gain !mulmxA Hu -scalemxAl (create_H1 d) mxvec_dot Hd scaler0 mul0mx.
split; first by rewrite EP mulmxBr mulmxA HK mul0mx subr0.
by rewrite /grad -create_H_mul Ex mulmxDr mulmxA (create_H1 u) HK mul0mx addr0 -(create_H1 u) create_H_mul.
Qed.
End Direction.

Section Ignored.
Variables (F : realFieldType) (n k : nat).
Variables (request : 'I_k -> mkal F n -> option 'rV[F]_n) (f w : nat -> 'rV[F]_n -> 'rV[F]_k) (s : nat -> mkn F n k * 'rV[F]_n).
Hypothesis Hw : forall t p i, 0 < w t p 0 i.
Hypothesis H0 : forall i, untold (kn_ests (s 0%N).1 i).
Hypothesis Hrun : run_of request f w s.
Variables (u : 'rV[F]_n) (c : 'I_k -> F).
Let A0 : 'M[F]_(k, n) := 0.
Let kept t i := mxvec u *m kf_P (mk_kf (kn_ests (s t).1 i)) = c i *: mxvec u /\ grad (mk_kf (kn_ests (s t).1 i)) *m u^T = 0.
Hypothesis Hreq : forall t i p, (forall i, kept t.+1 i) -> request i (kn_ests (s t.+1).1 i) = Some p -> (p - (s t).2) *m u^T = 0.
Hypothesis Hstart : forall i, kept 0 i.

Lemma ignored_step t : (forall i, kept t.+1 i) -> step_of s t.+1 *m u^T = 0.
Proof.
move=> Hk; have [_ S D E _] := run_facts A0 Hw H0 Hrun t; have [Hp _] := run_pos Hw H0 Hrun t.
have [Ha|Ha] := boolP (asks request s t.+1).
  by have [i Hi] := asked Hw H0 Hrun Ha; rewrite /step_of Hp; exact: (Hreq Hk Hi).
rewrite /step_of E /kn_suggest; case Ep: (pmap _ _) => [|p l]; last first.
  have : p \in pmap (fun i => request i (kn_ests (s t.+1).1 i)) (enum 'I_k) by rewrite Ep mem_head.
  rewrite mem_pmap => /mapP [i _ Ei]; case/negP: Ha; apply/existsP; exists i; by rewrite -Ei.
rewrite addrAC subrr add0r; apply: lstsq_kernel; apply/row_matrixP => i; rewrite row0 row_mul.
by have -> : row i (kn_jacobian (kn_ests (s t.+1).1)) = grad (mk_kf (kn_ests (s t.+1).1 i)); [apply/rowP => j; rewrite !mxE | case: (Hk i)].
Qed.

Lemma ignored_kept t i : kept t.+1 i.
Proof.
elim: t i => [|t IH] i; first by rewrite /kept (run_first H0 Hrun); exact: Hstart.
rewrite /kept (run_filter Hw H0 Hrun); case: ifP => _; last exact: IH.
have [G _ _ _ _] := run_facts A0 Hw H0 Hrun t; have [Hst HP _] := G i; have [H1 H2] := IH i.
apply: direction_kept => //; have := ignored_step IH => /(congr1 trmx).
by rewrite trmx_mul trmxK trmx0.
Qed.

Lemma ignored t : (s t).2 *m u^T = (s 0%N).2 *m u^T.
Proof.
elim: t => [//|t <-]; apply/eqP; rewrite -subr_eq0 -mulmxBl; apply/eqP.
by have := ignored_step (ignored_kept t); rewrite /step_of; have [-> _] := run_pos Hw H0 Hrun t.
Qed.
End Ignored.

Section Gate.
Variables (F : realFieldType) (n : nat).
Lemma gate_entry (kf : filter F (1 * n) 1) i j : gate_cov kf i j = kf_P kf (mxvec_index 0 i) (mxvec_index 0 j).
Proof. by rewrite !mxE. Qed.
Lemma delta_index (g j : 'I_n) : mxvec (delta_mx 0 g : 'rV[F]_n) 0 (mxvec_index 0 j) = (j == g)%:R.
Proof. by rewrite mxvecE mxE eqxx. Qed.
Lemma alone_kept (kf : filter F (1 * n) 1) g : psd (kf_P kf) ->
  (alone g (gate_cov kf) <-> exists c, mxvec (delta_mx 0 g : 'rV[F]_n) *m kf_P kf = c *: mxvec (delta_mx 0 g)).
Proof.
move=> HP; have Er c : (mxvec (delta_mx 0 g : 'rV[F]_n) *m kf_P kf) 0 c = kf_P kf (mxvec_index 0 g) c.
  rewrite mxE (bigD1 (mxvec_index 0 g)) //= big1 ?addr0 => [|a]; first by rewrite delta_index eqxx mul1r.
  by case/mxvec_indexP: a => a a'; rewrite (ord1 a) (@index_inj F n) delta_index => /negPf ->; rewrite mul0r.
have HS a b : kf_P kf a b = kf_P kf b a by rewrite -{1}HP.1 mxE.
split=> [Ha|[c Hc] j Hj].
  exists (gate_cov kf g g); apply/rowP => b; rewrite Er [RHS]mxE; case/mxvec_indexP: b => b b'; rewrite (ord1 b) delta_index.
  have [->|Hb] := eqVneq b' g; first by rewrite mulr1 gate_entry.
  by rewrite mulr0 -gate_entry; case: (Ha b' Hb).
have H : gate_cov kf g j = 0 by rewrite gate_entry -Er Hc mxE delta_index (negPf Hj) mulr0.
by split=> //; rewrite gate_entry HS -gate_entry.
Qed.

Lemma apart_request g (vals : 'rV[F]_n) vecs (inv_max eps pos : 'rV[F]_n) p : apart g vecs -> inv_max 0 g = 0 ->
  kal_require vals vecs inv_max eps pos = Some p -> p 0 g = pos 0 g.
Proof.
move=> Hap Hg; rewrite /kal_require; case: existsP => [[j Hj]|//].
have Hn : (0 < n)%N by apply: leq_ltn_trans (ltn_ord j).
have [i [-> Hmax]] := argmax_max (length2 vals vecs inv_max) Hn => -[<-].
rewrite !mxE; case: (Hap i) => [->|Hz]; first by rewrite mul0r addr0.
have : 1 < length2 vals vecs inv_max i by apply: lt_le_trans Hj (Hmax j).
rewrite /length2 big1 ?ltr10 // => l _; have [->|Hl] := eqVneq l g; first by rewrite Hg mulr0 expr0n.
by rewrite Hz // mulr0 mul0r expr0n.
Qed.
End Gate.
