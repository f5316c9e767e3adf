(** Lemmas for KalmanLimitedProps.v. *)
From mathcomp Require Import all_ssreflect all_algebra.
From Verif Require Import PyExn FieldTac LinAlgModel LinAlgSpec LinAlgProofs LoopProofs LimitedModel LimitedSpec LimitedProofs ChordProofs KalmanModel KalmanSpec KalmanProofs KalmanLoopModel KalmanLoopSpec KalmanLoopProofs KalmanGlobalSpec KalmanGlobalProofs KalmanLimitedModel KalmanLimitedSpec.
From Coq Require Import Ring Field.
Set Implicit Arguments. Unset Strict Implicit. Unset Printing Implicit Defensive.
Import Order.TTheory GRing.Theory Num.Theory.
Local Open Scope ring_scope.

Section Taken.
Variables (F : realFieldType) (n k : nat) (A : 'M[F]_(k, n)).
Variables (f w : nat -> 'rV[F]_n -> 'rV[F]_k) (s : nat -> mkn F n k * 'rV[F]_n).
Hypothesis Hw : forall t p i, 0 < w t p 0 i.
Hypothesis H0 : forall i, untold (kn_ests (s 0%N).1 i).
Hypothesis Hrun : taken f w s.

Lemma taken_start : good (s 0%N).1.
Proof. by move=> i; have [? ? ? _] := H0 i. Qed.
Lemma taken_round t : good (s t).1 ->
  [/\ good (s t.+1).1, synced (s t.+1).1 & kn_desired (s t.+1).1 = kn_desired (s t).1] /\
  [/\ kn_pos (s t.+1).1 = (s t).2, kn_vals (s t.+1).1 = f t (s t).2, forall i u, variance (cov_of (s t.+1).1 i) u <= variance (cov_of (s t).1 i) u,
      (forall i, mk_val (kn_ests (s t).1 i) = None) -> total A (s t.+1).1 <= total A (s t).1 &
      synced (s t).1 -> total A (s t.+1).1 <= total A (s t).1 -
        (if long s t then
           \sum_i (misjudged f s t i ^+ 2 / (variance (cov_of (s t).1 i) (mxvec (step_of s t)) + w t (s t).2 0 i)
             - unexplained A f s t i ^+ 2 / w t (s t).2 0 i)
         else 0)].
Proof.
move=> Hg; have [st' [[E G S D] [P V C N L]]] := kn_learns A (s t).2 (f t (s t).2) Hg (Hw t (s t).2).
have := Hrun t; rewrite E => -[<-].
by split; split.
Qed.
Lemma taken_facts t : [/\ good (s t.+1).1, synced (s t.+1).1, kn_desired (s t.+1).1 = kn_desired (s 0%N).1,
  kn_pos (s t.+1).1 = (s t).2 /\ kn_vals (s t.+1).1 = f t (s t).2 & forall i u, variance (cov_of (s t.+1).1 i) u <= variance (cov_of (s 0%N).1 i) u].
Proof.
elim: t => [|t [G S D _ C]].
  by have [[G S D] [P V C _ _]] := taken_round taken_start.
have [[G' S' D'] [P V C' _ _]] := taken_round G; split=> //; first by rewrite D'.
by move=> i u; exact: le_trans (C' i u) (C i u).
Qed.
Lemma taken_learns N : total A (s N.+1).1 + \sum_(t < N | long s t.+1) \sum_i
    misjudged f s t.+1 i ^+ 2 / (variance (cov_of (s t.+1).1 i) (mxvec (step_of s t.+1)) + w t.+1 (s t.+1).2 0 i)
  <= total A (s 0%N).1 + \sum_(t < N | long s t.+1) \sum_i unexplained A f s t.+1 i ^+ 2 / w t.+1 (s t.+1).2 0 i.
Proof.
elim: N => [|N IH].
  rewrite !big_ord0 !addr0; have [_ [_ _ _ H _]] := taken_round taken_start.
  by apply: H => i; have [_ _ _ ->] := H0 i.
rewrite big_mkcond [X in _ <= _ + X]big_mkcond !big_ord_recr -!big_mkcond /=.
have [G S _ _ _] := taken_facts N.
have [_ [_ _ _ _ /(_ S) H]] := taken_round G.
case: (long s N.+1) H => H; last by rewrite !addr0; rewrite subr0 in H; apply: le_trans IH; rewrite ler_add2r.
rewrite sumrB in H.
set X := \sum_i _ ^+ 2 / (_ + _) in H *; set Y := \sum_i _ ^+ 2 / _ in H *.
set U := \sum_(t < N | _) _ in IH *; set V := \sum_(t < N | _) _ in IH *.
apply: (@le_trans _ _ (total A (s N.+1).1 - (X - Y) + (U + X))); first by rewrite ler_add2r.
have -> : total A (s N.+1).1 - (X - Y) + (U + X) = total A (s N.+1).1 + U + Y.
  by rewrite opprB addrACA subrK.
by rewrite addrA ler_add2r.
Qed.

Lemma predictions N (L wmax : F) : 0 <= L -> (forall i u, variance (cov_of (s 0%N).1 i) u <= L * sqn u) -> (forall t p i, w t p 0 i <= wmax) ->
  \sum_(t < N | long s t.+1) (\sum_i misjudged f s t.+1 i ^+ 2) / (wmax + L * sqn (step_of s t.+1)) <=
  total A (s 0%N).1 + \sum_(t < N | long s t.+1) \sum_i unexplained A f s t.+1 i ^+ 2 / w t.+1 (s t.+1).2 0 i.
Proof.
move=> HL Hv Hm; apply: le_trans (taken_learns N).
have [G _ _ _ _] := taken_facts N.
rewrite -[X in X <= _]add0r; apply: ler_add; first exact: total_ge0.
apply: ler_sum => t _; rewrite mulr_suml; apply: ler_sum => i _; apply: ler_wpmul2l; first exact: sqr_ge0.
have [Gt _ _ _ Ct] := taken_facts t; have [_ HP _] := Gt i.
have Hp : 0 < variance (cov_of (s t.+1).1 i) (mxvec (step_of s t.+1)) + w t.+1 (s t.+1).2 0 i.
  by apply: ltr_paddl; [exact: HP.2 | exact: Hw].
have Hle : variance (cov_of (s t.+1).1 i) (mxvec (step_of s t.+1)) + w t.+1 (s t.+1).2 0 i <= wmax + L * sqn (step_of s t.+1).
  by rewrite addrC; apply: ler_add; [exact: Hm | rewrite -sqn_mxvec; exact: le_trans (Ct i _) (Hv i _)].
rewrite lef_pinv ?posrE //; exact: lt_le_trans Hle.
Qed.
End Taken.

(** The numbers of one round: [x], [y] distances before and after, [e] the error
    of the prediction, [c] the part of the step, [b] the least change. *)
Section Round.
Variable F : realFieldType.
Add Field Ffield : (F_field F).
Lemma two_neq0 : fadd (fone F) (fone F) <> fzero F.
Proof. by apply/eqP; rewrite -[fadd (fone F) (fone F)]/(2%:R : F) pnatr_eq0. Qed.
Lemma four_neq0 : fmul (fadd (fone F) (fone F)) (fadd (fone F) (fone F)) <> fzero F.
Proof. by apply/eqP; rewrite -[fadd (fone F) (fone F)]/(2%:R : F) -[fmul _ _]/(2%:R * 2%:R : F) -natrM pnatr_eq0. Qed.
Lemma two : 2%:R = 1 + 1 :> F. Proof. by []. Qed.
Lemma three : 3%:R = 1 + 1 + 1 :> F. Proof. by rewrite -two -[X in _ + X]/(1%:R) -natrD. Qed.
Lemma four : 4%:R = (1 + 1) * (1 + 1) :> F. Proof. by rewrite -two -natrM. Qed.
Definition psi (b x : F) : F := Num.max (x - b / 4%:R) 0.
Ltac nz := first [exact/eqP | exact: two_neq0 | exact: four_neq0].
Ltac addge := first [assumption | rewrite subr_ge0; assumption | apply: addr_ge0; [addge | addge]].
Lemma sum_ge0 (x y z : F) : 0 <= x -> 0 <= y -> z = x + y -> 0 <= z.
Proof. by move=> Hx Hy ->; exact: addr_ge0. Qed.
Ltac lin x y := rewrite -subr_ge0; apply: (@sum_ge0 x y); [addge | addge | rewrite ?two ?three ?four; fold_field F; ring].
Lemma psi_ge0 b x : 0 <= psi b x.
Proof. by rewrite /psi le_maxr lexx orbT. Qed.
Lemma psi_le b x : 0 < b -> 0 <= x -> psi b x <= x.
Proof. by move=> Hb Hx; rewrite /psi le_maxl Hx andbT ler_subl_addr ler_addl divr_ge0 ?ler0n // ltW. Qed.
Lemma error_parts (b e : F) : 0 < b -> e <= b / 4%:R + e ^+ 2 / b.
Proof.
move=> Hb; have Hb0 : b != 0 by rewrite gt_eqF.
rewrite -subr_ge0; have -> : b / 4%:R + e ^+ 2 / b - e = (e - b / 2%:R) ^+ 2 / b.
  rewrite ?two ?three ?four; fold_field F; field; repeat split; nz.
by rewrite divr_ge0 ?sqr_ge0 // ltW.
Qed.
(** The linear part, [q] is a quarter of [b] and [g] is [e ^ 2 / b]. *)
Lemma cut_good (P q g cx x y e : F) : 0 <= g -> x - q <= P -> e <= q + g -> cx <= x -> y <= x - cx + e -> q + q <= cx ->
  y - q <= P - q + 3%:R * g /\ 0 <= P - q + 3%:R * g.
Proof.
move=> Hg Hp He Hc Hy Hq; split.
- lin (P - (x - q)) (x - cx + e - y + (q + g - e) + (cx - (q + q)) + (g + g)).
- lin (P - (x - q)) ((cx - (q + q)) + (x - cx) + (g + (g + g))).
Qed.
Lemma cut_bad (P q g cx x y e : F) : 0 <= P -> 0 <= g -> x - q <= P -> 0 <= cx -> y <= x - cx + e -> e <= g + g -> q <= g ->
  y - q <= P - q + 3%:R * g /\ 0 <= P - q + 3%:R * g.
Proof.
move=> HP Hg Hp Hc Hy He Hq; split.
- lin (P - (x - q)) (x - cx + e - y + (g + g - e) + (g - q) + cx).
- lin P (g - q + (g + g)).
Qed.
Lemma error_large (b e : F) : 0 < b -> b / 2%:R <= e -> e <= e ^+ 2 / b + e ^+ 2 / b /\ b / 4%:R <= e ^+ 2 / b.
Proof.
move=> Hb He; have Hb0 : b != 0 by rewrite gt_eqF.
have H2 : 0 < b / 2%:R by rewrite divr_gt0 ?ltr0n.
have He0 : 0 <= e by apply: le_trans He; exact: ltW.
split; rewrite -subr_ge0.
- have -> : e ^+ 2 / b + e ^+ 2 / b - e = (e * (e - b / 2%:R)) * 2%:R / b.
    rewrite ?two ?three ?four; fold_field F; field; repeat split; nz.
  by rewrite divr_ge0 ?mulr_ge0 ?subr_ge0 ?ler0n // ltW.
- have -> : e ^+ 2 / b - b / 4%:R = (e - b / 2%:R) * (e + b / 2%:R) / b.
    rewrite ?two ?three ?four; fold_field F; field; repeat split; nz.
  apply: divr_ge0; last exact: ltW.
  by apply: mulr_ge0; [rewrite subr_ge0 | apply: addr_ge0 => //; exact: ltW].
Qed.
Lemma half_quarters (b : F) : b / 2%:R = b / 4%:R + b / 4%:R.
Proof. rewrite ?two ?three ?four; fold_field F; field; repeat split; nz. Qed.
Lemma psi_cut (b c x y e : F) : 0 < b -> 0 <= x -> 0 < c <= 1 -> b <= c * x + e -> y <= (1 - c) * x + e ->
  psi b y <= psi b x - b / 4%:R + 3%:R * (e ^+ 2 / b).
Proof.
move=> Hb Hx /andP [Hc Hc1] H1 H2.
have Hg : 0 <= e ^+ 2 / b by rewrite divr_ge0 ?sqr_ge0 // ltW.
have Hp : x - b / 4%:R <= psi b x by rewrite /psi le_maxr lexx.
have Hcx0 : 0 <= c * x by apply: mulr_ge0 => //; exact: ltW.
have Hcx : c * x <= x by rewrite ler_pimull.
have Hy : y <= x - c * x + e by move: H2; rewrite mulrBl mul1r.
suff [Ha Hb'] : y - b / 4%:R <= psi b x - b / 4%:R + 3%:R * (e ^+ 2 / b) /\ 0 <= psi b x - b / 4%:R + 3%:R * (e ^+ 2 / b).
  by rewrite {1}/psi le_maxl Ha.
have [Hcase|Hcase] := lerP (b / 2%:R) (c * x).
- rewrite half_quarters in Hcase; exact: (cut_good Hg Hp (error_parts e Hb) Hcx Hy Hcase).
- have He2 : b / 2%:R <= e.
    rewrite -(ler_add2l (b / 2%:R)); have -> : b / 2%:R + b / 2%:R = b by rewrite -mulrDl -mulr2n -(mulr_natr b) mulfK // pnatr_eq0.
    by apply: (le_trans H1); rewrite ler_add2r; exact: ltW.
  have [Hg1 Hg2] := error_large Hb He2.
  exact: (cut_bad (psi_ge0 b x) Hg Hp Hcx0 Hy Hg1 Hg2).
Qed.
Lemma full_part (P q g e : F) : 0 <= P -> 0 <= g -> e <= q + g -> e - q <= P + 3%:R * g /\ 0 <= P + 3%:R * g.
Proof.
move=> HP Hg He; split; first by lin (P + (g + g)) (q + g - e).
rewrite -[X in _ <= X]subr0; lin P (g + (g + g)).
Qed.
Lemma psi_full (b x e : F) : 0 < b -> psi b e <= psi b x + 3%:R * (e ^+ 2 / b).
Proof.
move=> Hb; have Hg : 0 <= e ^+ 2 / b by rewrite divr_ge0 ?sqr_ge0 // ltW.
have [H1 H2] := full_part (psi_ge0 b x) Hg (error_parts e Hb).
by rewrite {1}/psi le_maxl H1.
Qed.
End Round.

Section Far.
Variable F : realFieldType.
Add Field Ffield2 : (F_field F).
Variables (n k : nat) (A : 'M[F]_(k, n)) (c0 : 'rV[F]_k).
Variables (f w : nat -> 'rV[F]_n -> 'rV[F]_k) (s : nat -> mkn F n k * 'rV[F]_n).
Hypothesis Hw : forall t p i, 0 < w t p 0 i.
Hypothesis H0 : forall i, untold (kn_ests (s 0%N).1 i).
Hypothesis Hrun : taken f w s.
Hypothesis Hf : forall t, f t = affines A c0.
Let r (t : nat) : 'rV[F]_k := kn_desired (s 0%N).1 - f t (s t).2.
Let mis (t : nat) : 'rV[F]_k := \row_i misjudged f s t i.

Lemma step_taken t : step_of s t.+1 = (s t.+1).2 - (s t).2.
Proof. by have [_ _ _ [P _] _] := taken_facts A Hw H0 Hrun t; rewrite /step_of P. Qed.
Lemma no_unexplained t i : unexplained A f s t.+1 i = 0.
Proof.
have [_ _ _ [P V] _] := taken_facts A Hw H0 Hrun t.
rewrite /unexplained /step_of V P !Hf affines_diff; apply/eqP; rewrite subr_eq0; apply/eqP.
by rewrite -row_mul !mxE.
Qed.
Lemma residual t c : row_free (kn_jacobian (kn_ests (s t.+1).1)) -> step_of s t.+1 = c *: whole_step s t ->
  r t.+1 = (1 - c) *: r t - mis t.+1.
Proof.
move=> Hj Hs; have [_ _ D [_ V] _] := taken_facts A Hw H0 Hrun t.
apply/rowP => i.
have -> : ((1 - c) *: r t - mis t.+1) 0 i = (1 - c) * r t 0 i - misjudged f s t.+1 i by rewrite !mxE.
rewrite /misjudged.
have -> : (grad (mk_kf (kn_ests (s t.+1).1 i)) *m (step_of s t.+1)^T) 0 0 = (kn_jacobian (kn_ests (s t.+1).1) *m (step_of s t.+1)^T) i 0.
  rewrite [in LHS]mxE [in RHS]mxE; apply: eq_bigr => j _; by rewrite [kn_jacobian _ _ _]mxE.
have Ew : kn_jacobian (kn_ests (s t.+1).1) *m (step_of s t.+1)^T = c *: (r t)^T.
  by rewrite Hs linearZ /= -scalemxAr /whole_step trmxK (lstsq_exact _ Hj) D V.
rewrite Ew V /r; set u := f t.+1 _; set v := f t _; set d := kn_desired _.
have -> : (c *: (d - v)^T) i 0 = c * (d 0 i - v 0 i) by rewrite !mxE.
have -> : (u - v) 0 i = u 0 i - v 0 i by rewrite !mxE.
have -> : (d - u) 0 i = d 0 i - u 0 i by rewrite !mxE.
have -> : (d - v) 0 i = d 0 i - v 0 i by rewrite !mxE.
by move: (d 0 i) (u 0 i) (v 0 i) => x y z; fold_field F; ring.
Qed.
Lemma change t c : row_free (kn_jacobian (kn_ests (s t.+1).1)) -> step_of s t.+1 = c *: whole_step s t ->
  step_of s t.+1 *m A^T = c *: r t + mis t.+1.
Proof.
move=> Hj Hs; have -> : mis t.+1 = (1 - c) *: r t - r t.+1 by rewrite (residual Hj Hs) opprB addrC subrK.
rewrite addrA -scalerDl addrC (addrC c) subrK scale1r /r step_taken.
have -> : forall x y z : 'rV[F]_k, - (z - x) + (z - y) = x - y by move=> x y z; rewrite opprB addrA subrK.
by rewrite !Hf affines_diff trmx_mul trmxK.
Qed.

Variables (normk : 'rV[F]_k -> F) (a m M L wmax : F) (N : nat).
Hypothesis Hnorm : is_norm normk.
Hypothesis Ha : 0 < a.
Hypothesis Hm : 0 < m.
Hypothesis Hexp : expands a A.
Hypothesis HL : 0 <= L.
Hypothesis Hwm : 0 < wmax.
Hypothesis Hmax : forall t p i, w t p 0 i <= wmax.
Hypothesis Hcov : forall i u, variance (kf_P (mk_kf (kn_ests (s 0%N).1 i))) u <= L * sqn u.
Hypothesis Hsteps : forall t, (t < N)%N -> [/\ row_free (kn_jacobian (kn_ests (s t.+1).1)), long s t.+1 & part_of m M (whole_step s t) (step_of s t.+1)].
Let b := a * m.
Let C := total A (s 0%N).1 * (wmax + L * M ^+ 2).

Lemma b_gt0 : 0 < b. Proof. exact: mulr_gt0. Qed.
Lemma norm_le x y : 0 <= y -> sqn x <= y ^+ 2 -> normk x <= y.
Proof. by move=> Hy; have [Hn <-] := Hnorm x; rewrite ler_pexpn2r ?nnegrE. Qed.
Lemma norm_ge x y : 0 <= y -> y ^+ 2 <= sqn x -> y <= normk x.
Proof. by move=> Hy; have [Hn <-] := Hnorm x; rewrite ler_pexpn2r ?nnegrE. Qed.
Lemma norm_add x y : normk (x + y) <= normk x + normk y.
Proof.
have [Hx Ex] := Hnorm x; have [Hy Ey] := Hnorm y.
apply: norm_le; first exact: addr_ge0.
by have := @length_add F 1 k x y (normk x) (normk y) 1; rewrite !mulr1 Ex Ey; apply.
Qed.
Lemma norm_scale c x : 0 <= c -> normk (c *: x) = c * normk x.
Proof.
move=> Hc; have [Hx Ex] := Hnorm x; have [Hy Ey] := Hnorm (c *: x).
by apply/eqP; rewrite -(@eqr_expn2 _ 2) ?mulr_ge0 // Ey sqnZ exprMn Ex.
Qed.
Lemma norm_opp x : normk (- x) = normk x.
Proof.
have [Hx Ex] := Hnorm x; have [Hy Ey] := Hnorm (- x).
by apply/eqP; rewrite -(@eqr_expn2 _ 2) // Ey sqnN Ex.
Qed.
Lemma mis_sqn t : sqn (mis t) = \sum_i misjudged f s t i ^+ 2.
Proof. by rewrite /sqn big_ord1; apply: eq_bigr => i _; rewrite mxE. Qed.

Lemma round_psi t : (t < N)%N -> psi b (normk (r t.+1)) + (if shortened s t then b / 4%:R else 0) <= psi b (normk (r t)) + 3%:R * (normk (mis t.+1) ^+ 2 / b).
Proof.
move=> Ht; have [Hj Hlong [c [Hc Es Hor _]]] := Hsteps Ht.
have [Hr _] := Hnorm (r t).
case: ifP => Hcut.
- have Hc1 : m ^+ 2 <= sqn (step_of s t.+1).
    by case: Hor => // E; move: Hcut; rewrite /shortened Es E scale1r eqxx.
  rewrite -ler_subr_addr addrAC; apply: (psi_cut b_gt0 Hr Hc).
  + have /andP [Hc0 _] := Hc.
    rewrite -(norm_scale _ (ltW Hc0)); apply: le_trans (norm_add _ _); rewrite -(change Hj Es).
    apply: norm_ge; first exact: (ltW b_gt0).
    by rewrite /b exprMn; apply: le_trans (Hexp _); apply: ler_wpmul2l => //; exact: sqr_ge0.
  + have /andP [_ Hc'] := Hc; rewrite (residual Hj Es) -norm_scale ?subr_ge0 //.
    by apply: (le_trans (norm_add _ _)); rewrite norm_opp.
- have Ec : step_of s t.+1 = 1 *: whole_step s t by rewrite scale1r; apply/eqP; move: Hcut => /negbFE.
  rewrite addr0 (residual Hj Ec) subrr scale0r sub0r norm_opp; exact: (psi_full _ _ b_gt0).
Qed.

Lemma sum_mis : \sum_(t < N) normk (mis t.+1) ^+ 2 <= C.
Proof.
have Hden : 0 < wmax + L * M ^+ 2 by apply: ltr_paddr => //; apply: mulr_ge0 => //; exact: sqr_ge0.
rewrite /C -ler_pdivr_mulr // mulr_suml.
have := predictions A Hw H0 Hrun N HL Hcov Hmax.
have -> : \sum_(t < N | long s t.+1) \sum_i unexplained A f s t.+1 i ^+ 2 / w t.+1 (s t.+1).2 0 i = 0.
  by apply: big1 => t _; apply: big1 => i _; rewrite no_unexplained expr0n mul0r.
rewrite addr0; apply: le_trans.
rewrite [X in _ <= X](eq_bigl xpredT) => [|t]; last by have [_ -> _] := Hsteps (ltn_ord t).
apply: ler_sum => t _; have [_ Em] := Hnorm (mis t.+1); rewrite Em mis_sqn.
apply: ler_wpmul2l; first by apply: sumr_ge0 => i _; exact: sqr_ge0.
have [_ _ [c [_ _ _ HM]]] := Hsteps (ltn_ord t).
have Hle : wmax + L * sqn (step_of s t.+1) <= wmax + L * M ^+ 2 by rewrite ler_add2l; apply: ler_wpmul2l.
by rewrite lef_pinv ?posrE //; apply: ltr_paddr => //; apply: mulr_ge0 => //; exact: sqn_ge0.
Qed.

Lemma sum_psi K : (K <= N)%N -> psi b (normk (r K)) + \sum_(t < K | shortened s t) b / 4%:R <= psi b (normk (r 0%N)) + 3%:R / b * \sum_(t < K) normk (mis t.+1) ^+ 2.
Proof.
elim: K => [|K IH] HK; first by rewrite !big_ord0 mulr0 !addr0.
have := IH (ltnW HK); have := round_psi HK.
rewrite [X in _ -> _ -> _ + X <= _]big_mkcond big_ord_recr -big_mkcond /= big_ord_recr /= mulrDr.
set x := psi b _; set y := psi b _; set z := psi b _; set u := \sum_(t < K | _) _; set v := \sum_(t < K) _; set e := (if _ then _ else _).
have -> : 3%:R / b * normk (mis K.+1) ^+ 2 = 3%:R * (normk (mis K.+1) ^+ 2 / b) by rewrite mulrAC mulrA.
set g := 3%:R * _ => H1 H2; rewrite [u + e]addrC !addrA; apply: (@le_trans _ _ (y + g + u)); first by rewrite ler_add2r.
by rewrite addrAC ler_add2r.
Qed.

Lemma shortened_few : #|[pred t : 'I_N | shortened s t]|%:R * b ^+ 2 <= 4%:R * b * normk (r 0%N) + 12%:R * C.
Proof.
have := sum_psi (leqnn N); rewrite sumr_const => H.
have Hb := b_gt0; have Hb0 : b != 0 by rewrite gt_eqF.
have H1 : #|[pred t : 'I_N | shortened s t]|%:R * (b / 4%:R) <= normk (r 0%N) + 3%:R / b * C.
  rewrite mulr_natl; apply: (@le_trans _ _ (psi b (normk (r N)) + (b / 4%:R) *+ #|[pred t : 'I_N | shortened s t]|)).
    by rewrite ler_addr psi_ge0.
  apply: (le_trans H); apply: ler_add; first by apply: psi_le => //; have [] := Hnorm (r 0%N).
  by apply: ler_wpmul2l; [rewrite divr_ge0 ?ler0n // ltW | exact: sum_mis].
have H4 : 0 <= 4%:R * b by rewrite mulr_ge0 ?ler0n // ltW.
have := ler_wpmul2l H4 H1; rewrite mulrDr.
have -> : 4%:R * b * (#|[pred t : 'I_N | shortened s t]|%:R * (b / 4%:R)) = #|[pred t : 'I_N | shortened s t]|%:R * b ^+ 2.
  by move: (#|_|%:R) => x; rewrite four; fold_field F; field; exact: four_neq0.
have -> : 4%:R * b * (3%:R / b * C) = 12%:R * C.
  by rewrite mulrA; congr (_ * _); rewrite mulrACA -natrM mulfV ?mulr1.
by [].
Qed.

Lemma whole_few eta : #|[pred t : 'I_N | ~~ shortened s t && (eta <= sqn (r t.+1))]|%:R * eta <= C.
Proof.
apply: le_trans sum_mis; rewrite mulr_natl -sumr_const big_mkcond; apply: ler_sum => t _; rewrite inE /=.
have [_ Em] := Hnorm (mis t.+1); rewrite Em.
case: ifP => [/andP [Hn He]|_]; last exact: sqn_ge0.
have [Hj _ _] := Hsteps (ltn_ord t).
have Ec : step_of s t.+1 = 1 *: whole_step s t by rewrite scale1r; apply/eqP; move: Hn => /negPn.
by move: He; rewrite (residual Hj Ec) subrr scale0r sub0r sqnN.
Qed.
End Far.

Section Queue.
Variables (F : realFieldType) (n k : nat) (request : 'I_k -> mkal F n -> option 'rV[F]_n).
Variables (norm : 'rV[F]_n -> F) (int_of : F -> nat) (m : F) (number : nat) (f w : nat -> 'rV[F]_n -> 'rV[F]_k) (S : nat -> ktuner F n k).
Hypothesis Hnorm : is_norm norm.
Hypothesis Hint : is_int int_of.
Hypothesis Hm : 0 < m.
Hypothesis Hnum : (0 < number)%N.
Hypothesis Hask : never_asks request.
Hypothesis Hrun : rounds_of request norm int_of (Some m) number f w S.
Hypothesis Hq0 : kt_queue (S 0%N) = 0%N.
Hypothesis He0 : kt_evals (S 0%N) = 0%N.

Definition goal_of (st : mkn F n k) : 'rV[F]_n := (lstsq (kn_jacobian (kn_ests st)) (kn_desired st - kn_vals st)^T)^T.
Lemma suggest_goal st : kn_suggest request st = kn_pos st + goal_of st.
Proof.
rewrite /kn_suggest; case Ep: (pmap _ _) => [//|p l].
have : p \in pmap (fun i => request i (kn_ests st i)) (enum 'I_k) by rewrite Ep mem_head.
by rewrite mem_pmap => /mapP [i _]; rewrite Hask.
Qed.
Definition same_knowledge (st st' : mkn F n k) : Prop := [/\ kn_desired st = kn_desired st', kn_ests st = kn_ests st' & kn_vals st = kn_vals st'].
Lemma update_same p vals vars (st st' : mkn F n k) : same_knowledge st st' -> kn_update p vals vars st = kn_update p vals vars st'.
Proof. by case=> D E _; rewrite /kn_update D E. Qed.
Lemma goal_same st st' : same_knowledge st st' -> goal_of st = goal_of st'.
Proof. by case=> D E V; rewrite /goal_of D E V. Qed.

Lemma eval_round j : kt_queue (S j) = 0%N -> exists st,
  [/\ kn_update (kt_volt (S j)) (f (kt_evals (S j)) (kt_volt (S j))) (w (kt_evals (S j)) (kt_volt (S j))) (kt_solver (S j)) = Ok st &
   S j.+1 = let (v, q) := cut_step norm int_of (Some m) number (kt_volt (S j)) (kt_volt (S j) + goal_of st) 0 in mk_ktuner st v (kt_evals (S j)).+1 q].
Proof.
move=> Hq; have := Hrun j; rewrite /kt_round /kt_check Hq eqxx.
case Eu: (kn_update _ _ _ _) => [st|e] //; rewrite suggest_goal.
have Ep : kn_pos st = kt_volt (S j) by move: Eu; rewrite /kn_update; case: first_exn => // _ [<-].
rewrite Ep; case Ec: (cut_step _ _ _ _ _ _ _) => [v q] [E]; exists st; split=> //.
by rewrite Ec -E.
Qed.
Lemma queue_round j q : kt_queue (S j) = q.+1 ->
  S j.+1 = let (v, q') := cut_step norm int_of (Some m) number (kt_volt (S j)) (kt_volt (S j) + goal_of (kt_solver (S j))) q.+1 in
           mk_ktuner (mk_mkn (kn_desired (kt_solver (S j))) (kn_ests (kt_solver (S j))) (kt_volt (S j)) (kn_vals (kt_solver (S j)))) v (kt_evals (S j)) q'.
Proof.
move=> Hq; have := Hrun j; rewrite /kt_round /kt_check Hq -[q.+1 == 0%N]/false; cbv beta iota; rewrite suggest_goal.
set st := mk_mkn _ _ _ _; rewrite -[kn_pos st]/(kt_volt (S j)) -[goal_of st]/(goal_of (kt_solver (S j))).
by case: (cut_step norm int_of (Some m) number _ _ _) => [v q'] [<-].
Qed.

(** From one measurement to the next. *)
Lemma next_eval j : kt_queue (S j) = 0%N -> let q := kt_queue (S j.+1) in exists st,
  [/\ kn_update (kt_volt (S j)) (f (kt_evals (S j)) (kt_volt (S j))) (w (kt_evals (S j)) (kt_volt (S j))) (kt_solver (S j)) = Ok st,
      kt_solver (S j.+1) = st /\ (q < number)%N,
      same_knowledge (kt_solver (S (j.+1 + q)%N)) st /\ kt_queue (S (j.+1 + q)%N) = 0%N,
      forall i, (i <= q)%N -> kt_evals (S (j.+1 + i)%N) = (kt_evals (S j)).+1 &
      part_of m (number%:R * m) (goal_of st) (kt_volt (S (j.+1 + q)%N) - kt_volt (S j))].
Proof.
move=> Hq /=; have [st [Eu E1]] := eval_round Hq; exists st.
set v := kt_volt (S j) in Eu E1 *; set d := goal_of st in E1 *; set t := kt_evals (S j) in Eu E1 *.
have Hnm : m ^+ 2 <= (number%:R * m) ^+ 2.
  rewrite exprMn ler_pmull ?exprn_gt0 //; apply: exprn_ege1; by rewrite ler1n.
have [Hd0 Hd] := Hnorm d.
have vd u : u + d - u = d by rewrite addrAC subrr add0r.
have [Hle|Hlt] := leP (norm d) m.
- have E1' : S j.+1 = mk_ktuner st (v + d) t.+1 0 by rewrite E1 /cut_step vd ltNge Hle.
  rewrite E1' /= addn0 E1' /=; split=> //; first by move=> i; rewrite leqn0 => /eqP ->; rewrite addn0 E1'.
  have Hs : sqn d <= m ^+ 2 by rewrite -Hd ler_pexpn2r ?nnegrE // ltW.
  exists 1; rewrite scale1r vd ltr01 lexx; split=> //; [by left | exact: le_trans Hnm].
- set q := minn (int_of (norm d / m)) number.
  have Hd1 : 0 < norm d by exact: lt_trans Hlt.
  have Hi := Hint (ltW (divr_gt0 Hd1 Hm)).
  have Hq1 : (0 < q)%N.
    rewrite /q leq_min Hnum andbT; have /andP [_ H2] := Hi.
    have : 1 < norm d / m by rewrite ltr_pdivl_mulr // mul1r.
    by case: (int_of _) H2 => [|i] // H2 H1; have := lt_trans H1 H2; rewrite ltxx.
  have cutE u q1 : cut_step norm int_of (Some m) number u (u + d) q1 = (u + (m / norm d) *: d, (if q1 == 0%N then q else q1).-1).
    by rewrite /cut_step vd Hlt.
  have Hind i : (i < q)%N -> [/\ same_knowledge (kt_solver (S (j.+1 + i)%N)) st, kt_volt (S (j.+1 + i)%N) = v + (i.+1%:R * (m / norm d)) *: d,
                                kt_evals (S (j.+1 + i)%N) = t.+1 & kt_queue (S (j.+1 + i)%N) = (q - i.+1)%N].
    elim: i => [|i IH] Hi'.
      by rewrite addn0 E1 cutE eqxx /= subn1 mul1r; split.
    have [K V E Q] := IH (ltnW Hi').
    have Q' : kt_queue (S (j.+1 + i)%N) = (q - i.+2).+1 by rewrite Q subnSK.
    have := queue_round Q'; rewrite (goal_same K) cutE /= addnS => ->; case: K => K1 K2 K3; split=> //=.
    rewrite V -addrA -scalerDl; congr (_ + _ *: _).
    by rewrite -[in RHS]addn1 natrD mulrDl mul1r.
  have Hqq : (kt_queue (S j.+1)).+1 = q.
    by have [_ _ _] := Hind 0%N Hq1; rewrite addn0 => ->; rewrite subn1 prednK.
  have Hlast : (kt_queue (S j.+1) < q)%N by rewrite -Hqq.
  have [K V _ Q] := Hind _ Hlast; rewrite Hqq in V Q.
  split=> //.
  + by split; [rewrite E1 cutE | apply: leq_trans Hlast _; rewrite geq_minr].
  + by split=> //; rewrite Q subnn.
  + by move=> i Hiq; have [|_ _ ->] := Hind i; first by rewrite -Hqq.
  + rewrite V addrAC subrr add0r; exists (q%:R * (m / norm d)).
    have Hsq : sqn ((q%:R * (m / norm d)) *: d) = (q%:R * m) ^+ 2.
      by rewrite sqnZ -Hd -exprMn -!mulrA mulVf ?mulr1 // gt_eqF.
    rewrite Hsq; split=> //.
    * apply/andP; split; first by rewrite mulr_gt0 ?ltr0n // divr_gt0.
      rewrite mulrA ler_pdivr_mulr // mul1r -ler_pdivl_mulr //.
      by case/andP: Hi => H1 _; apply: le_trans H1; rewrite ler_nat geq_minl.
    * by right; rewrite exprMn ler_pmull ?exprn_gt0 //; apply: exprn_ege1; rewrite ler1n.
    * by rewrite !exprMn ler_pmul2r ?exprn_gt0 // ler_pexpn2r ?nnegrE ?ler0n // ler_nat geq_minr.
Qed.

Fixpoint eval_at (t : nat) : nat := if t is t'.+1 then ((eval_at t').+1 + kt_queue (S (eval_at t').+1))%N else 0%N.
Definition visits (t : nat) : mkn F n k * 'rV[F]_n :=
  (if t is t'.+1 then kt_solver (S (eval_at t').+1) else kt_solver (S 0%N), kt_volt (S (eval_at t))).
Lemma visit_facts t : [/\ kt_queue (S (eval_at t)) = 0%N, kt_evals (S (eval_at t)) = t & same_knowledge (kt_solver (S (eval_at t))) (visits t).1].
Proof.
elim: t => [|t [Q E _]]; first by rewrite /= Hq0 He0.
have [st [_ [Es _] [K Q'] Ev _]] := next_eval Q.
by rewrite /= Q' (Ev _ (leqnn _)) E Es.
Qed.
Lemma visits_seen : seen_in S eval_at visits.
Proof.
split=> //.
- move=> t j /andP [H1 H2]; have [Q E _] := visit_facts t; have [st [_ _ _ Ev _]] := next_eval Q.
  rewrite -(subnKC H1) Ev ?E //; rewrite leq_subLR; exact: H2.
- by move=> t /=; rewrite ltnS leq_addr.
Qed.
Lemma visits_taken : taken f w visits.
Proof.
move=> t; have [Q E K] := visit_facts t; have [st [Eu [Es _] _ _ _]] := next_eval Q.
rewrite E in Eu; by rewrite -(update_same _ _ _ K) -[(visits t).2]/(kt_volt (S (eval_at t))) Eu /= Es.
Qed.
Lemma visits_part t : (eval_at t.+1 <= eval_at t + number)%N /\ part_of m (number%:R * m) (whole_step visits t) (step_of visits t.+1).
Proof.
have [Q E K] := visit_facts t; have [st [Eu [Es Hn] _ _ Hp]] := next_eval Q.
split; first by rewrite /= addSn -addnS leq_add2l.
have -> : whole_step visits t = goal_of st by rewrite /whole_step /goal_of /= Es.
have -> // : step_of visits t.+1 = kt_volt (S ((eval_at t).+1 + kt_queue (S (eval_at t).+1))%N) - kt_volt (S (eval_at t)).
rewrite /step_of /= Es; congr (_ - _); move: Eu; rewrite /kn_update; case: first_exn => // _ [<-] //.
Qed.
End Queue.
