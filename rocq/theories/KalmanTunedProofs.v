(** Lemmas for KalmanTunedProps.v. *)
From mathcomp Require Import all_ssreflect all_algebra.
From Coq Require Import Ring Field.
From Verif Require Import PyExn FieldTac LinAlgModel LinAlgSpec LinAlgProofs FDProofs LoopProofs KalmanModel KalmanSpec KalmanProofs KalmanHistory KalmanRequests
  KalmanLoopModel KalmanLoopSpec KalmanLoopProofs KalmanFitSpec KalmanFitProofs KalmanGlobalSpec KalmanGlobalProofs KalmanFadeSpec KalmanFadeProofs KalmanTunedSpec.
Set Implicit Arguments. Unset Strict Implicit. Unset Printing Implicit Defensive.
Import Order.TTheory GRing.Theory Num.Theory.
Local Open Scope ring_scope.

Section One.
Variables (F : realFieldType) (n : nat).
Add Field Ffield144 : (F_field F).
Lemma scale_const (v : 'rV[F]_n) e : scale v (const_mx e) = e *: v.
Proof. by apply/rowP => i; rewrite !mxE mulrC. Qed.

(** A measurement along a direction of variance above [M] reduces the trace. *)
Lemma tuned_drop (C : 'M[F]_n) (v : 'rV[F]_n) M e r rmax : psd C -> sqn v = 1 -> 0 < M -> M <= variance C v -> 0 < r -> r <= rmax ->
  M ^+ 2 * e ^+ 2 / (M * e ^+ 2 + rmax) <= sqn ((e *: v) *m C) / (variance C (e *: v) + r).
Proof.
move=> HC Hv HM Hlam Hr Hrmax; set lam := variance C v in Hlam *.
have Hl0 : 0 < lam by apply: lt_le_trans Hlam.
have Hrm : 0 < rmax by apply: lt_le_trans Hrmax.
have E1 : variance C (e *: v) = lam * e ^+ 2 by rewrite /variance -!scalemxAl linearZ /= -scalemxAr mxE mxE -/(variance C v) -/lam mulrA mulrC expr2.
have Hnum : lam ^+ 2 * e ^+ 2 <= sqn ((e *: v) *m C).
  rewrite -scalemxAl sqnZ mulrC; apply: ler_wpmul2l; first exact: sqr_ge0.
  have := cauchy_rows (v *m C) v; by rewrite Hv mulr1.
rewrite E1; have He := sqr_ge0 e; move: (e ^+ 2) He Hnum => b Hb Hnum.
have Hden : 0 < lam * b + r by rewrite ltr_paddl // mulr_ge0 // ltW.
have Hden2 : 0 < M * b + rmax by rewrite ltr_paddl // mulr_ge0 // ltW.
have Hden3 : 0 < lam * b + rmax by rewrite ltr_paddl // mulr_ge0 // ltW.
apply: (@le_trans _ _ (lam ^+ 2 * b / (lam * b + rmax))); last first.
  apply: ler_pmul => //; first by apply: mulr_ge0 => //; exact: sqr_ge0.
  - by rewrite invr_ge0 ltW.
  - by rewrite lef_pinv ?posrE // ler_add2l.
rewrite ler_pdivr_mulr // [X in _ <= X]mulrAC ler_pdivl_mulr // !mulrDr; apply: ler_add.
  have E : forall a l : F, a ^+ 2 * b * (l * b) = (a * l * (b * b)) * a.
    by move=> a l; rewrite expr2; fold_field F; ring.
  rewrite !E [lam * M]mulrC; apply: ler_wpmul2l => //.
  by apply: mulr_ge0; [apply: mulr_ge0; exact: ltW | exact: mulr_ge0].
by rewrite ler_wpmul2r ?(ltW Hrm) // ler_wpmul2r // ler_pexpn2r ?nnegrE ?(ltW HM) ?(ltW Hl0).
Qed.

(** A measurement with the estimated outcome does not change the estimate. *)
Lemma no_surprise (kf : filter F (1 * n) 1) d r : static kf ->
  grad (kg_update d (grad kf *m d^T) (Some r%:M) None true kf).1 = grad kf.
Proof.
move=> Hs; rewrite /kg_update predict_static // /correct; case: ifP => //= _.
rewrite /grad /= -create_H_mul; congr (vec_mx (_ ^T)).
by rewrite subrr mulmx0 addr0.
Qed.
End One.

Section Runs.
Variables (F : realFieldType) (n k : nat).
Variables (request : 'I_k -> mkal F n -> option 'rV[F]_n) (f w : nat -> 'rV[F]_n -> 'rV[F]_k) (s : nat -> mkn F n k * 'rV[F]_n).
Hypothesis Hw : forall t p i, 0 < w t p 0 i.
Hypothesis H0 : forall i, untold (kn_ests (s 0%N).1 i).
Hypothesis Hrun : run_of request f w s.
Let A0 : 'M[F]_(k, n) := 0.

Lemma run_pos t : kn_pos (s t.+1).1 = (s t).2 /\ kn_vals (s t.+1).1 = f t (s t).2.
Proof.
have G : good (s t).1 by case: t => [|t]; [exact: start_good | have [] := run_facts A0 Hw H0 Hrun t].
by have [_ [-> -> _ _ _]] := round_learns A0 Hw Hrun G.
Qed.

(** The filter of an estimator after a long step. *)
Lemma run_filter t i : mk_kf (kn_ests (s t.+2).1 i) =
  if long s t.+1 then (kg_update (step_of s t.+1) (f t.+1 (s t.+1).2 0 i - f t (s t).2 0 i)%:M (Some (w t.+1 (s t.+1).2 0 i)%:M) None true (mk_kf (kn_ests (s t.+1).1 i))).1
  else mk_kf (kn_ests (s t.+1).1 i).
Proof.
have [G S _ _ _] := run_facts A0 Hw H0 Hrun t; have [Hp Hval] := S i.
have [_ Ev] := run_pos t.
have [st' [[Eu _ _ _] _]] := kn_learns A0 (s t.+1).2 (f t.+1 (s t.+1).2) G (Hw t.+1 (s t.+1).2).
have := Hrun t.+1; rewrite /kn_round Eu => -[<-] /=; move: Eu; rewrite /kn_update; case: first_exn => // _ [<-] /=.
rewrite /mkal_update Hval Hp ltNge /long /step_of Ev; case: (shortest2 F <= _) => //=.
by case: (kg_update _ _ _ _ _ _).2.
Qed.

Lemma run_first i : mk_kf (kn_ests (s 1%N).1 i) = mk_kf (kn_ests (s 0%N).1 i).
Proof.
have := Hrun 0%N; rewrite /kn_round; case Eu: kn_update => [st'|//] [<-] /=.
by move: Eu; rewrite /kn_update; case: first_exn => // _ [<-] /=; rewrite /mkal_update; have [_ _ _ ->] := H0 i.
Qed.

Lemma asked t : asks request s t.+1 -> exists i, request i (kn_ests (s t.+1).1 i) = Some (s t.+1).2.
Proof.
have [_ _ _ E _] := run_facts A0 Hw H0 Hrun t => Ha.
rewrite E /kn_suggest; case Ep: (pmap _ _) => [|p l].
  case/existsP: Ha => i Hi; case Er: (request i _) Hi => [p|//] _.
  have : p \in pmap (fun i => request i (kn_ests (s t.+1).1 i)) (enum 'I_k).
    by rewrite mem_pmap -Er; apply: map_f; rewrite mem_enum.
  by rewrite Ep.
have : p \in pmap (fun i => request i (kn_ests (s t.+1).1 i)) (enum 'I_k) by rewrite Ep mem_head.
by rewrite mem_pmap => /mapP [i _ ->]; exists i.
Qed.

Section Few.
Variables (M e wmax : F).
Hypothesis HM : 0 < M.
Hypothesis Hmax : forall t p i, w t p 0 i <= wmax.
Hypothesis Hask : asks_tuned M (const_mx e) request.
Hypothesis Hsh : shortest2 F <= e ^+ 2.
Definition tdrop : F := M ^+ 2 * e ^+ 2 / (M * e ^+ 2 + wmax).

Lemma tuned_asks_drop t : asks request s t.+1 -> trace_all (s t.+2).1 <= trace_all (s t.+1).1 - tdrop.
Proof.
move=> Ha; have [G S _ _ _] := run_facts A0 Hw H0 Hrun t.
have [_ [_ _ C _ _]] := round_learns A0 Hw Hrun G.
have [i Hi] := asked Ha.
rewrite /trace_all (bigD1 i) //= [X in _ <= X - _](bigD1 i) //= addrAC; apply: ler_add; last first.
  by apply: ler_sum => j _; apply: trace_variance => v; exact: C.
have [basis [Hb Er]] := Hask i (kn_ests (s t.+1).1 i).
have := require_tuned (gate_cov (mk_kf (kn_ests (s t.+1).1 i))) basis M (const_mx e) (mk_pos (kn_ests (s t.+1).1 i)).
rewrite -Er Hi => -[v [Hv [Ep [Hlt _]]]].
have [Hp _] := S i.
have Ed : step_of s t.+1 = e *: v by rewrite /step_of Ep Hp scale_const addrAC subrr add0r.
have Hl : long s t.+1 by rewrite /long Ed sqnZ (Hb v Hv) mulr1.
have [Hst HP Hu] := G i.
rewrite /cov_of run_filter Hl Ed -!gate_trace.
have [_ _ ->] := gate_update (e *: v) (f t.+1 (s t.+1).2 0 i - f t (s t).2 0 i)%:M true Hst HP (Hw t.+1 (s t.+1).2 i).
rewrite ler_add2l ler_opp2; apply: tuned_drop => //; [exact: gate_psd | exact: Hb | exact: ltW].
Qed.

Lemma tuned_asks_bounded N : 0 <= wmax -> #|[pred t : 'I_N | asks request s t.+1]|%:R * tdrop <= trace_all (s 0%N).1.
Proof.
move=> Hwm.
have Hs : trace_all (s N.+1).1 + \sum_(t < N | asks request s t.+1) tdrop <= trace_all (s 0%N).1.
  elim: N => [|N IH].
    rewrite big_ord0 addr0; apply: ler_sum => i _; apply: trace_variance => v.
    by have [_ _ _ _ C] := run_facts A0 Hw H0 Hrun 0; exact: C.
  apply: le_trans IH; rewrite big_mkcond big_ord_recr -big_mkcond /=.
  case: ifP => Ha; first by rewrite addrA addrAC ler_add2r -ler_subr_addr; exact: tuned_asks_drop.
  rewrite addr0 ler_add2r; apply: ler_sum => i _; apply: trace_variance => v.
  have [G _ _ _ _] := run_facts A0 Hw H0 Hrun N.
  by have [_ [_ _ C _ _]] := round_learns A0 Hw Hrun G; exact: C.
apply: le_trans Hs; rewrite sumr_const mulr_natl -[X in X <= _]add0r ler_add2r.
apply: sumr_ge0 => i _; apply: trace_ge0.
by have [G _ _ _ _] := run_facts A0 Hw H0 Hrun N; have [_ HP _] := G i.
Qed.
End Few.

Section Kept.
Variables (j : 'I_k) (g : 'rV[F]_n) (c : F).
Hypothesis Hexact : forall t p, f t p 0 j = (g *m p^T) 0 0 + c.
Hypothesis Hg : grad (mk_kf (kn_ests (s 0%N).1 j)) = g.
Lemma gradient_kept t : grad (mk_kf (kn_ests (s t).1 j)) = g.
Proof.
case: t => [//|]; elim=> [|t IH]; first by rewrite run_first.
rewrite run_filter; case: ifP => // _; have [G _ _ _ _] := run_facts A0 Hw H0 Hrun t; have [Hst _ _] := G j.
have [Hp _] := run_pos t.
have -> : (f t.+1 (s t.+1).2 0 j - f t (s t).2 0 j)%:M = grad (mk_kf (kn_ests (s t.+1).1 j)) *m (step_of s t.+1)^T :> 'cV[F]_1.
  rewrite IH !Hexact [RHS]mx11_scalar; congr (_%:M).
  rewrite /step_of Hp opprD addrACA subrr addr0 (linearB (trmx_linear _ _ _)) /= mulmxBr [RHS]mxE [X in _ = _ + X]mxE.
  by [].
by rewrite no_surprise.
Qed.
End Kept.
End Runs.

Section Away.
Variables (F : realFieldType) (n k : nat) (v eps : 'rV[F]_n) (M : F).
Variables (f w : nat -> 'rV[F]_n -> 'rV[F]_k) (s : nat -> mkn F n k * 'rV[F]_n).
Local Notation request := (asks_along v M eps).
Hypothesis Hw : forall t p i, 0 < w t p 0 i.
Hypothesis H0 : forall i, untold (kn_ests (s 0%N).1 i).
Hypothesis Hrun : run_of request f w s.
Variables (i : 'I_k) (u : 'rV[F]_n).
Hypothesis Hu : (scale v eps *m u^T) 0 0 = 0.
Hypothesis Hbig : M * info (mk_kf (kn_ests (s 0%N).1 i)) u < (v *m u^T) 0 0 ^+ 2.
Let A0 : 'M[F]_(k, n) := 0.

Lemma along_some (e : mkal F n) (p : 'rV[F]_n) (l : 'I_k) : request l e = Some p -> p = mk_pos e + scale v eps.
Proof.
have := require_tuned (gate_cov (mk_kf e)) [:: v] M eps (mk_pos e); rewrite /asks_along => H E; move: H; rewrite E => -[v' [Hv' [-> _]]].
by move: Hv'; rewrite inE => /eqP ->.
Qed.

Lemma along_asks t : info (mk_kf (kn_ests (s t.+1).1 i)) u = info (mk_kf (kn_ests (s 0%N).1 i)) u -> isSome (request i (kn_ests (s t.+1).1 i)).
Proof.
move=> Ei; have [G _ _ _ _] := run_facts A0 Hw H0 Hrun t; have [_ HP Hun] := G i.
have := require_tuned (gate_cov (mk_kf (kn_ests (s t.+1).1 i))) [:: v] M eps (mk_pos (kn_ests (s t.+1).1 i)).
rewrite -/(request i _); case: (request i _) => [//|] /(_ v); rewrite mem_head => /(_ isT) Hle; exfalso.
have Ev : variance (gate_cov (mk_kf (kn_ests (s t.+1).1 i))) v = variance (kf_P (mk_kf (kn_ests (s t.+1).1 i))) (mxvec v).
  rewrite variance_place; congr (variance _ _).
  rewrite -(create_H1 v) place_H -mulmxA.
  have -> : place F n *m (place F n)^T = 1%:M; last by rewrite mulmx1.
  apply/matrixP => a b; rewrite !mxE (bigD1 (mxvec_index 0 a)) //= big1 ?addr0 => [|c Hc]; last by rewrite !mxE (negPf Hc) mul0r.
  by rewrite !mxE eqxx mul1r index_inj.
have := quad_schwarz HP Hun (mxvec v) (mxvec u)^T; rewrite -/(info _ u) Ei -Ev.
have -> : (mxvec v *m (mxvec u)^T) 0 0 = (v *m u^T) 0 0.
  by rewrite -(create_H1 v) create_H_mul trmxK mxvecK -[u in LHS]trmxK -trmx_mul mxE.
have Hi : 0 <= info (mk_kf (kn_ests (s 0%N).1 i)) u by rewrite -Ei; apply: quad_ge0; exact: psd_inv.
move=> H; have := le_lt_trans (le_trans H (ler_wpmul2r Hi Hle)) Hbig.
by rewrite ltxx.
Qed.

Lemma runaway t : info (mk_kf (kn_ests (s t.+1).1 i)) u = info (mk_kf (kn_ests (s 0%N).1 i)) u /\ (s t.+1).2 = (s t).2 + scale v eps.
Proof.
have Hinfo : info (mk_kf (kn_ests (s t.+1).1 i)) u = info (mk_kf (kn_ests (s 0%N).1 i)) u -> (s t.+1).2 = (s t).2 + scale v eps.
  move=> Ei; have Ha : asks request s t.+1 by apply/existsP; exists i; exact: along_asks.
  have [l Hl] := asked Hw H0 Hrun Ha; have [_ S _ _ _] := run_facts A0 Hw H0 Hrun t.
  by rewrite (along_some Hl); have [-> _] := S l; have [-> _] := run_pos Hw H0 Hrun t.
elim: t Hinfo => [|t IH] Hinfo.
  have E : info (mk_kf (kn_ests (s 1%N).1 i)) u = info (mk_kf (kn_ests (s 0%N).1 i)) u by rewrite (run_first H0 Hrun).
  by split=> //; exact: Hinfo.
have Hprev : info (mk_kf (kn_ests (s t.+1).1 i)) u = info (mk_kf (kn_ests (s 0%N).1 i)) u -> (s t.+1).2 = (s t).2 + scale v eps.
  move=> Ei; have Ha : asks request s t.+1 by apply/existsP; exists i; exact: along_asks.
  have [l Hl] := asked Hw H0 Hrun Ha; have [_ S _ _ _] := run_facts A0 Hw H0 Hrun t.
  by rewrite (along_some Hl); have [-> _] := S l; have [-> _] := run_pos Hw H0 Hrun t.
have [Ei Ep] := IH Hprev.
have [G _ _ _ _] := run_facts A0 Hw H0 Hrun t; have [Hst HP Hun] := G i.
have E : info (mk_kf (kn_ests (s t.+2).1 i)) u = info (mk_kf (kn_ests (s 0%N).1 i)) u.
  rewrite (run_filter Hw H0 Hrun); case: ifP => // _.
  have Ek := predict_static Hst.
  have HP1 : psd (kf_P (predict None (mk_kf (kn_ests (s t.+1).1 i)))) by rewrite Ek.
  have Hu1 : kf_P (predict None (mk_kf (kn_ests (s t.+1).1 i))) \in unitmx by rewrite Ek.
  have [_ _ _ ->] := one_call (step_of s t.+1) (f t.+1 (s t.+1).2 0 i - f t (s t).2 0 i)%:M HP1 Hu1 (Hw t.+1 (s t.+1).2 i).
  have -> : step_of s t.+1 = scale v eps by rewrite /step_of Ep; have [-> _] := run_pos Hw H0 Hrun t; rewrite addrAC subrr add0r.
  by rewrite Hu expr0n mul0r addr0 Ek Ei.
by split=> //; exact: Hinfo.
Qed.
End Away.
