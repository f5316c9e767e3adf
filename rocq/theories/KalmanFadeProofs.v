(** Lemmas for KalmanFadeProps.v. *)
From mathcomp Require Import all_ssreflect all_algebra.
From Coq Require Import Ring Field.
From Verif Require Import PyExn FieldTac LinAlgModel LinAlgSpec LinAlgProofs FDProofs LoopProofs KalmanModel KalmanSpec KalmanProofs KalmanHistory KalmanRequests
  KalmanLoopModel KalmanLoopSpec KalmanLoopProofs KalmanFitSpec KalmanFitProofs KalmanGlobalSpec KalmanGlobalProofs KalmanFadeSpec.
Set Implicit Arguments. Unset Strict Implicit. Unset Printing Implicit Defensive.
Import Order.TTheory GRing.Theory Num.Theory.
Local Open Scope ring_scope.

Section Forget.
Variables (F : realFieldType) (m n : nat).
Lemma misfit_noiseless (R0 : 'M[F]_m) c (g : 'M[F]_(m, n)) : noiseless g c -> misfit R0 c g = 0.
Proof. by move=> H; rewrite /misfit H subrr /quad mulmx0 mxE. Qed.

Lemma cost_forgets alpha R0 x0 P0 (g : 'M[F]_(m, n)) (older cs : seq (call F m n)) :
  (forall i c0, (i < size cs)%N -> noiseless g (nth c0 cs i) /\ c_predict (nth c0 cs i) = true) ->
  fit_cost alpha R0 x0 P0 (rev (older ++ cs)) g = (alpha ^+ 2) ^- size cs * fit_cost alpha R0 x0 P0 (rev older) g.
Proof.
elim/last_ind: cs => [|cs c IH] Hc; first by rewrite cats0 expr0 invr1 mul1r.
have [H1 H2] : noiseless g c /\ c_predict c = true by have := Hc (size cs) c; rewrite size_rcons nth_rcons ltnn eqxx; apply.
rewrite -rcons_cat rev_rcons /= H2 misfit_noiseless // addr0 IH; last first.
  by move=> i c0 Hi; have := Hc i c0; rewrite size_rcons nth_rcons Hi; apply; exact: ltnW.
by rewrite mulrA size_rcons; congr (_ * _); move: (alpha ^+ 2) => a; rewrite exprS invfM.
Qed.
End Forget.

Section One.
Variables (F : realFieldType) (n : nat).
Add Field Ffield143 : (F_field F).
Implicit Types (u d : 'rV[F]_n) (kf : filter F (1 * n) 1).
(** Information about the direction [u]. *)
Definition info kf u : F := quad (invmx (kf_P kf)) (mxvec u)^T.

Lemma one_call kf d (y : 'cV[F]_1) (r : F) : psd (kf_P (predict None kf)) -> kf_P (predict None kf) \in unitmx -> 0 < r ->
  let k1 := kg_update d y (Some r%:M) None true kf in
  [/\ k1.2 = Ok tt, psd (kf_P k1.1) /\ kf_P k1.1 \in unitmx, [/\ kf_F k1.1 = kf_F kf, kf_Q k1.1 = kf_Q kf & kf_alpha k1.1 = kf_alpha kf] &
      forall u, info k1.1 u = info (predict None kf) u + (d *m u^T) 0 0 ^+ 2 / r].
Proof.
rewrite /kg_update; set k0 := predict None kf => HP Hu Hr /=.
have HR : psd (r%:M : 'M[F]_1) by exact/psd_scalar/ltW.
have HuR : (r%:M : 'M[F]_1) \in unitmx by rewrite -scalemx1 unitmxZ ?unitmx1 // unitfE gt_eqF.
have HS : create_H 1 d *m kf_P k0 *m (create_H 1 d)^T + r%:M \in unitmx by apply: psd_unit_add => //; exact: psd_congr.
have [Hok [Ex EP]] := @correct_ok _ _ _ y r%:M (Some r%:M) (create_H 1 d) k0 erefl HP.1 HR.1 HS.
have [K1 [K2 [_ K4]]] := correct_keeps y (Some r%:M) (create_H 1 d) k0.
have [Hu' Hinv _] := information (kf_x k0) y HP.1 Hu HuR HS.
rewrite -EP in Hu' Hinv.
split=> //.
  by split=> //; rewrite /correct HS /=; apply: psd_add; exact: psd_congr.
move=> u; rewrite /info Hinv.
rewrite /quad mulmxDr mulmxDl [LHS]mxE; congr (_ + _).
have E : create_H 1 d *m (mxvec u)^T = ((d *m u^T) 0 0)%:M.
  rewrite create_H_mul trmxK mxvecK [LHS]mx11_scalar; congr (_%:M).
  by rewrite -[u in LHS]trmxK -trmx_mul mxE.
have -> : (mxvec u)^T^T *m ((create_H 1 d)^T *m invmx r%:M *m create_H 1 d) *m (mxvec u)^T
        = (create_H 1 d *m (mxvec u)^T)^T *m invmx r%:M *m (create_H 1 d *m (mxvec u)^T) by rewrite trmx_mul !mulmxA.
by rewrite E invmx_scalar tr_scalar_mx -!scalar_mxM mxE eqxx mulr1n expr2 mulrAC.
Qed.

(** What has just been measured is known at least as well as measured. *)
Lemma measured_variance kf d (y : 'cV[F]_1) (r : F) : psd (kf_P (predict None kf)) -> 0 < r ->
  variance (kf_P (kg_update d y (Some r%:M) None true kf).1) (mxvec d) <= r.
Proof.
rewrite /kg_update; set k0 := predict None kf => HP Hr /=.
have HR : psd (r%:M : 'M[F]_1) by exact/psd_scalar/ltW.
have HuR : (r%:M : 'M[F]_1) \in unitmx by rewrite -scalemx1 unitmxZ ?unitmx1 // unitfE gt_eqF.
have HS : create_H 1 d *m kf_P k0 *m (create_H 1 d)^T + r%:M \in unitmx by apply: psd_unit_add => //; exact: psd_congr.
have [_ [_ EP]] := @correct_ok _ _ _ y r%:M (Some r%:M) (create_H 1 d) k0 erefl HP.1 HR.1 HS.
rewrite EP gain_variance ?HP.1 //= (create_H1 d).
have Ev : mxvec d *m kf_P k0 *m (mxvec d)^T = (variance (kf_P k0) (mxvec d))%:M by exact: mx11_scalar.
have Hv : 0 <= variance (kf_P k0) (mxvec d) by exact: HP.2.
rewrite Ev; move: (variance _ _) Hv {Ev} => v Hv.
rewrite -raddfD /= invmx_scalar tr_scalar_mx -!scalar_mxM mxE eqxx mulr1n.
have Hp : 0 < v + r by rewrite ltr_paddl.
have -> : v - v / (v + r) * v = v * r / (v + r).
  have N : v + r != 0 by rewrite gt_eqF.
  by clear Hv Hp HuR HS HR EP Hr; fold_field F; field; apply/eqP.
by rewrite ler_pdivr_mulr // mulrC; apply: ler_wpmul2l; [exact: ltW | rewrite ler_addl ltW].
Qed.

(** The more information, the less variance, and the other way round. *)
Lemma info_variance kf u : psd (kf_P kf) -> kf_P kf \in unitmx -> sqn u ^+ 2 <= variance (kf_P kf) (mxvec u) * info kf u.
Proof.
move=> HP Hu; have := quad_schwarz HP Hu (mxvec u) (mxvec u)^T.
by rewrite -sqn_row sqn_mxvec.
Qed.

Lemma require_wide kf u (M : F) vals vecs eps pos : psd (kf_P kf) -> kf_P kf \in unitmx -> 0 < M -> u != 0 ->
  eigenbasis (gate_cov kf) vecs vals -> M * info kf u < sqn u ->
  exists p, kal_require vals vecs (const_mx M^-1) eps pos = Some p.
Proof.
move=> HP Hu HM Hu0 HE Hlt; have HC := gate_psd HP.
have := require_uniform HE eps pos HC HM; case: kal_require => [p _|Hno]; first by exists p.
have Hs : 0 < sqn u by rewrite lt_neqAle sqn_ge0 eq_sym sqn_eq0 Hu0.
have := Hno (mxvec u *m (place F n)^T); rewrite place_sqn -variance_place sqn_mxvec => Hv.
have Hi : 0 <= info kf u by apply: quad_ge0; exact: psd_inv.
have := le_trans (info_variance u HP Hu) (ler_wpmul2r Hi Hv).
by rewrite expr2 mulrAC ler_pmul2r // leNgt Hlt.
Qed.

Section Fading.
Variables (u : 'rV[F]_n) (alpha del : F).
Hypothesis Ha : 1 < alpha.
Hypothesis Hdel : 0 <= del.
Let a2 : F := alpha ^+ 2.
Lemma a2_gt1 : 1 < a2. Proof. by rewrite /a2 exprn_egt1. Qed.
Lemma a2_gt0 : 0 < a2. Proof. exact: lt_trans ltr01 a2_gt1. Qed.

Definition fader kf : Prop := [/\ kf_F kf = 1%:M, kf_Q kf = 0, kf_alpha kf = alpha, psd (kf_P kf) & kf_P kf \in unitmx].

Lemma fader_call kf c : fader kf -> weak u del c -> fader (run_call kf c) /\ info (run_call kf c) u <= a2^-1 * info kf u + del * sqn u.
Proof.
move=> [EF EQ Ea HP Hu] [E1 E2 [r [Hr ER Hd]]].
have EP : kf_P (predict None kf) = a2 *: kf_P kf by rewrite /= EF EQ Ea trmx1 mulmx1 mul1mx addr0.
have HP1 : psd (kf_P (predict None kf)) by rewrite EP; apply: psd_scale => //; exact: ltW a2_gt0.
have Hu1 : kf_P (predict None kf) \in unitmx by rewrite EP unitmxZ // unitfE gt_eqF // a2_gt0.
have := @one_call kf (c_diff c) (c_vals c) r HP1 Hu1 Hr; rewrite /run_call E1 E2 ER => -[_ [P' U'] [F' Q' A'] HI].
split; first by split; rewrite ?F' ?Q' ?A'.
rewrite HI; apply: ler_add; last by rewrite ler_pdivr_mulr // mulrAC.
by rewrite /info EP invmxZ -?EP // quadZ.
Qed.

Lemma fader_history kf cs : fader kf -> (forall i c0, (i < size cs)%N -> weak u del (nth c0 cs i)) ->
  fader (history kf cs) /\ info (history kf cs) u <= a2 ^- size cs * info kf u + del * (a2 / (a2 - 1)) * sqn u.
Proof.
have H1 : 0 < a2 - 1 by rewrite subr_gt0 a2_gt1.
move=> Hf; elim/last_ind: cs => [|cs c IH] Hc.
  split=> //=; rewrite expr0 invr1 mul1r ler_addl.
  apply: mulr_ge0; last exact: sqn_ge0.
  by apply: mulr_ge0 => //; apply: divr_ge0; [exact: ltW a2_gt0 | exact: ltW].
have [Hk HI] : fader (history kf cs) /\ info (history kf cs) u <= a2 ^- size cs * info kf u + del * (a2 / (a2 - 1)) * sqn u.
  apply: IH; move=> i c0 Hi; have := Hc i c0; rewrite size_rcons nth_rcons Hi; apply; exact: ltnW.
have Hw : weak u del c by have := Hc (size cs) c; rewrite size_rcons nth_rcons ltnn eqxx; apply.
have [Hk' HI'] := fader_call Hk Hw.
rewrite /history -cats1 foldl_cat /= -/(history kf cs) cats1 size_rcons; split=> //.
apply: (le_trans HI').
apply: (@le_trans _ _ (a2^-1 * (a2 ^- size cs * info kf u + del * (a2 / (a2 - 1)) * sqn u) + del * sqn u)).
  by rewrite ler_add2r; apply: ler_wpmul2l => //; rewrite invr_ge0 ltW // a2_gt0.
have -> : a2 ^- (size cs).+1 = a2^-1 * a2 ^- size cs by rewrite exprS invfM.
rewrite mulrDr mulrA -addrA ler_add2l le_eqVlt; apply/orP; left; apply/eqP.
have N1 : a2 != 0 by rewrite gt_eqF // a2_gt0.
have N2 : a2 - 1 != 0 by rewrite gt_eqF.
move: N1 N2; generalize a2 (sqn u) del => a s e N1 N2.
by fold_field F; field; split; apply/eqP.
Qed.
End Fading.

Section Drift.
Variable q : F.
Hypothesis Hq : 0 < q.
Lemma cauchy_rows b (v e : 'rV[F]_b) : (v *m e^T) 0 0 ^+ 2 <= sqn v * sqn e.
Proof.
have := quad_schwarz (@psd_scalar F b 1 ler01) (unitmx1 _ _) v e^T.
by rewrite /variance /quad invmx1 !mulmx1 trmxK -!sqn_row.
Qed.

Lemma drift_unit (Q : 'M[F]_(1 * n)) : (forall u : 'rV[F]_(1 * n), q * sqn u <= variance Q u) -> Q \in unitmx.
Proof.
move=> H; rewrite -row_free_unit; apply: inj_row_free => v Hv.
have := H v; rewrite /variance Hv mul0mx mxE => Hle.
apply/eqP; rewrite -sqn_eq0 eq_le sqn_ge0 andbT.
by rewrite -(pmulr_rle0 _ Hq).
Qed.

Lemma drift_info (P : 'M[F]_(1 * n)) (e : 'rV[F]_(1 * n)) : psd P -> P \in unitmx -> (forall u : 'rV[F]_(1 * n), q * sqn u <= variance P u) -> quad (invmx P) e^T <= sqn e / q.
Proof.
move=> HP Hu H; set x := quad _ _.
pose v := e *m invmx P.
have Hx : variance P v = x by rewrite /variance /v /x /quad trmxK mulmxKV // trmx_mul trmx_inv HP.1 mulmxA.
have Hve : (v *m e^T) 0 0 = x by rewrite /v /x /quad trmxK.
have Hx0 : 0 <= x by apply: quad_ge0; exact: psd_inv.
have H1 := H v; rewrite Hx in H1.
have H2 := cauchy_rows v e; rewrite Hve in H2.
have [->|Hn] := eqVneq x 0; first by rewrite divr_ge0 ?sqn_ge0 // ltW.
have Hp : 0 < x by rewrite lt_neqAle eq_sym Hn.
rewrite ler_pdivl_mulr // -(ler_pmul2r Hp) mulrAC -expr2.
apply: (@le_trans _ _ (sqn v * sqn e * q)); first by apply: ler_wpmul2r => //; exact: ltW.
rewrite mulrAC mulrC; apply: ler_wpmul2l; first exact: sqn_ge0.
by rewrite mulrC.
Qed.

Lemma drift_call kf d y (r : F) : drifts q kf -> psd (kf_P kf) -> 0 < r ->
  let k1 := kg_update d y (Some r%:M) None true kf in
  [/\ k1.2 = Ok tt, drifts q k1.1, psd (kf_P k1.1), kf_P k1.1 \in unitmx & forall u, info k1.1 u <= (q^-1 + sqn d / r) * sqn u].
Proof.
move=> [EF HQ Hd] HP Hr.
have EP : kf_P (predict None kf) = kf_alpha kf ^+ 2 *: kf_P kf + kf_Q kf by rewrite /= EF trmx1 mulmx1 mul1mx.
have HA : psd (kf_alpha kf ^+ 2 *: kf_P kf) by apply: psd_scale => //; exact: sqr_ge0.
have HP1 : psd (kf_P (predict None kf)) by rewrite EP; exact: psd_add.
have Hu1 : kf_P (predict None kf) \in unitmx by rewrite EP; apply: psd_unit_add => //; exact: drift_unit.
have Hd1 (u : 'rV[F]_(1 * n)) : q * sqn u <= variance (kf_P (predict None kf)) u.
  apply: (le_trans (Hd u)); rewrite EP /variance mulmxDr mulmxDl [X in _ <= X]mxE ler_addr; exact: HA.2.
have [Hok [P' U'] [F' Q' A'] HI] := one_call d y HP1 Hu1 Hr.
split=> //; first by split; rewrite ?F' ?Q'.
move=> u; rewrite HI mulrDl; apply: ler_add.
  by have := drift_info (mxvec u) HP1 Hu1 Hd1; rewrite sqn_mxvec mulrC.
rewrite [X in _ <= X]mulrAC ler_pmul2r ?invr_gt0 //; exact: cauchy_rows.
Qed.
End Drift.
End One.

Section DriftRuns.
Variables (F : realFieldType) (n k : nat) (q : F).
Hypothesis Hq : 0 < q.
Definition drifting (st : mkn F n k) : Prop := forall i, drifts q (mk_kf (kn_ests st i)) /\ psd (kf_P (mk_kf (kn_ests st i))).
Lemma drift_mkal (e : mkal F n) p (y r : F) : drifts q (mk_kf e) -> psd (kf_P (mk_kf e)) -> 0 < r ->
  let u := mkal_update p y r e in
  u.2 = Ok tt /\ [/\ drifts q (mk_kf u.1), psd (kf_P (mk_kf u.1)), mk_pos u.1 = p, mk_val u.1 = Some y &
      (if mk_val e is Some _ then shortest2 F <= sqn (p - mk_pos e) else false) ->
        kf_P (mk_kf u.1) \in unitmx /\ forall v, info (mk_kf u.1) v <= (q^-1 + sqn (p - mk_pos e) / r) * sqn v].
Proof.
move=> Hd HP Hr /=; rewrite /mkal_update; case: (mk_val e) => [v0|]; last by [].
rewrite ltNge; case: (shortest2 F <= _) => /=; last by [].
have [E D' P' U' I'] := drift_call Hq (p - mk_pos e) (y - v0)%:M Hd HP Hr.
by rewrite /= in E D' P' U' I' *; rewrite E.
Qed.

Lemma drift_update st p (vals vars : 'rV[F]_k) : drifting st -> (forall i, 0 < vars 0 i) -> exists st', kn_update p vals vars st = Ok st' /\ drifting st'.
Proof.
move=> Hd Hv; pose L i := drift_mkal p (vals 0 i) (Hd i).1 (Hd i).2 (Hv i).
rewrite /kn_update first_exn_ok; last by move=> i; have [] := L i.
by eexists; split; first reflexivity; move=> i; have [_ []] := L i.
Qed.
End DriftRuns.

Section Starve.
Variables (F : realFieldType) (n k : nat).
Variables (request : 'I_k -> mkal F n -> option 'rV[F]_n) (f w : nat -> 'rV[F]_n -> 'rV[F]_k) (s : nat -> mkn F n k * 'rV[F]_n).
Variables (q M wmin emin emax : F) (eps : 'rV[F]_n).
Hypothesis Hq : 0 < q.
Hypothesis HM : 0 < M.
Hypothesis Hn : (0 < n)%N.
Hypothesis Hwm : 0 < wmin.
Hypothesis Hw : forall t p i, wmin <= w t p 0 i.
Hypothesis H0 : forall i, untold_drift q (kn_ests (s 0%N).1 i).
Hypothesis Hrun : run_of request f w s.
Hypothesis Hask : asks_like M eps request.
Hypothesis Hemin : 0 < emin.
Hypothesis Heps : forall i, emin <= eps 0 i <= emax.
Hypothesis Hsh : shortest2 F <= emin ^+ 2.
Hypothesis Hbig : M * (q^-1 + emax ^+ 2 / wmin) < 1.

Lemma w_pos t p i : 0 < w t p 0 i. Proof. exact: lt_le_trans (Hw t p i). Qed.

Lemma drift_round t : drifting q (s t).1 ->
  [/\ drifting q (s t.+1).1, synced (s t.+1).1, kn_pos (s t.+1).1 = (s t).2, (s t.+1).2 = kn_suggest request (s t.+1).1 &
      synced (s t).1 -> shortest2 F <= sqn (step_of s t) -> forall i, kf_P (mk_kf (kn_ests (s t.+1).1 i)) \in unitmx /\
        forall v, info (mk_kf (kn_ests (s t.+1).1 i)) v <= (q^-1 + sqn (step_of s t) / w t (s t).2 0 i) * sqn v].
Proof.
move=> Hd; have := Hrun t; rewrite /kn_round; case Eu: kn_update => [st'|//] [<-] /=.
move: Eu; rewrite /kn_update; case: first_exn => // _ [<-] /=.
pose L i := drift_mkal Hq (s t).2 (f t (s t).2 0 i) (Hd i).1 (Hd i).2 (w_pos t (s t).2 i).
split=> //.
- by move=> i; have [_ []] := L i.
- by move=> i; have [_ []] := L i.
- move=> Hs Hl i; have [_ [_ _ _ _]] := L i; have [-> ->] := Hs i; exact.
Qed.

Lemma drift_asks t : drifting q (s t.+1).1 -> synced (s t.+1).1 -> asks request s t.+1 -> (s t.+1).2 = kn_suggest request (s t.+1).1 ->
  (exists i, request i (kn_ests (s t.+1).1 i) = Some (s t.+1).2) /\ forall i, isSome (request i (kn_ests (s t.+2).1 i)).
Proof.
move=> Hd S Ha E.
have [i Hi] : exists i, request i (kn_ests (s t.+1).1 i) = Some (s t.+1).2.
  rewrite E /kn_suggest; case Ep: (pmap _ _) => [|p l].
    case/existsP: Ha => i Hi; case Er: (request i _) Hi => [p|//] _.
    have : p \in pmap (fun i => request i (kn_ests (s t.+1).1 i)) (enum 'I_k).
      by rewrite mem_pmap -Er; apply: map_f; rewrite mem_enum.
    by rewrite Ep.
  have : p \in pmap (fun i => request i (kn_ests (s t.+1).1 i)) (enum 'I_k) by rewrite Ep mem_head.
  by rewrite mem_pmap => /mapP [i _ ->]; exists i.
split; first by exists i.
have HC := gate_psd (Hd i).2; have [vals [vecs [HE Hr]]] := Hask i HC.
have := require_uniform HE eps (mk_pos (kn_ests (s t.+1).1 i)) HC HM; rewrite -Hr Hi => -[j [Ej [Hv _]]].
have [Hp _] := S i; rewrite Hp in Ej.
have Ed : step_of s t.+1 = scale (col j vecs)^T eps by rewrite /step_of Ej addrAC subrr add0r.
have Hlong : shortest2 F <= sqn (step_of s t.+1).
  apply: (le_trans Hsh); rewrite Ed -[emin ^+ 2]mulr1 -Hv /sqn !big_ord1 mulr_sumr; apply: ler_sum => a _.
  have -> : scale (col j vecs)^T eps 0 a = (col j vecs)^T 0 a * eps 0 a by rewrite mxE.
  rewrite exprMn [X in _ <= X]mulrC; apply: ler_wpmul2r; first exact: sqr_ge0.
  have /andP [H1 _] := Heps a.
  by rewrite ler_pexpn2r ?nnegrE ?(ltW Hemin) // (le_trans (ltW Hemin)).
have Hshort : sqn (step_of s t.+1) <= emax ^+ 2.
  rewrite Ed -[emax ^+ 2]mulr1 -Hv /sqn !big_ord1 mulr_sumr; apply: ler_sum => a _.
  have -> : scale (col j vecs)^T eps 0 a = (col j vecs)^T 0 a * eps 0 a by rewrite mxE.
  rewrite exprMn mulrC; apply: ler_wpmul2r; first exact: sqr_ge0.
  have /andP [H1 H2] := Heps a; have Ha0 := le_trans (ltW Hemin) H1.
  by rewrite ler_pexpn2r ?nnegrE // (le_trans Ha0).
have [Hd' _ _ _ HI] := drift_round Hd; move=> l.
have [Hu' Hl] := HI S Hlong l.
have [vals' [vecs' [HE' ->]]] := Hask l (gate_psd (Hd' l).2).
pose u : 'rV[F]_n := delta_mx 0 (Ordinal Hn).
have Hu0 : u != 0.
  by apply/eqP => /matrixP /(_ 0 (Ordinal Hn)); rewrite !mxE !eqxx /=; apply/eqP; rewrite oner_eq0.
have [|p ->] := @require_wide _ _ _ u M vals' vecs' eps (mk_pos (kn_ests (s t.+2).1 l)) (Hd' l).2 Hu' HM Hu0 HE'; last by [].
have Hs : 0 < sqn u by rewrite lt_neqAle sqn_ge0 eq_sym sqn_eq0 Hu0.
apply: (@le_lt_trans _ _ (M * (q^-1 + emax ^+ 2 / wmin) * sqn u)); last by rewrite -[X in _ < X]mul1r ltr_pmul2r.
rewrite -mulrA; apply: ler_wpmul2l; first exact: ltW.
apply: (le_trans (Hl u)); apply: ler_wpmul2r; first exact: sqn_ge0.
rewrite ler_add2l; apply: ler_pmul => //; first exact: sqn_ge0.
  by rewrite invr_ge0 ltW // w_pos.
by rewrite lef_pinv ?posrE ?w_pos.
Qed.

Lemma drift_start : (exists i u, M * sqn u < variance (kf_P (mk_kf (kn_ests (s 0%N).1 i))) u) -> asks request s 1.
Proof.
move=> [i [u Hu]]; have [Hd HP Hv] := H0 i; have HC := gate_psd HP.
have := Hrun 0%N; rewrite /kn_round; case Eu: kn_update => [st'|//] [Es].
have Ek : mk_kf (kn_ests st' i) = mk_kf (kn_ests (s 0%N).1 i).
  by move: Eu; rewrite /kn_update; case: first_exn => // _ [<-] /=; rewrite /mkal_update Hv.
apply/existsP; exists i; rewrite -Es /=.
rewrite -Ek in HC; have [vals [vecs [HE ->]]] := Hask i HC.
have := require_uniform HE eps (mk_pos (kn_ests st' i)) HC HM; case: kal_require => [//|] /(_ (u *m (place F n)^T)).
by rewrite place_sqn -variance_place Ek leNgt Hu.
Qed.

Lemma drift_run t : asks request s 1 -> [/\ drifting q (s t.+1).1, synced (s t.+1).1, (s t.+1).2 = kn_suggest request (s t.+1).1 & asks request s t.+1].
Proof.
move=> Ha; elim: t => [|t [D S E A]].
  have D0 : drifting q (s 0%N).1 by move=> i; have [? ? _] := H0 i.
  by have [D S _ E _] := drift_round D0.
have [D' S' _ E' _] := drift_round D; split=> //.
have [[i _] H] := drift_asks D S A E.
by apply/existsP; exists i.
Qed.
End Starve.

Section Blind.
Variables (F : realFieldType) (n k : nat) (request : 'I_k -> mkal F n -> option 'rV[F]_n) (w : nat -> 'rV[F]_n -> 'rV[F]_k).
Lemma as_sure_update (e e' : mkal F n) p (y y' r : F) : as_sure e e' -> (mkal_update p y r e).2 = Ok tt -> (mkal_update p y' r e').2 = Ok tt ->
  as_sure (mkal_update p y r e).1 (mkal_update p y' r e').1.
Proof.
move=> [EP [EF EQ] Ea Ep Ev]; rewrite /mkal_update -Ep.
case: (mk_val e) Ev => [v|]; case: (mk_val e') => [v'|] // _; case: ifP => // _.
rewrite /kg_update /correct /= EP EF EQ Ea; by case: ifP.
Qed.

Lemma kn_update_ok p (vals vars : 'rV[F]_k) (st st' : mkn F n k) : kn_update p vals vars st = Ok st' ->
  forall i, (mkal_update p (vals 0 i) (vars 0 i) (kn_ests st i)).2 = Ok tt /\ kn_ests st' i = (mkal_update p (vals 0 i) (vars 0 i) (kn_ests st i)).1.
Proof.
rewrite /kn_update; case Ef: first_exn => [u|//] [<-] i; split=> //=.
move: Ef (mem_enum 'I_k i); elim: (enum 'I_k) => [|j l IH] //=; rewrite inE.
case Ej: (mkal_update _ _ _ (kn_ests st j)).2 => [[]|//] Hf; case/orP=> [/eqP ->|] //; exact: IH.
Qed.

Lemma blind f f' s s' : by_covariance request -> run_of request f w s -> run_of request f' w s' ->
  (forall i, as_sure (kn_ests (s 0%N).1 i) (kn_ests (s' 0%N).1 i)) -> (s 0%N).2 = (s' 0%N).2 -> (forall t, asks request s t.+1) ->
  forall t, (s t).2 = (s' t).2 /\ forall i, as_sure (kn_ests (s t).1 i) (kn_ests (s' t).1 i).
Proof.
move=> Hb Hr Hr' H0 E0 Ha; elim=> [//|t [E S]].
have := Hr t; rewrite /kn_round; case Eu: kn_update => [st|//] [Es].
have := Hr' t; rewrite /kn_round; case Eu': kn_update => [st'|//] [Es'].
have L i := kn_update_ok Eu i; have L' i := kn_update_ok Eu' i.
have S1 i : as_sure (kn_ests st i) (kn_ests st' i).
  have [O ->] := L i; have [O' ->] := L' i; move: O'; rewrite -E => O'.
  by apply: as_sure_update.
rewrite -Es -Es' /=; split=> //; rewrite /kn_suggest.
have -> : pmap (fun i => request i (kn_ests st' i)) (enum 'I_k) = pmap (fun i => request i (kn_ests st i)) (enum 'I_k).
  apply: eq_pmap => i; apply: Hb; last by have [_ _ _ ->] := S1 i.
  by apply/matrixP => a b; rewrite !mxE; have [-> _ _ _ _] := S1 i.
case Ep: (pmap _ _) => [|p l] //.
have /existsP [i Hi] := Ha t; move: Hi; rewrite -Es /=; case Er: (request i _) => [p|//] _.
have : p \in pmap (fun i => request i (kn_ests st i)) (enum 'I_k).
  by rewrite mem_pmap -Er; apply: map_f; rewrite mem_enum.
by rewrite Ep.
Qed.
End Blind.
