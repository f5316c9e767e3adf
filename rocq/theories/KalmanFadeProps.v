(** Property C143: filters that forget. *)
From mathcomp Require Import all_ssreflect all_algebra.
From Verif Require Import PyExn LinAlgModel LinAlgSpec LinAlgProofs FDProofs LoopProofs KalmanModel KalmanSpec KalmanProofs KalmanHistory KalmanProps KalmanRequests
  KalmanLoopModel KalmanLoopSpec KalmanLoopProofs KalmanLoopProps KalmanFitSpec KalmanFitProofs KalmanFitProps KalmanGlobalSpec KalmanGlobalProofs KalmanGlobalProps
  KalmanFadeSpec KalmanFadeProofs.
Set Implicit Arguments. Unset Strict Implicit. Unset Printing Implicit Defensive.
Import Order.TTheory GRing.Theory Num.Theory.
Local Open Scope ring_scope.

(** ** Fading memory *)
(** After the gradient has changed to [g], each predicted measurement divides
    the weight of all that was measured before, right or wrong, by [alpha^2]. *)
Theorem fading_forgets :
  forall (F : realFieldType) m n (g : 'M[F]_(m, n)) (k : filter F (m * n) m) (older cs : seq (call F m n)) (i : 'I_m) (diff : 'rV[F]_n),
  kf_F k = 1%:M -> kf_Q k = 0 -> kf_alpha k != 0 -> psd (kf_P k) -> kf_P k \in unitmx ->
  (forall i c0, (i < size (older ++ cs))%N -> weighted (kf_R k) (nth c0 (older ++ cs) i)) ->
  (forall i c0, (i < size cs)%N -> noiseless g (nth c0 cs i) /\ c_predict (nth c0 cs i) = true) ->
  ((grad (history k (older ++ cs)) *m diff^T - g *m diff^T) i 0) ^+ 2 <=
    variance (kf_P (history k (older ++ cs))) (along i diff) *
    ((kf_alpha k ^+ 2) ^- size cs * fit_cost (kf_alpha k) (kf_R k) (kf_x k) (kf_P k) (rev older) g).
Proof.
move=> F m n g k older cs i diff EF EQ Ha HP Hu Hc Hn.
rewrite -(cost_forgets (kf_alpha k) (kf_R k) (kf_x k) (kf_P k) older Hn).
exact: kalman_error_within.
Qed.
Print Assumptions fading_forgets.

(** Along the last step the reported variance is at most that of the
    measurement, so that the error there dies out geometrically. *)
Theorem fading_recovers :
  forall (F : realFieldType) n (g : 'rV[F]_n) (k : filter F (1 * n) 1) (older cs : seq (call F 1 n)) (d : 'rV[F]_n) (r : F),
  kf_F k = 1%:M -> kf_Q k = 0 -> kf_alpha k != 0 -> psd (kf_P k) -> kf_P k \in unitmx -> 0 < r ->
  let new := rcons cs (mk_call d (g *m d^T) (Some r%:M) None true) in
  (forall i c0, (i < size (older ++ cs))%N -> weighted (kf_R k) (nth c0 (older ++ cs) i)) ->
  (forall i c0, (i < size cs)%N -> noiseless g (nth c0 cs i) /\ c_predict (nth c0 cs i) = true) ->
  ((grad (history k (older ++ new)) *m d^T - g *m d^T) 0 0) ^+ 2 <=
    r * ((kf_alpha k ^+ 2) ^- size new * fit_cost (kf_alpha k) (kf_R k) (kf_x k) (kf_P k) (rev older) g).
Proof.
move=> F n g k older cs d r EF EQ Ha HP Hu Hr new Hc Hn.
pose c := mk_call d (g *m d^T) (Some r%:M) None true.
have HR : psd (r%:M : 'M[F]_1) by exact/psd_scalar/ltW.
have HuR : (r%:M : 'M[F]_1) \in unitmx by rewrite -scalemx1 unitmxZ ?unitmx1 // unitfE gt_eqF.
have Hc' i c0 : (i < size (older ++ new))%N -> weighted (kf_R k) (nth c0 (older ++ new) i).
  rewrite -rcons_cat size_rcons nth_rcons ltnS leq_eqVlt; case: ltnP => Hi; first by move=> _; exact: Hc.
  by case: eqP => // -> _; split.
have Hn' i c0 : (i < size new)%N -> noiseless g (nth c0 new i) /\ c_predict (nth c0 new i) = true.
  rewrite size_rcons nth_rcons ltnS leq_eqVlt; case: ltnP => Hi; first by move=> _; exact: Hn.
  by case: eqP.
have Hf := fits_history Ha HP Hu EF EQ erefl erefl erefl erefl Hc.
have E : history k (older ++ new) = run_call (history k (older ++ cs)) c.
  by rewrite /new -rcons_cat /history -cats1 foldl_cat.
apply: (le_trans (fading_forgets 0 d EF EQ Ha HP Hu Hc' Hn')); apply: ler_wpmul2r.
  apply: mulr_ge0; first by rewrite invr_ge0; apply: exprn_ge0; exact: sqr_ge0.
  have Hco i c0 : (i < size older)%N -> weighted (kf_R k) (nth c0 older i).
    by move=> Hi; have := Hc i c0; rewrite size_cat nth_cat Hi; apply; exact: ltn_addr.
  have Hfo := fits_history Ha HP Hu EF EQ erefl erefl erefl erefl Hco.
  have Hw j c0 : (j < size (rev older))%N -> weighted (kf_R k) (nth c0 (rev older) j).
    by rewrite size_rev => Hj; rewrite nth_rev //; apply: Hco; rewrite ltn_subrL; case: (older) Hj.
  elim: (rev older) Hw => [|c1 l IH] Hw /=; first by apply: quad_ge0; exact: psd_inv.
  have [_ [H1 H2]] := Hw 0%N c1 isT.
  apply: addr_ge0; last by apply: quad_ge0; exact: psd_inv.
  apply: mulr_ge0; first by case: c_predict; rewrite ?invr_ge0 ?sqr_ge0 ?ler01.
  by apply: IH => j c0 Hj; exact: (Hw j.+1).
case: Hf => EF' EQ' _ _ [HP' _ _].
have -> : along 0 d = mxvec d by rewrite -row_create_H -(create_H1 d); apply/rowP => j; rewrite mxE.
rewrite E /run_call; apply: measured_variance => //.
by apply: predict_psd => //; rewrite EQ'; have := psd_scalar (1 * n) (lexx (0 : F)); rewrite raddf0.
Qed.
Print Assumptions fading_recovers.

(** What is not measured again and again is forgotten: an estimator whose
    maximum is not too large asks for measurements again, however well the
    gradient was known. *)
Theorem fading_asks_again :
  forall (F : realFieldType) n (k : filter F (1 * n) 1) (cs : seq (call F 1 n)) (u : 'rV[F]_n) (M lam del : F) vals vecs eps pos,
  kf_F k = 1%:M -> kf_Q k = 0 -> 1 < kf_alpha k -> psd (kf_P k) -> kf_P k \in unitmx ->
  0 < M -> u != 0 -> 0 <= del -> quad (invmx (kf_P k)) (mxvec u)^T <= lam * sqn u ->
  (forall i c0, (i < size cs)%N -> weak u del (nth c0 cs i)) ->
  M * (lam * (kf_alpha k ^+ 2) ^- size cs + del * (kf_alpha k ^+ 2 / (kf_alpha k ^+ 2 - 1))) < 1 ->
  eigenbasis (gate_cov (history k cs)) vecs vals ->
  exists p, kal_require vals vecs (const_mx M^-1) eps pos = Some p.
Proof.
move=> F n k cs u M lam del vals vecs eps pos EF EQ Ha HP Hu HM Hu0 Hdel Hlam Hc Hlt HE.
have Hf : fader (kf_alpha k) k by split.
have [[_ _ _ HP' Hu'] HI] := fader_history Ha Hdel Hf Hc.
apply: (require_wide _ _ HP' Hu' HM Hu0 HE).
have Hs : 0 < sqn u by rewrite lt_neqAle sqn_ge0 eq_sym sqn_eq0 Hu0.
rewrite -[X in _ < X]mul1r; apply: le_lt_trans (_ : M * (lam * (kf_alpha k ^+ 2) ^- size cs + del * (kf_alpha k ^+ 2 / (kf_alpha k ^+ 2 - 1))) * sqn u < _); last by rewrite ltr_pmul2r.
rewrite -mulrA; apply: ler_wpmul2l; first exact: ltW.
apply: (le_trans HI); rewrite [X in _ <= X]mulrDl ler_add2r mulrC [X in _ <= X]mulrAC; apply: ler_wpmul2r => //.
by rewrite invr_ge0; apply: exprn_ge0; exact: sqr_ge0.
Qed.
Print Assumptions fading_asks_again.

(** ** Process noise *)
(** However often a gradient is measured: after a predicted measurement with
    step [d] and variance [r] its variance is at least [1 / (1/q + d^2/r)] in
    every direction. *)
Theorem drift_floor :
  forall (F : realFieldType) n (k : filter F (1 * n) 1) (q r : F) (d : 'rV[F]_n) (y : 'cV[F]_1) (u : 'rV[F]_n),
  0 < q -> drifts q k -> psd (kf_P k) -> 0 < r ->
  sqn u <= (q^-1 + sqn d / r) * variance (kf_P (run_call k (mk_call d y (Some r%:M) None true))) (along 0 u).
Proof.
move=> F n k q r d y u Hq Hd HP Hr.
have [_ _ HP' Hu' HI] := drift_call Hq d y Hd HP Hr.
have -> : along 0 u = mxvec u by rewrite -row_create_H -(create_H1 u); apply/rowP => j; rewrite mxE.
rewrite /run_call /=; set k' := (kg_update _ _ _ _ _ _).1 in HP' Hu' HI *.
have Hv : 0 <= variance (kf_P k') (mxvec u) by exact: HP'.2.
have := le_trans (info_variance u HP' Hu') (ler_wpmul2l Hv (HI u)).
rewrite mulrCA mulrA expr2; have [E|H0] := eqVneq u 0.
  move=> _; have -> : sqn u = 0 by apply/eqP; rewrite sqn_eq0 E.
  apply: mulr_ge0 => //; apply: addr_ge0; first by rewrite invr_ge0 ltW.
  by apply: divr_ge0; [exact: sqn_ge0 | exact: ltW].
have Hs : 0 < sqn u by rewrite lt_neqAle sqn_ge0 eq_sym sqn_eq0 H0.
by rewrite ler_pmul2r.
Qed.
Print Assumptions drift_floor.

(** The loop never raises. *)
Theorem drift_runs :
  forall (F : realFieldType) n k (request : 'I_k -> mkal F n -> option 'rV[F]_n) (f w : nat -> 'rV[F]_n -> 'rV[F]_k) (st0 : mkn F n k) v0 (q : F),
  0 < q -> (forall t p i, 0 < w t p 0 i) -> (forall i, untold_drift q (kn_ests st0 i)) ->
  exists s, s 0%N = (st0, v0) /\ run_of request f w s.
Proof.
move=> F n k request f w st0 v0 q Hq Hw H0.
pose s := fix s (t : nat) : mkn F n k * 'rV[F]_n :=
  if t is t'.+1 then if kn_round request (f t') (w t') (s t') is Ok s' then s' else s t' else (st0, v0).
exists s; split=> //.
have step t : drifting q (s t).1 -> drifting q (s t.+1).1 /\ kn_round request (f t) (w t) (s t) = Ok (s t.+1).
  move=> Hd; have [st' [E D']] := drift_update Hq (s t).2 (f t (s t).2) Hd (Hw t (s t).2).
  have Er : kn_round request (f t) (w t) (s t) = Ok (st', kn_suggest request st') by rewrite /kn_round E.
  by rewrite -[s t.+1]/(if kn_round request (f t) (w t) (s t) is Ok s' then s' else s t) Er.
have Hall t : drifting q (s t).1.
  elim: t => [i|t /step []//]; by have [? ? _] := H0 i.
by move=> t; have [] := step t (Hall t).
Qed.
Print Assumptions drift_runs.

(** If the maximum is below the floor, the first request is followed by
    requests for ever: every estimator asks in every later round, all voltages
    are requested ones, and no Newton step is ever made. *)
Theorem drift_starves :
  forall (F : realFieldType) n k (request : 'I_k -> mkal F n -> option 'rV[F]_n) (f w : nat -> 'rV[F]_n -> 'rV[F]_k) s (q M wmin emin emax : F) (eps : 'rV[F]_n),
  0 < q -> 0 < M -> (0 < n)%N -> 0 < wmin -> (forall t p i, wmin <= w t p 0 i) ->
  (forall i, untold_drift q (kn_ests (s 0%N).1 i)) -> run_of request f w s -> asks_like M eps request ->
  0 < emin -> (forall i, emin <= eps 0 i <= emax) -> shortest2 F <= emin ^+ 2 -> M * (q^-1 + emax ^+ 2 / wmin) < 1 ->
  (exists i u, M * sqn u < variance (kf_P (mk_kf (kn_ests (s 0%N).1 i))) u) ->
  forall t, (exists i, request i (kn_ests (s t.+1).1 i) = Some (s t.+1).2) /\
            forall i, isSome (request i (kn_ests (s t.+2).1 i)).
Proof.
move=> F n k request f w s q M wmin emin emax eps Hq HM Hn Hwm Hw H0 Hrun Hask Hemin Heps Hsh Hbig Hstart t.
have Ha := drift_start HM H0 Hrun Hask Hstart.
have [D S E A] := drift_run Hq HM Hn Hwm Hw H0 Hrun Hask Hemin Heps Hsh Hbig t Ha.
exact: (drift_asks Hq HM Hn Hwm Hw Hrun Hask Hemin Heps Hsh Hbig D S A E).
Qed.
Print Assumptions drift_starves.

(** The voltages then do not depend on the device at all, nor on the target:
    two devices and two targets get the same voltages for ever. *)
Theorem drift_blind :
  forall (F : realFieldType) n k (request : 'I_k -> mkal F n -> option 'rV[F]_n) (f f' w : nat -> 'rV[F]_n -> 'rV[F]_k) s s' (q M wmin emin emax : F) (eps : 'rV[F]_n),
  0 < q -> 0 < M -> (0 < n)%N -> 0 < wmin -> (forall t p i, wmin <= w t p 0 i) ->
  (forall i, untold_drift q (kn_ests (s 0%N).1 i)) -> run_of request f w s -> asks_like M eps request ->
  0 < emin -> (forall i, emin <= eps 0 i <= emax) -> shortest2 F <= emin ^+ 2 -> M * (q^-1 + emax ^+ 2 / wmin) < 1 ->
  (exists i u, M * sqn u < variance (kf_P (mk_kf (kn_ests (s 0%N).1 i))) u) ->
  by_covariance request -> run_of request f' w s' ->
  (forall i, as_sure (kn_ests (s 0%N).1 i) (kn_ests (s' 0%N).1 i)) -> (s 0%N).2 = (s' 0%N).2 ->
  forall t, (s t).2 = (s' t).2.
Proof.
move=> F n k request f f' w s s' q M wmin emin emax eps Hq HM Hn Hwm Hw H0 Hrun Hask Hemin Heps Hsh Hbig Hstart Hb Hrun' Hsure Ev t.
have Ha := drift_start HM H0 Hrun Hask Hstart.
have Hall t' : asks request s t'.+1 by have [] := drift_run Hq HM Hn Hwm Hw H0 Hrun Hask Hemin Heps Hsh Hbig t' Ha.
by have [] := blind Hb Hrun Hrun' Hsure Ev Hall t.
Qed.
Print Assumptions drift_blind.

(** ** Examples *)
(** Fading memory with [alpha = 2] (KalmanFitProps.v [fading]): after one wrong
    measurement, [N] correct ones. *)
Definition correct_one (g : 'rV[rat_realFieldType]_2) : call rat_realFieldType 1 2 :=
  mk_call (case_diff 1 2%:R) (g *m (case_diff 1 2%:R)^T) (Some 1%:M) None true.
Definition wrong_one : call rat_realFieldType 1 2 := mk_call (case_diff 1 2%:R) (const_mx 3%:R) (Some 1%:M) None true.
Lemma mixed_weighted g N i c0 : (i < size ([:: wrong_one] ++ nseq N (correct_one g)))%N -> weighted 1%:M (nth c0 ([:: wrong_one] ++ nseq N (correct_one g)) i).
Proof.
have W c : c_Q c = None -> c_R c = Some 1%:M -> weighted 1%:M (c : call rat_realFieldType 1 2).
  by move=> E1 E2; split=> //; rewrite /weight E2; split; [exact: psd1 | exact: unitmx1].
case: i => [|i] /=; first by move=> _; exact: W.
by rewrite ltnS size_nseq => Hi; rewrite nth_nseq Hi; exact: W.
Qed.
Lemma mixed_noiseless g N i c0 : (i < size (nseq N (correct_one g)))%N -> noiseless g (nth c0 (nseq N (correct_one g)) i) /\ c_predict (nth c0 (nseq N (correct_one g)) i) = true.
Proof. by rewrite size_nseq => Hi; rewrite nth_nseq Hi. Qed.
Example forgets_ex g N i d : let k' := history fading ([:: wrong_one] ++ nseq N (correct_one g)) in
  ((grad k' *m d^T - g *m d^T) i 0) ^+ 2 <= variance (kf_P k') (along i d) * ((2%:R ^+ 2) ^- N * fit_cost 2%:R 1%:M 0 1%:M [:: wrong_one] g).
Proof.
have Ha : kf_alpha fading != 0 by [].
have := @fading_forgets _ 1 2 g fading [:: wrong_one] (nseq N (correct_one g)) i d erefl erefl Ha (psd1 _ _) (unitmx1 _ _) (@mixed_weighted g N) (@mixed_noiseless g N).
by rewrite size_nseq.
Qed.
Example recovers_ex g N : let d := case_diff 1 2%:R in
  let k' := history fading ([:: wrong_one] ++ rcons (nseq N (correct_one g)) (correct_one g)) in
  ((grad k' *m d^T - g *m d^T) 0 0) ^+ 2 <= 1 * ((2%:R ^+ 2) ^- N.+1 * fit_cost 2%:R 1%:M 0 1%:M [:: wrong_one] g).
Proof.
have Ha : kf_alpha fading != 0 by [].
have := @fading_recovers _ 2 g fading [:: wrong_one] (nseq N (correct_one g)) (case_diff 1 2%:R) 1 erefl erefl Ha (psd1 _ _) (unitmx1 _ _) ltr01 (@mixed_weighted g N) (@mixed_noiseless g N).
by rewrite size_rcons size_nseq.
Qed.

(** One gate, [alpha = 2], measured again and again with steps of a third of the
    standard deviation: the estimator with maximum 2 never stops asking. *)
Definition fading1 : filter rat_realFieldType (1 * 1) 1 := mk_filter 0 1%:M 1%:M 0 1%:M 2%:R.
Definition weak_one : call rat_realFieldType 1 1 := mk_call (one 1) (one 5%:R) (Some (9%:R)%:M) None true.
Lemma nine_inv : 9%:R^-1 * 9%:R = 1 :> rat_realFieldType. Proof. by apply/eqP; vm_compute. Qed.
Lemma weak_one_weak : weak (one 1) 9%:R^-1 weak_one.
Proof.
split=> //; exists 9%:R; split=> //.
by rewrite sqn_one expr1n mulr1 nine_inv /= /one tr_scalar_mx -scalar_mxM mxE eqxx mulr1n mulr1 expr1n.
Qed.
Example asks_again_ex N : exists p, asker 2%:R 0 (mk_mkal (history fading1 (nseq N.+1 weak_one)) 0 None) = Some p.
Proof.
have Hw i c0 : (i < size (nseq N.+1 weak_one))%N -> weak (one 1) 9%:R^-1 (nth c0 (nseq N.+1 weak_one) i).
  by rewrite size_nseq => Hi; rewrite nth_nseq Hi; exact: weak_one_weak.
have H1 : one 1 != 0 by apply/eqP => /matrixP /(_ 0 0); rewrite !mxE; apply/eqP; vm_compute.
set e := mk_mkal _ _ _.
have Ha : 1 < kf_alpha fading1 by vm_compute.
have [vals [vecs [HE ->]]] : exists vals vecs, eigenbasis (gate_cov (mk_kf e)) vecs vals /\ asker 2%:R 0 e = kal_require vals vecs (const_mx 2%:R^-1) (const_mx 1) (mk_pos e).
  have Hp : psd (kf_P fading1) by exact: psd1.
  have Hf : fader (kf_alpha fading1) fading1 by split=> //; exact: unitmx1.
  have H9 : 0 <= 9%:R^-1 :> rat_realFieldType by vm_compute.
  have [[_ _ _ HP _] _] := fader_history Ha H9 Hf Hw.
  by apply: asker_asks; exact: gate_psd.
apply: (@fading_asks_again _ 1 fading1 (nseq N.+1 weak_one) (one 1) 2%:R 1 9%:R^-1 vals vecs (const_mx 1) (mk_pos e) erefl erefl Ha (psd1 _ _) (unitmx1 _ _) _ H1 _ _ Hw _ HE).
- by vm_compute.
- by vm_compute.
- by rewrite invmx1 /quad mulmx1 trmxK -sqn_row sqn_mxvec mul1r.
- rewrite size_nseq mul1r.
  apply: (@le_lt_trans _ _ (2%:R * (4%:R^-1 + 9%:R^-1 * (2%:R ^+ 2 / (2%:R ^+ 2 - 1))))); last by vm_compute.
  have H2 : 0 <= 2%:R :> rat_realFieldType by vm_compute.
  apply: (ler_wpmul2l H2); rewrite ler_add2r /=.
  have -> : 4%:R^-1 = (2%:R ^+ 2)^-1 :> rat_realFieldType by apply/eqP; vm_compute.
  rewrite exprS invfM -[X in _ <= X]mulr1; apply: ler_wpmul2l; first by vm_compute.
  have H4 : 0 < (2%:R ^+ 2) ^+ N :> rat_realFieldType by apply: exprn_gt0; vm_compute.
  by rewrite (invf_le1 H4); apply: exprn_ege1; vm_compute.
Qed.

(** One gate with process noise 1, maximum 1/4, measurements of variance 1 with
    steps of length 1. *)
Definition drifter (x des : rat) : mkn rat_realFieldType 1 1 :=
  mk_mkn (one des) (fun _ => mk_mkal (mk_filter (const_mx x) 9%:R%:M 1%:M 1%:M 1%:M 1) 0 None) 0 0.
Lemma drifter_untold x des i : untold_drift 1 (kn_ests (drifter x des) i).
Proof.
split=> //=; last exact: psd_scalar.
split=> //=; first exact: psd1.
by move=> u; rewrite /variance mulmx1 -sqn_row mul1r.
Qed.
Lemma asker_by_covariance M : by_covariance (asker M).
Proof. by move=> i e e' E1 E2; rewrite /asker E1 E2. Qed.
Lemma quarter_pos : (0 : rat_realFieldType) < 4%:R^-1. Proof. by vm_compute. Qed.
Lemma quarter_big : 4%:R^-1 * (1^-1 + 1 ^+ 2 / 1) < 1 :> rat_realFieldType. Proof. by vm_compute. Qed.
Lemma ones_ge (t : nat) (p : 'rV[rat_realFieldType]_1) (i : 'I_1) : (1 : rat_realFieldType) <= (one 1 : 'rV[rat_realFieldType]_1) 0 i.
Proof. by rewrite ord1 mxE. Qed.
Lemma ones_gt (t : nat) (p : 'rV[rat_realFieldType]_1) (i : 'I_1) : (0 : rat_realFieldType) < (one 1 : 'rV[rat_realFieldType]_1) 0 i.
Proof. by rewrite ord1 mxE. Qed.
Lemma step_one (j : 'I_1) : (1 : rat_realFieldType) <= (const_mx 1 : 'rV[rat_realFieldType]_1) 0 j <= 1.
Proof. by rewrite mxE lexx. Qed.
Lemma short_one : shortest2 rat_realFieldType <= 1 ^+ 2.
Proof. by apply: (@shortest_le rat_realFieldType); vm_compute. Qed.
Lemma drifter_wide x des : exists i u, 4%:R^-1 * sqn u < variance (kf_P (mk_kf (kn_ests (drifter x des) i))) u.
Proof.
exists 0, 1%:M; rewrite /= /variance mul1mx tr_scalar_mx mulmx1 [X in _ < X]mxE eqxx mulr1n.
have -> : sqn (1%:M : 'rV[rat_realFieldType]_(1 * 1)) = 1 by exact: sqn_one.
by vm_compute.
Qed.
Example floor_ex (y : rat) : 1 <= 2%:R * variance (kf_P (run_call (mk_kf (kn_ests (drifter 0 0) 0)) (mk_call (one 1) (one y) (Some 1%:M) None true))) (along 0 (one 1)).
Proof.
have [Hd HP _] := drifter_untold 0 0 0.
have := drift_floor (one 1) (one y) (one 1) ltr01 Hd HP ltr01.
by rewrite !sqn_one expr1n invr1 mulr1.
Qed.
(** Two devices of opposite slope, two targets, wrong first gradients: the same
    voltages for ever, and always requested ones. *)
Example starves_ex : exists s s' : nat -> mkn rat_realFieldType 1 1 * 'rV[rat_realFieldType]_1,
  [/\ s 0%N = (drifter 0 1, 0) /\ s' 0%N = (drifter 7%:R 5%:R, 0),
      run_of (asker 4%:R^-1) (fun _ => affines (one 2%:R) 0) (fun _ _ => one 1) s,
      run_of (asker 4%:R^-1) (fun _ => affines (one (- 3%:R)) (one 1)) (fun _ _ => one 1) s',
      forall t, isSome (asker 4%:R^-1 0 (kn_ests (s t.+2).1 0)) & forall t, (s t).2 = (s' t).2].
Proof.
have [s [E0 Hrun]] := drift_runs (asker 4%:R^-1) (fun _ => affines (one 2%:R) 0) 0 ltr01 ones_gt (drifter_untold 0 1).
have [s' [E0' Hrun']] := drift_runs (asker 4%:R^-1) (fun _ => affines (one (- 3%:R)) (one 1)) 0 ltr01 ones_gt (drifter_untold 7%:R 5%:R).
have H0 i : untold_drift 1 (kn_ests (s 0%N).1 i) by rewrite E0; exact: drifter_untold.
have Hst : exists i u, 4%:R^-1 * sqn u < variance (kf_P (mk_kf (kn_ests (s 0%N).1 i))) u by rewrite E0; exact: drifter_wide.
have Hs i : as_sure (kn_ests (s 0%N).1 i) (kn_ests (s' 0%N).1 i) by rewrite E0 E0'.
have Ev : (s 0%N).2 = (s' 0%N).2 by rewrite E0 E0'.
exists s, s'; split; [by split | exact: Hrun | exact: Hrun' | |].
- move=> t; have [_ H] := drift_starves ltr01 quarter_pos (ltn0Sn 0) ltr01 ones_ge H0 Hrun (@asker_asks _) ltr01 step_one short_one quarter_big Hst t.
  exact: (H 0).
- exact: (drift_blind ltr01 quarter_pos (ltn0Sn 0) ltr01 ones_ge H0 Hrun (@asker_asks _) ltr01 step_one short_one quarter_big Hst (@asker_by_covariance _) Hrun' Hs Ev).
Qed.
