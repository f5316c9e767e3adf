(** Lemmas for KalmanAskProps.v. *)
From mathcomp Require Import all_ssreflect all_algebra.
From Verif Require Import PyExn FieldTac LinAlgModel LinAlgSpec LinAlgProofs LoopProofs LimitedModel LimitedSpec LimitedProofs ChordProofs KalmanModel KalmanSpec KalmanProofs KalmanHistory KalmanRequests KalmanLoopModel KalmanLoopSpec KalmanLoopProofs KalmanGlobalSpec KalmanGlobalProofs KalmanLimitedModel KalmanLimitedSpec KalmanLimitedProofs.
From Coq Require Import Ring Field.
Set Implicit Arguments. Unset Strict Implicit. Unset Printing Implicit Defensive.
Import Order.TTheory GRing.Theory Num.Theory.
Local Open Scope ring_scope.

(** One step per measurement. *)
Section One.
Variables (F : realFieldType) (n k : nat) (request : 'I_k -> mkal F n -> option 'rV[F]_n).
Variables (norm : 'rV[F]_n -> F) (int_of : F -> nat) (m : F) (f w : nat -> 'rV[F]_n -> 'rV[F]_k) (S : nat -> ktuner F n k).
Hypothesis Hnorm : is_norm norm.
Hypothesis Hint : is_int int_of.
Hypothesis Hm : 0 < m.
Hypothesis Hrun : rounds_of request norm int_of (Some m) 1 f w S.
Hypothesis Hq0 : kt_queue (S 0%N) = 0%N.
Hypothesis He0 : kt_evals (S 0%N) = 0%N.
Lemma single_round t : [/\ kt_queue (S t) = 0%N, kt_evals (S t) = t,
  kn_update (kt_volt (S t)) (f t (kt_volt (S t))) (w t (kt_volt (S t))) (kt_solver (S t)) = Ok (kt_solver (S t.+1)) &
  towards (Some m) (kt_volt (S t)) (kn_suggest request (kt_solver (S t.+1))) (kt_volt (S t.+1))].
Proof.
have step j : kt_queue (S j) = 0%N -> kt_evals (S j) = j ->
  [/\ kn_update (kt_volt (S j)) (f j (kt_volt (S j))) (w j (kt_volt (S j))) (kt_solver (S j)) = Ok (kt_solver (S j.+1)),
  towards (Some m) (kt_volt (S j)) (kn_suggest request (kt_solver (S j.+1))) (kt_volt (S j.+1)), kt_queue (S j.+1) = 0%N & kt_evals (S j.+1) = j.+1].
  move=> Q E; have := Hrun j; rewrite /kt_round /kt_check Q E eqxx.
  case Eu: (kn_update _ _ _ _) => [st|e] //.
  have [v' [-> Ht]] := @cut_towards F n norm int_of (Some m) Hnorm Hint Hm (kt_volt (S j)) (kn_suggest request st).
  by case=> <-.
elim: t => [|t [Q E U W]].
  by have [U W _ _] := step 0%N Hq0 He0.
have [_ _ Q' E'] := step t Q E; by have [U' W' _ _] := step t.+1 Q' E'.
Qed.
End One.

Section Asking.
Variable F : realFieldType.
Add Field Ffield3 : (F_field F).
Variables (n k : nat) (A : 'M[F]_(k, n)).
Variables (request : 'I_k -> mkal F n -> option 'rV[F]_n) (f w : nat -> 'rV[F]_n -> 'rV[F]_k) (s : nat -> mkn F n k * 'rV[F]_n).
Hypothesis Hw : forall t p i, 0 < w t p 0 i.
Hypothesis H0 : forall i, untold (kn_ests (s 0%N).1 i).
Hypothesis Hrun : taken f w s.
Variables (M m : F) (eps : 'rV[F]_n).
Hypothesis Hm : 0 < m.
Hypothesis Hto : forall t, towards (Some m) (s t).2 (kn_suggest request (s t.+1).1) (s t.+1).2.
Hypothesis HM : 0 < M.
Hypothesis Hask : asks_like M eps request.

Lemma ask_quiet t : ~~ asks request s t.+1 -> forall i u, variance (cov_of (s t.+1).1 i) u <= M * sqn u.
Proof.
move=> Hn i u; have [G _ _ _ _] := taken_facts A Hw H0 Hrun t; have [_ HP _] := G i.
have HC := gate_psd HP; have [vals [vecs [HE Hr]]] := Hask i HC.
have := require_uniform HE eps (mk_pos (kn_ests (s t.+1).1 i)) HC HM; rewrite -Hr.
have -> : request i (kn_ests (s t.+1).1 i) = None.
  by move: Hn; rewrite negb_exists => /forallP /(_ i); case: (request _ _).
by move=> /(_ (u *m (place F n)^T)); rewrite place_sqn -variance_place.
Qed.
Lemma ask_none_newton t : ~~ asks request s t.+1 -> kn_suggest request (s t.+1).1 = (s t).2 + whole_step s t.
Proof.
move=> Ha; have [_ _ _ [P _] _] := taken_facts A Hw H0 Hrun t.
rewrite /kn_suggest; case Ep: (pmap _ _) => [|p l]; first by rewrite P.
have : p \in pmap (fun i => request i (kn_ests (s t.+1).1 i)) (enum 'I_k) by rewrite Ep mem_head.
rewrite mem_pmap => /mapP [i _ Ei]; case/negP: Ha; apply/existsP; exists i; by rewrite -Ei.
Qed.
Lemma back (a b : 'rV[F]_n) : a + b - a = b.
Proof. by rewrite addrC addKr. Qed.
Lemma scale_scale c (v e : 'rV[F]_n) : c *: scale v e = scale v (c *: e).
Proof. by apply/rowP => i; rewrite !mxE mulrCA. Qed.

Variables (wmax emin emax e1 : F).
Hypothesis Hmax : forall t p i, w t p 0 i <= wmax.
Hypothesis Hemin : 0 < emin.
Hypothesis Heps : forall i, emin <= eps 0 i <= emax.
(** Not larger than [emin] and than its part that the limit leaves. *)
Hypothesis He1 : 0 < e1.
Hypothesis He1m : e1 <= emin.
Hypothesis He1l : e1 * emax <= m * emin.
Definition drop1 : F := M ^+ 2 * e1 ^+ 2 / (M * emax ^+ 2 + wmax).

Lemma ask_drop t : shortest2 F <= e1 ^+ 2 -> asks request s t.+1 -> trace_all (s t.+2).1 <= trace_all (s t.+1).1 - drop1.
Proof.
move=> Hsh Ha; have [G S _ [P V] _] := taken_facts A Hw H0 Hrun t.
have [_ [_ _ C _ _]] := taken_round A Hw Hrun G.
have [i Hi] : exists i, request i (kn_ests (s t.+1).1 i) = Some (kn_suggest request (s t.+1).1).
  rewrite /kn_suggest; case Ep: (pmap _ _) => [|p l].
    case/existsP: Ha => i Hi; case Er: (request i _) Hi => [p|//] _.
    have : p \in pmap (fun i => request i (kn_ests (s t.+1).1 i)) (enum 'I_k).
      by rewrite mem_pmap -Er; apply: map_f; rewrite mem_enum.
    by rewrite Ep.
  have : p \in pmap (fun i => request i (kn_ests (s t.+1).1 i)) (enum 'I_k) by rewrite Ep mem_head.
  by rewrite mem_pmap => /mapP [i _ ->]; exists i.
have [Hst HP Hu] := G i; have HC := gate_psd HP; have [vals [vecs [HE Hr]]] := Hask i HC.
have Hreq : kal_require vals vecs (const_mx M^-1) eps (mk_pos (kn_ests (s t.+1).1 i)) = Some (kn_suggest request (s t.+1).1) by rewrite -Hr.
have [Hp Hval] := S i; rewrite P in Hp.
have [j [Ej Hv]] : exists j, kn_suggest request (s t.+1).1 = (s t).2 + scale (col j vecs)^T eps /\ sqn (col j vecs)^T = 1.
  have := require_uniform HE eps (mk_pos (kn_ests (s t.+1).1 i)) HC HM; rewrite Hreq Hp => -[j [Ej [Hv _]]]; by exists j.
have [c [/andP [Hc0 Hc1] Es Hcut]] := Hto t.
have Hd : kn_suggest request (s t.+1).1 - (s t).2 = scale (col j vecs)^T eps by rewrite Ej addrC addKr.
have Hemax : 0 < emax.
  have /andP [H1 H2] := Heps j; exact: lt_le_trans (lt_le_trans Hemin H1) H2.
have Hlen : sqn (scale (col j vecs)^T eps) <= emax ^+ 2.
  rewrite -[emax ^+ 2]mulr1 -Hv /sqn !big_ord1 mulr_sumr; apply: ler_sum => a _.
  have -> : scale (col j vecs)^T eps 0 a = (col j vecs)^T 0 a * eps 0 a by rewrite mxE.
  rewrite exprMn [X in X <= _]mulrC; apply: ler_wpmul2r; first exact: sqr_ge0.
  have /andP [H1 H2] := Heps a; have H3 := le_trans (ltW Hemin) H1.
  by rewrite ler_pexpn2r ?nnegrE ?(ltW Hemax).
have Hce : e1 <= c * emin.
  move: Hcut; rewrite Hd; case: ltP => [Hl Hcut|_ ->]; last by rewrite mul1r.
  rewrite -(ler_pmul2r Hemax); apply: (le_trans He1l); rewrite mulrAC; apply: ler_wpmul2r; first exact: ltW.
  rewrite -(@ler_pexpn2r _ 2) ?nnegrE ?(ltW Hm) ?mulr_ge0 ?(ltW Hc0) ?(ltW Hemax) // -Hcut Es addrAC subrr add0r Hd sqnZ exprMn.
  by apply: ler_wpmul2l; first exact: sqr_ge0.
pose eps' := c *: eps.
have Heps' a : e1 <= eps' 0 a <= emax.
  have /andP [H1 H2] := Heps a; rewrite mxE; apply/andP; split.
    by apply: (le_trans Hce); rewrite ler_pmul2l.
  apply: (le_trans _ H2); rewrite ler_pimull // (le_trans (ltW Hemin)) //.
have Hstep : (s t.+1).2 = mk_pos (kn_ests (s t.+1).1 i) + scale (col j vecs)^T eps'.
  by rewrite Es Hd Hp scale_scale.
have Hreq' : kal_require vals vecs (const_mx M^-1) eps' (mk_pos (kn_ests (s t.+1).1 i)) = Some (s t.+1).2.
  move: Hreq; rewrite /kal_require; case: ifP => // _; case: argmax => // j' [E'].
  by rewrite Es -E' Hp back scale_scale.
rewrite /trace_all (bigD1 i) //= [X in _ <= X - _](bigD1 i) //= addrAC; apply: ler_add; last first.
  by apply: ler_sum => a _; apply: trace_variance => v; exact: C.
have Hlong : shortest2 F <= sqn ((s t.+1).2 - mk_pos (kn_ests (s t.+1).1 i)).
  apply: (le_trans Hsh); rewrite Hstep.
  rewrite addrAC subrr add0r -[e1 ^+ 2]mulr1 -Hv /sqn !big_ord1 mulr_sumr; apply: ler_sum => a _.
  have -> : scale (col j vecs)^T eps' 0 a = (col j vecs)^T 0 a * eps' 0 a by rewrite mxE.
  rewrite exprMn [X in _ <= X]mulrC; apply: ler_wpmul2r; first exact: sqr_ge0.
  have /andP [H1 _] := Heps' a.
  by rewrite ler_pexpn2r ?nnegrE ?(ltW He1) // (le_trans (ltW He1)).
have Ek : mk_kf (kn_ests (s t.+2).1 i) = (kg_update ((s t.+1).2 - mk_pos (kn_ests (s t.+1).1 i)) (f t.+1 (s t.+1).2 0 i - kn_vals (s t.+1).1 0 i)%:M (Some (w t.+1 (s t.+1).2 0 i)%:M) None true (mk_kf (kn_ests (s t.+1).1 i))).1.
  have := Hrun t.+1; rewrite /kn_update; case: first_exn => // _ [<-] /=.
  rewrite /mkal_update Hval ltNge Hlong /=; by case: (kg_update _ _ _ _ _ _).2.
rewrite /cov_of Ek.
have Hgr := @Granted F n M eps' (w t.+1 (s t.+1).2 0 i) (mk_kf (kn_ests (s t.+1).1 i)) vals vecs _ _ (f t.+1 (s t.+1).2 0 i - kn_vals (s t.+1).1 0 i)%:M HE Hreq'.
by have [_ _ Hdr] := granted_drop Hst HP HM He1 Heps' (Hw t.+1 (s t.+1).2 i) (Hmax t.+1 (s t.+1).2 i) Hgr.
Qed.

Lemma ask_bounded N : shortest2 F <= e1 ^+ 2 -> #|[pred t : 'I_N | asks request s t.+1]|%:R * drop1 <= trace_all (s 0%N).1.
Proof.
move=> Hsh.
have Hs : trace_all (s N.+1).1 + \sum_(t < N | asks request s t.+1) drop1 <= trace_all (s 0%N).1.
  elim: N => [|N IH].
    rewrite big_ord0 addr0; apply: ler_sum => i _; apply: trace_variance => v.
    by have [_ _ _ _ C] := taken_facts A Hw H0 Hrun 0; exact: C.
  apply: le_trans IH; rewrite big_mkcond big_ord_recr -big_mkcond /=.
  case: ifP => Ha; first by rewrite addrA addrAC ler_add2r -ler_subr_addr; exact: ask_drop.
  rewrite addr0 ler_add2r; apply: ler_sum => i _; apply: trace_variance => v.
  have [G _ _ _ _] := taken_facts A Hw H0 Hrun N.
  by have [_ [_ _ C _ _]] := taken_round A Hw Hrun G; exact: C.
apply: le_trans Hs; rewrite sumr_const mulr_natl -[X in X <= _]add0r ler_add2r.
apply: sumr_ge0 => i _; apply: trace_ge0.
by have [G _ _ _ _] := taken_facts A Hw H0 Hrun N; have [_ HP _] := G i.
Qed.
End Asking.

Section Shorter.
Variable F : realFieldType.
Add Field Ffield4 : (F_field F).
Lemma sqn_convex m d (u v : 'M[F]_(m, d)) c : 0 <= c <= 1 -> sqn ((1 - c) *: u + c *: v) <= (1 - c) * sqn u + c * sqn v.
Proof.
move=> /andP [Hc0 Hc1]; rewrite /sqn !mulr_sumr -big_split; apply: ler_sum => i _; rewrite !mulr_sumr -big_split; apply: ler_sum => j _ /=.
rewrite !mxE -subr_ge0; set a := u i j; set b := v i j.
have -> : (1 - c) * a ^+ 2 + c * b ^+ 2 - ((1 - c) * a + c * b) ^+ 2 = c * (1 - c) * (a - b) ^+ 2 by fold_field F; ring.
by rewrite mulr_ge0 ?sqr_ge0 // mulr_ge0 // subr_ge0.
Qed.
Variables (n k : nat) (A : 'M[F]_(k, n)) (a2 e2 : F).
Hypothesis HA : bounded_below A a2.
Hypothesis He : 4%:R * e2 < a2.
(** The length of a Newton step. *)
Lemma newton_length (J : 'M[F]_(k, n)) (d : 'rV[F]_k) : sqn (J - A) <= e2 -> (a2 - 2%:R * e2) * sqn (lstsq J d^T) <= 2%:R * sqn d.
Proof.
move=> HJ; set s := lstsq J d^T; have He0 : 0 <= e2 by apply: le_trans HJ; exact: sqn_ge0.
have Hpos : 0 < a2 - 2%:R * e2.
  rewrite subr_gt0; apply: le_lt_trans He; rewrite ler_wpmul2r // ler_nat //.
have Hlow (y : 'rV[F]_k) : (a2 - 2%:R * e2) * sqn y <= 2%:R * sqn (y *m J).
  rewrite mulrBl ler_subl_addr; apply: (le_trans (HA y)).
  have -> : y *m A = y *m J + (- (y *m (J - A))) by rewrite mulmxBr opprB addrC subrK.
  apply: (le_trans (sqn_add _ _)); rewrite sqnN ler_add2l -mulrA ler_pmul2l ?ltr0n //.
  by apply: (le_trans (sqn_mul_row _ _)); rewrite ler_wpmul2r ?sqn_ge0.
have Hfree : row_free J.
  rewrite -kermx_eq0; apply/eqP/row_matrixP => i; rewrite row0; set v := row i _.
  have Hv : v *m J = 0 by apply/eqP; rewrite -sub_kermx row_sub.
  apply/eqP; rewrite -sqn_eq0 eq_le sqn_ge0 andbT -(pmulr_rle0 _ Hpos); apply: (le_trans (Hlow v)).
  by rewrite Hv /sqn big1 ?mulr0 // => i' _; rewrite big1 // => j _; rewrite mxE expr0n.
have Hs : J *m s = d^T by exact: lstsq_exact.
have [y Hy] := lstsq_range J d^T; rewrite -/s in Hy.
have [Hz|Hz] := eqVneq (sqn s) 0; first by rewrite Hz mulr0 mulr_ge0 ?sqn_ge0 ?ler0n.
have Hz0 : 0 < sqn s by rewrite lt_neqAle eq_sym Hz sqn_ge0.
have E : sqn s = (y^T *m d^T) 0 0 by rewrite -Hs mulmxA -[y^T *m J]trmxK trmx_mul trmxK -Hy sqn_col.
have H1 : sqn s ^+ 2 <= sqn y * sqn d by rewrite E; have := dot_schwarz y^T d; rewrite sqn_tr.
have H2 : (a2 - 2%:R * e2) * sqn y <= 2%:R * sqn s.
  have := Hlow y^T; rewrite sqn_tr; congr (_ <= _ * _).
  by rewrite -sqn_tr trmx_mul trmxK -Hy.
rewrite -(ler_pmul2r Hz0) -mulrA -expr2.
apply: (le_trans (ler_wpmul2l (ltW Hpos) H1)); rewrite mulrA.
apply: (le_trans (ler_wpmul2r (sqn_ge0 d) H2)).
by rewrite mulrAC.
Qed.
(** A Newton step that is shortened to the length [m]. *)
Lemma shorter_contracts (J : 'M[F]_(k, n)) (d : 'rV[F]_k) (m c b : F) : sqn (J - A) <= e2 -> 0 < m -> 0 < c <= 1 ->
  (if m ^+ 2 < sqn (lstsq J d^T) then c ^+ 2 * sqn (lstsq J d^T) = m ^+ 2 else c = 1) ->
  0 <= b <= 1 -> b ^+ 2 * (2%:R * sqn d) <= m ^+ 2 * (a2 - 2%:R * e2) ->
  sqn (d - c *: (A *m lstsq J d^T)^T) <= (1 - b * (1 - 2%:R * e2 / (a2 - 2%:R * e2))) * sqn d.
Proof.
move=> HJ Hm /andP [Hc0 Hc1] Hcut /andP [Hb0 Hb1] Hb; have He0 : 0 <= e2 by apply: le_trans HJ; exact: sqn_ge0.
have Hpos : 0 < a2 - 2%:R * e2.
  rewrite subr_gt0; apply: le_lt_trans He; rewrite ler_wpmul2r // ler_nat //.
have HL := newton_length d HJ; have Hfull := newton_contracts HA He d HJ; have Hq := rate_lt1 He He0.
move: Hcut HL Hfull Hq; set x := lstsq J d^T; set q := _ / _; set D := a2 - _ => Hcut HL Hfull /andP [Hq0 Hq1].
have Hbc : b <= c.
  move: Hcut; case: ltP => [Hl Hcut|_ -> //].
  have Hx : 0 < sqn x by apply: le_lt_trans Hl; exact: sqr_ge0.
  rewrite -(@ler_pexpn2r _ 2) ?nnegrE ?(ltW Hc0) // -(ler_pmul2r Hx) Hcut -(ler_pmul2r Hpos) -/D.
  apply: le_trans Hb; rewrite -mulrA; apply: ler_wpmul2l; first exact: sqr_ge0.
  by rewrite mulrC.
have -> : d - c *: (A *m x)^T = (1 - c) *: d + c *: (d - (A *m x)^T).
  by rewrite scalerBr scalerBl scale1r addrA subrK.
apply: (le_trans (sqn_convex _ _ _)); first by rewrite Hc1 ltW.
apply: (@le_trans _ _ ((1 - c) * sqn d + c * (q * sqn d))).
  by rewrite ler_add2l; apply: ler_wpmul2l => //; exact: ltW.
have -> : (1 - c) * sqn d + c * (q * sqn d) = (1 - c * (1 - q)) * sqn d by fold_field F; ring.
by apply: ler_wpmul2r; [exact: sqn_ge0 | rewrite ler_add2l ler_opp2; apply: ler_wpmul2r; rewrite // subr_ge0 ltW].
Qed.
End Shorter.

Section Reach.
Variable F : realFieldType.
Variables (n k : nat) (A : 'M[F]_(k, n)) (c0 : 'rV[F]_k).
Variables (request : 'I_k -> mkal F n -> option 'rV[F]_n) (f w : nat -> 'rV[F]_n -> 'rV[F]_k) (s : nat -> mkn F n k * 'rV[F]_n).
Hypothesis Hf : forall t, f t = affines A c0.
Hypothesis Hw : forall t p i, 0 < w t p 0 i.
Hypothesis H0 : forall i, untold (kn_ests (s 0%N).1 i).
Hypothesis Hrun : taken f w s.
Variables (M m a2 : F) (eps : 'rV[F]_n).
Hypothesis Hm : 0 < m.
Hypothesis Hto : forall t, towards (Some m) (s t).2 (kn_suggest request (s t.+1).1) (s t.+1).2.
Hypothesis HM : 0 < M.
Hypothesis Hask : asks_like M eps request.
Let des := kn_desired (s 0%N).1.
Let e2 := M * \sum_i prior_error (row i A) (kn_ests (s 0%N).1 i).
Let q := 2%:R * e2 / (a2 - 2%:R * e2).
Hypothesis HA : bounded_below A a2.
Hypothesis He : 4%:R * e2 < a2.
Definition off (t : nat) : 'rV[F]_k := des - f t (s t).2.

Lemma ask_e2 : 0 <= e2.
Proof. by apply: mulr_ge0; [exact: ltW | apply: (total_ge0 A); exact: (taken_start H0)]. Qed.
Lemma off_step t d : (s t.+1).2 = (s t).2 + d -> off t.+1 = off t - (A *m d^T)^T.
Proof.
move=> E; rewrite /off !Hf E; have := affines_diff A c0 ((s t).2 + d) (s t).2.
by rewrite addrAC subrr add0r => <-; rewrite opprB addrA subrK.
Qed.
Lemma ask_jacobian t : ~~ asks request s t.+1 -> sqn (kn_jacobian (kn_ests (s t.+1).1) - A) <= e2.
Proof.
move=> Ha; have [G _ D _ _] := taken_facts A Hw H0 Hrun t.
rewrite sqn_rows; apply: (@le_trans _ _ (M * total A (s t.+1).1)).
  rewrite mulr_sumr; apply: ler_sum => i _.
  have -> : row i (kn_jacobian (kn_ests (s t.+1).1) - A) = grad (mk_kf (kn_ests (s t.+1).1 i)) - row i A by apply/rowP => j; rewrite !mxE.
  apply: energy_error; [exact: G | exact: ltW | exact: (ask_quiet A Hw H0 Hrun HM Hask Ha i)].
apply: ler_wpmul2l; first exact: ltW.
have := taken_learns A Hw H0 Hrun t.
have -> : \sum_(t0 < t | long s t0.+1) \sum_i unexplained A f s t0.+1 i ^+ 2 / w t0.+1 (s t0.+1).2 0 i = 0.
  by apply: big1 => t0 _; apply: big1 => i _; rewrite (no_unexplained Hw H0 Hrun Hf) expr0n mul0r.
rewrite addr0; apply: le_trans; rewrite ler_addl; apply: sumr_ge0 => t0 _; apply: sumr_ge0 => i _.
have [G0 _ _ _ _] := taken_facts A Hw H0 Hrun t0; have [_ HP _] := G0 i.
by apply: divr_ge0; [exact: sqr_ge0 | apply: addr_ge0; [exact: HP.2 | exact: ltW]].
Qed.
Lemma ask_contracts t b : ~~ asks request s t.+1 -> 0 <= b <= 1 -> b ^+ 2 * (2%:R * sqn (off t)) <= m ^+ 2 * (a2 - 2%:R * e2) ->
  sqn (off t.+1) <= (1 - b * (1 - q)) * sqn (off t).
Proof.
move=> Ha Hb Hb2; have HJ := ask_jacobian Ha.
have [_ _ D [P V] _] := taken_facts A Hw H0 Hrun t.
have [c [Hc Es Hcut]] := Hto t.
have Hd : kn_suggest request (s t.+1).1 - (s t).2 = (lstsq (kn_jacobian (kn_ests (s t.+1).1)) (off t)^T)^T.
  by rewrite (ask_none_newton A Hw H0 Hrun Ha) back /whole_step D V.
rewrite Hd in Es Hcut; rewrite (off_step Es) [in X in X <= _]linearZ /= trmxK -scalemxAr linearZ /=.
apply: (shorter_contracts HA He HJ Hm Hc _ Hb Hb2).
by move: Hcut; rewrite Es back sqnZ !sqn_tr.
Qed.
Lemma ask_rate : 0 <= q < 1.
Proof. exact: rate_lt1 He ask_e2. Qed.
Lemma ask_nearer t : ~~ asks request s t.+1 -> sqn (off t.+1) <= sqn (off t).
Proof.
move=> Ha; have := @ask_contracts t 0 Ha; rewrite lexx ler01 expr0n mul0r mul0r subr0 mul1r; apply=> //.
apply: mulr_ge0; first exact: sqr_ge0.
rewrite subr_ge0; apply: ltW; apply: le_lt_trans He; rewrite ler_wpmul2r ?ask_e2 // ler_nat //.
Qed.
Lemma ask_iterate t N b : (forall j, (j < N)%N -> ~~ asks request s (t + j).+1) -> 0 <= b <= 1 ->
  b ^+ 2 * (2%:R * sqn (off t)) <= m ^+ 2 * (a2 - 2%:R * e2) ->
  sqn (off (t + N)) <= (1 - b * (1 - q)) ^+ N * sqn (off t).
Proof.
move=> Hno Hb Hb2; have /andP [Hq0 Hq1] := ask_rate; have /andP [Hb0 Hb1] := Hb.
have Hr : 0 <= 1 - b * (1 - q) by rewrite subr_ge0 mulr_ile1 // ?subr_ge0 ?(ltW Hq1) // ler_subl_addr ler_addl.
have Hle j : (j <= N)%N -> sqn (off (t + j)) <= sqn (off t).
  elim: j => [|j IH] Hj; first by rewrite addn0.
  by rewrite addnS; apply: le_trans (IH (ltnW Hj)); apply: ask_nearer; exact: Hno.
elim: N Hno Hle => [|N IH] Hno Hle; first by rewrite addn0 expr0 mul1r.
rewrite addnS exprS -mulrA; apply: (@le_trans _ _ ((1 - b * (1 - q)) * sqn (off (t + N)))).
  apply: ask_contracts => //; first exact: Hno.
  apply: le_trans Hb2; apply: ler_wpmul2l; first exact: sqr_ge0.
  by apply: ler_wpmul2l; [exact: ler0n | exact: Hle].
apply: ler_wpmul2l => //; apply: IH => j Hj; [apply: Hno | apply: Hle]; exact: ltnW.
Qed.

(** *** Distance over many requests *)
Variables (normk : 'rV[F]_k -> F) (la : F).
Hypothesis Hnorm : is_norm normk.
Hypothesis Hla : 0 <= la.
Hypothesis Hlip : forall x : 'rV[F]_n, sqn (x *m A^T) <= la ^+ 2 * sqn x.
Lemma off_grows N : normk (off N) <= normk (off 0%N) + (\sum_(t < N) asks request s t.+1)%:R * (la * m).
Proof.
elim: N => [|N IH]; first by rewrite big_ord0 mul0r addr0.
rewrite big_ord_recr /= natrD mulrDl addrA; case: (boolP (asks request s N.+1)) => Ha.
  have Hs : sqn ((s N.+1).2 - (s N).2) <= m ^+ 2 by exact: (towards_length erefl (Hto N)).
  have -> : off N.+1 = off N + - (A *m ((s N.+1).2 - (s N).2)^T)^T by apply: off_step; rewrite addrC subrK.
  apply: (le_trans (norm_add Hnorm _ _)); rewrite mul1r; apply: ler_add => //.
  apply: (norm_le Hnorm); first by apply: mulr_ge0 => //; exact: ltW.
  rewrite sqnN trmx_mul trmxK; apply: (le_trans (Hlip _)); rewrite exprMn; apply: ler_wpmul2l => //; exact: sqr_ge0.
rewrite mul0r addr0; apply: le_trans IH; apply: (norm_le Hnorm); first by have [] := Hnorm (off N).
have [_ ->] := Hnorm (off N); exact: ask_nearer.
Qed.
Lemma quiet_window K L : (exists j, (j <= K)%N /\ forall i, (i < L)%N -> ~~ asks request s (j * L + i).+1) \/ (K < \sum_(t < K.+1 * L) asks request s t.+1)%N.
Proof.
have H J : (exists j, (j < J)%N /\ forall i, (i < L)%N -> ~~ asks request s (j * L + i).+1) \/ (J <= \sum_(t < J * L) asks request s t.+1)%N.
  elim: J => [|J [[j [Hj Hq]]|IH]]; first by right.
    by left; exists j; split=> //; exact: ltnW.
  have [/forallP Hq|] := boolP [forall i : 'I_L, ~~ asks request s (J * L + i).+1].
    by left; exists J; split=> // i Hi; exact: (Hq (Ordinal Hi)).
  rewrite negb_forall => /existsP [i]; rewrite negbK => Hi; right.
  rewrite mulSn addnC big_split_ord /= -addn1; apply: leq_add => //.
  by rewrite (bigD1 i) //= Hi.
by have [[j [Hj Hq]]|Hc] := H K.+1; [left; exists j | right].
Qed.
End Reach.

Lemma geometric (F : archiFieldType) (r c eta : F) : 0 <= r < 1 -> 0 <= c -> 0 < eta -> exists L, r ^+ L * c <= eta.
Proof.
move=> /andP [Hr0 Hr1] Hc Heta; have Hd : 0 < 1 - r by rewrite subr_gt0.
have Hb L : r ^+ L * (1 + L%:R * (1 - r)) <= 1.
  elim: L => [|L IH]; first by rewrite expr0 mul0r addr0 mulr1.
  have -> : 1 + L.+1%:R * (1 - r) = 1 + L%:R * (1 - r) + (1 - r) by rewrite -addn1 natrD mulrDl mul1r addrA.
  rewrite mulrDr exprS -mulrA; apply: (@le_trans _ _ (r * 1 + 1 * (1 - r))); last by rewrite mulr1 mul1r addrC subrK.
  apply: ler_add; first exact: ler_wpmul2l.
  apply: ler_wpmul2r; first exact: ltW.
  by rewrite -exprS; apply: exprn_ile1 => //; exact: ltW.
have Hx : 0 <= c / (eta * (1 - r)) by apply: divr_ge0 => //; apply: mulr_ge0; exact: ltW.
exists (Num.bound (c / (eta * (1 - r)))); set L := Num.bound _.
have Hl : c <= eta * (1 + L%:R * (1 - r)).
  rewrite mulrDr mulr1 ler_paddl //; first exact: ltW.
  by rewrite mulrCA -ler_pdivr_mulr ?mulr_gt0 //; apply: ltW; exact: archi_boundP.
apply: (le_trans (ler_wpmul2l (exprn_ge0 L Hr0) Hl)); rewrite mulrCA -[X in _ <= X]mulr1.
by apply: ler_wpmul2l; [exact: ltW | exact: Hb].
Qed.
