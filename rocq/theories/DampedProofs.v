From mathcomp Require Import all_ssreflect all_algebra.
From Verif Require Import PyExn LinAlgModel LinAlgSpec LinAlgProofs FDProofs LoopProofs KalmanLoopProofs ChordModel ChordSpec ChordProofs LimitedModel LimitedSpec LimitedProofs FieldTac.
From Coq Require Import Ring Field.
Set Implicit Arguments. Unset Strict Implicit. Unset Printing Implicit Defensive.
Import Order.TTheory GRing.Theory Num.Theory.
Local Open Scope ring_scope.

(** *** Learning with a limit that does not cut the requested steps *)
Section Whole.
Variables (F : realFieldType) (n k : nat) (ortho : seq 'rV[F]_n -> res 'rV[F]_n).
Add Field Ffield3 : (F_field F).
Variables (norm : 'rV[F]_n -> F) (int_of : F -> nat) (m : F).
Hypothesis Hnorm : is_norm norm.
Hypothesis Hint : is_int int_of.
Hypothesis Hm : 0 < m.
Variables (f w : nat -> 'rV[F]_n -> 'rV[F]_k).
Local Notation lt_round := (lt_round ortho norm int_of (Some m) 1 f w).
Local Notation lt_rounds := (lt_rounds ortho norm int_of (Some m) 1 f w).
Hypothesis Hortho : chooses_orthogonal ortho.
Variables (p0 : 'rV[F]_n) (eps : 'I_k -> 'rV[F]_n) (des vals0 : 'rV[F]_k).
Hypothesis Hk : (0 < k)%N.
Hypothesis Hn : (0 < n)%N.
Let i0 := Ordinal Hk.
Variables (e l0 l1 : F).
Hypothesis He : 0 < e.
Hypothesis Heps : eps i0 = const_mx e.
Hypothesis Hl1 : 0 <= l1.
Hypothesis Hlen : lengths ortho l0 l1.
Hypothesis Hwhole : e * l1 + e * l1 <= m.
Let start := starting des p0 eps vals0.
Local Notation pts := (pts p0).
Local Notation made := (made ortho eps Hk).
Local Notation grown := (grown ortho eps Hk).
Local Notation inv := (loop_inv' f w p0 eps des).

Let el : 0 <= e * l1. Proof. by rewrite mulr_ge0 // ltW. Qed.
Lemma made_length ds d : made ds d -> sqn d <= (e * l1) ^+ 2.
Proof.
move=> [ov [vs [-> Ho _ _]]]; rewrite -/i0 Heps scale_const sqnZ exprMn ler_wpmul2l ?sqr_ge0 //.
by have /andP [] := Hlen Ho.
Qed.
Lemma last_length ds : grown ds -> sqn (last 0 ds) <= (e * l1) ^+ 2.
Proof.
case/lastP: ds => [|ds d] Hg; first by rewrite /= sqn0 sqr_ge0.
have := Hg (size ds); rewrite size_rcons ltnSn nth_rcons ltnn eqxx last_rcons => /(_ isT); exact: made_length.
Qed.
Lemma whole_step ds d v' : grown ds -> made ds d -> towards (Some m) (last p0 (pts ds)) (p0 + d) v' -> v' = p0 + d.
Proof.
move=> Hg Hd [c [_ -> ]].
have -> : p0 + d - last p0 (pts ds) = d - last 0 ds.
  by rewrite last_pts; move: (last 0 ds) => z; apply/rowP => j; rewrite !mxE; move: (p0 0 j) (z 0 j) (d 0 j) => x y u; fold_field F; ring.
case: ltP => [H|_ ->].
  have : sqn (d - last 0 ds) <= m ^+ 2.
    apply: (le_trans (y := (e * l1 + e * l1) ^+ 2)); first by apply: sub1 => //; [exact: made_length Hd | exact: last_length].
    by apply: sq_mono; rewrite ?addr_ge0.
  by move=> /(lt_le_trans H); rewrite ltxx.
by rewrite scale1r last_pts; move: (last 0 ds) => z; apply/rowP => j; rewrite !mxE; move: (p0 0 j) (z 0 j) (d 0 j) => x y u; fold_field F; ring.
Qed.

Let Hlim : is_true (if Some m is Some m' then 0 < m' else true). Proof. exact: Hm. Qed.
Lemma learn_whole j : (j < n)%N -> exists ds st d,
  [/\ lt_rounds j.+1 start = Ok (mk_ltuner st (p0 + d) j.+1 0), inv ds st, size ds = j & grown (rcons ds d)].
Proof.
elim: j => [|j IH] Hj.
- have [|st [Hu Hd Hp Hv He']] := @update_all' F n k f w 0 p0 (begin p0 eps des vals0).
    by move=> i; have [e' [He' _]] := waiting_first f w p0 eps Hn i; exists e'.
  have Hinv : inv [::] st.
    by split=> // i; rewrite He'; have [e' [He2 Ha]] := waiting_first f w p0 eps Hn i; rewrite /= He2.
  have [d [Hs Hd']] := suggest_made Hortho Hk Hn Hinv Hj (@indep_nil F n).
  have [v' [Hr Ht]] := round_made (limit := Some m) Hnorm Hint Hlim Hu Hs.
  have E : v' = p0 + d by apply: (@whole_step [::]) => //; case.
  by exists [::], st, d; split=> //; [rewrite -E | apply: grown_rcons => //; case].
- have [ds [st [d [Hr Hinv Hs Hg]]]] := IH (ltnW Hj).
  have Hmore : forall i, exists e', mfd_update (p0 + d) (f j.+1 (p0 + d) 0 i) (w j.+1 (p0 + d) 0 i) (mn_ests st i) = (e', Ok tt) /\ waiting f w p0 eps (rcons ds d) i e'.
    by move=> i; rewrite -Hs; apply: waiting_more; [exact: Hinv.2 | rewrite Hs].
  have [|st' [Hu Hd' Hp' Hv' He']] := @update_all' F n k f w j.+1 (p0 + d) st.
    by move=> i; have [e' [He' _]] := Hmore i; exists e'.
  have Hinv' : inv (rcons ds d) st'.
    split=> [|i]; first by rewrite Hd' Hinv.1.
    by rewrite He'; have [e' [-> Ha]] := Hmore i.
  have Hpos : forall l, 0 < eps i0 0 l by move=> l; rewrite Heps mxE.
  have [||d' [Hs' Hd2]] := @suggest_made F n k ortho Hortho f w p0 eps des Hk Hn _ st' Hinv'; [by rewrite size_rcons Hs | exact: grown_indep Hg |].
  have [v' [Hr' Ht]] := round_made (limit := Some m) Hnorm Hint Hlim Hu Hs'.
  have E : v' = p0 + d' by apply: (whole_step Hg) => //; rewrite last_pts last_rcons.
  exists (rcons ds d), st', d'; split=> //; [by rewrite roundsS Hr Hr' E | by rewrite size_rcons Hs | exact: grown_rcons].
Qed.

Local Notation knows := (knows des).
(** All rounds: [v j] are the voltages after [n + j] rounds. *)
Lemma rounds_whole : exists ds J (v : nat -> 'rV[F]_n), [/\ size ds = n, grown ds, chords f (pts ds) J & v 0%N = last p0 (pts ds)] /\
  forall j, (exists st, lt_rounds (n + j)%N start = Ok (mk_ltuner st (v j) (n + j) 0)) /\ towards (Some m) (v j) (newton f des J (n + j) (v j)) (v j.+1).
Proof.
have Hj : (n.-1 < n)%N by rewrite prednK.
have [ds [st [d [Hr Hinv Hs Hg]]]] := learn_whole Hj.
rewrite (prednK Hn) in Hr.
have HsS : (size ds).+1 = n by rewrite Hs prednK.
have Hpos : forall l, 0 < eps i0 0 l by move=> l; rewrite Heps mxE.
have Hdone : forall i, exists e' g, [/\ mfd_update (p0 + d) (f n (p0 + d) 0 i) (w n (p0 + d) 0 i) (mn_ests st i) = (e', Ok tt), mf_est e' = Some g & slopes f p0 (rcons ds d) i g].
  by move=> i; have := waiting_done (Hinv.2 i) HsS (grown_indep Hpos Hg); rewrite HsS.
have [|st' [Hu Hd' Hp' Hv' He']] := @update_all' F n k f w n (p0 + d) st.
  by move=> i; have [e' [g [He' _ _]]] := Hdone i; exists e'.
pose J : 'M[F]_(k, n) := \matrix_(i, j) (if mf_est (mn_ests st' i) is Some g then g 0 j else 0).
have HJ : forall i, mf_est (mn_ests st' i) = Some (row i J) /\ slopes f p0 (rcons ds d) i (row i J).
  move=> i; have [e' [g [He2 Hg' Hsl]]] := Hdone i.
  have E : mf_est (mn_ests st' i) = Some g by rewrite He' He2.
  have -> : row i J = g by apply/rowP => j; rewrite !mxE E.
  by rewrite E.
have Hkn : knows J st' by split=> [|i]; [rewrite Hd' Hinv.1 | case: (HJ i)].
have [v' [Hr' Ht]] := round_made (limit := Some m) Hnorm Hint Hlim Hu (knows_suggest ortho Hkn).
rewrite Hp' Hv' in Ht.
pose v j := if lt_rounds (n + j)%N start is Ok s then lt_volt s else 0.
have Hv0 : v 0%N = p0 + d by rewrite /v addn0 Hr.
have Hall : forall j, exists st1 st2 v1 v2, [/\ lt_rounds (n + j)%N start = Ok (mk_ltuner st1 v1 (n + j) 0),
     lt_rounds (n + j.+1)%N start = Ok (mk_ltuner st2 v2 (n + j.+1) 0), knows J st2 & towards (Some m) v1 (newton f des J (n + j) v1) v2].
  elim=> [|j [st1 [st2 [v1 [v2 [H1 H2 K2 T]]]]]].
    by exists st, st', (p0 + d), v'; rewrite addn0 addn1; split=> //; rewrite roundsS Hr Hr'.
  have [st3 [v3 [H3 K3 T3]]] := knows_next (limit := Some m) ortho Hnorm Hint Hlim f w (n + j.+1) v2 K2.
  exists st2, st3, v2, v3; split=> //; by rewrite [(n + j.+2)%N]addnS roundsS H2 H3.
exists (rcons ds d), J, v; split; first split=> //.
- by rewrite size_rcons.
- move=> a b; rewrite size_pts => Ha Hb'; apply/rowP => i; rewrite [RHS]mxE [X in _ = _ + X]mxE.
  have [_ Hsl] := HJ i; rewrite -Hsl // mxE; apply: eq_bigr => j _; by rewrite !mxE mulrC.
- by rewrite Hv0 last_pts last_rcons.
- move=> j; have [st1 [st2 [v1 [v2 [H1 H2 _ T]]]]] := Hall j.
  by rewrite /v H1 H2 /=; split=> //; exists st1.
Qed.
End Whole.

(** *** Convergence of limited steps *)
Section Converge.
Variables (F : realFieldType) (n k : nat) (ortho : seq 'rV[F]_n -> res 'rV[F]_n).
Add Field Ffield4 : (F_field F).
Hypothesis Hortho : chooses_orthogonal ortho.
Variables (norm : 'rV[F]_n -> F) (int_of : F -> nat) (m : F).
Hypothesis Hnorm : is_norm norm.
Hypothesis Hint : is_int int_of.
Hypothesis Hm : 0 < m.
Variables (f w : nat -> 'rV[F]_n -> 'rV[F]_k) (p0 : 'rV[F]_n) (eps : 'I_k -> 'rV[F]_n) (des : 'rV[F]_k).
Hypothesis Hk : (0 < k)%N.
Let i0 := Ordinal Hk.
Variables (h : 'rV[F]_n -> 'rV[F]_k) (A : 'M[F]_(k, n)) (a e l0 l1 kappa tau ep s0 R c0 : F).
Hypothesis He : 0 < e.
Hypothesis Heps : eps i0 = const_mx e.
Hypothesis Hl0 : 0 < l0.
Hypothesis Hl1 : 0 <= l1.
Hypothesis Hlen : lengths ortho l0 l1.
Hypothesis Hsteep : steep A a.
Hypothesis Hka0 : 0 <= kappa.
Hypothesis Hta0 : 0 <= tau.
Hypothesis Hep0 : 0 <= ep.
Hypothesis Hs0 : 0 <= s0.
Hypothesis Haff : nearly_affine h A kappa p0 R.
Hypothesis Hnoise : forall t x, near p0 R x -> sqn (f t x - h x) <= tau ^+ 2.
Hypothesis Hep : n%:R * (kappa + (tau + tau) / (e * l0)) ^+ 2 <= ep ^+ 2.
Hypothesis Ha : ep + ep + kappa < a.
Hypothesis Hstart : forall x, near p0 (e * l1) x -> sqn (des - h x) <= s0 ^+ 2.
Let q := (ep + kappa) / (a - ep).
Let b := (1 + q) * tau / (1 - q).
Hypothesis HR : e * l1 + (s0 + s0 + b) / (a - ep - ep - kappa) + (s0 + b + tau) / (a - ep) <= R.
Hypothesis Hwhole : e * l1 + e * l1 <= m.
Hypothesis Hc0 : 0 < c0.
Hypothesis Hc1 : c0 <= 1.
Hypothesis Hc : c0 * (s0 + b + tau) <= m * (a - ep).
Let rho := 1 - c0 * (1 - q).

Let amep' : 0 < a - ep := amep Hka0 Hep0 Ha.
Let amep2' : 0 < a - ep - ep - kappa := amep2 Ha.
Let q_ge0' : 0 <= q := q_ge0 Hka0 Hep0 Ha.
Let q_lt1' : q < 1 := q_lt1 Hka0 Hep0 Ha.
Let onemq' : 0 < 1 - q := onemq Hka0 Hep0 Ha.
Let b_ge0' : 0 <= b := b_ge0 Hka0 Hta0 Hep0 Ha.
Let b_fixed' : q * b + (1 + q) * tau = b := b_fixed tau Hka0 Hep0 Ha.
Lemma rho_lt1 : rho < 1.
Proof. by rewrite /rho ltr_subl_addr ltr_addl mulr_gt0. Qed.
Lemma rho_ge0 : 0 <= rho.
Proof.
rewrite /rho subr_ge0; apply: (le_trans (y := c0 * 1)); last by rewrite mulr1.
by rewrite ler_wpmul2l ?(ltW Hc0) // ler_subl_addr ler_addl.
Qed.

Section Known.
Variables (ds : seq 'rV[F]_n) (J : 'M[F]_(k, n)).
Hypothesis HJst : steep J (a - ep).
Hypothesis Hecol : forall x : 'rV[F]_n, sqn (x *m (J - A)^T) <= ep ^+ 2 * sqn x.
Let pn := last p0 (pts p0 ds).
Hypothesis Hpn : near p0 (e * l1) pn.
Hypothesis Hstays : forall v s, near p0 R v -> (exists y, v - pn = y *m J) -> 0 <= s -> s <= s0 + b -> sqn (des - h v) <= s ^+ 2 ->
  sqn (v - pn) <= ((s0 + s0 + b) / (a - ep - ep - kappa)) ^+ 2.

Lemma damped_step t v s v' : near p0 R v -> 0 <= s -> sqn (des - h v) <= s ^+ 2 -> towards (Some m) v (newton f des J t v) v' ->
  c0 * ((s + tau) / (a - ep)) <= m ->
  [/\ sqn (v' - v) <= ((s + tau) / (a - ep)) ^+ 2, exists y, v' - v = y *m J &
      near p0 R v' -> exists c, [/\ c0 <= c, c <= 1 & sqn (des - h v') <= ((1 - c) * s + c * (q * s + (1 + q) * tau)) ^+ 2]].
Proof.
move=> Hv Hs Hd [c [/andP [Hcp Hcl] -> ]]; set dl := (lstsq J (des - f t v)^T)^T => HT HD.
have Edl : newton f des J t v - v = dl by rewrite /newton addrC addKr.
rewrite {}Edl in HT *.
have Hms : sqn (des - f t v) <= (s + tau) ^+ 2.
  have -> : des - f t v = (des - h v) - (f t v - h v) by apply/rowP => j; rewrite !mxE; fold_field F; ring.
  by apply: sub1 => //; exact: Hnoise.
have Hl : sqn dl <= ((s + tau) / (a - ep)) ^+ 2.
  rewrite expr_div_n ler_pdivl_mulr ?exprn_gt0 // mulrC.
  exact: le_trans (lstsq_length amep' HJst _) Hms.
have [y [Hy HyJ]] := lstsq_row amep' HJst (des - f t v).
have Hd0 : 0 <= (s + tau) / (a - ep) by apply: divr_ge0; [exact: addr_ge0 | exact: ltW].
have Ev : v + c *: dl - v = c *: dl by rewrite addrC addKr.
have Hcc : c0 <= c.
  move: HT; case: ltP => [Hlt HT|_ -> //].
  have H1 : m ^+ 2 <= (c * ((s + tau) / (a - ep))) ^+ 2.
    by rewrite -HT Ev sqnZ exprMn ler_wpmul2l ?sqr_ge0.
  have H2 : m <= c * ((s + tau) / (a - ep)).
    have H0 : 0 <= c * ((s + tau) / (a - ep)) by apply: mulr_ge0 => //; exact: ltW.
    by move: H1; rewrite ler_pexpn2r ?nnegrE ?(ltW Hm).
  have H3 : 0 < (s + tau) / (a - ep).
    rewrite lt_neqAle Hd0 andbT; apply/eqP => E0; move: H2; rewrite -E0 mulr0 => H2.
    by have := lt_le_trans Hm H2; rewrite ltxx.
  by rewrite -(ler_pmul2r H3); exact: le_trans HD H2.
rewrite Ev; split.
- rewrite sqnZ; apply: le_trans Hl; rewrite -{2}[sqn dl]mul1r ler_wpmul2r ?sqn_ge0 //.
  by rewrite expr_le1 // ltW.
- by exists (c *: y); rewrite /dl Hy -scalemxAl.
move=> Hv'; exists c; split=> //.
set v2 := v + c *: dl in Ev Hv' *.
have EJ : c *: dl *m J^T = c *: (des - f t v) by rewrite -scalemxAl /dl Hy HyJ.
have -> : des - h v2 = (1 - c) *: (des - h v) + (c *: (f t v - h v) + ((v2 - v) *m (J - A)^T - (h v2 - h v - (v2 - v) *m A^T))).
  rewrite Ev error_split EJ; move: (c *: dl *m A^T) => z; move: (h v) (h v2) (f t v) => hv hv2 fv.
  by apply/rowP => j; rewrite !mxE; move: (des 0 j) (hv 0 j) (hv2 0 j) (fv 0 j) (z 0 j) => d1 d2 d3 d4 d5; fold_field F; ring.
have Hl2 : sqn (v2 - v) <= (c * ((s + tau) / (a - ep))) ^+ 2 by rewrite Ev sqnZ exprMn ler_wpmul2l ?sqr_ge0.
have -> : (1 - c) * s + c * (q * s + (1 + q) * tau) =
          (1 - c) * s + (c * tau + (ep * (c * ((s + tau) / (a - ep))) + kappa * (c * ((s + tau) / (a - ep))))).
  congr (_ + _); rewrite -mulrDl mulrCA -mulrDr; congr (_ * _); rewrite /q; fold_field F; field; apply/eqP; by rewrite gt_eqF.
have HD0 : 0 <= c * ((s + tau) / (a - ep)) by rewrite mulr_ge0 // ltW.
move: (c * ((s + tau) / (a - ep))) Hl2 HD0 => D Hl2 HD0.
have Hc10 : 0 <= 1 - c by rewrite subr_ge0.
have Hcge : 0 <= c by exact: ltW.
apply: add1; rewrite ?addr_ge0 ?mulr_ge0 //; first by rewrite sqnZ exprMn ler_wpmul2l ?sqr_ge0.
apply: add1; rewrite ?addr_ge0 ?mulr_ge0 //; first by rewrite sqnZ exprMn ler_wpmul2l ?sqr_ge0 //; exact: Hnoise.
apply: sub1; rewrite ?mulr_ge0 // exprMn.
- by apply: (le_trans (Hecol _)); rewrite ler_wpmul2l ?sqr_ge0.
- by apply: (le_trans (Haff Hv' Hv)); rewrite ler_wpmul2l ?sqr_ge0.
Qed.

Lemma damped_round t v s v' : near p0 R v -> (exists y, v - pn = y *m J) -> 0 <= s -> s <= s0 -> sqn (des - h v) <= (s + b) ^+ 2 ->
  towards (Some m) v (newton f des J t v) v' ->
  [/\ near p0 R v', exists y, v' - pn = y *m J & sqn (des - h v') <= (rho * s + b) ^+ 2].
Proof.
move=> Hv Hy Hs Hss Hd HT.
have Hsb : 0 <= s + b by rewrite addr_ge0.
have Hsb' : s + b <= s0 + b by rewrite ler_add2r.
have HD : c0 * ((s + b + tau) / (a - ep)) <= m.
  rewrite mulrA ler_pdivr_mulr //; apply: le_trans Hc; rewrite ler_wpmul2l ?(ltW Hc0) //.
  by rewrite !ler_add2r.
have [Hlen' [y' Hy'] Hnext] := damped_step Hv Hsb Hd HT HD.
have Hb := Hstays Hv Hy Hsb Hsb' Hd.
have Hv' : near p0 R v'.
  rewrite /near; have -> : v' - p0 = (pn - p0) + (v - pn) + (v' - v) by apply/rowP => j; rewrite !mxE; move: (p0 0 j) (pn 0 j) (v 0 j) (v' 0 j) => x1 x2 x3 x4; fold_field F; ring.
  have H1 : 0 <= (s0 + s0 + b) / (a - ep - ep - kappa) by apply: divr_ge0; [rewrite !addr_ge0 | exact: ltW].
  have H2 : 0 <= (s + b + tau) / (a - ep) by apply: divr_ge0; [rewrite !addr_ge0 | exact: ltW].
  have el : 0 <= e * l1 by rewrite mulr_ge0 // ltW.
  apply: (le_trans (y := (e * l1 + (s0 + s0 + b) / (a - ep - ep - kappa) + (s + b + tau) / (a - ep)) ^+ 2)).
    by apply: add1 => //; rewrite ?addr_ge0 //; apply: add1.
  apply: sq_mono; first by rewrite !addr_ge0.
  apply: le_trans HR; rewrite ler_add2l ler_pmul2r ?invr_gt0 // !ler_add2r //.
split=> //.
  have [y Hy0] := Hy; exists (y + y'); rewrite mulmxDl -Hy0 -Hy'.
  by apply/rowP => j; rewrite !mxE; move: (pn 0 j) (v 0 j) (v' 0 j) => x2 x3 x4; fold_field F; ring.
have [c [Hcc Hcl Hlast]] := Hnext Hv'; apply: (le_trans Hlast).
have -> : (1 - c) * (s + b) + c * (q * (s + b) + (1 + q) * tau) = (1 - c * (1 - q)) * s + b.
  have -> : q * (s + b) + (1 + q) * tau = q * s + b by rewrite mulrDr -addrA b_fixed'.
  by move: q b => x y; fold_field F; ring.
have Hcq : c * (1 - q) <= 1.
  apply: (le_trans (y := 1 * 1)); last by rewrite mulr1.
  by apply: ler_pmul; rewrite ?(ltW onemq') ?(le_trans (ltW Hc0) Hcc) // ler_subl_addr ler_addl.
apply: sq_mono; first by rewrite addr_ge0 // mulr_ge0 // subr_ge0.
rewrite ler_add2r ler_wpmul2r // /rho ler_add2l ler_opp2 ler_wpmul2r // ltW //.
Qed.

Variable v : nat -> 'rV[F]_n.
Hypothesis Hv0 : v 0%N = pn.
Hypothesis Hvs : forall j, towards (Some m) (v j) (newton f des J (n + j) (v j)) (v j.+1).
Let ball : e * l1 <= R := ball0 Hka0 Hta0 Hep0 Hs0 Ha HR.
Lemma damped_rounds j : [/\ near p0 R (v j), exists y, v j - pn = y *m J & sqn (des - h (v j)) <= (rho ^+ j * s0 + b) ^+ 2].
Proof.
elim: j => [|j [H1 H2 H3]].
  rewrite Hv0; have el : 0 <= e * l1 by rewrite mulr_ge0 // ltW.
  split; [exact: near_mono el ball Hpn | by exists 0; rewrite subrr mul0mx |].
  rewrite expr0 mul1r; apply: (le_trans (Hstart Hpn)); apply: sq_mono => //; by rewrite ler_addl.
rewrite [rho ^+ j.+1]exprS -mulrA; apply: (damped_round H1 H2 _ _ H3 (Hvs j)).
- by rewrite mulr_ge0 // exprn_ge0 // rho_ge0.
- by rewrite -{2}[s0]mul1r ler_wpmul2r // exprn_ile1 ?rho_ge0 // ltW // rho_lt1.
Qed.
End Known.

Lemma damped_converges vals0 j : exists st v, [/\ lt_rounds ortho norm int_of (Some m) 1 f w (n + j) (starting des p0 eps vals0) = Ok (mk_ltuner st v (n + j) 0),
  sqn (des - h v) <= (rho ^+ j * s0 + b) ^+ 2 & near p0 R v].
Proof.
have Hn : (0 < n)%N := Hn' Hk Hsteep Hka0 Hep0 Ha.
have [ds [J [v [[Hs Hg Hch Hv0] Hv]]]] := rounds_whole Hnorm Hint Hm f w Hortho p0 des vals0 Hn He Heps Hl1 Hlen Hwhole.
have HJst : steep J (a - ep) := jacobian_steep He Heps Hl0 Hl1 Hlen Hsteep Hka0 Hta0 Hep0 Hs0 Haff Hnoise Hep Ha HR Hs Hg Hch.
have Hecol := error_col He Heps Hl0 Hl1 Hlen Hka0 Hta0 Hep0 Hs0 Haff Hnoise Hep Ha HR Hs Hg Hch.
have Hpn := pn_near p0 He Heps Hlen Hs Hg.
have Hst := stays_near He Heps Hl0 Hl1 Hlen Hsteep Hka0 Hta0 Hep0 Hs0 Haff Hnoise Hep Ha Hstart HR Hs Hg Hch.
have [H1 _ H3] := damped_rounds HJst Hecol Hpn Hst Hv0 (fun j => (Hv j).2) j.
have [[st Hr] _] := Hv j.
by exists st, (v j).
Qed.
End Converge.
