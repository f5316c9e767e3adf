From mathcomp Require Import all_ssreflect all_algebra.
From Verif Require Import PyExn LinAlgModel LinAlgSpec LinAlgProofs FDProofs LoopProofs KalmanLoopProofs ChordModel ChordSpec ChordProofs LimitedModel LimitedSpec FieldTac.
From Coq Require Import Ring Field.
Set Implicit Arguments. Unset Strict Implicit. Unset Printing Implicit Defensive.
Import Order.TTheory GRing.Theory Num.Theory.
Local Open Scope ring_scope.

Lemma roundsS F n k ortho norm int_of limit N f w m (s : ltuner F n k) : lt_rounds ortho norm int_of limit N f w m.+1 s =
  match lt_rounds ortho norm int_of limit N f w m s with Ok s' => lt_round ortho norm int_of limit N f w s' | Raise e => Raise e end.
Proof. by []. Qed.

Section Limited.
Variables (F : realFieldType) (n k : nat) (ortho : seq 'rV[F]_n -> res 'rV[F]_n).
Add Field Ffield : (F_field F).
Variables (norm : 'rV[F]_n -> F) (int_of : F -> nat) (limit : option F).
Hypothesis Hnorm : is_norm norm.
Hypothesis Hint : is_int int_of.
Hypothesis Hlim : if limit is Some m then 0 < m else true.
Local Notation cut_step := (cut_step norm int_of limit 1).

Lemma norm_gt (m : F) (v : 'rV[F]_n) : 0 < m -> (m < norm v) = (m ^+ 2 < sqn v).
Proof. by move=> Hm; have [Hv <-] := Hnorm v; rewrite ltr_pexpn2r // ?nnegrE // ltW. Qed.
Lemma cut_towards (v p : 'rV[F]_n) : exists v', cut_step v p 0 = (v', 0%N) /\ towards limit v p v'.
Proof.
rewrite /LimitedModel.cut_step /towards; case: limit Hlim => [m Hm|_]; last first.
  by exists p; rewrite addrC subrK; split=> //; exists 1; rewrite scale1r ltr01 lexx addrC subrK.
rewrite norm_gt //; case: ltP => H.
- have Hn : m < norm (p - v) by rewrite norm_gt.
  have Hn0 : 0 < norm (p - v) by apply: lt_trans Hn.
  eexists; split.
    congr (_, _); have /andP [_] := Hint (ltW (divr_gt0 Hn0 Hm)).
    have : 1 < norm (p - v) / m by rewrite ltr_pdivl_mulr // mul1r.
    case: (int_of _) => [|i] H1 H2; first by have := lt_trans H1 H2; rewrite ltxx.
    by rewrite eqxx minnSS minn0.
  exists (m / norm (p - v)); split=> //; first by rewrite divr_gt0 //= ler_pdivr_mulr // mul1r ltW.
  have [_ E] := Hnorm (p - v).
  rewrite addrC addKr sqnZ -E exprMn -mulrA -exprMn mulVf ?expr1n ?mulr1 // gt_eqF //.
- by exists (v + (p - v)); split=> //; exists 1; rewrite scale1r ltr01 lexx.
Qed.
Lemma towards_length (v p v' : 'rV[F]_n) m : limit = Some m -> towards limit v p v' -> sqn (v' - v) <= m ^+ 2.
Proof.
move=> -> [c [_ -> /=]]; case: ltP => [_ -> //|H ->]; by rewrite scale1r addrC addKr.
Qed.

Variables (f w : nat -> 'rV[F]_n -> 'rV[F]_k).
Local Notation lt_round := (lt_round ortho norm int_of limit 1 f w).
Local Notation lt_rounds := (lt_rounds ortho norm int_of limit 1 f w).
Lemma round_towards st v t s' : lt_round (mk_ltuner st v t 0) = Ok s' -> exists p, towards limit v p (lt_volt s').
Proof.
rewrite /LimitedModel.lt_round; case: lt_check => // -[st' t']; case: mn_suggest => //= p.
by have [v' [-> H]] := cut_towards v p => -[<-]; exists p.
Qed.
Lemma round_made st v t st' p : mn_update v (f t v) (w t v) st = Ok st' -> mn_suggest ortho st' = Ok p ->
  exists v', lt_round (mk_ltuner st v t 0) = Ok (mk_ltuner st' v' t.+1 0) /\ towards limit v p v'.
Proof.
move=> Hu Hs; have [v' [Hc Ht]] := cut_towards v p; exists v'; split=> //.
by rewrite /LimitedModel.lt_round /lt_check /= Hu Hs Hc.
Qed.

Hypothesis Hortho : chooses_orthogonal ortho.
Variables (p0 : 'rV[F]_n) (eps : 'I_k -> 'rV[F]_n) (des vals0 : 'rV[F]_k).
Hypothesis Hk : (0 < k)%N.
Hypothesis Hn : (0 < n)%N.
Let i0 := Ordinal Hk.
Hypothesis Heps : forall j, 0 < eps i0 0 j.
Let start := starting des p0 eps vals0.
Local Notation pts := (pts p0).
Local Notation made := (made ortho eps Hk).
Local Notation inv := (loop_inv' f w p0 eps des).

Lemma last_pts ds : last p0 (pts ds) = p0 + last 0 ds.
Proof. by case/lastP: ds => [|ds d]; rewrite /= ?addr0 // map_rcons !last_rcons. Qed.
(** A part of a step out of the space of the former ones leads out of it. *)
Lemma part_indep ds d v' : indep ds -> made ds d -> towards limit (last p0 (pts ds)) (p0 + d) v' -> indep (rcons ds (v' - p0)).
Proof.
move=> Hi [ov [vs [-> _ Hov Ho]]] [c [/andP [Hc _] -> _]].
apply: (@indep_rcons _ _ ds _ ov) => //.
have Hl : dot ov (last 0 ds) = 0.
  by case/lastP: (ds) Ho => [|ds' x] Ho; [rewrite /= dot0r | rewrite last_rcons Ho // mem_rcons inE eqxx].
set x := scale _ _; have -> : last p0 (pts ds) + c *: (p0 + x - last p0 (pts ds)) - p0 = (1 - c) *: last 0 ds + c *: x.
  by rewrite last_pts; move: (last 0 ds) x => z x; apply/rowP => j; rewrite !mxE; move: (p0 0 j) (z 0 j) (x 0 j) => a b e; fold_field F; ring.
by rewrite dotDr !dotZr Hl mulr0 add0r; apply: mulf_neq0; [rewrite gt_eqF | exact: scale_dot].
Qed.

Lemma learn m : (m < n)%N -> exists ds st v,
  [/\ lt_rounds m.+1 start = Ok (mk_ltuner st v m.+1 0), inv ds st, size ds = m, indep (rcons ds (v - p0)) &
      forall i, (i <= m)%N -> exists s, lt_rounds i start = Ok s /\ lt_volt s = nth 0 (pts ds) i].
Proof.
elim: m => [|m IH] Hm.
- have [|st [Hu Hd Hp Hv He]] := @update_all' F n k f w 0 p0 (begin p0 eps des vals0).
    by move=> i; have [e [He _]] := waiting_first f w p0 eps Hn i; exists e.
  have Hinv : inv [::] st.
    by split=> // i; rewrite He; have [e [He' Ha]] := waiting_first f w p0 eps Hn i; rewrite /= He'.
  have [d [Hs Hd']] := suggest_made Hortho Hk Hn Hinv Hm (@indep_nil F n).
  have [v' [Hr Ht]] := round_made Hu Hs.
  exists [::], st, v'; split=> //.
    by apply: (part_indep (@indep_nil F n) Hd').
  by case=> // _; exists start.
- have [ds [st [v [Hr Hinv Hs Hg Hb]]]] := IH (ltnW Hm).
  have Ev : v = p0 + (v - p0) by rewrite addrC subrK.
  set d := v - p0 in Ev Hg.
  have Hmore : forall i, exists e, mfd_update (p0 + d) (f m.+1 (p0 + d) 0 i) (w m.+1 (p0 + d) 0 i) (mn_ests st i) = (e, Ok tt) /\ waiting f w p0 eps (rcons ds d) i e.
    by move=> i; rewrite -Hs; apply: waiting_more; [exact: Hinv.2 | rewrite Hs].
  have [|st' [Hu Hd' Hp' Hv' He']] := @update_all' F n k f w m.+1 (p0 + d) st.
    by move=> i; have [e [He _]] := Hmore i; exists e.
  have Hinv' : inv (rcons ds d) st'.
    split=> [|i]; first by rewrite Hd' Hinv.1.
    by rewrite He'; have [e [-> Ha]] := Hmore i.
  have [||d' [Hs' Hd2]] := @suggest_made F n k ortho Hortho f w p0 eps des Hk Hn _ st' Hinv'; [by rewrite size_rcons Hs | by [] |].
  have [v' [Hr' Ht]] := round_made Hu Hs'.
  exists (rcons ds d), st', v'; split=> //.
  + by rewrite roundsS Hr Ev Hr'.
  + by rewrite size_rcons Hs.
  + by apply: (part_indep Hg Hd2); rewrite last_pts last_rcons.
  + move=> i; rewrite leq_eqVlt => /orP [/eqP ->|Hi].
      by exists (mk_ltuner st v m.+1 0); rewrite Hr; split=> //=; rewrite map_rcons nth_rcons size_map Hs ltnn eqxx -Ev.
    have [s [Hrs Hvs]] := Hb i Hi; exists s; split=> //; rewrite Hvs pts_rcons nth_rcons size_pts Hs Hi //.
Qed.

(** All rounds. *)
Definition at_round (i : nat) : ltuner F n k := if lt_rounds i start is Ok s then s else start.
Local Notation knows := (knows des).
Lemma at_rounds i s : lt_rounds i start = Ok s -> at_round i = s.
Proof. by rewrite /at_round => ->. Qed.
Definition newton J t (v : 'rV[F]_n) : 'rV[F]_n := v + (lstsq J (des - f t v)^T)^T.
Lemma knows_next J st t v : knows J st -> exists st' v', [/\ lt_round (mk_ltuner st v t 0) = Ok (mk_ltuner st' v' t.+1 0), knows J st' & towards limit v (newton J t v) v'].
Proof.
move=> H; have [|st' [Hu [Hd [Hp [Hv He]]]]] := @known_update _ _ _ (f t) (w t) st v; first by move=> i; rewrite H.2.
have H' : knows J st' by split=> [|i]; rewrite ?Hd ?He; case: H.
have [v' [Hr Ht]] := round_made Hu (knows_suggest ortho H').
by rewrite Hp Hv in Ht; exists st', v'.
Qed.

Lemma rounds_all : exists ds J, [/\ size ds = n, indep ds, chords f (pts ds) J,
  forall i, (i <= n)%N -> exists st, lt_rounds i start = Ok (mk_ltuner st (nth 0 (pts ds) i) i 0) &
  forall j, exists st v v', [/\ lt_rounds (n + j)%N start = Ok (mk_ltuner st v (n + j) 0),
     exists st', lt_rounds (n + j).+1 start = Ok (mk_ltuner st' v' (n + j).+1 0) /\ knows J st' & towards limit v (newton J (n + j) v) v']].
Proof.
have Hm : (n.-1 < n)%N by rewrite prednK.
have [ds [st [v [Hr Hinv Hs Hi Hb]]]] := learn Hm.
rewrite (prednK Hn) in Hr Hb.
have HsS : (size ds).+1 = n by rewrite Hs prednK.
have Ev : v = p0 + (v - p0) by rewrite addrC subrK.
set d := v - p0 in Ev Hi.
have Hdone : forall i, exists e g, [/\ mfd_update v (f n v 0 i) (w n v 0 i) (mn_ests st i) = (e, Ok tt), mf_est e = Some g & slopes f p0 (rcons ds d) i g].
  by move=> i; have := waiting_done (Hinv.2 i) HsS Hi; rewrite HsS -Ev.
have [|st' [Hu Hd' Hp' Hv' He']] := @update_all' F n k f w n v st.
  by move=> i; have [e [g [He _ _]]] := Hdone i; exists e.
pose J : 'M[F]_(k, n) := \matrix_(i, j) (if mf_est (mn_ests st' i) is Some g then g 0 j else 0).
have HJ : forall i, mf_est (mn_ests st' i) = Some (row i J) /\ slopes f p0 (rcons ds d) i (row i J).
  move=> i; have [e [g [He Hg' Hsl]]] := Hdone i.
  have E : mf_est (mn_ests st' i) = Some g by rewrite He' He.
  have -> : row i J = g by apply/rowP => j; rewrite !mxE E.
  by rewrite E.
have Hkn : knows J st' by split=> [|i]; [rewrite Hd' Hinv.1 | case: (HJ i)].
have [v' [Hr' Ht]] := round_made Hu (knows_suggest ortho Hkn).
rewrite Hp' Hv' in Ht.
exists (rcons ds d), J; split=> //; first by rewrite size_rcons.
- move=> a b; rewrite size_pts => Ha Hb'; apply/rowP => i; rewrite [RHS]mxE [X in _ = _ + X]mxE.
  have [_ Hsl] := HJ i; rewrite -Hsl // mxE; apply: eq_bigr => j _; by rewrite !mxE mulrC.
- move=> i; rewrite leq_eqVlt => /orP [/eqP ->|Hi'].
    by exists st; rewrite Hr pts_rcons nth_rcons size_pts HsS ltnn eqxx -Ev.
  have [|s [Hrs Hvs]] := Hb i; first by rewrite -ltnS prednK.
  have Hq : lt_evals s = i /\ lt_queue s = 0%N.
    case: i Hi' Hrs {Hvs} => [|i] Hi' Hrs; first by case: Hrs => <-.
    by have [? [? [? [Hr2 _ _ _ _]]]] := learn (ltnW Hi'); move: Hrs; rewrite Hr2 => -[<-].
  exists (lt_solver s); rewrite Hrs; case: s Hrs Hvs Hq => a b c q /= _ -> [-> ->].
  by rewrite pts_rcons nth_rcons size_pts HsS Hi'.
- elim=> [|j [st1 [v1 [v2 [H1 [st2 [H2 K2]] T]]]]].
    exists st, v, v'; rewrite addn0; split=> //; exists st'; split=> //; by rewrite roundsS Hr Hr'.
  have [st3 [v3 [H3 K3 T3]]] := knows_next (n + j).+1 v2 K2.
  exists st2, v2, v3; rewrite addnS; split=> //; exists st3; split=> //; by rewrite roundsS H2 H3.
Qed.
Lemma rounds_close m i s s' : limit = Some m -> lt_rounds i start = Ok s -> lt_rounds i.+1 start = Ok s' -> sqn (lt_volt s' - lt_volt s) <= m ^+ 2.
Proof.
have [ds [J [Hs _ _ Hb Ha]]] := rounds_all => Hm Hi HS.
have [st [v [t E]]] : exists st v t, s = mk_ltuner st v t 0.
  case: (leqP i n) => H.
    by have [st] := Hb i H; rewrite Hi => -[->]; exists st, (nth 0 (pts ds) i), i.
  have [st [v [v' []]]] := Ha (i - n)%N; rewrite subnKC ?(ltnW H) // Hi => -[->] _ _; by exists st, v, i.
move: HS; rewrite roundsS Hi E => /round_towards [p]; exact: (towards_length Hm).
Qed.

(** *** Affine devices *)
Variables (A : 'M[F]_(k, n)) (b : 'rV[F]_k) (x0 : 'rV[F]_n) (m : F) (M : nat).
Hypothesis Hf : forall t v, f t v = affines A b v.
Hypothesis Hx0 : affines A b x0 = des.
Hypothesis Hm : limit = Some m.
Hypothesis Hdist : sqn (x0 - p0) <= (M%:R * m) ^+ 2.
Let m0 : 0 < m. Proof. by move: Hlim; rewrite Hm. Qed.
Definition rest (v : 'rV[F]_n) : 'rV[F]_n := (lstsq A (des - affines A b v)^T)^T.
Lemma affines_diff u v : affines A b u - affines A b v = (A *m (u - v)^T)^T.
Proof. by rewrite /affines linearB /= mulmxBr linearB /= opprD addrACA subrr addr0. Qed.
Lemma rest_exact v : (A *m (rest v)^T)^T = des - affines A b v.
Proof. by rewrite /rest -Hx0 affines_diff !trmxK /lstsq (mulmxA (pinv A)) (mulmxA A) (mulmxA A) pinv1. Qed.
Lemma rest_short v : sqn (rest v) <= sqn (x0 - v).
Proof.
rewrite -sqn_tr -[sqn (x0 - v)]sqn_tr /rest trmxK; apply: (proj1 (lstsq_smallest _)).
by rewrite -[in RHS]Hx0 affines_diff trmxK /lstsq (mulmxA (pinv A)) (mulmxA A) (mulmxA A) pinv1.
Qed.
Lemma rest_step v c : rest (v + c *: rest v) = (1 - c) *: rest v.
Proof.
rewrite {1}/rest.
have -> : des - affines A b (v + c *: rest v) = (1 - c) *: (des - affines A b v).
  have -> : des - affines A b (v + c *: rest v) = (des - affines A b v) - (affines A b (v + c *: rest v) - affines A b v).
    by rewrite opprB addrA subrK.
  have E : v + c *: rest v - v = c *: rest v by rewrite addrC addKr.
  rewrite affines_diff E linearZ /= -scalemxAr linearZ /= rest_exact scalerBl scale1r //.
by rewrite /rest /lstsq linearZ /= -scalemxAr linearZ.
Qed.
Lemma rest_zero v : sqn (rest v) <= 0 -> affines A b v = des.
Proof.
move=> H; have H0 : rest v = 0 by apply/eqP; rewrite -sqn_eq0 eq_le H sqn_ge0.
by have := rest_exact v; rewrite H0 trmx0 mulmx0 trmx0 => /esym /eqP; rewrite subr_eq0 => /eqP.
Qed.
(** One step shortens the rest by the limit. *)
Lemma rest_shrinks v v' N : sqn (rest v) <= (N.+1%:R * m) ^+ 2 -> towards limit v (v + rest v) v' -> sqn (rest v') <= (N%:R * m) ^+ 2.
Proof.
rewrite Hm => Hr [c [/andP [Hc0 Hc1] -> Hc]]; move: Hc; rewrite [v + _]addrC addrK => Hc.
rewrite rest_step; move: Hc; case: ltP => [Hlt|_ ->]; last by rewrite subrr scale0r sqn0 sqr_ge0.
rewrite [v + _]addrC addrK => Hc.
have [Hu0 Hu] := Hnorm (rest v); set u := norm (rest v) in Hu0 Hu.
have Ecu : c * u = m.
  have : (c * u) ^+ 2 == m ^+ 2 by rewrite exprMn Hu -sqnZ Hc.
  rewrite eqf_sqr => /orP [/eqP //|/eqP E].
  by have := mulr_ge0 (ltW Hc0) Hu0; rewrite E oppr_ge0 leNgt m0.
have Hle : u <= N.+1%:R * m by rewrite -(ler_pexpn2r (n := 2)) ?nnegrE ?Hu // mulr_ge0 ?ler0n // ltW.
rewrite sqnZ -Hu -exprMn mulrBl mul1r Ecu ler_pexpn2r ?nnegrE //.
- by rewrite ler_subl_addr; move: Hle; rewrite -addn1 natrD mulrDl mul1r.
- by rewrite subr_ge0 -Ecu ler_pimull.
- by rewrite mulr_ge0 ?ler0n // ltW.
Qed.
Lemma rest_stays v v' : affines A b v = des -> towards limit v (v + rest v) v' -> v' = v.
Proof.
move=> E [c [_ -> _]].
have -> : rest v = 0 by rewrite /rest E subrr trmx0 lstsq0 trmx0.
by rewrite addr0 subrr scaler0 addr0.
Qed.
Lemma chords_affine ds J : size ds = n -> indep ds -> chords f (pts ds) J -> J = A.
Proof.
move=> Hs Hi Hc; apply/eqP; rewrite -subr_eq0; apply/eqP/row_matrixP => i; rewrite row0.
apply: (annihilated Hi Hs) => d Hd.
have [j Hj Ej] : exists2 j, (j < size ds)%N & nth 0 ds j = d by exists (index d ds); rewrite ?index_mem ?nth_index.
have := Hc j.+1 0%N; rewrite size_pts !ltnS Hj => /(_ isT isT).
rewrite !Hf affines_diff !nth_pts //= addr0 Ej [p0 + d]addrC addrK trmx_mul trmxK => /(congr1 (fun z : 'rV_k => z 0 i)).
rewrite !mxE => E; rewrite /dot.
have -> : \sum_j0 row i (J - A) 0 j0 * d 0 j0 = \sum_j0 d 0 j0 * J^T j0 i - \sum_j0 d 0 j0 * A^T j0 i.
  by rewrite -sumrB; apply: eq_bigr => l _; rewrite !mxE mulrBl mulrC [A i l * _]mulrC.
by rewrite E subrr.
Qed.

Lemma reaches_target i : (n + n + M <= i)%N -> exists s, lt_rounds i start = Ok s /\ affines A b (lt_volt s) = des /\
  exists s', lt_rounds i.+1 start = Ok s' /\ lt_volt s' = lt_volt s.
Proof.
have [ds [J [Hs Hi Hc Hb Ha]]] := rounds_all.
have EJ := chords_affine Hs Hi Hc; rewrite EJ in Ha.
have Hnew t v : newton A t v = v + rest v by rewrite /newton Hf.
have Hfar : forall j, (j <= n)%N -> sqn (x0 - nth 0 (pts ds) j) <= ((M + j)%:R * m) ^+ 2.
  elim=> [|j IH] Hj; first by rewrite addn0.
  have [st1 H1] := Hb j (ltnW Hj); have [st2 H2] := Hb j.+1 Hj.
  have Hstep := rounds_close Hm H1 H2.
  rewrite [lt_volt _]/= [lt_volt (mk_ltuner st1 _ _ _)]/= in Hstep.
  have -> : x0 - nth 0 (pts ds) j.+1 = (x0 - nth 0 (pts ds) j) - (nth 0 (pts ds) j.+1 - nth 0 (pts ds) j) by rewrite opprB addrA subrK.
  rewrite addnS -[(M + j).+1]addn1 natrD mulrDl mul1r; apply: sub1; [by rewrite mulr_ge0 ?ler0n // ltW | exact: ltW | exact: IH (ltnW Hj) | exact: Hstep].
have Hrest : forall j st v t q, (j <= M + n)%N -> lt_rounds (n + j)%N start = Ok (mk_ltuner st v t q) -> sqn (rest v) <= ((M + n - j)%:R * m) ^+ 2.
  elim=> [|j IH] st v t q Hj.
    rewrite addn0 subn0; have [st' ->] := Hb n (leqnn n) => -[_ <- _ _]; apply: (le_trans (rest_short _)); exact: Hfar.
  rewrite addnS => Hr; have [st1 [v1 [v2 [H1 [st2 [H2 _]] T]]]] := Ha j.
  move: Hr; rewrite H2 => -[_ <- _ _].
  rewrite Hnew in T; apply: rest_shrinks T.
  by rewrite -subSn // subSS; apply: IH H1; exact: ltnW.
have Hend : forall j, exists st v t q, lt_rounds (n + (M + n + j))%N start = Ok (mk_ltuner st v t q) /\ affines A b v = des.
  elim=> [|j [st [v [t [q [Hr Hv]]]]]].
    have [st1 [v1 [v2 [H1 _ _]]]] := Ha (M + n)%N; exists st1, v1, (n + (M + n))%N, 0%N; rewrite addn0; split=> //.
    by apply: rest_zero; have := Hrest _ _ _ _ _ (leqnn _) H1; rewrite subnn mul0r expr0n.
  have [st1 [v1 [v2 [H1 [st2 [H2 _]] T]]]] := Ha (M + n + j)%N.
  move: H1; rewrite Hr => -[_ Ev _ _]; rewrite Hnew in T.
  exists st2, v2, (n + (M + n + j)).+1, 0%N; rewrite !addnS; split=> //.
  by rewrite -Ev in T; rewrite (rest_stays Hv T).
move=> Hi'; have Ei : i = (n + (M + n + (i - (n + n + M))))%N by rewrite addnA [(M + n)%N]addnC addnA subnKC.
have [st [v [t [q [Hr Hv]]]]] := Hend (i - (n + n + M))%N; rewrite -Ei in Hr.
exists (mk_ltuner st v t q); split=> //; split=> //.
have [st1 [v1 [v2 [H1 [st2 [H2 _]] T]]]] := Ha (M + n + (i - (n + n + M)))%N.
rewrite -Ei in H1 H2 T; exists (mk_ltuner st2 v2 i.+1 0); split=> //=.
by move: H1; rewrite Hr => -[_ Ev _ _]; rewrite Hnew -Ev in T; rewrite (rest_stays Hv T).
Qed.
End Limited.

(** *** Blocked by the queue *)
Section Blocked.
Variables (F : realFieldType) (n k : nat) (ortho : seq 'rV[F]_n -> res 'rV[F]_n).
Add Field Ffield' : (F_field F).
Variables (norm : 'rV[F]_n -> F) (int_of : F -> nat) (m : F) (f w : nat -> 'rV[F]_n -> 'rV[F]_k) (N : nat).
Hypothesis Hnorm : is_norm norm.
Hypothesis Hint : is_int int_of.
Hypothesis Hm : 0 < m.
Variables (p0 ov : 'rV[F]_n) (eps : 'I_k -> 'rV[F]_n) (des vals0 : 'rV[F]_k) (i0 : 'I_k) (K : nat).
Hypothesis Hn : (0 < n)%N.
Hypothesis E0 : nat_of_ord i0 = 0%N.
Hypothesis Hov : ortho [:: 0] = Ok ov.
Let d := scale ov (eps i0).
Hypothesis Hd : sqn d = (K%:R * m) ^+ 2.
Hypothesis HK : (1 < K)%N.
Hypothesis HN : (K <= N)%N.
Let start := starting des p0 eps vals0.
Local Notation lt_rounds := (lt_rounds ortho norm int_of (Some m) N f w).
Local Notation lt_round := (lt_round ortho norm int_of (Some m) N f w).

Lemma norm_of c x : 0 <= c -> 0 <= x -> sqn (c *: d) = x ^+ 2 -> norm (c *: d) = x.
Proof.
move=> _ Hx H; have [H0 H1] := Hnorm (c *: d); rewrite H in H1.
by apply/eqP; move/eqP: H1; rewrite eqr_expn2.
Qed.
Lemma K0 : 0 < K%:R :> F.
Proof. by rewrite ltr0n (ltn_trans _ HK). Qed.
Lemma norm_part j : (j <= K)%N -> norm ((j%:R / K%:R) *: d) = j%:R * m.
Proof.
move=> Hj; apply: norm_of; [by rewrite divr_ge0 ?ler0n | by rewrite mulr_ge0 ?ler0n // ltW |].
by rewrite sqnZ Hd -exprMn mulrA divfK // gt_eqF ?K0.
Qed.
Lemma int_K : int_of (K%:R * m / m) = K.
Proof.
rewrite mulfK ?gt_eqF //; have /andP [H1 H2] := Hint (ler0n F K).
by apply/eqP; rewrite eqn_leq -(ler_nat F) H1 -ltnS -(ltr_nat F).
Qed.
Lemma suggest_first (st : mnewton F n k) : (forall i, waiting f w p0 eps [::] i (mn_ests st i)) -> mn_suggest ortho st = Ok (p0 + d).
Proof.
move=> Hw; have [Hp He Hsym Hest Hst] := Hw i0.
have Hr : mfd_require ortho (mn_ests st i0) = Ok (Some (p0 + d)).
  by rewrite /mfd_require Hest Hst Hsym Hp He /= Hov.
rewrite /mn_suggest.
have Hk : (0 < k)%N by apply: leq_ltn_trans (ltn_ord i0).
have -> : enum 'I_k = i0 :: behead (enum 'I_k).
  have := size_enum_ord k; case E: (enum 'I_k) => [|i l] /= Hk'; first by exfalso; move: Hk; rewrite -Hk'.
  by congr (_ :: _); apply: val_inj; rewrite /= E0; have := nth_enum_ord i0 Hk; rewrite E.
by rewrite (first_of_all _ Hr).
Qed.
Definition stuck v q (r : res (ltuner F n k)) : Prop :=
  exists st, r = Ok (mk_ltuner st v 1 q) /\ forall i, waiting f w p0 eps [::] i (mn_ests st i).

Lemma first_round : stuck (p0 + (1%:R / K%:R) *: d) K.-1 (lt_rounds 1 start).
Proof.
have [|st [Hu Hd' Hp Hv He]] := @update_all' F n k f w 0 p0 (begin p0 eps des vals0).
  by move=> i; have [e [He _]] := waiting_first f w p0 eps Hn i; exists e.
have Hw : forall i, waiting f w p0 eps [::] i (mn_ests st i).
  by move=> i; rewrite He; have [e [He' Ha]] := waiting_first f w p0 eps Hn i; rewrite /= He'.
exists st; split=> //.
rewrite /= /LimitedModel.lt_round /lt_check /= -/(begin p0 eps des vals0) Hu suggest_first // /cut_step.
rewrite [p0 + d]addrC addrK.
have En : norm d = K%:R * m.
  by have := norm_part (leqnn K); rewrite divff ?scale1r // gt_eqF ?K0.
have HmK : m < K%:R * m by rewrite -{1}[m]mul1r ltr_pmul2r // ltr1n.
rewrite En HmK int_K (minn_idPl HN); congr (Ok (mk_ltuner _ (_ + _ *: _) _ _)).
by rewrite invfM mulrCA mulfV ?mulr1 ?mul1r // gt_eqF.
Qed.
Lemma round_on st v q : (0 < q)%N -> (forall i, waiting f w p0 eps [::] i (mn_ests st i)) ->
  exists st', (forall i, waiting f w p0 eps [::] i (mn_ests st' i)) /\
    lt_round (mk_ltuner st v 1 q) = (let (v', q') := cut_step norm int_of (Some m) N v (p0 + d) q in Ok (mk_ltuner st' v' 1 q')).
Proof.
move=> Hq Hw; rewrite /LimitedModel.lt_round /lt_check /= gtn_eqF //; set st' := mk_mnewton _ _ _ _.
by exists st'; rewrite suggest_first.
Qed.
Lemma remaining j : (j <= K)%N -> p0 + d - (p0 + (j%:R / K%:R) *: d) = ((K - j)%:R / K%:R) *: d.
Proof.
move=> Hj; have HK0 : K%:R != 0 :> F by rewrite gt_eqF ?K0.
rewrite natrB //; apply/rowP => l; rewrite !mxE; move: (p0 0 l) (ov 0 l * eps i0 0 l) (K%:R) (j%:R) HK0 => x y z u Hz.
by fold_field F; field; exact/eqP.
Qed.
Lemma next_round j st : (j.+1 < K)%N -> (forall i, waiting f w p0 eps [::] i (mn_ests st i)) ->
  stuck (p0 + (j.+1%:R / K%:R) *: d) (K - j).-1 (lt_round (mk_ltuner st (p0 + (j%:R / K%:R) *: d) 1 (K - j))).
Proof.
move=> Hj Hw; have Hq : (0 < K - j)%N by rewrite subn_gt0 (ltn_trans _ Hj).
have [st' [Hw' ->]] := round_on (p0 + (j%:R / K%:R) *: d) Hq Hw.
rewrite /cut_step remaining ?(ltnW (ltnW Hj)) // norm_part ?leq_subr //.
have HjK : 1 < (K - j)%:R :> F by rewrite ltr1n ltn_subRL addn1.
rewrite -{1}[m]mul1r ltr_pmul2r // HjK gtn_eqF //; exists st'; split=> //; congr (Ok (mk_ltuner _ _ _ _)).
have HK0 : K%:R != 0 :> F by rewrite gt_eqF ?K0.
have Hm0 : m != 0 by rewrite gt_eqF.
have Hj0 : (K - j)%:R != 0 :> F by rewrite gt_eqF // ltr0n.
rewrite -addrA -[j.+1]addn1 natrD (mulr1n 1); congr (_ + _); apply/rowP => l; rewrite !mxE.
move: (ov 0 l * eps i0 0 l) (K%:R) (j%:R) ((K - j)%:R) m HK0 Hm0 Hj0 => x y z u t Hy Ht Hu.
by fold_field F; field; split; [|split]; exact/eqP.
Qed.
Lemma last_round v st : norm (p0 + d - v) <= m -> (forall i, waiting f w p0 eps [::] i (mn_ests st i)) ->
  stuck (p0 + d) 1 (lt_round (mk_ltuner st v 1 1)).
Proof.
move=> Hv Hw; have [st' [Hw' ->]] := round_on v (ltn0Sn 0) Hw.
by rewrite /cut_step ltNge Hv /= [v + _]addrC subrK; exists st'.
Qed.
Lemma on_the_way j : (j.+1 < K)%N -> stuck (p0 + (j.+1%:R / K%:R) *: d) (K - j.+1) (lt_rounds j.+1 start).
Proof.
elim: j => [|j IH] Hj; first by rewrite subn1; exact: first_round.
have [st [Hr Hw]] := IH (ltnW Hj); have := next_round Hj Hw.
by rewrite /stuck -subnS roundsS Hr.
Qed.
Lemma blocked i : (K <= i)%N -> stuck (p0 + d) 1 (lt_rounds i start).
Proof.
move=> Hi; rewrite -(subnKC Hi); elim: (i - K)%N => [|j IH]; last first.
  have [st [Hr Hw]] := IH; rewrite addnS roundsS Hr.
  by apply: last_round => //; rewrite subrr; have [H0 H1] := Hnorm 0; rewrite leNgt; apply/negP => H; move: H1 => /eqP; rewrite sqn0 expf_eq0 /= gt_eqF // (lt_trans Hm H).
rewrite addn0.
have EK : K = K.-2.+2 by case: (K) HK => [|[|]].
have [|st [Hr Hw]] := @on_the_way K.-2; first by rewrite -EK.
have E1 : (K - K.-2.+1)%N = 1%N by rewrite {1}EK subSn // subnn.
rewrite E1 in Hr; have -> : lt_rounds K start = lt_round (mk_ltuner st (p0 + (K.-2.+1%:R / K%:R) *: d) 1 1) by rewrite [X in lt_rounds X]EK roundsS Hr.
have HK1 : (K.-2.+1 <= K)%N by rewrite [X in (_ <= X)%N]EK.
by apply: last_round => //; rewrite remaining // E1 norm_part ?mul1r // ltnW.
Qed.
End Blocked.
