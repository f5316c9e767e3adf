From mathcomp Require Import all_ssreflect all_algebra.
From Verif Require Import PyExn LinAlgModel LinAlgSpec LinAlgProofs.
Set Implicit Arguments. Unset Strict Implicit. Unset Printing Implicit Defensive.
Import Order.TTheory GRing.Theory Num.Theory.
Local Open Scope ring_scope.

Section Indep.
Variables (F : realFieldType) (n : nat).
Implicit Types (ds : seq 'rV[F]_n).

(** Rows of a list as a matrix. *)
Definition rows_of ds : 'M[F]_(size ds, n) := \matrix_(i < size ds) nth 0 ds i.

Definition indep ds : Prop :=
  forall c : nat -> F, \sum_(i < size ds) c i *: nth 0 ds i = 0 -> forall i, (i < size ds)%N -> c i = 0.

Lemma indep_nil : indep [::].
Proof. by []. Qed.

Lemma indep_rcons ds d ov :
  indep ds -> (forall v, v \in ds -> dot ov v = 0) -> dot ov d != 0 -> indep (rcons ds d).
Proof.
move=> Hi Hov Hd c; rewrite size_rcons big_ord_recr /= nth_rcons ltnn eqxx => Hsum.
have Hs : \sum_(i < size ds) c i *: nth 0 (rcons ds d) i = \sum_(i < size ds) c i *: nth 0 ds i.
  by apply: eq_bigr => i _; rewrite nth_rcons ltn_ord.
rewrite Hs in Hsum.
have Hc : c (size ds) = 0.
  have := congr1 (dot ov) Hsum; rewrite dotDr dot0r dot_sumr big1 ?add0r; last first.
    by move=> i _; rewrite dotZr Hov ?mulr0 // mem_nth.
  by rewrite dotZr => /eqP; rewrite mulf_eq0 (negbTE Hd) orbF => /eqP.
move: Hsum; rewrite Hc scale0r addr0 => Hsum i; rewrite ltnS leq_eqVlt => /orP [/eqP -> //|Hlt].
exact: Hi.
Qed.

Lemma indep_row_free ds : indep ds -> row_free (rows_of ds).
Proof.
move=> Hi; rewrite -kermx_eq0; apply/eqP/row_matrixP => i; rewrite row0.
set v := row i _.
have Hv : v *m rows_of ds = 0 by apply/eqP; rewrite -sub_kermx; exact: row_sub.
clearbody v.
pose c (k : nat) := if insub k is Some o then v 0 o else 0.
have Hsum : \sum_(j < size ds) c j *: nth 0 ds j = 0.
  transitivity (v *m rows_of ds) => //; apply/rowP => j; rewrite summxE mxE; apply: eq_bigr => k _; rewrite !mxE.
  by rewrite /c valK.
apply/rowP => j; rewrite mxE; by have := Hi c Hsum j (ltn_ord j); rewrite /c valK.
Qed.

Lemma null_exists ds : (size ds < n)%N -> exists ov : 'rV[F]_n, ov != 0 /\ forall v, v \in ds -> dot ov v = 0.
Proof.
move=> Hs; set K := kermx (rows_of ds)^T.
have HK : K != 0.
  rewrite -mxrank_eq0 mxrank_ker subn_eq0 -ltnNge; apply: (leq_ltn_trans _ Hs).
  by rewrite mxrank_tr rank_leq_row.
have [i Hi] : exists i, row i K != 0.
  apply/existsP; apply: contraNT HK => /existsPn H; apply/eqP/row_matrixP => i.
  by rewrite row0; apply/eqP; rewrite -[_ == _]negbK; exact: H.
exists (row i K); split=> // v Hv.
have HM : row i K *m (rows_of ds)^T = 0 by apply/eqP; rewrite -sub_kermx row_sub.
have Hlt : (index v ds < size ds)%N by rewrite index_mem.
have := congr1 (fun M : 'rV_(size ds) => M 0 (Ordinal Hlt)) HM; rewrite !mxE => <-.
by apply: eq_bigr => j _; rewrite !mxE /= nth_index.
Qed.

Lemma annihilated ds x : indep ds -> size ds = n -> (forall v, v \in ds -> dot x v = 0) -> x = 0.
Proof.
move=> Hi Hs Hx; have HR := indep_row_free Hi.
have HT : row_free (rows_of ds)^T by rewrite /row_free mxrank_tr (eqP HR) Hs.
apply: (row_free_inj HT); rewrite mul0mx; apply/rowP => j; rewrite !mxE.
have := Hx (nth 0 ds j) (mem_nth 0 (ltn_ord j)); rewrite /dot => {2}<-.
by apply: eq_bigr => k _; rewrite !mxE.
Qed.

Lemma indep_size ds : indep ds -> (size ds <= n)%N.
Proof. by move=> /indep_row_free; rewrite -row_leq_rank => H; apply: (leq_trans H (rank_leq_col _)). Qed.
End Indep.

Section FD.
Variables (F : realFieldType) (n : nat) (ortho : seq 'rV[F]_n -> res 'rV[F]_n).
Hypothesis Hortho : chooses_orthogonal ortho.

Lemma scale_dot (ov eps : 'rV[F]_n) : (forall i, 0 < eps 0 i) -> ov != 0 -> dot ov (scale ov eps) != 0.
Proof.
move=> He; apply: contraNneq => H0.
have H : forall i, ov 0 i * (scale ov eps) 0 i == 0.
  move=> i; move: H0; rewrite /dot => /eqP; rewrite psumr_eq0.
    by move=> /allP /(_ i (mem_index_enum i)).
  by move=> j _; rewrite mxE mulrA -expr2 mulr_ge0 ?sqr_ge0 // ltW.
apply/eqP/rowP => i; have := H i; rewrite !mxE mulrA -expr2 mulf_eq0 sqrf_eq0.
by have /lt0r_neq0/negbTE -> := He i; rewrite orbF => /eqP.
Qed.

Lemma ortho_ok vs : (exists ov : 'rV[F]_n, ov != 0 /\ forall v, v \in vs -> dot ov v = 0) ->
  exists ov, ortho vs = Ok ov /\ ov != 0 /\ forall v, v \in vs -> dot ov v = 0.
Proof.
move=> [x [Hx Hxo]]; have := Hortho vs; case: (ortho vs) => [ov|e]; first by exists ov.
by move=> [_ /(_ x Hxo) H]; rewrite H eqxx in Hx.
Qed.


(** The points asked for by an asymmetric estimator. *)
Variables (p0 : 'rV[F]_n).
Implicit Types (eps ov d : 'rV[F]_n) (ds : seq 'rV[F]_n) (f w : 'rV[F]_n -> F) (st : mfd F n).
Hypothesis Hn : (0 < n)%N.

Definition asym (f w : 'rV[F]_n -> F) (eps : 'rV[F]_n) ds (st : mfd F n) : Prop :=
  mf_pos st = p0 /\ mf_eps st = eps /\ mf_sym st = false /\ mf_est st = None /\
  mf_stored st = measured f w (p0 :: [seq p0 + d | d <- ds]).

Lemma asym_request f w eps ds st : (forall i, 0 < eps 0 i) -> (size ds < n)%N -> asym f w eps ds st -> indep ds ->
  exists ov, mfd_require ortho st = Ok (Some (p0 + scale ov eps)) /\ indep (rcons ds (scale ov eps)).
Proof.
move=> Heps Hm [Hp [He [Hsym [Hest Hst]]]] Hi.
rewrite /mfd_require Hest Hst Hsym Hp He /=.
have Hpts : [seq m.1.1 | m <- measured f w [seq p0 + d | d <- ds]] = [seq p0 + d | d <- ds].
  by rewrite -map_comp map_id.
rewrite Hpts size_map; case: eqP => [[H0]|Hne].
- have [|ov [Ho [Hov _]]] := @ortho_ok [:: 0].
    exists (const_mx 1); split; last by move=> v; rewrite inE => /eqP ->; exact: dot0r.
    by apply/eqP => /matrixP /(_ 0 (Ordinal Hn)) /eqP; rewrite !mxE oner_eq0.
  exists ov; rewrite Ho; split=> //.
  have -> : ds = [::] by apply: size0nil.
  by apply: (@indep_rcons _ _ [::] _ ov) => //; exact: scale_dot.
- rewrite Hm /=.
  have -> : [seq p - p0 | p <- [seq p0 + d | d <- ds]] = ds.
    by rewrite -map_comp -[RHS]map_id; apply: eq_map => d /=; rewrite addrC addKr.
  have [|ov [Ho [Hov Hov']]] := @ortho_ok ds; first exact: null_exists.
  exists ov; rewrite Ho; split=> //.
  by apply: (@indep_rcons _ _ ds _ ov) => //; exact: scale_dot.
Qed.

(** The base point of the reversed list is the last one. *)
Lemma reversed_unit (f w : 'rV[F]_n -> F) ds : indep ds -> size ds = n ->
  voltage_diff (rev (measured f w (p0 :: [seq p0 + d | d <- ds]))) \in unitmx.
Proof.
move=> Hi Hs; set ps := p0 :: [seq p0 + d | d <- ds].
have Hsp : size ps = n.+1 by rewrite /= size_map Hs.
have -> : rev (measured f w ps) = measured f w (rev ps) by rewrite /measured map_rev.
rewrite -row_free_unit -kermx_eq0; apply/eqP/row_matrixP => i; rewrite row0.
set x := row i _.
have Hx : x *m voltage_diff (measured f w (rev ps)) = 0 by apply/eqP; rewrite -sub_kermx row_sub.
clearbody x.
have Hd : forall j, (j < n)%N -> dot x (nth 0 (rev ps) j.+1) = dot x (nth 0 (rev ps) 0).
  move=> j Hj; apply/eqP; rewrite -subr_eq0 -dotBr; apply/eqP.
  have := congr1 (fun M : 'rV_n => M 0 (Ordinal Hj)) Hx; rewrite !mxE => <-.
  apply: eq_bigr => k _; rewrite !mxE /diff_index size_map size_rev Hsp eqxx.
  by rewrite !point_measured ?size_rev ?Hsp ?ltnS.
have Hall : forall j, (j < n.+1)%N -> dot x (nth 0 (rev ps) j) = dot x (nth 0 (rev ps) 0).
  by case=> [|j] // Hj; apply: Hd.
have Hin : forall p, p \in ps -> dot x p = dot x (nth 0 (rev ps) 0).
  move=> p; rewrite -mem_rev => Hp; rewrite -(nth_index 0 Hp) Hall //.
  by rewrite -Hsp -(size_rev ps) index_mem.
apply: (annihilated Hi Hs) => v Hv.
have H1 := Hin p0 (mem_head _ _).
have H2 : dot x (p0 + v) = dot x (nth 0 (rev ps) 0).
  by apply: Hin; rewrite inE; apply/orP; right; apply/mapP; exists v.
by move: H2; rewrite -H1 dotDr => /eqP; rewrite -subr_eq0 addrC addKr => /eqP.
Qed.

Lemma measured_rcons (h u : 'rV[F]_n -> F) ps p : rcons (measured h u ps) (p, h p, u p) = measured h u (rcons ps p).
Proof. by rewrite /measured map_rcons. Qed.
Lemma measured_rev (h u : 'rV[F]_n -> F) ps : rev (measured h u ps) = measured h u (rev ps).
Proof. by rewrite /measured map_rev. Qed.

Lemma asym_first f w eps : exists st, mfd_update p0 (f p0) (w p0) (fresh p0 eps false) = (st, Ok tt) /\ asym f w eps [::] st.
Proof.
rewrite /mfd_update /=; rewrite eqSS ltn_eqF //.
by eexists; split; first reflexivity.
Qed.

Lemma asym_more f w eps ds st d : asym f w eps ds st -> ((size ds).+1 < n)%N ->
  exists st', mfd_update (p0 + d) (f (p0 + d)) (w (p0 + d)) st = (st', Ok tt) /\ asym f w eps (rcons ds d) st'.
Proof.
move=> [Hp [He [Hsym [Hest Hst]]]] Hs; rewrite /mfd_update Hest Hsym Hst measured_rcons.
rewrite size_map size_rcons /= size_map eqSS ltn_eqF //.
by eexists; split; first reflexivity; repeat split=> //; rewrite /= map_rcons.
Qed.

Lemma asym_done g c w eps ds st d : asym (affine g c) w eps ds st -> (size ds).+1 = n -> indep (rcons ds d) ->
  exists st', mfd_update (p0 + d) (affine g c (p0 + d)) (w (p0 + d)) st = (st', Ok tt) /\ mf_est st' = Some g.
Proof.
move=> [Hp [He [Hsym [Hest Hst]]]] Hs Hi; rewrite /mfd_update Hest Hsym Hst measured_rcons.
set ps := rcons _ _.
have Hps : ps = p0 :: [seq p0 + d | d <- rcons ds d] by rewrite /ps /= map_rcons.
have Hsz : size ps = n.+1 by rewrite Hps /= size_map size_rcons Hs.
rewrite size_map Hsz eqxx measured_rev.
have [||cov ->] := @calc_affine F n g c w (rev ps).
- by rewrite size_rev Hsz eqxx.
- by rewrite -measured_rev Hps; apply: reversed_unit => //; rewrite size_rcons Hs.
by eexists; split; reflexivity.
Qed.

Lemma fedS f w m st : (0 < m)%N -> fed ortho f w m.+1 st = advance ortho f w (fed ortho f w m st).
Proof. by case: m. Qed.

Lemma fed_partial f w eps m : (forall i, 0 < eps 0 i) -> (m < n)%N ->
  exists st ds, fed ortho f w m.+1 (fresh p0 eps false) = Ok st /\ asym f w eps ds st /\ size ds = m /\ indep ds.
Proof.
move=> Heps; elim: m => [|m IH] Hm.
- have [st [Hu Ha]] := asym_first f w eps.
  by exists st, [::]; rewrite /fed /= /measure Hu.
- have [st [ds [Hst [Ha [Hs Hi]]]]] := IH (ltnW Hm).
  have [|ov [Hr Hind]] := asym_request Heps _ Ha Hi; first by rewrite Hs ltnW.
  have [|st' [Hu Ha']] := asym_more (scale ov eps) Ha; first by rewrite Hs.
  exists st', (rcons ds (scale ov eps)); rewrite size_rcons Hs; split=> //.
  by move: Hst; rewrite /fed iterS => ->; rewrite /advance Hr /measure Hu.
Qed.

(** *** C28 *)
Lemma fed_complete g c w eps : (forall i, 0 < eps 0 i) ->
  exists st, fed ortho (affine g c) w n.+1 (fresh p0 eps false) = Ok st /\ mf_est st = Some g.
Proof.
move=> Heps; have Hm : (n.-1 < n)%N by rewrite prednK.
have [st [ds [Hst [Ha [Hs Hi]]]]] := fed_partial (affine g c) w Heps Hm.
rewrite (prednK Hn) in Hst.
have [|ov [Hr Hind]] := asym_request Heps _ Ha Hi; first by rewrite Hs.
have [|st' [Hu Hd]] := asym_done Ha _ Hind; first by rewrite Hs prednK.
exists st'; split=> //; rewrite fedS //.
by rewrite Hst /advance Hr /measure Hu.
Qed.

(** *** C29: symmetric estimators. *)
Definition mirrored ds : seq 'rV[F]_n := flatten [seq [:: p0 + d; p0 - d] | d <- ds].

Definition symm f w eps ds d st : Prop :=
  mf_pos st = p0 /\ mf_eps st = eps /\ mf_sym st = true /\ mf_est st = None /\
  mf_stored st = measured f w (rcons (mirrored ds) (p0 + d)).

Lemma mirrored_rcons ds d : mirrored (rcons ds d) = rcons (rcons (mirrored ds) (p0 + d)) (p0 - d).
Proof. by rewrite /mirrored map_rcons flatten_rcons -!cats1 -catA. Qed.
Lemma size_mirrored ds : size (mirrored ds) = (2 * size ds)%N.
Proof. by elim: ds => // d ds IH; rewrite /= [size (flatten _)]IH !mul2n. Qed.
Lemma pairs_mirrored ds : [seq q.1 - q.2 | q <- pairs (mirrored ds)] = [seq - (d + d) | d <- ds].
Proof.
elim: ds => // d ds IH; rewrite /= IH; congr (_ :: _).
by rewrite opprD addrACA subrr add0r -opprD.
Qed.

Lemma odd_neq a b : ((2 * a).+1 == 2 * b)%N = false.
Proof. by apply/negP => /eqP /(congr1 odd); rewrite oddS !mul2n !odd_double. Qed.

Lemma symm_mirror f w eps ds d st : symm f w eps ds d st -> mfd_require ortho st = Ok (Some (p0 - d)).
Proof.
move=> [Hp [He [Hsym [Hest Hst]]]]; rewrite /mfd_require Hest Hst Hsym Hp.
rewrite -map_comp map_id; set ps := rcons _ _.
have Ho : odd (size ps) by rewrite size_rcons size_mirrored /= mul2n odd_double.
have Hl : forall x, last x ps = p0 + d by move=> x; rewrite last_rcons.
case: ps Ho Hl => // q ps Ho Hl; rewrite Ho Hl.
by congr (Ok (Some _)); rewrite scaler_nat mulr2n opprD addrACA subrr add0r.
Qed.

Lemma symm_next f w eps ds d st st' : symm f w eps ds d st -> ((size ds).+1 < n)%N ->
  measure f w (p0 - d) st = Ok st' ->
  exists ov, mfd_require ortho st' = Ok (Some (p0 + scale ov eps)) /\ ov != 0 /\
    (forall v, v \in rcons ds d -> dot ov v = 0) /\
  forall st2, measure f w (p0 + scale ov eps) st' = Ok st2 -> symm f w eps (rcons ds d) (scale ov eps) st2.
Proof.
move=> [Hp [He [Hsym [Hest Hst]]]] Hs.
rewrite /measure /mfd_update Hest Hsym Hst measured_rcons -mirrored_rcons size_map size_mirrored size_rcons.
rewrite eqn_mul2l /= (ltn_eqF Hs) => -[<-].
rewrite /mfd_require /= -map_comp map_id Hp He.
have -> : odd (size (mirrored (rcons ds d))) = false by rewrite size_mirrored mul2n odd_double.
have [ov [Ho [Hov Hov']]] : exists ov, ortho [seq q.1 - q.2 | q <- pairs (mirrored (rcons ds d))] = Ok ov /\ ov != 0 /\ forall v, v \in rcons ds d -> dot ov v = 0.
  rewrite pairs_mirrored; have [|x [Hx Hxo]] := @null_exists _ _ (rcons ds d); first by rewrite size_rcons.
  have [|ov [Ho [Hov Hov']]] := @ortho_ok [seq - (e + e) | e <- rcons ds d].
    exists x; split=> // v /mapP [e He' ->]; by rewrite dotNr dotDr (Hxo _ He') addr0 oppr0.
  exists ov; split=> //; split=> // v Hv.
  have /eqP := Hov' (- (v + v)) (map_f (fun e => - (e + e)) Hv).
  by rewrite dotNr dotDr oppr_eq0 -mulr2n mulrn_eq0 => /eqP.
exists ov; split.
  have : mirrored (rcons ds d) <> [::] by move/(congr1 size)/eqP; rewrite size_mirrored size_rcons.
  by case: (mirrored _) Ho => // q ps ->.
split=> //; split=> // st2.
rewrite measured_rcons size_map size_rcons size_mirrored size_rcons.
have -> : ((2 * (size ds).+1).+1 == 2 * n)%N = false.
  exact: odd_neq.
by move=> -[<-].
Qed.

Lemma symm_calc f w eps ds d st : symm f w eps ds d st -> (size ds).+1 = n ->
  mfd_update (p0 - d) (f (p0 - d)) (w (p0 - d)) st =
  let ms := measured f w (mirrored (rcons ds d)) in
  match calc_gradient ms with
  | Ok (g, c) => (mk_mfd p0 eps (Some g) (Some c) ms true, Ok tt)
  | Raise e => (mk_mfd p0 eps None (mf_cov st) ms true, Raise e)
  end.
Proof.
move=> [Hp [He [Hsym [Hest Hst]]]] Hs.
rewrite /mfd_update Hest Hsym Hst measured_rcons -mirrored_rcons size_map size_mirrored size_rcons Hs eqxx Hp He.
by case: calc_gradient => [[]|].
Qed.

Lemma symm_advance f w eps ds d st : symm f w eps ds d st -> ((size ds).+1 < n)%N ->
  exists ov st', advance ortho f w (advance ortho f w (Ok st)) = Ok st' /\
    symm f w eps (rcons ds d) (scale ov eps) st' /\ ov != 0 /\ forall v, v \in rcons ds d -> dot ov v = 0.
Proof.
move=> Ha Hs; rewrite {2}/advance (symm_mirror Ha).
have [st1 Hst1] : exists st1, measure f w (p0 - d) st = Ok st1.
  case: Ha => [Hp [He [Hsym [Hest Hst]]]].
  rewrite /measure /mfd_update Hest Hsym Hst measured_rcons -mirrored_rcons size_map size_mirrored size_rcons.
  by rewrite eqn_mul2l /= (ltn_eqF Hs); eexists.
have [ov [Hr [Hov [Hov' H2]]]] := symm_next Ha Hs Hst1.
have [st2 Hst2] : exists st2, measure f w (p0 + scale ov eps) st1 = Ok st2.
  move: Hst1; case: Ha => [Hp [He [Hsym [Hest Hst]]]].
  rewrite {1}/measure /mfd_update Hest Hsym Hst measured_rcons -mirrored_rcons size_map size_mirrored size_rcons.
  rewrite eqn_mul2l /= (ltn_eqF Hs) => -[<-].
  rewrite /measure /mfd_update /= measured_rcons size_map size_rcons size_mirrored size_rcons.
  have -> : ((2 * (size ds).+1).+1 == 2 * n)%N = false; last by eexists.
  exact: odd_neq.
exists ov, st2; rewrite Hst1 /= Hr Hst2; split=> //; split=> //.
exact: H2.
Qed.

Lemma symm_iterate (good : seq 'rV[F]_n -> Prop) f w eps d0 st0 :
  (forall ds d ov, good (rcons ds d) -> ov != 0 -> (forall v, v \in rcons ds d -> dot ov v = 0) -> good (rcons (rcons ds d) (scale ov eps))) ->
  symm f w eps [::] d0 st0 -> good [:: d0] ->
  forall m, (m < n)%N -> exists ds d st, iter (2 * m) (advance ortho f w) (Ok st0) = Ok st /\
    symm f w eps ds d st /\ size ds = m /\ good (rcons ds d).
Proof.
move=> Hgood H0 Hg0; elim=> [|m IH] Hm; first by exists [::], d0, st0.
have [ds [d [st [Hit [Ha [Hs Hg]]]]]] := IH (ltnW Hm).
have [|ov [st' [Hadv [Ha' [Hov Hov']]]]] := symm_advance Ha; first by rewrite Hs.
exists (rcons ds d), (scale ov eps), st'; split; last by rewrite size_rcons Hs; split=> //; split=> //; apply: Hgood.
by rewrite mulnS /= Hit Hadv.
Qed.

Lemma point_mirrored f w ds j : (j < size ds)%N ->
  (point (measured f w (mirrored ds)) (2 * j)).1.1 = p0 + nth 0 ds j /\
  (point (measured f w (mirrored ds)) (2 * j).+1).1.1 = p0 - nth 0 ds j.
Proof.
move=> Hj; rewrite !point_measured ?size_mirrored ?ltn_mul2l //; last by rewrite !mul2n -doubleS leq_double.
rewrite /=; elim: ds j Hj => // d ds IH [|j] // Hj.
by rewrite mulnS /=; apply: IH.
Qed.

(** In one dimension two points are n+1 points as well. *)
Lemma mirrored_diff f w ds : size ds = n ->
  forall i j, voltage_diff (measured f w (mirrored ds)) i j = - (nth 0 ds j 0 i + nth 0 ds j 0 i).
Proof.
move=> Hs i j; have Hj : (j < size ds)%N by rewrite Hs.
have [H1 H2] := point_mirrored f w Hj.
rewrite mxE /diff_index size_map size_mirrored Hs; case: eqP => [E|_].
- have Hj0 : nat_of_ord j = 0%N.
    have H1n : n = 1%N by move: E; rewrite mul2n -addnn -addn1 => /addnI.
    by move: (ltn_ord j); rewrite {2}H1n; case: (nat_of_ord j).
  move: H1 H2; rewrite Hj0 muln0 => -> ->; rewrite !mxE.
  by rewrite opprD addrACA subrr add0r -opprD.
- rewrite eqxx H1 H2 !mxE.
  by rewrite opprD addrACA subrr add0r -opprD.
Qed.

Lemma mirrored_unit f w ds : indep ds -> size ds = n -> voltage_diff (measured f w (mirrored ds)) \in unitmx.
Proof.
move=> Hi Hs; rewrite -row_free_unit -kermx_eq0; apply/eqP/row_matrixP => i; rewrite row0.
set x := row i _.
have Hx : x *m voltage_diff (measured f w (mirrored ds)) = 0 by apply/eqP; rewrite -sub_kermx row_sub.
clearbody x.
apply: (annihilated Hi Hs) => v Hv.
have Hlt : (index v ds < n)%N by move: Hv; rewrite -index_mem Hs.
have := congr1 (fun M : 'rV_n => M 0 (Ordinal Hlt)) Hx; rewrite !mxE.
under eq_bigr do rewrite mirrored_diff // /= nth_index //.
move=> H; have : - (dot x v + dot x v) = 0.
  by rewrite -[RHS]H /dot -big_split -sumrN; apply: eq_bigr => k _; rewrite mulrN mulrDr.
by move/eqP; rewrite oppr_eq0 -mulr2n mulrn_eq0 => /eqP.
Qed.

Lemma mirrored_singular f w ds : nth 0 ds 0 = 0 -> size ds = n -> voltage_diff (measured f w (mirrored ds)) \notin unitmx.
Proof.
move=> H0 Hs; apply/negP => Hu.
have Hj := mirrored_diff f w Hs.
have : row (Ordinal Hn) (voltage_diff (measured f w (mirrored ds)))^T = 0.
  by apply/rowP => i; rewrite 2!mxE Hj /= H0 !mxE addr0 oppr0.
rewrite -unitmx_tr in Hu; move/(congr1 (fun M => M *m invmx (voltage_diff (measured f w (mirrored ds)))^T)).
rewrite mul0mx -row_mul mulmxV // => /matrixP /(_ 0 (Ordinal Hn)) /eqP.
by rewrite !mxE eqxx oner_eq0.
Qed.

Lemma fed_symmetric_fails f w eps : fed ortho f w (2 * n) (fresh p0 eps true) = Raise EvaluationError.
Proof.
have [st0 [Hm0 H0]] : exists st0, measure f w p0 (fresh p0 eps true) = Ok st0 /\ symm f w eps [::] 0 st0.
  rewrite /measure /mfd_update /=; have -> : (1 == 2 * n)%N = false.
    exact: (@odd_neq 0).
  by eexists; split; first reflexivity; repeat split=> //=; rewrite addr0.
pose good (ds : seq 'rV[F]_n) := nth 0 ds 0 = 0.
have Hm : (n.-1 < n)%N by rewrite prednK.
have [||ds [d [st [Hit [Ha [Hs Hg]]]]]] := @symm_iterate good f w eps 0 st0 _ H0 _ _ Hm => //.
  by move=> ds d ov; rewrite /good; case: ds.
have E : forall k, (0 < k)%N -> fed ortho f w (2 * k) (fresh p0 eps true) =
    advance ortho f w (iter (2 * k.-1) (advance ortho f w) (Ok st0)).
  by case=> // k _; rewrite mulnS /= Hm0.
rewrite E // Hit /advance (symm_mirror Ha) /measure (symm_calc Ha) ?Hs ?prednK //.
rewrite /= calc_singular //.
  by rewrite size_map size_mirrored size_rcons Hs prednK // eqxx orbT.
by apply: mirrored_singular => //; rewrite size_rcons Hs prednK.
Qed.

(** Asked without the measurement at its position it works. *)
Lemma asked_symmetric g c w eps : (forall i, 0 < eps 0 i) ->
  exists st, asked ortho (affine g c) w (2 * n) (fresh p0 eps true) = Ok st /\ mf_est st = Some g.
Proof.
move=> Heps; set f := affine g c.
pose e1 : 'rV[F]_n := \row_(i < n) (i == 0%N :> nat)%:R.
have He1 : e1 != 0 by apply/eqP => /matrixP /(_ 0 (Ordinal Hn)) /eqP; rewrite !mxE oner_eq0.
have [st0 [Hm0 H0]] : exists st0, advance ortho f w (Ok (fresh p0 eps true)) = Ok st0 /\ symm f w eps [::] (scale e1 eps) st0.
  rewrite /advance /mfd_require /=.
  have -> : (if n is 0 then Raise IndexError else Ok (\row_(i < n) (i == 0%N :> nat)%:R)) = Ok e1.
    by move: Hn; rewrite /e1; case: (n).
  rewrite /measure /mfd_update /=; have -> : (1 == 2 * n)%N = false.
    exact: (@odd_neq 0).
  by eexists; split; first reflexivity.
have Hm : (n.-1 < n)%N by rewrite prednK.
have [||ds [d [st [Hit [Ha [Hs Hg]]]]]] := @symm_iterate (@indep F n) f w eps (scale e1 eps) st0 _ H0 _ _ Hm.
- move=> ds d ov Hi Hov Hov'; apply: (indep_rcons (ov := ov)) => //; exact: scale_dot.
- apply: (@indep_rcons _ _ [::] _ e1) => //; exact: scale_dot.
have E : forall k, (0 < k)%N -> asked ortho f w (2 * k) (fresh p0 eps true) =
    advance ortho f w (iter (2 * k.-1) (advance ortho f w) (Ok st0)).
  by case=> // k _; rewrite mulnS /asked -Hm0 /= -iterS iterSr.
rewrite E // Hit /advance (symm_mirror Ha) /measure (symm_calc Ha) ?Hs ?prednK //=.
have [||cov ->] := @calc_affine F n g c w (mirrored (rcons ds d)).
- by rewrite size_mirrored size_rcons Hs prednK // eqxx orbT.
- by apply: mirrored_unit => //; rewrite size_rcons Hs prednK.
by eexists; split; reflexivity.
Qed.
End FD.
