From mathcomp Require Import all_ssreflect all_algebra.
From Verif Require Import PyExn LinAlgModel LinAlgSpec LinAlgProofs FDProofs LoopProofs KalmanModel KalmanSpec KalmanProofs KalmanHistory KalmanLoopModel KalmanLoopSpec KalmanLoopProofs ChordModel ChordSpec FieldTac.
From Coq Require Import Ring Field.
Set Implicit Arguments. Unset Strict Implicit. Unset Printing Implicit Defensive.
Import Order.TTheory GRing.Theory Num.Theory.
Local Open Scope ring_scope.

(** *** Lengths without square roots *)
Section Young.
Variable F : realFieldType.
Add Field Ffield : (F_field F).

Lemma young (a b t : F) : 0 < t -> (a + b) ^+ 2 <= (1 + t) * a ^+ 2 + (1 + t^-1) * b ^+ 2.
Proof.
move=> Ht; have Ht0 : t != 0 by rewrite gt_eqF.
rewrite -subr_ge0.
have -> : (1 + t) * a ^+ 2 + (1 + t^-1) * b ^+ 2 - (a + b) ^+ 2 = (t * a - b) ^+ 2 / t.
  by fold_field F; field; exact/eqP.
by rewrite divr_ge0 ?sqr_ge0 // ltW.
Qed.
Lemma sqn_young m d (M N : 'M[F]_(m, d)) t : 0 < t -> sqn (M + N) <= (1 + t) * sqn M + (1 + t^-1) * sqn N.
Proof.
move=> Ht; rewrite /sqn !mulr_sumr -big_split /=; apply: ler_sum => i _; rewrite !mulr_sumr -big_split /=; apply: ler_sum => j _.
by rewrite mxE young.
Qed.
Lemma sqn0 m d : sqn (0 : 'M[F]_(m, d)) = 0.
Proof. by apply/eqP; rewrite sqn_eq0. Qed.

(** The length of a sum, relative to a common unit with square [u]. *)
Lemma length_add m d (M N : 'M[F]_(m, d)) s t u : 0 <= s -> 0 <= t -> 0 <= u ->
  sqn M <= s ^+ 2 * u -> sqn N <= t ^+ 2 * u -> sqn (M + N) <= (s + t) ^+ 2 * u.
Proof.
move=> Hs Ht Hu HM HN.
have zero m' d' (X : 'M[F]_(m', d')) : sqn X <= 0 ^+ 2 * u -> X = 0.
  by rewrite expr0n mul0r => H; apply/eqP; rewrite -sqn_eq0 eq_le H sqn_ge0.
have [Hs0|Hs0] := eqVneq s 0; first by rewrite Hs0 in HM *; rewrite (zero _ _ _ HM) !add0r.
have [Ht0|Ht0] := eqVneq t 0; first by rewrite Ht0 in HN *; rewrite (zero _ _ _ HN) !addr0.
have Hsp : 0 < s by rewrite lt_neqAle eq_sym Hs0.
have Htp : 0 < t by rewrite lt_neqAle eq_sym Ht0.
apply: (le_trans (sqn_young M N (divr_gt0 Htp Hsp))).
have H1 : (1 + t / s) * sqn M <= (1 + t / s) * (s ^+ 2 * u) by rewrite ler_wpmul2l // addr_ge0 // divr_ge0.
have H2 : (1 + (t / s)^-1) * sqn N <= (1 + (t / s)^-1) * (t ^+ 2 * u).
  by apply: ler_wpmul2l => //; apply: addr_ge0; rewrite ?ler01 ?invr_ge0 ?divr_ge0.
apply: (le_trans (ler_add H1 H2)).
have -> : (1 + t / s) * (s ^+ 2 * u) + (1 + (t / s)^-1) * (t ^+ 2 * u) = (s + t) ^+ 2 * u; last exact: lexx.
by fold_field F; field; split; exact/eqP.
Qed.
(** The length of a difference from below. *)
Lemma length_sub m d (M N : 'M[F]_(m, d)) s t u : 0 <= t -> t <= s -> 0 <= u ->
  s ^+ 2 * u <= sqn M -> sqn N <= t ^+ 2 * u -> (s - t) ^+ 2 * u <= sqn (M + N).
Proof.
move=> Ht Hts Hu HM HN.
have [Ht0|Ht0] := eqVneq t 0.
  have HN0 : N = 0 by apply/eqP; rewrite -sqn_eq0 eq_le sqn_ge0 andbT; move: HN; rewrite Ht0 expr0n mul0r.
  by rewrite Ht0 HN0 subr0 addr0.
have [E|E] := eqVneq s t; first by rewrite E subrr expr0n mul0r sqn_ge0.
have Htp : 0 < t by rewrite lt_neqAle eq_sym Ht0.
have Hd : 0 < s - t by rewrite subr_gt0 lt_neqAle eq_sym E.
have Hsp : 0 < s by apply: lt_le_trans Hts.
have := sqn_young (M + N) (- N) (divr_gt0 Htp Hd); rewrite addrK sqnN => H.
have {H} H := le_trans HM H.
have E1 : 1 + t / (s - t) = s / (s - t).
  by fold_field F; field; apply/eqP; rewrite gt_eqF.
have E2 : 1 + (t / (s - t))^-1 = s / t.
  by fold_field F; field; split; apply/eqP => //; rewrite gt_eqF.
rewrite E1 E2 in H.
have H2 : s / t * sqn N <= s / t * (t ^+ 2 * u) by rewrite ler_wpmul2l // divr_ge0 // ltW.
have H3 := le_trans H (ler_add (lexx _) H2).
have E3 : s / t * (t ^+ 2 * u) = s * t * u by fold_field F; field; exact/eqP.
rewrite E3 -ler_subl_addr in H3.
have E4 : s ^+ 2 * u - s * t * u = s / (s - t) * ((s - t) ^+ 2 * u).
  by fold_field F; field; apply/eqP; rewrite gt_eqF.
by rewrite E4 ler_pmul2l ?divr_gt0 in H3.
Qed.
End Young.

(** *** The points and the gradients *)
Section Points.
Variables (F : realFieldType) (n : nat).
Implicit Types (ms : seq (mmeas F n)).
Add Field Ffield' : (F_field F).

Lemma swap4 (a b x y : F) : a - b = x - y -> a - x = b - y.
Proof. move=> H; have -> : a = b + (x - y) by rewrite -H addrC subrK. by fold_field F; ring. Qed.
Lemma voltage_diff_points ms : voltage_diff ms = voltage_diff (measured (fun _ => 0) (fun _ => 0) [seq m.1.1 | m <- ms]).
Proof.
apply/matrixP => i j; rewrite !mxE !size_map; case E: diff_index => [[a b]|] //.
have [Ha Hb] := diff_index_lt (ltn_ord j) E.
rewrite !point_measured ?size_map //= !(nth_map (0, 0, 0)) //.
Qed.

(** The gradient that is computed from [n+1] points in general position. *)
Lemma calc_chords ms : size ms = n.+1 -> voltage_diff (rev ms) \in unitmx ->
  exists g c, calc_gradient (rev ms) = Ok (g, c) /\
    forall i j, (i < n.+1)%N -> (j < n.+1)%N -> dot g ((point ms i).1.1 - (point ms j).1.1) = (point ms i).1.2 - (point ms j).1.2.
Proof.
move=> Hs Hu; rewrite /calc_gradient size_rev Hs eqxx /= Hu; do 2!eexists; split; first reflexivity.
set g := _ *m _.
have Hg : g *m voltage_diff (rev ms) = parameter_diff (rev ms) by rewrite /g mulmxKV.
clearbody g.
have Hd : forall j, (j < n)%N -> dot g (point (rev ms) j.+1).1.1 - (point (rev ms) j.+1).1.2 = dot g (point (rev ms) 0).1.1 - (point (rev ms) 0).1.2.
  move=> j Hj; have := congr1 (fun M : 'rV_n => M 0 (Ordinal Hj)) Hg; rewrite !mxE /diff_index size_rev Hs eqxx => H.
  have {}H : dot g ((point (rev ms) j.+1).1.1 - (point (rev ms) 0).1.1) = (point (rev ms) j.+1).1.2 - (point (rev ms) 0).1.2.
    by rewrite -H; apply: eq_bigr => l _; rewrite !mxE /diff_index size_rev Hs eqxx.
  by rewrite dotBr in H; apply: (swap4 H).
have Hall : forall j, (j < n.+1)%N -> dot g (point ms j).1.1 - (point ms j).1.2 = dot g (point (rev ms) 0).1.1 - (point (rev ms) 0).1.2.
  move=> j Hj; have -> : point ms j = point (rev ms) (n - j)%N.
    by rewrite /point nth_rev Hs ?ltnS ?leq_subr // subSS subKn.
  by case E: (n - j)%N => [|i] //; apply: Hd; rewrite -E leq_subr.
move=> i j Hi Hj; rewrite dotBr; apply: swap4; by rewrite (Hall i Hi) (Hall j Hj).
Qed.
End Points.

(** *** The rounds that collect the points *)
Section Loop.
Variables (F : realFieldType) (n k : nat) (ortho : seq 'rV[F]_n -> res 'rV[F]_n).
Hypothesis Hortho : chooses_orthogonal ortho.
Variables (f w : nat -> 'rV[F]_n -> 'rV[F]_k) (p0 : 'rV[F]_n) (eps : 'I_k -> 'rV[F]_n) (des : 'rV[F]_k).
Hypothesis Hk : (0 < k)%N.
Hypothesis Hn : (0 < n)%N.
Let i0 := Ordinal Hk.
Hypothesis Heps : forall j, 0 < eps i0 0 j.
Implicit Types (ds ps : seq 'rV[F]_n) (st : mnewton F n k).

Definition history ps (i : 'I_k) : seq (mmeas F n) :=
  [seq (nth 0 ps t, f t (nth 0 ps t) 0 i, w t (nth 0 ps t) 0 i) | t <- iota 0 (size ps)].
Lemma history_rcons ps p i : rcons (history ps i) (p, f (size ps) p 0 i, w (size ps) p 0 i) = history (rcons ps p) i.
Proof.
rewrite /history size_rcons -[(size ps).+1]addn1 iotaD map_cat /= cats1 add0n nth_rcons ltnn eqxx; congr rcons.
by apply/eq_in_map => t; rewrite mem_iota add0n => /= Ht; rewrite nth_rcons Ht.
Qed.
Lemma history_points ps i : [seq m.1.1 | m <- history ps i] = ps.
Proof. by rewrite -map_comp -[RHS](mkseq_nth 0). Qed.
Lemma size_history ps i : size (history ps i) = size ps.
Proof. by rewrite size_map size_iota. Qed.

(** A displacement that was asked for after [ds]. *)
Definition made ds (d : 'rV[F]_n) : Prop :=
  exists ov vs, [/\ d = scale ov (eps i0), ortho vs = Ok ov, ov != 0 & forall v, v \in ds -> dot ov v = 0].
Definition grown ds : Prop := forall i, (i < size ds)%N -> made (take i ds) (nth 0 ds i).
Lemma grown_rcons ds d : grown ds -> made ds d -> grown (rcons ds d).
Proof.
move=> H Hd i; rewrite size_rcons ltnS leq_eqVlt => /orP [/eqP ->|Hi].
  by rewrite nth_rcons ltnn eqxx -cats1 take_size_cat.
by rewrite nth_rcons Hi -cats1 takel_cat ?(ltnW Hi) //; apply: H.
Qed.
Lemma grown_indep ds : grown ds -> indep ds.
Proof.
elim/last_ind: ds => [|ds d IH] H; first exact: indep_nil.
have Hd : made ds d.
  by have := H (size ds); rewrite size_rcons nth_rcons ltnn eqxx -cats1 take_size_cat //; apply.
have Hds : grown ds.
  move=> i Hi; have := H i; rewrite size_rcons ltnS (ltnW Hi) nth_rcons Hi -cats1 takel_cat ?(ltnW Hi) //; exact.
have [ov [vs [-> _ Hov Ho]]] := Hd.
by apply: (@indep_rcons _ _ ds _ ov) => //; [exact: IH | exact: scale_dot].
Qed.

Definition pts ds : seq 'rV[F]_n := p0 :: [seq p0 + d | d <- ds].
Lemma pts_rcons ds d : pts (rcons ds d) = rcons (pts ds) (p0 + d).
Proof. by rewrite /pts map_rcons. Qed.
Lemma size_pts ds : size (pts ds) = (size ds).+1.
Proof. by rewrite /= size_map. Qed.
Lemma nth_pts ds i : (i <= size ds)%N -> nth 0 (pts ds) i = p0 + nth 0 (0 :: ds) i.
Proof. by case: i => [|i] Hi; [rewrite /= addr0 | rewrite /= (nth_map 0)]. Qed.

Definition waiting ds i (e : mfd F n) : Prop :=
  [/\ mf_pos e = p0, mf_eps e = eps i, mf_sym e = false, mf_est e = None & mf_stored e = history (pts ds) i].
Definition loop_inv' ds st : Prop := mn_desired st = des /\ forall i, waiting ds i (mn_ests st i).

Lemma request_made ds (e : mfd F n) : (size ds < n)%N -> waiting ds i0 e -> indep ds ->
  exists d, mfd_require ortho e = Ok (Some (p0 + d)) /\ made ds d.
Proof.
move=> Hm [Hp He Hsym Hest Hst] Hi.
rewrite /mfd_require Hest Hst Hsym Hp He history_points /= size_map; case: eqP => [[H0]|Hne].
- have [|ov [Ho [Hov _]]] := @ortho_ok _ _ _ Hortho [:: 0].
    exists (const_mx 1); split; last by move=> v; rewrite inE => /eqP ->; exact: dot0r.
    by apply/eqP => /matrixP /(_ 0 (Ordinal Hn)) /eqP; rewrite !mxE oner_eq0.
  exists (scale ov (eps i0)); rewrite Ho; split=> //; exists ov, [:: 0]; split=> // v.
  by rewrite (size0nil H0).
- rewrite Hm /=.
  have -> : [seq p - p0 | p <- [seq p0 + d | d <- ds]] = ds.
    by rewrite -map_comp -[RHS]map_id; apply: eq_map => d /=; rewrite addrC addKr.
  have [|ov [Ho [Hov Hov']]] := @ortho_ok _ _ _ Hortho ds; first exact: null_exists.
  by exists (scale ov (eps i0)); rewrite Ho; split=> //; exists ov, ds.
Qed.

Lemma update_all' t v st :
  (forall i, exists e, mfd_update v (f t v 0 i) (w t v 0 i) (mn_ests st i) = (e, Ok tt)) ->
  exists st', [/\ mn_update v (f t v) (w t v) st = Ok st', mn_desired st' = mn_desired st, mn_pos st' = v, mn_vals st' = f t v &
    forall i, mn_ests st' i = (mfd_update v (f t v 0 i) (w t v 0 i) (mn_ests st i)).1].
Proof.
move=> H; rewrite /mn_update first_exn_ok; last by move=> i; have [e ->] := H i.
by eexists; split; first reflexivity.
Qed.
Lemma suggest_made ds st : loop_inv' ds st -> (size ds < n)%N -> indep ds ->
  exists d, mn_suggest ortho st = Ok (p0 + d) /\ made ds d.
Proof.
move=> [Hdes Hall] Hs Hi; have [d [Hr Hd]] := request_made Hs (Hall i0) Hi.
exists d; split=> //; rewrite /mn_suggest.
have -> : enum 'I_k = i0 :: behead (enum 'I_k).
  have := size_enum_ord k; case E: (enum 'I_k) => [|i l] /= Hk'; first by exfalso; move: (Hk); rewrite -Hk'.
  by congr (_ :: _); apply: val_inj; have := nth_enum_ord i0 Hk; rewrite E.
by rewrite (first_of_all _ Hr).
Qed.

Lemma waiting_more ds i e d : waiting ds i e -> ((size ds).+1 < n)%N ->
  exists e', mfd_update (p0 + d) (f (size ds).+1 (p0 + d) 0 i) (w (size ds).+1 (p0 + d) 0 i) e = (e', Ok tt) /\ waiting (rcons ds d) i e'.
Proof.
move=> [Hp He Hsym Hest Hst] Hs; rewrite /mfd_update Hest Hsym Hst -size_pts history_rcons -pts_rcons.
rewrite size_history size_pts size_rcons eqSS ltn_eqF //.
by eexists; split; first reflexivity.
Qed.
Lemma waiting_first i : exists e, mfd_update p0 (f 0 p0 0 i) (w 0 p0 0 i) (fresh p0 (eps i) false) = (e, Ok tt) /\ waiting [::] i e.
Proof.
rewrite /mfd_update /= eqSS ltn_eqF //.
by eexists; split; first reflexivity.
Qed.
Definition slopes ds i (g : 'rV[F]_n) : Prop := forall a b, (a < (size ds).+1)%N -> (b < (size ds).+1)%N ->
  dot g (nth 0 (pts ds) a - nth 0 (pts ds) b) = f a (nth 0 (pts ds) a) 0 i - f b (nth 0 (pts ds) b) 0 i.
Lemma waiting_done ds i e d : waiting ds i e -> (size ds).+1 = n -> indep (rcons ds d) ->
  exists e' g, [/\ mfd_update (p0 + d) (f (size ds).+1 (p0 + d) 0 i) (w (size ds).+1 (p0 + d) 0 i) e = (e', Ok tt), mf_est e' = Some g & slopes (rcons ds d) i g].
Proof.
move=> [Hp He Hsym Hest Hst] Hs Hi; rewrite /mfd_update Hest Hsym Hst -size_pts history_rcons -pts_rcons.
set ms := history _ _.
have Hsz : size ms = n.+1 by rewrite size_history size_pts size_rcons Hs.
rewrite Hsz eqxx; have [||g [c [-> Hg]]] := @calc_chords F n ms => //.
  rewrite voltage_diff_points map_rev history_points.
  rewrite -[measured _ _ _]measured_rev; apply: reversed_unit => //; by rewrite size_rcons.
eexists; exists g; split; [reflexivity | by [] |].
move=> a b; rewrite size_rcons Hs => Ha Hb.
have P t : (t < n.+1)%N -> point ms t = (nth 0 (pts (rcons ds d)) t, f t (nth 0 (pts (rcons ds d)) t) 0 i, w t (nth 0 (pts (rcons ds d)) t) 0 i).
  move=> Ht; rewrite /point (nth_map 0%N) ?size_iota ?size_pts ?size_rcons ?Hs //.
  by rewrite nth_iota ?size_pts ?size_rcons ?Hs // add0n.
by have := Hg a b Ha Hb; rewrite !P.
Qed.

Lemma rounds_atS t m s : rounds_at ortho f w t m.+1 s =
  match rounds_at ortho f w t m s with Ok s' => round ortho (f (t + m)%N) (w (t + m)%N) s' | Raise e => Raise e end.
Proof.
elim: m t s => [|m IH] t s; first by rewrite /= addn0; case: round.
have -> : rounds_at ortho f w t m.+2 s = match round ortho (f t) (w t) s with Ok s' => rounds_at ortho f w t.+1 m.+1 s' | Raise e => Raise e end by [].
by rewrite [in RHS]/=; case: round => // s'; rewrite IH addSnnS.
Qed.
Lemma rounds_at_add t a b s : rounds_at ortho f w t (a + b) s =
  match rounds_at ortho f w t a s with Ok s' => rounds_at ortho f w (t + a) b s' | Raise e => Raise e end.
Proof. by elim: a t s => [|a IH] t s /=; [rewrite addn0 | case: round => // s'; rewrite IH addSnnS]. Qed.

Definition begin vals0 : mnewton F n k := mk_mnewton des (fun i => fresh p0 (eps i) false) p0 vals0.

Lemma collect vals0 m : (m < n)%N ->
  exists ds st d, [/\ rounds_at ortho f w 0 m.+1 (begin vals0, p0) = Ok (st, p0 + d), loop_inv' ds st, size ds = m & grown (rcons ds d)].
Proof.
elim: m => [|m IH] Hm.
- have [|st [Hu Hd Hp Hv He]] := @update_all' 0 p0 (begin vals0).
    by move=> i; have [e [He _]] := waiting_first i; exists e.
  have Hinv : loop_inv' [::] st.
    by split=> // i; rewrite He; have [e [He' Ha]] := waiting_first i; rewrite /= He'.
  have [d [Hs Hd']] := suggest_made Hinv Hm (@indep_nil F n).
  by exists [::], st, d; split=> //; [rewrite /= /round /= Hu Hs | apply: grown_rcons].
- have [ds [st [d [Hr Hinv Hs Hg]]]] := IH (ltnW Hm).
  have Hmore : forall i, exists e, mfd_update (p0 + d) (f m.+1 (p0 + d) 0 i) (w m.+1 (p0 + d) 0 i) (mn_ests st i) = (e, Ok tt) /\ waiting (rcons ds d) i e.
    by move=> i; rewrite -Hs; apply: waiting_more; [exact: Hinv.2 | rewrite Hs].
  have [|st' [Hu Hd' Hp' Hv' He']] := @update_all' m.+1 (p0 + d) st.
    by move=> i; have [e [He _]] := Hmore i; exists e.
  have Hinv' : loop_inv' (rcons ds d) st'.
    split=> [|i]; first by rewrite Hd' Hinv.1.
    by rewrite He'; have [e [-> Ha]] := Hmore i.
  have [||d' [Hs' Hd2]] := @suggest_made _ st' Hinv'; [by rewrite size_rcons Hs | exact: grown_indep |].
  exists (rcons ds d), st', d'; split=> //; [| by rewrite size_rcons Hs | exact: grown_rcons].
  by rewrite rounds_atS Hr /round /= add0n Hu Hs'.
Qed.

(** The state with all gradients. *)
Definition knows (J : 'M[F]_(k, n)) st : Prop := mn_desired st = des /\ forall i, mf_est (mn_ests st i) = Some (row i J).
Lemma knows_jacobian J st : knows J st -> jacobian (mn_ests st) = Some J.
Proof.
move=> [_ He]; rewrite /jacobian; case: ifP => [_|/negbT /forallPn [i]]; last by rewrite He.
by congr Some; apply/matrixP => i j; rewrite mxE He mxE.
Qed.
Lemma knows_suggest J st : knows J st -> mn_suggest ortho st = Ok (mn_pos st + (lstsq J (des - mn_vals st)^T)^T).
Proof.
move=> H; rewrite /mn_suggest first_request_none; last by move=> i; rewrite /mfd_require H.2.
by rewrite (knows_jacobian H) H.1.
Qed.
Lemma knows_round J st t v : knows J st -> exists st', round ortho (f t) (w t) (st, v) = Ok (st', v + (lstsq J (des - f t v)^T)^T) /\ knows J st'.
Proof.
move=> H; have [|st' [Hu [Hd [Hp [Hv He]]]]] := @known_update _ _ _ (f t) (w t) st v; first by move=> i; rewrite H.2.
have H' : knows J st' by split=> [|i]; rewrite ?Hd ?He; case: H.
by exists st'; rewrite /round /= Hu (knows_suggest H') Hp Hv.
Qed.
Lemma knows_rounds J st t m v : knows J st -> exists st', rounds_at ortho f w t m (st, v) = Ok (st', chord_steps f des J t m v) /\ knows J st'.
Proof.
elim: m t st v => [|m IH] t st v H; first by exists st.
have [st1 [Hr H1]] := knows_round t v H; have [st2 [Hr2 H2]] := IH t.+1 _ (v + (lstsq J (des - f t v)^T)^T) H1.
by exists st2; rewrite /= Hr.
Qed.

Lemma chords_known vals0 : exists ds J, [/\ size ds = n, grown ds, chords f (pts ds) J &
  forall m, exists st, rounds_at ortho f w 0 (n.+1 + m) (begin vals0, p0) = Ok (st, chord_steps f des J n m.+1 (last p0 (pts ds))) /\ knows J st].
Proof.
have Hm : (n.-1 < n)%N by rewrite prednK.
have [ds [st [d [Hr Hinv Hs Hg]]]] := collect vals0 Hm.
rewrite (prednK Hn) in Hr.
have HsS : (size ds).+1 = n by rewrite Hs prednK.
have Hdone : forall i, exists e g, [/\ mfd_update (p0 + d) (f n (p0 + d) 0 i) (w n (p0 + d) 0 i) (mn_ests st i) = (e, Ok tt), mf_est e = Some g & slopes (rcons ds d) i g].
  by move=> i; have := waiting_done (Hinv.2 i) HsS (grown_indep Hg); rewrite HsS.
have [|st' [Hu Hd' Hp' Hv' He']] := @update_all' n (p0 + d) st.
  by move=> i; have [e [g [He _ _]]] := Hdone i; exists e.
pose J : 'M[F]_(k, n) := \matrix_(i, j) (if mf_est (mn_ests st' i) is Some g then g 0 j else 0).
have HJ : forall i, mf_est (mn_ests st' i) = Some (row i J) /\ slopes (rcons ds d) i (row i J).
  move=> i; have [e [g [He Hg' Hsl]]] := Hdone i.
  have E : mf_est (mn_ests st' i) = Some g by rewrite He' He.
  have -> : row i J = g by apply/rowP => j; rewrite !mxE E.
  by rewrite E.
have Hkn : knows J st' by split=> [|i]; [rewrite Hd' Hinv.1 | case: (HJ i)].
exists (rcons ds d), J; split=> //; first by rewrite size_rcons.
- move=> a b; rewrite size_pts => Ha Hb; apply/rowP => i; rewrite [RHS]mxE [X in _ = _ + X]mxE.
  have [_ Hsl] := HJ i; rewrite -Hsl // mxE; apply: eq_bigr => j _; by rewrite !mxE mulrC.
- move=> m; have [st2 [Hr2 Hk2]] := knows_rounds n.+1 m (p0 + d + (lstsq J (des - f n (p0 + d))^T)^T) Hkn.
  exists st2; split=> //; rewrite rounds_at_add rounds_atS Hr /round /= !add0n Hu (knows_suggest Hkn) Hp' Hv'.
  by rewrite map_rcons last_rcons; exact: Hr2.
Qed.
End Loop.

(** *** Mutually orthogonal displacements *)
Section Parseval.
Variables (F : realFieldType) (n k : nat).
Lemma sqn_dot (v : 'rV[F]_n) : sqn v = dot v v.
Proof. by rewrite /sqn big_ord1; apply: eq_bigr => i _; rewrite expr2. Qed.
Lemma parseval (ds : seq 'rV[F]_n) (r : 'rV[F]_n) : size ds = n -> (forall i, (i < n)%N -> nth 0 ds i != 0) ->
  (forall i j, (i < n)%N -> (j < n)%N -> i != j -> dot (nth 0 ds i) (nth 0 ds j) = 0) ->
  sqn r = \sum_(j < n) dot r (nth 0 ds j) ^+ 2 / sqn (nth 0 ds j).
Proof.
move=> Hs Hz Ho.
pose D : 'M[F]_n := \matrix_(i, j) nth 0 ds i 0 j.
pose L : 'rV[F]_n := \row_i (sqn (nth 0 ds i))^-1.
have HDD : D *m (D^T *m diag_mx L) = 1%:M.
  apply/matrixP => i j; rewrite mulmxA mul_mx_diag !mxE.
  have -> : \sum_(l < n) D i l * D^T l j = dot (nth 0 ds i) (nth 0 ds j) by apply: eq_bigr => l _; rewrite !mxE.
  have [->|Hij] := eqVneq i j; last by rewrite Ho // mul0r.
  by rewrite -sqn_dot divff // sqn_eq0 Hz.
have H1 := mulmx1C HDD.
rewrite sqn_row -[X in X *m _](mulmx1 r) -H1 !mulmxA -[_ *m D *m r^T]mulmxA mul_mx_diag mxE; apply: eq_bigr => j _.
have E1 : (r *m D^T) 0 j = dot r (nth 0 ds j) by rewrite mxE; apply: eq_bigr => l _; rewrite !mxE.
have E2 : (D *m r^T) j 0 = dot r (nth 0 ds j) by rewrite mxE; apply: eq_bigr => l _; rewrite !mxE mulrC.
by rewrite [X in X * _]mxE E1 E2 mxE mulrAC expr2.
Qed.
Lemma parseval_bound (ds : seq 'rV[F]_n) (E : 'M[F]_(k, n)) c : size ds = n -> (forall i, (i < n)%N -> nth 0 ds i != 0) ->
  (forall i j, (i < n)%N -> (j < n)%N -> i != j -> dot (nth 0 ds i) (nth 0 ds j) = 0) ->
  (forall i, (i < n)%N -> sqn (nth 0 ds i *m E^T) <= c * sqn (nth 0 ds i)) -> sqn E <= n%:R * c.
Proof.
move=> Hs Hz Ho Hc; rewrite sqn_rows.
under eq_bigr do rewrite (parseval _ Hs Hz Ho).
rewrite exchange_big /=; have -> : n%:R * c = \sum_(j < n) c by rewrite sumr_const card_ord mulr_natl.
apply: ler_sum => j _.
have Hp : 0 < sqn (nth 0 ds j) by rewrite lt_neqAle eq_sym sqn_eq0 Hz ?sqn_ge0.
rewrite -mulr_suml ler_pdivr_mulr //; apply: le_trans (Hc j (ltn_ord j)).
rewrite /sqn big_ord1 le_eqVlt; apply/orP; left; apply/eqP; apply: eq_bigr => i _; congr (_ ^+ 2).
by rewrite mxE; apply: eq_bigr => l _; rewrite !mxE mulrC.
Qed.
End Parseval.

Section Steep.
Variables (F : realFieldType) (n k : nat) (J : 'M[F]_(k, n)) (a : F).
Hypothesis Ha : 0 < a.
Hypothesis HJ : steep J a.
Lemma steep_free : row_free J.
Proof.
rewrite -kermx_eq0; apply/eqP/row_matrixP => i; rewrite row0; set v := row i _.
have Hv : v *m J = 0 by apply/eqP; rewrite -sub_kermx row_sub.
apply/eqP; rewrite -sqn_eq0 eq_le sqn_ge0 andbT -(pmulr_rle0 _ (exprn_gt0 2 Ha)); apply: (le_trans (HJ v)).
by rewrite Hv sqn0.
Qed.
(** On the rows of [J] nothing is shrunk by more than [a]. *)
Lemma steep_back (y : 'rV[F]_k) : a ^+ 2 * sqn (y *m J) <= sqn (y *m J *m J^T).
Proof.
set x := y *m J; have [Hz|Hz] := eqVneq (sqn x) 0; first by rewrite Hz mulr0 sqn_ge0.
have Hz0 : 0 < sqn x by rewrite lt_neqAle eq_sym Hz sqn_ge0.
have E : sqn x = (y *m (x *m J^T)^T) 0 0 by rewrite trmx_mul trmxK mulmxA -/x sqn_row.
have H1 : sqn x ^+ 2 <= sqn y * sqn (x *m J^T) by rewrite {1}E; exact: dot_schwarz.
rewrite -(ler_pmul2r Hz0) -mulrA -expr2.
apply: (le_trans (ler_wpmul2l (sqr_ge0 a) H1)); rewrite mulrA.
by apply: (le_trans (ler_wpmul2r (sqn_ge0 _) (HJ y))); rewrite mulrC.
Qed.
Lemma lstsq_row (d : 'rV[F]_k) : exists y, (lstsq J d^T)^T = y *m J /\ y *m J *m J^T = d.
Proof.
have [y Hy] := lstsq_range J d^T; exists y^T; have E : (lstsq J d^T)^T = y^T *m J by rewrite Hy trmx_mul trmxK.
by split=> //; rewrite -E -trmx_mul lstsq_exact ?trmxK //; exact: steep_free.
Qed.
Lemma lstsq_length (d : 'rV[F]_k) : a ^+ 2 * sqn (lstsq J d^T)^T <= sqn d.
Proof. by have [y [-> <-]] := lstsq_row d; exact: steep_back. Qed.
End Steep.

(** *** Convergence *)
Section Converge.
Variables (F : realFieldType) (n k : nat) (ortho : seq 'rV[F]_n -> res 'rV[F]_n).
Add Field Ffield2 : (F_field F).
Hypothesis Hortho : chooses_orthogonal ortho.
Variables (f w : nat -> 'rV[F]_n -> 'rV[F]_k) (p0 : 'rV[F]_n) (eps : 'I_k -> 'rV[F]_n) (des : 'rV[F]_k).
Hypothesis Hk : (0 < k)%N.
Let i0 := Ordinal Hk.
Variables (h : 'rV[F]_n -> 'rV[F]_k) (A : 'M[F]_(k, n)) (a e l0 l1 kappa tau ep s0 R : F).
Hypothesis He : 0 < e.
Hypothesis Heps : eps i0 = const_mx e.
Hypothesis Hl0 : 0 < l0.
Hypothesis Hl1 : 0 <= l1.
Hypothesis Hlen : lengths ortho l0 l1.
Hypothesis Hsteep : steep A a.
Hypothesis Hka0 : 0 <= kappa.
Hypothesis Hta0 : 0 <= tau.
Hypothesis Hep0 : 0 <= ep.
Hypothesis Hs0 : 0 <= s0.
Hypothesis Haff : nearly_affine h A kappa p0 R.
Hypothesis Hnoise : forall t x, near p0 R x -> sqn (f t x - h x) <= tau ^+ 2.
Hypothesis Hep : n%:R * (kappa + (tau + tau) / (e * l0)) ^+ 2 <= ep ^+ 2.
Hypothesis Ha : ep + ep + kappa < a.
Hypothesis Hstart : forall x, near p0 (e * l1) x -> sqn (des - h x) <= s0 ^+ 2.
Let q := (ep + kappa) / (a - ep).
Let b := (1 + q) * tau / (1 - q).
Hypothesis HR : e * l1 + (s0 + s0 + b) / (a - ep - ep - kappa) + (s0 + b + tau) / (a - ep) <= R.

Lemma add1 m d (M N : 'M[F]_(m, d)) s t : 0 <= s -> 0 <= t -> sqn M <= s ^+ 2 -> sqn N <= t ^+ 2 -> sqn (M + N) <= (s + t) ^+ 2.
Proof. by move=> Hs Ht HM HN; have := @length_add F m d M N s t 1; rewrite !mulr1; apply. Qed.
Lemma sub1 m d (M N : 'M[F]_(m, d)) s t : 0 <= s -> 0 <= t -> sqn M <= s ^+ 2 -> sqn N <= t ^+ 2 -> sqn (M - N) <= (s + t) ^+ 2.
Proof. by move=> *; apply: add1 => //; rewrite sqnN. Qed.
Lemma sq_mono (x y : F) : 0 <= x -> x <= y -> x ^+ 2 <= y ^+ 2.
Proof. by move=> Hx Hxy; apply: ler_expn2r; rewrite ?nnegrE //; exact: le_trans Hxy. Qed.
Lemma near_mono r r' x : 0 <= r -> r <= r' -> near p0 r x -> near p0 r' x.
Proof. by move=> Hr Hrr Hx; apply: (le_trans Hx); exact: sq_mono. Qed.
Lemma near_center r : near p0 r p0.
Proof. by rewrite /near subrr sqn0 sqr_ge0. Qed.

Lemma amep : 0 < a - ep.
Proof. rewrite subr_gt0; apply: le_lt_trans Ha; rewrite -addrA ler_addl addr_ge0 //. Qed.
Lemma amep2 : 0 < a - ep - ep - kappa.
Proof.
have -> : a - ep - ep - kappa = a - (ep + ep + kappa) by fold_field F; ring.
by rewrite subr_gt0.
Qed.
Lemma q_ge0 : 0 <= q.
Proof. by apply: divr_ge0; [exact: addr_ge0 | exact: ltW amep]. Qed.
Lemma q_lt1 : q < 1.
Proof. by rewrite ltr_pdivr_mulr ?amep // mul1r ltr_subr_addr addrAC. Qed.
Lemma onemq : 0 < 1 - q.
Proof. by rewrite subr_gt0 q_lt1. Qed.
Lemma b_ge0 : 0 <= b.
Proof. by apply: divr_ge0; [apply: mulr_ge0 => //; apply: addr_ge0; [exact: ler01 | exact: q_ge0] | exact: ltW onemq]. Qed.
Lemma b_fixed : q * b + (1 + q) * tau = b.
Proof.
have H : 1 - q != 0 by rewrite gt_eqF ?onemq.
by rewrite /b; move: q H => x H; fold_field F; field; exact/eqP.
Qed.
Lemma el1 : 0 <= e * l1.
Proof. by rewrite mulr_ge0 // ltW. Qed.
Lemma ball0 : e * l1 <= R.
Proof.
apply: le_trans HR; rewrite -addrA ler_addl; apply: addr_ge0; apply: divr_ge0; rewrite ?(ltW amep) ?(ltW amep2) // !addr_ge0 // b_ge0 //.
Qed.
Lemma Hn' : (0 < n)%N.
Proof.
rewrite lt0n; apply/eqP => Hn0.
have Ha0 : 0 < a by apply: le_lt_trans Ha; rewrite !addr_ge0.
have := rank_leq_col A; have := steep_free Ha0 Hsteep; rewrite /row_free => /eqP ->.
by rewrite Hn0 leqNgt Hk.
Qed.
Lemma Hposeps j : 0 < eps i0 0 j.
Proof. by rewrite Heps mxE. Qed.

(** The displacements *)
Lemma scale_const (ov : 'rV[F]_n) : scale ov (const_mx e) = e *: ov.
Proof. by apply/rowP => i; rewrite !mxE mulrC. Qed.
Section Known.
Variables (ds : seq 'rV[F]_n) (J : 'M[F]_(k, n)).
Hypothesis Hsize : size ds = n.
Hypothesis Hgrown : grown ortho eps Hk ds.
Hypothesis Hchords : chords f (pts p0 ds) J.

Lemma made_d i : (i < n)%N -> exists ov, [/\ nth 0 ds i = e *: ov, ov != 0, l0 ^+ 2 <= sqn ov <= l1 ^+ 2 & forall j, (j < i)%N -> dot ov (nth 0 ds j) = 0].
Proof.
move=> Hi; have Hi' : (i < size ds)%N by rewrite Hsize.
have [ov [vs [Hd Ho Hov Hdot]]] := Hgrown Hi'.
exists ov; split=> //; [by rewrite Hd -/i0 Heps scale_const | exact: (Hlen Ho) |].
move=> j Hj; apply: Hdot; rewrite -(nth_take _ Hj); apply: mem_nth; by rewrite size_take Hi'.
Qed.
Lemma d_neq0 i : (i < n)%N -> nth 0 ds i != 0.
Proof. by move=> Hi; have [ov [-> Hov _ _]] := made_d Hi; rewrite scaler_eq0 negb_or gt_eqF. Qed.
Lemma d_ortho i j : (i < n)%N -> (j < n)%N -> i != j -> dot (nth 0 ds i) (nth 0 ds j) = 0.
Proof.
have H i' j' : (j' < i')%N -> (i' < n)%N -> dot (nth 0 ds i') (nth 0 ds j') = 0.
  by move=> Hj Hi; have [ov [-> _ _ /(_ _ Hj) Ho]] := made_d Hi; rewrite dotC dotZr dotC Ho mulr0.
by move=> Hi Hj; rewrite neq_ltn => /orP [Hlt|Hlt]; [rewrite dotC|]; apply: H.
Qed.
Lemma d_length i : (i < n)%N -> (e * l0) ^+ 2 <= sqn (nth 0 ds i) <= (e * l1) ^+ 2.
Proof.
move=> Hi; have [ov [-> _ /andP [H0 H1] _]] := made_d Hi.
by rewrite sqnZ !exprMn !ler_pmul2l ?exprn_gt0 ?H0.
Qed.
Lemma p_near i : (i < n.+1)%N -> near p0 (e * l1) (nth 0 (pts p0 ds) i).
Proof.
case: i => [_|i Hi]; first exact: near_center.
by rewrite /near nth_pts ?Hsize // addrC addKr; have /andP [] := d_length Hi.
Qed.

(** The error of the gradients *)
Lemma jacobian_error : sqn (J - A) <= ep ^+ 2.
Proof.
apply: le_trans Hep; apply: (parseval_bound Hsize d_neq0 d_ortho) => i Hi.
set d := nth 0 ds i; have /andP [Hd0 Hd1] := d_length Hi.
have Hr : nth 0 (pts p0 ds) i.+1 = p0 + d by rewrite nth_pts ?Hsize.
have Hx : near p0 R (p0 + d) by rewrite -Hr; apply: (near_mono el1 ball0); exact: p_near.
have H0 := near_center R.
have := Hchords (i := i.+1) (j := 0%N); rewrite size_pts Hsize Hr -[nth 0 _ 0]/p0 [p0 + d - p0]addrC addKr => /(_ Hi (ltn0Sn _)) HJ.
have -> : d *m (J - A)^T = (h (p0 + d) - h p0 - (p0 + d - p0) *m A^T) + ((f i.+1 (p0 + d) - h (p0 + d)) - (f 0%N p0 - h p0)).
  rewrite linearB /= mulmxBr HJ [p0 + d - p0]addrC addKr.
  by apply/rowP => j; rewrite !mxE; fold_field F; ring.
have Hel : 0 < e * l0 by rewrite mulr_gt0.
have Hsc t x : near p0 R x -> sqn (f t x - h x) <= (tau / (e * l0)) ^+ 2 * sqn d.
  move=> Hnx; apply: (le_trans (Hnoise t Hnx)).
  by rewrite expr_div_n mulrAC ler_pdivl_mulr ?exprn_gt0 // ler_wpmul2l ?sqr_ge0.
have Htd : 0 <= tau / (e * l0) by rewrite divr_ge0 // ltW.
have -> : kappa + (tau + tau) / (e * l0) = kappa + (tau / (e * l0) + tau / (e * l0)) by rewrite mulrDl.
apply: length_add => //; rewrite ?sqn_ge0 ?addr_ge0 //.
- by have := Haff Hx H0; rewrite [p0 + d - p0]addrC addKr.
- by apply: length_add; rewrite ?sqn_ge0 ?sqnN //; exact: Hsc.
Qed.
Lemma error_row (y : 'rV[F]_k) : sqn (y *m (J - A)) <= ep ^+ 2 * sqn y.
Proof. by apply: (le_trans (sqn_mul_row _ _)); rewrite ler_wpmul2r ?sqn_ge0 // jacobian_error. Qed.
Lemma error_col (x : 'rV[F]_n) : sqn (x *m (J - A)^T) <= ep ^+ 2 * sqn x.
Proof. by apply: (le_trans (sqn_mul_row _ _)); rewrite sqn_tr ler_wpmul2r ?sqn_ge0 // jacobian_error. Qed.
Lemma jacobian_steep : steep J (a - ep).
Proof.
move=> y; have -> : y *m J = y *m A + y *m (J - A) by rewrite mulmxBr addrC subrK.
apply: length_sub; rewrite ?sqn_ge0 //; [by rewrite -subr_ge0 ltW ?amep | exact: error_row].
Qed.

Lemma error_split (x : 'rV[F]_n) : x *m (J - A)^T = x *m J^T - x *m A^T.
Proof. by rewrite [(J - A)^T]linearB /= mulmxBr. Qed.

(** One step *)
Lemma one_step t v s : near p0 R v -> 0 <= s -> sqn (des - h v) <= s ^+ 2 ->
  let v' := v + (lstsq J (des - f t v)^T)^T in
  [/\ sqn (v' - v) <= ((s + tau) / (a - ep)) ^+ 2, exists y, v' - v = y *m J &
      near p0 R v' -> sqn (des - h v') <= (q * s + (1 + q) * tau) ^+ 2].
Proof.
move=> Hv Hs Hd v'; pose dl := (lstsq J (des - f t v)^T)^T.
have Edl : v' - v = dl by rewrite /v' addrC addKr.
have Hm : sqn (des - f t v) <= (s + tau) ^+ 2.
  have -> : des - f t v = (des - h v) - (f t v - h v) by apply/rowP => j; rewrite !mxE; fold_field F; ring.
  by apply: sub1 => //; exact: Hnoise.
have Hst := jacobian_steep.
have Hl : sqn dl <= ((s + tau) / (a - ep)) ^+ 2.
  rewrite expr_div_n ler_pdivl_mulr ?exprn_gt0 ?amep // mulrC.
  exact: le_trans (lstsq_length amep Hst _) Hm.
have [y [Hy HyJ]] := lstsq_row amep Hst (des - f t v).
split; rewrite ?Edl //; first by exists y.
move=> Hv'.
have -> : des - h v' = (des - h v - (des - f t v)) + (dl *m (J - A)^T - (h v' - h v - (v' - v) *m A^T)).
  rewrite Edl error_split /dl Hy HyJ.
  by apply/rowP => j; rewrite !mxE; fold_field F; ring.
have Eq : q * s + (1 + q) * tau = tau + (ep * ((s + tau) / (a - ep)) + kappa * ((s + tau) / (a - ep))).
  by rewrite -mulrDl /q; fold_field F; field; apply/eqP; rewrite gt_eqF ?amep.
have Hd0 : 0 <= (s + tau) / (a - ep) by apply: divr_ge0; [exact: addr_ge0 | exact: ltW amep].
rewrite {}Eq; move: ((s + tau) / (a - ep)) Hl Hd0 => D Hl HD.
apply: add1; rewrite ?addr_ge0 ?mulr_ge0 //.
- have -> : des - h v - (des - f t v) = f t v - h v by apply/rowP => j; rewrite !mxE; fold_field F; ring.
  exact: Hnoise.
- apply: sub1; rewrite ?mulr_ge0 // exprMn.
  + by apply: (le_trans (error_col _)); rewrite ler_wpmul2l ?sqr_ge0.
  + by apply: (le_trans (Haff Hv' Hv)); rewrite Edl ler_wpmul2l ?sqr_ge0.
Qed.

(** All steps *)
Let pn := last p0 (pts p0 ds).
Lemma pn_near : near p0 (e * l1) pn.
Proof. by rewrite /pn (last_nth 0) -{1}[p0]/(nth 0 (pts p0 ds) 0) -/(pts p0 ds) size_pts Hsize; apply: p_near. Qed.

Lemma stays_near v s : near p0 R v -> (exists y, v - pn = y *m J) -> 0 <= s -> s <= s0 + b -> sqn (des - h v) <= s ^+ 2 ->
  sqn (v - pn) <= ((s0 + s0 + b) / (a - ep - ep - kappa)) ^+ 2.
Proof.
move=> Hv [y Hy] Hs Hsb Hd.
have Hpn := near_mono el1 ball0 pn_near.
rewrite expr_div_n ler_pdivl_mulr ?exprn_gt0 ?amep2 // mulrC.
have Hup : sqn (h v - h pn) <= (s0 + s0 + b) ^+ 2.
  have -> : h v - h pn = (des - h pn) - (des - h v) by apply/rowP => j; rewrite !mxE; fold_field F; ring.
  rewrite -[s0 + s0 + b]addrA; apply: sub1; rewrite ?addr_ge0 ?b_ge0 //; first exact: Hstart pn_near.
  by apply: (le_trans Hd); exact: sq_mono.
apply: le_trans Hup.
have -> : h v - h pn = (v - pn) *m J^T + (- ((v - pn) *m (J - A)^T) + (h v - h pn - (v - pn) *m A^T)).
  rewrite error_split; by apply/rowP => j; rewrite !mxE; fold_field F; ring.
have -> : a - ep - ep - kappa = (a - ep) - (ep + kappa) by fold_field F; ring.
apply: length_sub; rewrite ?sqn_ge0 ?addr_ge0 //.
- by rewrite -subr_ge0 opprD addrA ltW ?amep2.
- by rewrite Hy; exact: (steep_back jacobian_steep).
- by apply: length_add; rewrite ?sqn_ge0 //; [rewrite sqnN; exact: error_col | exact: Haff].
Qed.

Lemma steps_converge m t v s : near p0 R v -> (exists y, v - pn = y *m J) -> 0 <= s -> s <= s0 -> sqn (des - h v) <= (s + b) ^+ 2 ->
  near p0 R (chord_steps f des J t m v) /\ sqn (des - h (chord_steps f des J t m v)) <= (q ^+ m * s + b) ^+ 2.
Proof.
elim: m t v s => [|m IH] t v s Hv Hy Hs Hss Hd; first by rewrite /= expr0 mul1r.
have Hsb : 0 <= s + b by rewrite addr_ge0 ?b_ge0.
have Hsb' : s + b <= s0 + b by rewrite ler_add2r.
have [Hlen' [y' Hy'] Hnext] := one_step t Hv Hsb Hd.
have Hb := stays_near Hv Hy Hsb Hsb' Hd.
set v' := v + _ in Hlen' Hy' Hnext.
have Hv' : near p0 R v'.
  rewrite /near; have -> : v' - p0 = (pn - p0) + (v - pn) + (v' - v) by apply/rowP => j; rewrite !mxE; fold_field F; ring.
  have H1 : 0 <= (s0 + s0 + b) / (a - ep - ep - kappa) by apply: divr_ge0; [rewrite !addr_ge0 ?b_ge0 | exact: ltW amep2].
  have H2 : 0 <= (s + b + tau) / (a - ep) by apply: divr_ge0; [rewrite !addr_ge0 ?b_ge0 | exact: ltW amep].
  apply: (le_trans (y := (e * l1 + (s0 + s0 + b) / (a - ep - ep - kappa) + (s + b + tau) / (a - ep)) ^+ 2)).
    by apply: add1 => //; rewrite ?addr_ge0 ?el1 //; apply: add1; rewrite ?el1 //; exact: pn_near.
  apply: sq_mono; first by rewrite !addr_ge0 ?el1.
  apply: le_trans HR; rewrite ler_add2l ler_pmul2r ?invr_gt0 ?amep // !ler_add2r //.
have Hyy : exists y, v' - pn = y *m J.
  have [y Hy0] := Hy; exists (y + y'); rewrite mulmxDl -Hy0 -Hy'.
  by apply/rowP => j; rewrite !mxE; fold_field F; ring.
have Hqs : q * s <= s by rewrite -{2}[s]mul1r ler_wpmul2r // ltW ?q_lt1.
have := IH t.+1 v' (q * s) Hv' Hyy (mulr_ge0 q_ge0 Hs) (le_trans Hqs Hss).
rewrite [q ^+ m.+1]exprSr -[q ^+ m * q * s]mulrA; apply.
have -> : q * s + b = q * (s + b) + (1 + q) * tau by rewrite mulrDr -addrA b_fixed.
exact: Hnext.
Qed.

Lemma all_converge t m : near p0 R (chord_steps f des J t m.+1 pn) /\ sqn (des - h (chord_steps f des J t m.+1 pn)) <= (q ^+ m.+1 * s0 + b) ^+ 2.
Proof.
apply: steps_converge => //; first exact: near_mono el1 ball0 pn_near.
- by exists 0; rewrite subrr mul0mx.
- by apply: (le_trans (Hstart pn_near)); apply: sq_mono; rewrite ?ler_addl ?b_ge0.
Qed.
End Known.

Lemma chord_converges vals0 m : exists st v, [/\ rounds_at ortho f w 0 (n.+1 + m) (begin p0 eps des vals0, p0) = Ok (st, v),
  sqn (des - h v) <= (q ^+ m.+1 * s0 + b) ^+ 2 & near p0 R v].
Proof.
have [ds [J [Hs Hg Hc Hr]]] := chords_known Hortho f w p0 des Hn' Hposeps vals0.
have [st [Hst _]] := Hr m; exists st, (chord_steps f des J n m.+1 (last p0 (pts p0 ds))).
by have [H1 H2] := all_converge Hs Hg Hc n m.
Qed.
End Converge.
