(** Property C132: Newton's method with finite differences on devices that are
    neither affine nor free of noise. *)
From mathcomp Require Import all_ssreflect all_algebra.
From Verif Require Import PyExn LinAlgModel LinAlgSpec LinAlgProofs FDProofs LoopProofs KalmanLoopProofs ChordModel ChordSpec ChordProofs LinAlgProps FieldTac.
From Coq Require Import Ring Field.
Set Implicit Arguments. Unset Strict Implicit. Unset Printing Implicit Defensive.
Import Order.TTheory GRing.Theory Num.Theory.
Local Open Scope ring_scope.

(** Whatever the device does: the first [n+1] rounds measure at points in
    general position, beginning with the starting point; the Jacobian is the
    one of the chords of the measured values, and it is used in all further
    steps. *)
Theorem chord_jacobian_forever :
  forall (F : realFieldType) n k (ortho : seq 'rV[F]_n -> res 'rV[F]_n) (f w : nat -> 'rV[F]_n -> 'rV[F]_k)
         (p0 : 'rV[F]_n) (eps : 'I_k -> 'rV[F]_n) (desired vals0 : 'rV[F]_k),
  chooses_orthogonal ortho -> (0 < n)%N -> (0 < k)%N -> (forall i j, nat_of_ord i = 0%N -> 0 < eps i 0 j) ->
  exists ps J, [/\ size ps = n.+1, nth 0 ps 0 = p0, general ps, chords f ps J &
    forall m, exists st,
      rounds_at ortho f w 0 (n.+1 + m) (mk_mnewton desired (fun i => fresh p0 (eps i) false) p0 vals0, p0) =
        Ok (st, chord_steps f desired J n m.+1 (nth 0 ps n)) /\
      jacobian (mn_ests st) = Some J].
Proof.
move=> F n k ortho f w p0 eps des vals0 Ho Hn Hk He.
have [|ds [J [Hs Hg Hc Hr]]] := @chords_known F n k ortho Ho f w p0 eps des Hk Hn _ vals0; first by move=> j; apply: He.
exists (pts p0 ds), J; split=> //.
- by rewrite size_pts Hs.
- move=> x Hx; apply: (annihilated (grown_indep _ Hg) Hs); first by move=> j; apply: He.
  move=> v Hv; rewrite -(Hx (p0 + v) p0); last exact: mem_head.
  + by rewrite addrC addKr.
  + by rewrite inE map_f ?orbT.
- move=> m; have [st [Hst Hkn]] := Hr m; exists st; rewrite (knows_jacobian Hkn); split=> //.
  by rewrite Hst (last_nth 0) size_pts Hs.
Qed.
Print Assumptions chord_jacobian_forever.

(** A step edge and a measurement that drifts. *)
Definition edge (t : nat) (p : 'rV[rat]_2) : 'rV[rat]_2 := \row_i ((if 0 <= p 0 0 then 1 else p 0 i) + t%:R).
Example case_step_edge : exists ps J, chords edge ps J /\ size ps = 3%N /\ general ps.
Proof.
have [||||ps [J [Hs _ Hg Hc _]]] := @chord_jacobian_forever rat_realFieldType 2 2 (@null_choice rat_realFieldType 2) edge edge 0 (fun _ => const_mx 1) 0 0.
- exact: null_choice_chooses.
- by [].
- by [].
- by move=> i j _; rewrite mxE.
by exists ps, J.
Qed.

(** Convergence to the target on a device whose slopes differ by [kappa] or
    less from the ones of [A] in a neighbourhood of the starting point, up to
    the noise [tau]. *)
Theorem chord_converges_with_noise :
  forall (F : realFieldType) n k (ortho : seq 'rV[F]_n -> res 'rV[F]_n) (f w : nat -> 'rV[F]_n -> 'rV[F]_k)
         (h : 'rV[F]_n -> 'rV[F]_k) (A : 'M[F]_(k, n)) (p0 : 'rV[F]_n) (eps : 'I_k -> 'rV[F]_n) (desired vals0 : 'rV[F]_k)
         (a e l0 l1 kappa tau ep s0 R : F) m,
  let q := (ep + kappa) / (a - ep) in
  let b := (1 + q) * tau / (1 - q) in
  chooses_orthogonal ortho -> lengths ortho l0 l1 -> 0 < l0 -> 0 <= l1 ->
  (0 < k)%N -> 0 < e -> (forall i, nat_of_ord i = 0%N -> eps i = const_mx e) ->
  0 <= kappa -> 0 <= tau -> 0 <= ep -> 0 <= s0 ->
  steep A a -> nearly_affine h A kappa p0 R ->
  (forall t x, near p0 R x -> sqn (f t x - h x) <= tau ^+ 2) ->
  n%:R * (kappa + 2%:R * tau / (e * l0)) ^+ 2 <= ep ^+ 2 -> 2%:R * ep + kappa < a ->
  (forall x, near p0 (e * l1) x -> sqn (desired - h x) <= s0 ^+ 2) ->
  e * l1 + (2%:R * s0 + b) / (a - 2%:R * ep - kappa) + (s0 + b + tau) / (a - ep) <= R ->
  exists st v,
    rounds_at ortho f w 0 (n.+1 + m) (mk_mnewton desired (fun i => fresh p0 (eps i) false) p0 vals0, p0) = Ok (st, v) /\
    sqn (desired - h v) <= (q ^+ m.+1 * s0 + b) ^+ 2 /\ near p0 R v /\ q < 1.
Proof.
move=> F n k ortho f w h A p0 eps des vals0 a e l0 l1 ka ta ep s0 R m q b Ho Hl Hl0 Hl1 Hk He Heps Hka Hta Hep0 Hs0 Hst Haff Hno.
have E2 x : 2%:R * x = x + x :> F by rewrite mulr_natl mulr2n.
have E3 : a - (ep + ep) - ka = a - ep - ep - ka by rewrite opprD addrA.
rewrite !E2 E3 => Hep Ha Hs HR.
have Hq : q < 1 by rewrite /q (@q_lt1 F a ka ep).
have [st [v [H1 H2 H3]]] := @chord_converges F n k ortho Ho f w p0 eps des Hk h A a e l0 l1 ka ta ep s0 R He (Heps (Ordinal Hk) erefl) Hl0 Hl1 Hl Hst Hka Hta Hep0 Hs0 Haff Hno Hep Ha Hs HR vals0 m.
by exists st, v.
Qed.
Print Assumptions chord_converges_with_noise.

(** Two gates; directions scaled to a largest component of one. *)
Definition largest (v : 'rV[rat]_2) : rat := Num.max `|v 0 0| `|v 0 1|.
Definition scaled_choice (vs : seq 'rV[rat]_2) : res 'rV[rat]_2 :=
  if null_choice vs is Ok ov then Ok ((largest ov)^-1 *: ov) else Raise ValueError.
Lemma sqn2 (v : 'rV[rat]_2) : sqn v = `|v 0 0| ^+ 2 + `|v 0 1| ^+ 2.
Proof.
rewrite /sqn big_ord1 big_ord_recl big_ord1 !real_normK ?num_real //.
by congr (_ + v 0 _ ^+ 2); apply: val_inj.
Qed.
Lemma largest_gt0 (v : 'rV[rat]_2) : v != 0 -> 0 < largest v.
Proof.
move=> Hv; rewrite /largest lt_maxr !normr_gt0; case: eqP => //= H0; apply: contraNneq Hv => H1.
by rewrite -sqn_eq0 sqn2 H0 H1 normr0 expr0n addr0.
Qed.
Lemma largest_sqn (v : 'rV[rat]_2) : largest v ^+ 2 <= sqn v <= 2%:R * largest v ^+ 2.
Proof.
rewrite sqn2 /largest mulr_natl mulr2n; case: (leP `|v 0 0| `|v 0 1|) => H; apply/andP; split.
- by rewrite ler_addr sqr_ge0.
- by rewrite ler_add2r; apply: ler_expn2r; rewrite ?nnegrE.
- by rewrite ler_addl sqr_ge0.
- by rewrite ler_add2l; apply: ler_expn2r; rewrite ?nnegrE // ltW.
Qed.
Lemma scaled_chooses : chooses_orthogonal scaled_choice.
Proof.
move=> vs; rewrite /scaled_choice; have := @null_choice_chooses rat_realFieldType 2 vs; case: null_choice => [ov [Hov Ho]|e [_ H]] //.
split; first by rewrite scaler_eq0 invr_eq0 negb_or Hov gt_eqF ?largest_gt0.
by move=> v Hv; rewrite dotC dotZr dotC Ho ?mulr0.
Qed.
Lemma scaled_lengths : lengths scaled_choice 1 (3%:R / 2%:R).
Proof.
move=> vs ov; rewrite /scaled_choice; have := @null_choice_chooses rat_realFieldType 2 vs; case: null_choice => [v [Hv _]|e _] // [<-].
have Hl := exprn_gt0 2 (largest_gt0 Hv); have /andP [H1 H2] := largest_sqn v.
rewrite sqnZ expr1n exprVn mulrC ler_pdivl_mulr // mul1r H1 ler_pdivr_mulr //=.
by apply: (le_trans H2); rewrite ler_pmul2r.
Qed.

(** A device whose first parameter has a kink, and noise of alternating sign. *)
Definition kink (p : 'rV[rat]_2) : 'rV[rat]_2 := p + \row_i (if i == 0 then `|p 0 1| / 8%:R else 0).
Definition kinked (t : nat) (p : 'rV[rat]_2) : 'rV[rat]_2 := kink p + \row_i (if i == 0 then 0 else (-1) ^+ t / 64%:R).
Lemma sqn_first (c : rat) : sqn (\row_(i < 2) (if i == 0 then c else 0)) = `|c| ^+ 2.
Proof. by rewrite sqn2 !mxE /= normr0 expr0n addr0. Qed.
Lemma sqn_second (c : rat) : sqn (\row_(i < 2) (if i == 0 then 0 else c)) = `|c| ^+ 2.
Proof. by rewrite sqn2 !mxE /= normr0 expr0n add0r. Qed.
Lemma kink_noise t x : sqn (kinked t x - kink x) <= (1 / 64%:R) ^+ 2.
Proof.
rewrite /kinked addrC addKr sqn_second normrM exprMn normrX normrN1 expr1n expr1n mul1r.
by vm_compute.
Qed.
Lemma rearrange (x y a b : rat) : x + a - (y + b) - (x - y) = a - b.
Proof. by rewrite opprD addrACA addrC addKr. Qed.
Lemma kink_affine R : nearly_affine kink 1%:M (1 / 8%:R) 0 R.
Proof.
move=> x y _ _; rewrite trmx1 mulmx1.
have -> : kink x - kink y - (x - y) = \row_i (if i == 0 then (`|x 0 1| - `|y 0 1|) / 8%:R else 0).
  apply/rowP => i; rewrite !mxE; case: ifP => _; last by rewrite !addr0 subrr.
  by rewrite mulrBl rearrange.
have E8 : `|8%:R^-1 : rat| = 1 / 8%:R by apply/eqP; vm_compute.
rewrite sqn_first normrM exprMn E8 [_ ^+ 2 * (1 / _) ^+ 2]mulrC; apply: ler_wpmul2l; first exact: sqr_ge0.
rewrite sqn2; apply: (le_trans (y := `|x 0 1 - y 0 1| ^+ 2)).
  by apply: ler_expn2r; rewrite ?nnegrE ?normr_ge0 ?ler_dist_dist.
by rewrite !mxE ler_addr sqr_ge0.
Qed.
Lemma kink_start x : near 0 (1 * (3%:R / 2%:R)) x -> sqn (const_mx 1 - kink x) <= 4%:R ^+ 2.
Proof.
rewrite /near subr0 mul1r => Hx.
apply: (le_trans (y := (3%:R / 2%:R + (3%:R / 2%:R + 1)) ^+ 2)); last by vm_compute.
apply: sub1; [by vm_compute | by vm_compute | by rewrite sqn2 !mxE; vm_compute |].
apply: add1; [by vm_compute | exact: ler01 | exact: Hx |].
rewrite sqn_first normrM normr_id exprMn.
have H1 : `|x 0 1| ^+ 2 <= (3%:R / 2%:R) ^+ 2 by apply: le_trans Hx; rewrite sqn2 ler_addr sqr_ge0.
by apply: (le_trans (ler_wpmul2r (sqr_ge0 _) H1)); vm_compute.
Qed.
Example case_kink : forall m, exists st v,
  rounds_at scaled_choice kinked (fun _ _ => 0) 0 (3 + m) (mk_mnewton (const_mx 1) (fun _ => fresh 0 (const_mx 1) false) 0 0, 0) = Ok (st, v) /\
  sqn (const_mx 1 - kink v) <= ((1 / 2%:R) ^+ m.+1 * 4%:R + 3%:R / 64%:R) ^+ 2.
Proof.
move=> m.
have := @chord_converges_with_noise rat_realFieldType 2 2 scaled_choice kinked (fun _ _ => 0) kink 1%:M 0 (fun _ => const_mx 1) (const_mx 1) 0
  1 1 1 (3%:R / 2%:R) (1 / 8%:R) (1 / 64%:R) (1 / 4%:R) 4%:R 32%:R m; cbv zeta.
have -> : (1 / 4%:R + 1 / 8%:R) / (1 - 1 / 4%:R) = 1 / 2%:R :> rat by apply/eqP; vm_compute.
have -> : (1 + 1 / 2%:R) * (1 / 64%:R) / (1 - 1 / 2%:R) = 3%:R / 64%:R :> rat by apply/eqP; vm_compute.
move=> H; have [||||||||||||||||||st [v [H1 [H2 _]]]] := H; last by exists st, v.
- exact: scaled_chooses.
- exact: scaled_lengths.
- exact: ltr01.
- by vm_compute.
- by [].
- exact: ltr01.
- by [].
- by vm_compute.
- by vm_compute.
- by vm_compute.
- by vm_compute.
- by move=> y; rewrite expr1n mul1r mulmx1.
- exact: kink_affine.
- by move=> t x _; exact: kink_noise.
- by vm_compute.
- by vm_compute.
- exact: kink_start.
- by vm_compute.
Qed.

(** Without such assumptions: on the square function, with the measurements 25
    and 49 at 5 and 7, the voltages alternate between 7 and 17 forever, although
    13 has the desired value. *)
Definition unit_choice (F : realFieldType) (vs : seq 'rV[F]_1) : res 'rV[F]_1 :=
  if all (fun v => v == 0) vs then Ok (const_mx 1) else Raise ValueError.
Lemma row1 (F : realFieldType) (v : 'rV[F]_1) : v = const_mx (v 0 0).
Proof. by apply/rowP => i; rewrite mxE ord1. Qed.
Lemma unit_chooses F : chooses_orthogonal (@unit_choice F).
Proof.
move=> vs; rewrite /unit_choice; case: allP => H.
- split; first by apply/eqP => /matrixP /(_ 0 0) /eqP; rewrite !mxE oner_eq0.
  by move=> v /H /eqP ->; exact: dot0r.
- split=> // ov Hov; apply/eqP; apply/negPn/negP => Hn; apply: H => v Hv.
  have := Hov v Hv; rewrite /dot big_ord1 => /eqP; rewrite mulf_eq0 => /orP [/eqP H0|/eqP H0].
  + by case/negP: Hn; rewrite [ov]row1 H0; apply/eqP/rowP => i; rewrite !mxE.
  + by rewrite [v]row1 H0; apply/eqP/rowP => i; rewrite !mxE.
Qed.
Definition square (F : realFieldType) (p : 'rV[F]_1) : 'rV[F]_1 := const_mx (p 0 0 ^+ 2).
Theorem chord_cycle_refuted :
  forall (F : realFieldType),
  chooses_orthogonal (@unit_choice F) /\ @square F (const_mx 13%:R) = const_mx 169%:R /\
  forall (w : nat -> 'rV[F]_1 -> 'rV[F]_1) vals0 m, exists st,
    rounds_at (@unit_choice F) (fun _ => @square F) w 0 (2 + m)
      (mk_mnewton (const_mx 169%:R) (fun _ => fresh (const_mx 5%:R) (const_mx 2%:R) false) (const_mx 5%:R) vals0, const_mx 5%:R) =
    Ok (st, const_mx (if odd m then 7%:R else 17%:R)).
Proof.
move=> F; split; first exact: unit_chooses.
split; first by apply/rowP => i; rewrite !mxE -natrX.
move=> w vals0 m; set p0 : 'rV[F]_1 := const_mx 5%:R; set eps := fun _ : 'I_1 => (const_mx 2%:R : 'rV[F]_1).
have [|ds [J [Hs Hg Hc Hr]]] := @chords_known F 1 1 (@unit_choice F) (@unit_chooses F) (fun _ => @square F) w p0 eps (const_mx 169%:R) isT isT _ vals0.
  by move=> j; rewrite mxE ltr0n.
have [st [Hst _]] := Hr m; exists st; rewrite {}Hst; congr (Ok (_, _)).
case: ds Hs Hg Hc Hr => [|d [|d' ds]] // _ Hg Hc _.
have Hd : d = const_mx 2%:R.
  have [ov [vs [/= -> Ho _ _]]] := Hg 0%N isT; move: Ho; rewrite /unit_choice; case: ifP => // _ [<-].
  by apply/rowP => i; rewrite !mxE mul1r.
have HJ : J 0 0 = 12%:R.
  have := Hc 1%N 0%N isT isT; rewrite /= Hd => /matrixP /(_ 0 0); rewrite !mxE big_ord1 !mxE [5%:R + _]addrC addrK -natrD -!natrX -natrB //.
  move/eqP; rewrite -[(_ - _)%N]/(2 * 12)%N natrM (inj_eq (mulfI _)) ?pnatr_eq0 // => /eqP; exact.
have step (x y : F) : x *+ 12 + (169%:R - x ^+ 2) = y *+ 12 -> forall t, chord_steps (fun _ => @square F) (const_mx 169%:R) J t 1 (const_mx x) = const_mx y.
  move=> H t; rewrite /=; set u := lstsq J _.
  have Hfree : row_free J.
    rewrite -kermx_eq0; apply/eqP/row_matrixP => i; rewrite row0; set v := row i _.
    have Hv : v *m J = 0 by apply/eqP; rewrite -sub_kermx row_sub.
    have := congr1 (fun M : 'rV_1 => M 0 0) Hv; rewrite !mxE big_ord1 HJ => /eqP; rewrite mulf_eq0 pnatr_eq0 orbF => /eqP H0.
    by apply/rowP => j; rewrite ord1 H0 mxE.
  have Hu : J *m u = (const_mx 169%:R - @square F (const_mx x))^T by exact: lstsq_exact.
  have := congr1 (fun M : 'cV_1 => M 0 0) Hu; rewrite mxE big_ord1 HJ !mxE => Hu0.
  apply/rowP => i; rewrite !ord1 !mxE; apply/eqP; rewrite -(inj_eq (mulfI (_ : 12%:R != 0))) ?pnatr_eq0 // mulrDr Hu0.
  by rewrite !mulr_natl H.
have H17 : chord_steps (fun _ => @square F) (const_mx 169%:R) J 1 1 (const_mx 7%:R) = const_mx 17%:R.
  apply: step; rewrite -natrX -natrB // -!mulrnA; by rewrite -natrD.
have H7 t : chord_steps (fun _ => @square F) (const_mx 169%:R) J t 1 (const_mx 17%:R) = const_mx 7%:R.
  apply: step; rewrite -natrX -!mulrnA; apply/eqP; rewrite addrA subr_eq -!natrD; by [].
have Hlast : last p0 (pts p0 [:: d]) = const_mx 7%:R by rewrite /= Hd; apply/rowP => i; rewrite !mxE -natrD.
rewrite Hlast {Hlast}.
have all m' t : chord_steps (fun _ => @square F) (const_mx 169%:R) J t m' (const_mx 7%:R) = const_mx (if odd m' then 17%:R else 7%:R) /\
                chord_steps (fun _ => @square F) (const_mx 169%:R) J t m' (const_mx 17%:R) = const_mx (if odd m' then 7%:R else 17%:R).
  elim: m' t => [|m' IH] t; first by [].
  have S x : chord_steps (fun _ => @square F) (const_mx 169%:R) J t m'.+1 x =
             chord_steps (fun _ => @square F) (const_mx 169%:R) J t.+1 m' (chord_steps (fun _ => @square F) (const_mx 169%:R) J t 1 x) by [].
  have [I1 I2] := IH t.+1; rewrite !S (H7 t) [chord_steps _ _ _ t 1 _]H17 I1 I2 /=.
  by case: (odd m').
by have [-> _] := all m.+1 1%N; rewrite /=; case: (odd m).
Qed.
Print Assumptions chord_cycle_refuted.
