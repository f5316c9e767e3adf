(** Property C135: limited steps on devices that are neither affine nor free of
    noise. *)
From mathcomp Require Import all_ssreflect all_algebra.
From Verif Require Import PyExn LinAlgModel LinAlgSpec LinAlgProofs FDProofs LoopProofs KalmanLoopProofs ChordModel ChordSpec ChordProofs LinAlgProps ChordProps LimitedModel LimitedSpec LimitedProofs LimitedProps DampedProofs FieldTac.
From Coq Require Import Ring Field.
Set Implicit Arguments. Unset Strict Implicit. Unset Printing Implicit Defensive.
Import Order.TTheory GRing.Theory Num.Theory.
Local Open Scope ring_scope.

(** A limit that leaves the steps of the finite differences whole: the distance
    from the target shrinks in every round by the factor [rho] at least, up to
    the noise; [c0] is the part of the first Newton step that the limit allows.
    Every parameter is measured as close to its target as that. *)
Theorem limited_converges_with_noise :
  forall (F : realFieldType) n k (ortho : seq 'rV[F]_n -> res 'rV[F]_n) (norm : 'rV[F]_n -> F) (int_of : F -> nat)
         (f w : nat -> 'rV[F]_n -> 'rV[F]_k) (h : 'rV[F]_n -> 'rV[F]_k) (A : 'M[F]_(k, n))
         (p0 : 'rV[F]_n) (eps : 'I_k -> 'rV[F]_n) (desired vals0 : 'rV[F]_k)
         (a e l0 l1 kappa tau ep s0 R m c0 : F) j,
  let q := (ep + kappa) / (a - ep) in
  let b := (1 + q) * tau / (1 - q) in
  let rho := 1 - c0 * (1 - q) in
  chooses_orthogonal ortho -> is_norm norm -> is_int int_of -> lengths ortho l0 l1 -> 0 < l0 -> 0 <= l1 ->
  (0 < k)%N -> 0 < e -> (forall i, nat_of_ord i = 0%N -> eps i = const_mx e) ->
  0 <= kappa -> 0 <= tau -> 0 <= ep -> 0 <= s0 ->
  steep A a -> nearly_affine h A kappa p0 R ->
  (forall t x, near p0 R x -> sqn (f t x - h x) <= tau ^+ 2) ->
  n%:R * (kappa + 2%:R * tau / (e * l0)) ^+ 2 <= ep ^+ 2 -> 2%:R * ep + kappa < a ->
  (forall x, near p0 (e * l1) x -> sqn (desired - h x) <= s0 ^+ 2) ->
  e * l1 + (2%:R * s0 + b) / (a - 2%:R * ep - kappa) + (s0 + b + tau) / (a - ep) <= R ->
  0 < m -> 2%:R * (e * l1) <= m -> 0 < c0 <= 1 -> c0 * (s0 + b + tau) <= m * (a - ep) ->
  exists s, [/\ lt_rounds ortho norm int_of (Some m) 1 f w (n + j) (starting desired p0 eps vals0) = Ok s,
    sqn (desired - h (lt_volt s)) <= (rho ^+ j * s0 + b) ^+ 2, near p0 R (lt_volt s), 0 <= rho < 1 &
    forall t i, `|f t (lt_volt s) 0 i - desired 0 i| <= rho ^+ j * s0 + b + tau].
Proof.
move=> F n k ortho norm int_of f w h A p0 eps des vals0 a e l0 l1 ka ta ep s0 R m c0 j q b rho Ho Hn Hi Hl Hl0 Hl1 Hk He Heps Hka Hta Hep0 Hs0 Hst Haff Hno.
have E2 x : 2%:R * x = x + x :> F by rewrite mulr_natl mulr2n.
have E3 : a - (ep + ep) - ka = a - ep - ep - ka by rewrite opprD addrA.
rewrite !E2 E3 => Hep Ha Hs HR Hm Hw /andP [Hc0 Hc1] Hc.
have [st [v [H1 H2 H3]]] := @damped_converges F n k ortho Ho norm int_of m Hn Hi Hm f w p0 eps des Hk h A a e l0 l1 ka ta ep s0 R c0 He (Heps (Ordinal Hk) erefl) Hl0 Hl1 Hl Hst Hka Hta Hep0 Hs0 Haff Hno Hep Ha Hs HR Hw Hc0 Hc1 Hc vals0 j.
have R0 : 0 <= rho := rho_ge0 Hka Hep0 Ha Hc0 Hc1.
have B0 : 0 <= b := b_ge0 Hka Hta Hep0 Ha.
exists (mk_ltuner st v (n + j) 0); split=> //.
  by rewrite R0; exact: (rho_lt1 Hka Hep0 Ha Hc0).
move=> t i /=; have H0 : 0 <= rho ^+ j * s0 + b by rewrite addr_ge0 // mulr_ge0 // exprn_ge0.
have H : sqn (f t v - des) <= (ta + (rho ^+ j * s0 + b)) ^+ 2.
  have -> : f t v - des = (f t v - h v) - (des - h v) by rewrite opprB addrA subrK.
  by apply: sub1 => //; exact: Hno.
have Hr0 : 0 <= rho ^+ j * s0 + b + ta by rewrite addr_ge0.
rewrite -(@ler_pexpn2r _ 2) ?nnegrE ?normr_ge0 // real_normK ?num_real //.
rewrite [_ + ta]addrC; apply: le_trans H; rewrite /sqn big_ord1 (bigD1 i) //= !mxE ler_addl.
by apply: sumr_ge0 => l _; exact: sqr_ge0.
Qed.
Print Assumptions limited_converges_with_noise.

(** One gate, a kink and noise of alternating sign; the target 10 is five
    limits away. *)
Definition kink1 (p : 'rV[rat]_1) : 'rV[rat]_1 := const_mx (p 0 0 + `|p 0 0| / 8%:R).
Definition kinked1 (t : nat) (p : 'rV[rat]_1) : 'rV[rat]_1 := kink1 p + const_mx ((-1) ^+ t / 64%:R).
Lemma sqn1 (v : 'rV[rat]_1) : sqn v = `|v 0 0| ^+ 2.
Proof. by rewrite /sqn !big_ord1 real_normK ?num_real. Qed.
Lemma unit_lengths : lengths (@unit_choice rat_realFieldType) 1 1.
Proof. by move=> vs ov; rewrite /unit_choice; case: ifP => // _ [<-]; rewrite sqn1 mxE normr1 lexx. Qed.
Lemma kink1_noise t x : sqn (kinked1 t x - kink1 x) <= (1 / 64%:R) ^+ 2.
Proof.
rewrite /kinked1 addrC addKr sqn1 mxE normrM exprMn normrX normrN1 expr1n expr1n mul1r.
by vm_compute.
Qed.
Lemma kink1_affine R : nearly_affine kink1 1%:M (1 / 8%:R) 0 R.
Proof.
move=> x y _ _; rewrite trmx1 mulmx1 !sqn1 !mxE rearrange -mulrBl normrM exprMn.
have E8 : `|8%:R^-1 : rat| = 1 / 8%:R by apply/eqP; vm_compute.
rewrite E8 [_ ^+ 2 * (1 / _) ^+ 2]mulrC; apply: ler_wpmul2l; first exact: sqr_ge0.
by apply: ler_expn2r; rewrite ?nnegrE ?normr_ge0 ?ler_dist_dist.
Qed.
Lemma kink1_start x : near 0 (1 * 1) x -> sqn (const_mx 10%:R - kink1 x) <= 12%:R ^+ 2.
Proof.
rewrite /near subr0 mul1r expr1n => Hx.
apply: (le_trans (y := (10%:R + (1 + 1)) ^+ 2)); last by vm_compute.
have Hx1 : `|x 0 0| ^+ 2 <= 1 by rewrite -sqn1.
apply: sub1; [by vm_compute | by vm_compute | by rewrite sqn1 !mxE; vm_compute |].
have -> : kink1 x = x + const_mx (`|x 0 0| / 8%:R) by apply/rowP => i; rewrite !mxE !ord1.
apply: add1; rewrite ?ler01 // ?expr1n // sqn1 mxE normrM normr_id exprMn.
by apply: (le_trans (ler_wpmul2r (sqr_ge0 _) Hx1)); vm_compute.
Qed.
Example case_limited_kink : forall j, exists s : ltuner rat_realFieldType 1 1,
  lt_rounds (@unit_choice rat_realFieldType) abs1 int_rat (Some 2%:R) 1 kinked1 (fun _ _ => 0) (1 + j)
    (starting (const_mx 10%:R) 0 (fun _ => const_mx 1) 0) = Ok s /\
  forall t i, `|kinked1 t (lt_volt s) 0 i - (const_mx 10%:R : 'rV_1) 0 i| <= (19%:R / 20%:R) ^+ j * 12%:R + 3%:R / 64%:R + 1 / 64%:R.
Proof.
move=> j.
have := @limited_converges_with_noise rat_realFieldType 1 1 (@unit_choice rat_realFieldType) abs1 int_rat kinked1 (fun _ _ => 0) kink1 1%:M 0 (fun _ => const_mx 1) (const_mx 10%:R) 0
  1 1 1 1 (1 / 8%:R) (1 / 64%:R) (1 / 4%:R) 12%:R 100%:R 2%:R (1 / 10%:R) j; cbv zeta.
have -> : (1 / 4%:R + 1 / 8%:R) / (1 - 1 / 4%:R) = 1 / 2%:R :> rat by apply/eqP; vm_compute.
have -> : (1 + 1 / 2%:R) * (1 / 64%:R) / (1 - 1 / 2%:R) = 3%:R / 64%:R :> rat by apply/eqP; vm_compute.
have -> : 1 - 1 / 10%:R * (1 - 1 / 2%:R) = 19%:R / 20%:R :> rat by apply/eqP; vm_compute.
move=> H; have [||||||||||||||||||||||||s [H1 _ _ _ H2]] := H; last by exists s.
- exact: unit_chooses.
- exact: abs1_norm.
- exact: int_rat_is.
- exact: unit_lengths.
- exact: ltr01.
- exact: ler01.
- by [].
- exact: ltr01.
- by [].
- by vm_compute.
- by vm_compute.
- by vm_compute.
- by vm_compute.
- by move=> y; rewrite expr1n mul1r mulmx1.
- exact: kink1_affine.
- by move=> t x _; exact: kink1_noise.
- by vm_compute.
- by vm_compute.
- exact: kink1_start.
- by vm_compute.
- by vm_compute.
- by vm_compute.
- by vm_compute.
- by vm_compute.
Qed.

(** The limit can help: where unlimited steps alternate between 7 and 17 for
    ever, steps of at most 2 go through 7, 9 and 11 to 13 and stay there. *)
Theorem limited_cures_cycle :
  forall (F : realFieldType) (norm : 'rV[F]_1 -> F) (int_of : F -> nat) (w : nat -> 'rV[F]_1 -> 'rV[F]_1) vals0 j,
  is_norm norm -> is_int int_of ->
  exists s, lt_rounds (@unit_choice F) norm int_of (Some 2%:R) 1 (fun _ => @square F) w j
      (starting (const_mx 169%:R) (const_mx 5%:R) (fun _ => const_mx 2%:R) vals0) = Ok s /\
    lt_volt s = const_mx (minn (5 + 2 * j) 13)%:R /\ lt_evals s = j.
Proof.
move=> F norm int_of w vals0 j Hno Hi.
have H2 : 0 < 2%:R :> F by rewrite ltr0n.
set p0 : 'rV[F]_1 := const_mx 5%:R; set eps := fun _ : 'I_1 => (const_mx 2%:R : 'rV[F]_1); set des : 'rV[F]_1 := const_mx 169%:R.
set sq := fun _ : nat => @square F.
have He : forall l, 0 < eps (Ordinal (isT : 0 < 1)%N) 0 l by move=> l; rewrite mxE.
have Hlim : is_true (if Some (2%:R : F) is Some m then 0 < m else true) by [].
have [ds [J [Hs Hin Hc Hb Ha]]] := rounds_all (limit := Some 2%:R) Hno Hi Hlim sq w (@unit_chooses F) p0 des vals0 (isT : 0 < 1)%N He.
(* the first step *)
have H7 : nth 0 (pts p0 ds) 1 = const_mx 7%:R.
  have [|st [Hu Hd Hp Hv Hes]] := @update_all' F 1 1 sq w 0 p0 (begin p0 eps des vals0).
    by move=> i; have [e' [He' _]] := waiting_first sq w p0 eps (isT : 0 < 1)%N i; exists e'.
  have Hinv : loop_inv' sq w p0 eps des [::] st.
    by split=> // i; rewrite Hes; have [e' [He' Hwt]] := waiting_first sq w p0 eps (isT : 0 < 1)%N i; rewrite -[mn_ests (begin _ _ _ _) i]/(fresh p0 (eps i) false) He'.
  have [d [Hsg [ov [vs [Ed Hov _ _]]]]] := suggest_made (@unit_chooses F) (isT : 0 < 1)%N (isT : 0 < 1)%N Hinv isT (@indep_nil F 1).
  have E2 : d = const_mx 2%:R.
    move: Hov; rewrite Ed /unit_choice; case: ifP => // _ [<-].
    by apply/rowP => i; rewrite !mxE mul1r.
  have [v' [Hr Ht]] := round_made (limit := Some 2%:R) Hno Hi Hlim Hu Hsg.
  have [st' Hst'] := Hb 1%N isT.
  have : lt_rounds (@unit_choice F) norm int_of (Some 2%:R) 1 sq w 1 (starting des p0 eps vals0) = Ok (mk_ltuner st v' 1 0) by exact: Hr.
  rewrite Hst' => /(congr1 (fun r => if r is Ok s then lt_volt s else 0)) Ev; rewrite [LHS]Ev.
  case: Ht => c [_ -> ]; have -> : p0 + d - p0 = const_mx 2%:R by rewrite addrC addKr E2.
  rewrite /sqn !big_ord1 mxE ltxx => ->; by apply/rowP => i; rewrite !mxE mul1r -natrD.
have H0 : nth 0 (pts p0 ds) 0 = p0 by [].
have HJ : J 0 0 = 12%:R.
  have := Hc 1%N 0%N; rewrite size_pts Hs H7 H0 => /(_ isT isT) /matrixP /(_ 0 0); rewrite !mxE big_ord1 !mxE -natrB // -!natrX -natrB //.
  move/eqP; rewrite -[(_ ^ 2 - _)%N]/(2 * 12)%N natrM (inj_eq (mulfI _)) ?pnatr_eq0 // => /eqP; exact.
have Hfree : row_free J.
  rewrite -kermx_eq0; apply/eqP/row_matrixP => i; rewrite row0; set v := row i _.
  have Hv : v *m J = 0 by apply/eqP; rewrite -sub_kermx row_sub.
  have := congr1 (fun M : 'rV_1 => M 0 0) Hv; rewrite !mxE big_ord1 HJ => /eqP; rewrite mulf_eq0 pnatr_eq0 orbF => /eqP Hz.
  by apply/rowP => l; rewrite ord1 Hz mxE.
have step t (x : nat) (v' : 'rV[F]_1) : (x <= 13)%N -> towards (Some 2%:R) (const_mx x%:R) (newton sq des J t (const_mx x%:R)) v' ->
    if (24 < 169 - x ^ 2)%N then v' = const_mx (x + 2)%:R else (x = 13%N -> v' = const_mx 13%:R).
  move=> Hx; rewrite /newton; set u := lstsq J _.
  have Hu : J *m u = (des - @square F (const_mx x%:R))^T by exact: lstsq_exact.
  clearbody u.
  have := congr1 (fun M : 'cV_1 => M 0 0) Hu; rewrite mxE big_ord1 HJ !mxE -natrX -natrB; last by rewrite -[169%N]/(13 ^ 2)%N leq_exp2r.
  move=> Hu0 [c [/andP [Hc0 _] -> ]]; rewrite ![const_mx _ + _]addrC !addrK.
  have Esq (y : F) : sqn (y *: u^T) = (y * u 0 0) ^+ 2 by rewrite /sqn !big_ord1 !mxE.
  rewrite Esq -[u^T]scale1r Esq mul1r scale1r.
  case: (ltnP 24 (169 - x ^ 2)) => Hlt.
  - have Hub : 2%:R < u 0 0.
      rewrite -(@ltr_pmul2l _ 12%:R) ?ltr0n // Hu0 -natrM ltr_nat; exact: Hlt.
    have Hu1 : 0 < u 0 0 by exact: lt_trans Hub.
    rewrite ltr_pexpn2r ?nnegrE ?ler0n ?(ltW Hu1) // Hub => E.
    have Ec : c * u 0 0 = 2%:R.
      apply/eqP; rewrite -(@eqr_expn2 _ 2) ?ler0n ?mulr_ge0 ?ltW //; exact/eqP.
    by apply/rowP => i; rewrite !mxE !ord1 Ec natrD addrC.
  - move=> E Ex; have Ez : u 0 0 = 0.
      by move: Hu0; rewrite Ex subnn => /eqP; rewrite mulf_eq0 pnatr_eq0 => /eqP.
    by apply/rowP => i; rewrite !mxE !ord1 Ez mulr0 add0r Ex.
case: j => [|j]; first by exists (starting des p0 eps vals0).
have Hv i : exists st, lt_rounds (@unit_choice F) norm int_of (Some 2%:R) 1 sq w (1 + i) (starting des p0 eps vals0) = Ok (mk_ltuner st (const_mx (minn (7 + 2 * i) 13)%:R) (1 + i) 0).
  elim: i => [|i [st Hst]]; first by have [st Hst] := Hb 1%N isT; exists st; rewrite H7 in Hst.
  have [st1 [v [v' [R1 [st2 [R2 _]] T]]]] := Ha i.
  move: R1; rewrite Hst => -[_ Ev]; exists st2; rewrite -Ev in T.
  have -> : (1 + i.+1)%N = (1 + i).+1 by [].
  rewrite R2; congr (Ok (mk_ltuner _ _ _ _)).
  have := step _ _ _ (geq_minr _ _) T; case: i {Hst Ev R2} T => [|[|[|i]]] T //=.
  have -> : minn (7 + 2 * i.+3) 13 = 13%N by apply/minn_idPr; rewrite !mulnS !addnA; exact: leq_addr.
  have -> : minn (7 + 2 * i.+4) 13 = 13%N by apply/minn_idPr; rewrite !mulnS !addnA; exact: leq_addr.
  by move=> /(_ erefl).
have [st Hst] := Hv j; exists (mk_ltuner st (const_mx (minn (7 + 2 * j) 13)%:R) (1 + j) 0); split=> //=.
by rewrite mulnS addnA.
Qed.
Print Assumptions limited_cures_cycle.
