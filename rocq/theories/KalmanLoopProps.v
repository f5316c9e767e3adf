(** Property C128: Newton's method with Kalman estimators on affine devices. *)
From mathcomp Require Import all_ssreflect all_algebra.
From Verif Require Import PyExn LinAlgModel LinAlgSpec LinAlgProofs FDProofs LoopProofs KalmanModel KalmanSpec KalmanProofs KalmanHistory KalmanProps KalmanLoopModel KalmanLoopSpec KalmanLoopProofs.
Set Implicit Arguments. Unset Strict Implicit. Unset Printing Implicit Defensive.
Import Order.TTheory GRing.Theory Num.Theory.
Local Open Scope ring_scope.

(** ** Values are exact but reported with positive variances *)
(** No round raises, and each new voltages are a request of an estimator or
    reduce the squared distance to the target by a fixed factor. *)
Theorem kalman_newton_contracts :
  forall (F : realFieldType) n k (A : 'M[F]_(k, n)) (c des : 'rV[F]_k) (w : 'rV[F]_n -> 'rV[F]_k) request (a2 : F) (st0 : mkn F n k) v0,
  let f := affines A c in
  let e2 := sqn (kn_jacobian (kn_ests st0) - A) in
  let q := 2%:R * e2 / (a2 - 2%:R * e2) in
  (forall p i, 0 < w p 0 i) -> bounded_below A a2 -> 4%:R * e2 < a2 -> kn_desired st0 = des ->
  (forall i, isotropic (kn_ests st0 i) /\ remembers (fun p => f p 0 i) (kn_ests st0 i)) ->
  0 <= q < 1 /\
  forall N, exists st v st' v', kn_rounds request f w N (st0, v0) = Ok (st, v) /\ kn_rounds request f w N.+1 (st0, v0) = Ok (st', v') /\
    ((exists i, request i (kn_ests st' i) = Some v') \/ sqn (des - f v') <= q * sqn (des - f v)).
Proof.
move=> F n k A c des w request a2 st0 v0 f e2 q Hw HA He Hd H0; split; first by apply: rate_lt1 => //; exact: sqn_ge0.
pose e (i : 'I_k) := sqn (grad (mk_kf (kn_ests st0 i)) - row i A).
have Esum : \sum_i e i = e2.
  rewrite /e2 sqn_rows; apply: eq_bigr => i _; congr sqn; by apply/rowP => j; rewrite !mxE.
have Hinv0 : kn_inv A c des e st0.
  by split=> // i; have [H1 H2] := H0 i; split=> //; exact: tracks_start.
have Hall N : exists st v, kn_rounds request f w N (st0, v0) = Ok (st, v) /\ kn_inv A c des e st.
  elim: N => [|N [st [v [E Hi]]]]; first by exists st0, v0.
  have [st' [Hu [Hi' _]]] := kn_step Hw v Hi.
  by exists st', (kn_suggest request st'); rewrite /= E /kn_round /= Hu.
move=> N; have [st [v [E Hi]]] := Hall N.
have [st' [Hu [Hi' [Hp Hv]]]] := kn_step Hw v Hi.
exists st, v, st', (kn_suggest request st'); split=> //; split; first by rewrite /= E /kn_round /= Hu.
by rewrite -Hp; apply: (kn_suggests request HA He Hi' Esum); rewrite Hv Hp.
Qed.
Print Assumptions kalman_newton_contracts.

(** Without requests: geometric convergence from every starting point. *)
Theorem kalman_newton_converges :
  forall (F : realFieldType) n k (A : 'M[F]_(k, n)) (c des : 'rV[F]_k) (w : 'rV[F]_n -> 'rV[F]_k) (a2 : F) (st0 : mkn F n k) v0,
  let f := affines A c in
  let e2 := sqn (kn_jacobian (kn_ests st0) - A) in
  let q := 2%:R * e2 / (a2 - 2%:R * e2) in
  (forall p i, 0 < w p 0 i) -> bounded_below A a2 -> 4%:R * e2 < a2 -> kn_desired st0 = des ->
  (forall i, isotropic (kn_ests st0 i) /\ remembers (fun p => f p 0 i) (kn_ests st0 i)) ->
  forall N, exists st v, kn_rounds (fun _ _ => None) f w N (st0, v0) = Ok (st, v) /\ sqn (des - f v) <= q ^+ N * sqn (des - f v0).
Proof.
move=> F n k A c des w a2 st0 v0 f e2 q Hw HA He Hd H0.
have [/andP [Hq _] Hr] := @kalman_newton_contracts F n k A c des w (fun _ _ => None) a2 st0 v0 Hw HA He Hd H0.
elim=> [|N [st [v [E Hs]]]]; first by exists st0, v0; rewrite expr0 mul1r.
have [st1 [v1 [st' [v' [E1 [E' Hor]]]]]] := Hr N; rewrite E in E1; case: E1 => _ Ev; subst v1.
exists st', v'; split=> //; case: Hor => [[i]|Hc]; first by [].
by apply: (le_trans Hc); rewrite exprS -[X in _ <= X]mulrA; apply: (@ler_wpmul2l F q Hq).
Qed.
Print Assumptions kalman_newton_converges.

(** One gate, one parameter of slope 2, first estimate 3/2: the squared distance
    shrinks to a seventh or less in each round. *)
Definition one (x : rat) : 'M[rat_realFieldType]_1 := x%:M.
Definition one_start (x p : rat) : mkn rat_realFieldType 1 1 :=
  mk_mkn (one 1) (fun _ => mk_mkal (mk_filter (const_mx x) p%:M 1%:M 0 1%:M 1) 0 None) 0 0.
Lemma one_jacobian x p : kn_jacobian (kn_ests (one_start x p)) = one x.
Proof. by apply/matrixP => i j; rewrite !ord1 !mxE mulr1n. Qed.
Lemma sqn_one x : sqn (one x) = x ^+ 2.
Proof. by rewrite /sqn !big_ord1 mxE mulr1n. Qed.
Example converges_ex : forall N, exists st v,
  kn_rounds (fun _ _ => None) (affines (one 2%:R) 0) (fun _ => one 1) N (one_start (3%:R / 2%:R) 1, 0) = Ok (st, v) /\
  sqn (one 1 - affines (one 2%:R) 0 v) <= (7%:R^-1) ^+ N * sqn (one 1 - affines (one 2%:R) 0 0).
Proof.
have E : sqn (kn_jacobian (kn_ests (one_start (3%:R / 2%:R) 1)) - one 2%:R) = 4%:R^-1.
  by rewrite one_jacobian -[_ - _]/(_%:M - _%:M) -raddfB /= sqn_one.
move=> N.
have [] := @kalman_newton_converges rat_realFieldType 1 1 (one 2%:R) 0 (one 1) (fun _ => one 1) 4%:R (one_start (3%:R / 2%:R) 1) 0 _ _ _ _ _ N.
- by move=> p i; rewrite ord1 mxE.
- by move=> y; rewrite mul_mx_scalar sqnZ.
- by rewrite E.
- by [].
- by move=> i; split=> //; split=> //; exists 1.
move=> st [v [H1 H2]]; exists st, v; split=> //; apply: (le_trans H2); rewrite E.
have -> : 2%:R * 4%:R^-1 / (4%:R - 2%:R * 4%:R^-1) = 7%:R^-1 :> rat_realFieldType by apply/eqP; vm_compute.
exact: lexx.
Qed.

(** ** Values reported as exact *)
(** As long as no round raises, the steps are linearly independent; the gradients
    are right along all of them.  The next measurement raises LinAlgError exactly
    if its step is a combination of the former ones, which is the case at the
    latest after as many steps as there are gates. *)
Theorem kalman_exact_rounds :
  forall (F : realFieldType) n k (A : 'M[F]_(k, n)) (c : 'rV[F]_k) (w : 'rV[F]_n -> 'rV[F]_k) request (st0 st : mkn F n k) v0 v N,
  let f := affines A c in
  (0 < k)%N -> (forall p, w p = 0) -> (forall i, untold (kn_ests st0 i)) -> long_steps request f w (st0, v0) N.+1 ->
  kn_rounds request f w N.+1 (st0, v0) = Ok (st, v) ->
  (N <= n)%N /\ (N = n -> kn_jacobian (kn_ests st) = A) /\
  exists ds, size ds = N /\ indep ds /\ (forall d, d \in ds -> kn_jacobian (kn_ests st) *m d^T = A *m d^T) /\
    (spanned ds (v - kn_pos st) -> kn_rounds request f w N.+2 (st0, v0) = Raise LinAlgError) /\
    (~ spanned ds (v - kn_pos st) -> exists s, kn_rounds request f w N.+2 (st0, v0) = Ok s) /\
    (N = n -> spanned ds (v - kn_pos st)).
Proof.
move=> F n k A c w request st0 st v0 v N f Hk Hw Hu Hl E.
have [|ds [Hs Hi Hv Hd Hsug]] := exact_run Hw Hk Hu _ E; first by move=> j st' v' Hj; apply: Hl; exact: leqW.
have Hlong := Hl N st v (leqnn _) E; have [H1 H2] := exact_step Hw Hk Hi Hlong.
have Hind : indep ds by have [[]] := Hi (Ordinal Hk).
have Hjac d : spanned ds d -> kn_jacobian (kn_ests st) *m d^T = A *m d^T.
  move=> Hd'; apply/row_matrixP => i; rewrite !row_mul; have [[_ _ _ _ Hg] _ _] := Hi i; rewrite -(Hg _ Hd'); congr (_ *m _).
  by apply/rowP => j; rewrite !mxE.
have E2 : kn_rounds request f w N.+2 (st0, v0) = kn_round request f w (st, v).
  by change (kn_rounds request f w N.+2 (st0, v0)) with (match kn_rounds request f w N.+1 (st0, v0) with Ok s' => kn_round request f w s' | Raise e => Raise e end); rewrite E.
split; first by rewrite -Hs; exact: indep_size.
split.
  move=> HN; apply/row_matrixP => i; apply/rowP => j.
  have /(congr1 (fun M : 'cV[F]_k => M i 0)) := Hjac (delta_mx 0 j) (full_span _ Hind (etrans Hs HN)).
  by rewrite trmx_delta -!colE !mxE.
exists ds; split=> //; split=> //; split; first by move=> d Hd'; apply: Hjac; exact: spanned_mem.
rewrite E2 /kn_round /=; split; [|split].
- by move=> Hsp; rewrite (H1 Hsp).
- by move=> Hsp; have [st' [-> _ _ _ _]] := H2 Hsp; eexists.
- by move=> HN; apply: full_span => //; rewrite Hs.
Qed.
Print Assumptions kalman_exact_rounds.

(** So no run survives: with steps that are not skipped one of the first
    [n + 2] measurements raises LinAlgError. *)
Theorem kalman_exact_refuted :
  forall (F : realFieldType) n k (A : 'M[F]_(k, n)) (c : 'rV[F]_k) (w : 'rV[F]_n -> 'rV[F]_k) request (st0 : mkn F n k) v0,
  let f := affines A c in
  (0 < k)%N -> (forall p, w p = 0) -> (forall i, untold (kn_ests st0 i)) -> long_steps request f w (st0, v0) n.+1 ->
  exists N, (N <= n)%N /\ kn_rounds request f w N.+2 (st0, v0) = Raise LinAlgError.
Proof.
move=> F n k A c w request st0 v0 f Hk Hw Hu Hl.
have Hstep N : (N <= n)%N -> (exists s, kn_rounds request f w N.+1 (st0, v0) = Ok s) ->
    kn_rounds request f w N.+2 (st0, v0) = Raise LinAlgError \/ (exists s, kn_rounds request f w N.+2 (st0, v0) = Ok s) /\ N <> n.
  move=> HN [[st v] E].
  have Hl' : long_steps request f w (st0, v0) N.+1 by move=> j st' v' Hj; apply: Hl; apply: (leq_trans Hj); rewrite ltnS.
  have [_ [_ [ds [Hs [Hi [_ [H1 [H2 H3]]]]]]]] := kalman_exact_rounds Hk Hw Hu Hl' E.
  have [|ds' [Hs' Hinv _ _ _]] := exact_run Hw Hk Hu _ E; first by move=> j st' v' Hj; apply: Hl'; exact: leqW.
  case E2: (kn_rounds request f w N.+2 (st0, v0)) => [s|e].
  - by right; split; [exists s | move=> HNn; have := H1 (H3 HNn); rewrite E2].
  - left; have [_ [_ [ds2 [_ [_ [_ [K1 [K2 _]]]]]]]] := kalman_exact_rounds Hk Hw Hu Hl' E.
    have Hlong := Hl' N st v (leqnn _) E; have [G1 G2] := exact_step Hw Hk Hinv Hlong.
    move: E2; change (kn_rounds request f w N.+2 (st0, v0)) with (match kn_rounds request f w N.+1 (st0, v0) with Ok s' => kn_round request f w s' | Raise e => Raise e end).
    rewrite E /kn_round /=.
    have [Hz|Hz] := boolP (mxvec (v - kn_pos st) *m kf_P (mk_kf (kn_ests st (Ordinal Hk))) == 0).
    + have Hsp : spanned ds' (v - kn_pos st) by have [[_ _ _ HK _] _ _] := Hinv (Ordinal Hk); apply/HK; exact/eqP.
      by rewrite (G1 Hsp) => -[<-].
    + have [|st' [-> _ _ _ _]] := G2 _ => //.
      by have [[_ _ _ HK _] _ _] := Hinv (Ordinal Hk) => /HK H; rewrite H eqxx in Hz.
have H0 : exists s, kn_rounds request f w 1 (st0, v0) = Ok s.
  by rewrite /= /kn_round /=; have [st' [-> _ _ _ _]] := exact_first A c w v0 Hu; eexists.
have Hall m : (m <= n)%N -> (exists N, (N <= n)%N /\ kn_rounds request f w N.+2 (st0, v0) = Raise LinAlgError) \/ exists s, kn_rounds request f w m.+1 (st0, v0) = Ok s.
  elim: m => [|m IH] Hm; first by right.
  case: (IH (ltnW Hm)) => [|Hs]; first by left.
  case: (Hstep m (ltnW Hm) Hs) => [Hr|[Hs' _]]; [by left; exists m; rewrite (ltnW Hm) | by right].
case: (Hall n (leqnn n)) => // Hs.
by case: (Hstep n (leqnn n) Hs) => [Hr|[_]]; [exists n | ].
Qed.
Print Assumptions kalman_exact_refuted.

(** The failing measurement is at the target, if its voltages are a Newton step
    and the gradients are independent: the tuner fails where it should end. *)
Theorem kalman_exact_target :
  forall (F : realFieldType) n k (A : 'M[F]_(k, n)) (c : 'rV[F]_k) (w : 'rV[F]_n -> 'rV[F]_k) request (st0 st : mkn F n k) v0 v N,
  let f := affines A c in
  (0 < k)%N -> (forall p, w p = 0) -> (forall i, untold (kn_ests st0 i)) -> long_steps request f w (st0, v0) N.+1 ->
  kn_rounds request f w N.+1 (st0, v0) = Ok (st, v) -> kn_rounds request f w N.+2 (st0, v0) = Raise LinAlgError ->
  (forall i, request i (kn_ests st i) = None) -> row_free (kn_jacobian (kn_ests st)) -> f v = kn_desired st0.
Proof.
move=> F n k A c w request st0 st v0 v N f Hk Hw Hu Hl E E2 Hr HJ.
have [|ds [Hs Hi Hv Hd Hsug]] := exact_run Hw Hk Hu _ E; first by move=> j st' v' Hj; apply: Hl; exact: leqW.
have Hlong := Hl N st v (leqnn _) E; have [H1 H2] := exact_step Hw Hk Hi Hlong.
rewrite -Hd Hsug; apply: (exact_dependent (A := A) (c := c) (ds := ds)) => //; rewrite -Hsug.
have [[_ _ _ HK _] _ _] := Hi (Ordinal Hk); apply/HK.
have [/eqP //|Hz] := boolP (mxvec (v - kn_pos st) *m kf_P (mk_kf (kn_ests st (Ordinal Hk))) == 0).
have [|st' [Eu _ _ _ _]] := H2 _; first by move=> /HK H; rewrite H eqxx in Hz.
by move: E2; change (kn_rounds request f w N.+2 (st0, v0)) with (match kn_rounds request f w N.+1 (st0, v0) with Ok s' => kn_round request f w s' | Raise e => Raise e end); rewrite E /kn_round /= Eu.
Qed.
Print Assumptions kalman_exact_target.

(** One gate, slope 2, first estimate 1, target 1: the gradient is exact after
    the second measurement, the third one is at the target and raises. *)
Definition quiet : 'rV[rat_realFieldType]_1 -> 'rV[rat_realFieldType]_1 := fun _ => 0.
Definition ask_none : 'I_1 -> mkal rat_realFieldType 1 -> option 'rV[rat_realFieldType]_1 := fun _ _ => None.
Lemma one_suggest (st : mkn rat_realFieldType 1 1) (j d p : rat) : kn_jacobian (kn_ests st) = one j -> j != 0 ->
  kn_desired st = one 1 -> kn_vals st = one d -> kn_pos st = one p -> kn_suggest ask_none st = one (p + (1 - d) / j).
Proof.
move=> HJ Hj Hd Hv Hp; rewrite /kn_suggest; have -> : pmap (fun i => ask_none i (kn_ests st i)) (enum 'I_1) = [::] by elim: (enum 'I_1).
have Hf : row_free (one j) by rewrite row_free_unit unitmxE det_scalar expr1 unitfE.
rewrite Hp Hd Hv HJ; set b := (_ - _)^T; have := lstsq_exact b Hf; rewrite /one mul_scalar_mx => E.
have -> : lstsq (one j) b = j^-1 *: b by rewrite -[X in _ = _ *: X]E scalerA mulVf // scale1r.
by apply/matrixP => a b'; rewrite /b !ord1 !mxE !mulr1n mulrC.
Qed.
Lemma one_sqnB x y : sqn (one x - one y) = (x - y) ^+ 2.
Proof. by rewrite -[one x - _]/(_%:M - _%:M) -raddfB /= sqn_one. Qed.
Lemma one_affine x : affines (one 2%:R) 0 (one x) = one (2%:R * x).
Proof. by apply/matrixP => i j; rewrite !ord1 /affines !mxE big_ord1 !mxE !mulr1n addr0. Qed.
Lemma one_zero : 0 = one 0.
Proof. by apply/matrixP => i j; rewrite !ord1 !mxE mul0rn. Qed.
Lemma one_untold i : untold (kn_ests (one_start 1 1) i).
Proof. by split=> //=; [exact: psd_scalar | rewrite unitmx1]. Qed.
Lemma shortest_le (F : realFieldType) (x : F) : 10%:R^-1 <= x -> shortest2 F <= x.
Proof.
move=> Hx; apply: le_trans Hx; rewrite /shortest2 -exprVn; apply: ler_iexpr => //; first by rewrite invr_ge0 ler0n.
by rewrite invf_le1 ?ltr0n // ler1n.
Qed.
Example exact_ex : exists st v,
  (kn_rounds ask_none (affines (one 2%:R) 0) quiet 2 (one_start 1 1, 0) = Ok (st, v)) /\ v = one (1 / 2%:R) /\
  (kn_rounds ask_none (affines (one 2%:R) 0) quiet 3 (one_start 1 1, 0) = Raise LinAlgError) /\
  affines (one 2%:R) 0 v = kn_desired (one_start 1 1).
Proof.
have Hw p : quiet p = 0 by [].
have Hk : (0 < 1)%N by [].
set f := affines _ _.
pose st1 : mkn rat_realFieldType 1 1 := mk_mkn (one 1) (fun i => mk_mkal (mk_kf (kn_ests (one_start 1 1) i)) 0 (Some (f 0 0 i))) 0 (f 0).
have U1 : kn_update 0 (f 0) (quiet 0) (one_start 1 1) = Ok st1 by rewrite /kn_update first_exn_ok.
have F0 : f 0 = one 0 by rewrite one_zero /f one_affine mulr0.
have S1 : kn_suggest ask_none st1 = one 1.
  have -> : 1 = 0 + (1 - 0) / 1 :> rat by [].
  by apply: one_suggest => //; [exact: one_jacobian | exact: one_zero].
have E1 : kn_rounds ask_none f quiet 1 (one_start 1 1, 0) = Ok (st1, one 1) by rewrite /= /kn_round /= U1 S1.
have L1 : long_steps ask_none f quiet (one_start 1 1, 0) 1.
  move=> [|j] st v Hj; last exact: (False_ind _ (notF Hj)).
  rewrite E1 => -[<- <-]; apply: (@shortest_le rat_realFieldType); rewrite /= one_zero one_sqnB; by vm_compute.
have [ds [Hs I1 V1 D1 _]] := exact_run Hw Hk one_untold (fun j st v (H : (j < 0)%N) => L1 j st v (ltnW H)) E1.
have Hlong : shortest2 rat_realFieldType <= sqn (one 1 - kn_pos st1) by apply: (@shortest_le rat_realFieldType); rewrite /= one_zero one_sqnB; vm_compute.
have [_ H2] := exact_step Hw Hk I1 Hlong.
have [|st2 [U2 I2 P2 V2 D2]] := H2 _.
  case=> cf; rewrite Hs big_ord0 /= subr0 => /matrixP /(_ 0 0); rewrite !mxE; by vm_compute.
clear Hlong H2; exists st2, (kn_suggest ask_none st2).
have E2 : kn_rounds ask_none f quiet 2 (one_start 1 1, 0) = Ok (st2, kn_suggest ask_none st2).
  change (match kn_rounds ask_none f quiet 1 (one_start 1 1, 0) with Ok s' => kn_round ask_none f quiet s' | Raise e => Raise e end = Ok (st2, kn_suggest ask_none st2)).
  by rewrite E1 /kn_round /= U2.
have [[_ _ Hind _ Hg] _ _] := I2 ord0.
have J2 : kn_jacobian (kn_ests st2) = one 2%:R.
  have Hsz : size (rcons ds (one 1 - kn_pos st1)) = 1%N by rewrite size_rcons Hs.
  have /(congr1 (fun M : 'M[rat_realFieldType]_1 => M 0 0)) := Hg (delta_mx 0 0) (full_span _ Hind Hsz).
  rewrite trmx_delta -!colE !mxE => Hg'.
  by apply/matrixP => i j; rewrite !ord1 !mxE.
have S2 : kn_suggest ask_none st2 = one (1 / 2%:R).
  have Eh : 1 + (1 - 2%:R) / 2%:R = 1 / 2%:R :> rat by apply/eqP; vm_compute.
  rewrite -Eh; apply: one_suggest; [exact: J2 | by [] | exact: D2 | | exact: P2].
  by rewrite V2 /f one_affine mulr1.
rewrite S2 in E2 *; split; first exact: E2. split; first by []. split; last by rewrite /f one_affine.
have L2 : long_steps ask_none f quiet (one_start 1 1, 0) 2.
  move=> [|[|j]] st v Hj; [exact: L1 | | exact: (False_ind _ (notF Hj))].
  rewrite E2 => -[<- <-]; apply: (@shortest_le rat_realFieldType); rewrite P2 one_sqnB; by vm_compute.
have [_ [_ [ds' [Hs' [Hi' [_ [K1 [_ K3]]]]]]]] := kalman_exact_rounds Hk Hw one_untold L2 E2.
by apply: K1; apply: K3.
Qed.
