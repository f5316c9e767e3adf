(** Convergence of Newton's method with Kalman estimators, and what exact
    measurements do to the filter. *)
From mathcomp Require Import all_ssreflect all_algebra.
From Verif Require Import PyExn LinAlgModel LinAlgSpec LinAlgProofs FDProofs LoopProofs KalmanModel KalmanSpec KalmanProofs KalmanHistory KalmanLoopModel KalmanLoopSpec.
Set Implicit Arguments. Unset Strict Implicit. Unset Printing Implicit Defensive.
Import Order.TTheory GRing.Theory Num.Theory.
Local Open Scope ring_scope.

Section Squares.
Variable F : realFieldType.

(** Cauchy-Schwarz for a positive semi-definite matrix. *)
Lemma psd_schwarz d (P : 'M[F]_d) (u v : 'rV[F]_d) : psd P ->
  ((u *m P *m v^T) 0 0) ^+ 2 <= (u *m P *m u^T) 0 0 * (v *m P *m v^T) 0 0.
Proof.
move=> HP; have [Hs Hp] := HP.
set a := (u *m P *m u^T) 0 0; set b := (u *m P *m v^T) 0 0; set c := (v *m P *m v^T) 0 0.
have Hvu : (v *m P *m u^T) 0 0 = b.
  have -> : v *m P *m u^T = (u *m P *m v^T)^T by rewrite trmx_mul trmxK trmx_mul Hs mulmxA.
  by rewrite mxE.
have Hq t : 0 <= a + t * b *+ 2 + t ^+ 2 * c.
  have := Hp (u + t *: v).
  have addE (M N : 'M[F]_1) : (M + N) 0 0 = M 0 0 + N 0 0 by rewrite mxE.
  have scaleE r (M : 'M[F]_1) : (r *: M) 0 0 = r * M 0 0 by rewrite mxE.
  rewrite (linearD (trmx_linear _ _ _)) /= linearZ /= !(mulmxDl, mulmxDr) -!(scalemxAl, scalemxAr) !addE !scaleE.
  by rewrite -/a -/b -/c Hvu mulr2n expr2 -!mulrA !addrA.
have [Hc|Hc] := eqVneq c 0.
  have Hb : b = 0.
    by have := psd_null HP Hc; move=> H; rewrite -Hvu H mul0mx mxE.
  by rewrite Hb Hc mulr0 expr0n.
have Hc0 : 0 < c by rewrite lt_neqAle eq_sym Hc; exact: Hp.
have := Hq (- b / c); rewrite -(pmulr_rge0 _ Hc0).
have -> : c * (a + - b / c * b *+ 2 + (- b / c) ^+ 2 * c) = a * c - b ^+ 2.
  rewrite [- b / c]mulNr; set t := b / c; have Ht : t * c = b by rewrite /t mulfVK.
  rewrite sqrrN; set w := - t * b *+ 2.
  have Hw : c * w = - (b ^+ 2 *+ 2) by rewrite /w mulrnAr mulNr mulrN mulNrn mulrA [c * t]mulrC Ht expr2.
  have Hd : c * (t ^+ 2 * c) = b ^+ 2 by rewrite mulrCA -expr2 -exprMn Ht.
  by rewrite mulrDr mulrDr Hw Hd mulr2n opprD -addrA subrK [c * a]mulrC.
by rewrite subr_ge0.
Qed.

Lemma sqn_tr m d (M : 'M[F]_(m, d)) : sqn M^T = sqn M.
Proof. by rewrite /sqn exchange_big /=; apply: eq_bigr => i _; apply: eq_bigr => j _; rewrite mxE. Qed.
Lemma sqn_rows m d (M : 'M[F]_(m, d)) : sqn M = \sum_i sqn (row i M).
Proof. by rewrite /sqn; apply: eq_bigr => i _; rewrite big_ord1; apply: eq_bigr => j _; rewrite mxE. Qed.
Lemma sqnN m d (M : 'M[F]_(m, d)) : sqn (- M) = sqn M.
Proof. by rewrite /sqn; apply: eq_bigr => i _; apply: eq_bigr => j _; rewrite mxE sqrrN. Qed.
Lemma sqnZ m d a (M : 'M[F]_(m, d)) : sqn (a *: M) = a ^+ 2 * sqn M.
Proof. by rewrite /sqn mulr_sumr; apply: eq_bigr => i _; rewrite mulr_sumr; apply: eq_bigr => j _; rewrite mxE exprMn. Qed.
Lemma dot_schwarz d (u v : 'rV[F]_d) : ((u *m v^T) 0 0) ^+ 2 <= sqn u * sqn v.
Proof.
have := @psd_schwarz d 1%:M u v; rewrite !mulmx1 -!sqn_row; apply.
by split; [rewrite trmx1 | move=> w; rewrite mulmx1 -sqn_row sqn_ge0].
Qed.
Lemma sqn_mul m d (M : 'M[F]_(m, d)) (s : 'cV[F]_d) : sqn (M *m s) <= sqn M * sqn s.
Proof.
rewrite sqn_rows [sqn M]sqn_rows mulr_suml; apply: ler_sum => i _.
have := dot_schwarz (row i M) s^T; rewrite trmxK sqn_tr; congr (_ <= _).
by rewrite row_mul /sqn big_ord1 big_ord1.
Qed.
Lemma sqn_mul_row m d (M : 'M[F]_(m, d)) (y : 'rV[F]_m) : sqn (y *m M) <= sqn M * sqn y.
Proof. by have := sqn_mul M^T y^T; rewrite -trmx_mul !sqn_tr. Qed.
Lemma sqn_add m d (M N : 'M[F]_(m, d)) : sqn (M + N) <= 2%:R * sqn M + 2%:R * sqn N.
Proof.
rewrite /sqn !mulr_sumr -big_split /=; apply: ler_sum => i _; rewrite !mulr_sumr -big_split /=; apply: ler_sum => j _.
rewrite mxE; set a := M i j; set b := N i j.
have -> : 2%:R * a ^+ 2 + 2%:R * b ^+ 2 = (a + b) ^+ 2 + (a - b) ^+ 2.
  rewrite sqrrD sqrrB; set w := a * b *+ 2.
  by rewrite [RHS]addrACA [X in _ = X + _]addrACA subrr addr0 !mulr_natl !mulr2n.
by rewrite ler_addl sqr_ge0.
Qed.

(** A covariance bounded by [p] shortens or stretches by [p] at most. *)
Lemma psd_stretch d (P : 'M[F]_d) p (e : 'cV[F]_d) : psd P -> (forall v : 'rV[F]_d, variance P v <= p * sqn v) -> sqn (P *m e) <= p ^+ 2 * sqn e.
Proof.
move=> HP Hb; have [Hs Hp] := HP.
set u := P *m e; have [Hu|Hu] := eqVneq (sqn u) 0; first by rewrite Hu mulr_ge0 ?sqr_ge0 ?sqn_ge0.
have Hu0 : 0 < sqn u by rewrite lt_neqAle eq_sym Hu sqn_ge0.
have Hpos : 0 <= p.
  have := le_trans (Hp u^T) (Hb u^T); rewrite sqn_tr => H; rewrite -(pmulr_lge0 _ Hu0); exact: H.
have E : (u^T *m P *m e^T^T) 0 0 = sqn u by rewrite trmxK -mulmxA -/u sqn_col.
have := psd_schwarz u^T e^T HP; rewrite E -/(variance P u^T) -/(variance P e^T) => H1.
have H2 : sqn u ^+ 2 <= p * sqn u * (p * sqn e).
  apply: (le_trans H1); apply: ler_pmul; [exact: Hp | exact: Hp | |].
  - by have := Hb u^T; rewrite sqn_tr.
  - by have := Hb e^T; rewrite sqn_tr.
rewrite -(ler_pmul2l Hu0) -expr2; apply: (le_trans H2); rewrite le_eqVlt; apply/orP; left; apply/eqP.
by rewrite expr2 [p * sqn u]mulrC -!mulrA.
Qed.
End Squares.

Section Error.
Variables (F : realFieldType) (n : nat).

Lemma sqn_vec (x : 'cV[F]_(1 * n)) : sqn (vec_mx x^T : 'M[F]_(1, n)) = sqn x.
Proof.
rewrite /sqn big_ord1 sum_mxvec big_ord1; apply: eq_bigr => j _.
by rewrite big_ord1 !mxE.
Qed.
Lemma grad_sub (kf : filter F (1 * n) 1) (g : 'rV[F]_n) : grad kf - g = vec_mx (kf_x kf - (mxvec g)^T)^T.
Proof. by rewrite /grad linearB /= linearB /= trmxK mxvecK. Qed.

(** What a filter with initial covariance [p] knows after exact values of a
    function with gradient [g] were given to it. *)
Definition tracks (g : 'rV[F]_n) (e0 : F) (kf : filter F (1 * n) 1) : Prop :=
  [/\ static kf, psd (kf_P kf), kf_P kf \in unitmx &
      exists p (x0 : 'cV[F]_(1 * n)), [/\ 0 < p, forall v, variance (kf_P kf) v <= p * sqn v,
        invmx (kf_P kf) *m (kf_x kf - (mxvec g)^T) = p^-1 *: x0 & sqn x0 = e0]].

Lemma tracks_error g e0 kf : tracks g e0 kf -> sqn (grad kf - g) <= e0.
Proof.
move=> [Hs HP Hu [p [x0 [Hp Hb Hx <-]]]]; rewrite grad_sub sqn_vec.
have -> : kf_x kf - (mxvec g)^T = kf_P kf *m (p^-1 *: x0) by rewrite -Hx mulmxA mulmxV // mul1mx.
apply: (le_trans (psd_stretch _ HP Hb)); rewrite sqnZ mulrA -exprMn mulfV ?gt_eqF // expr1n mul1r.
by [].
Qed.

Lemma psd_scalar d (p : F) : 0 <= p -> psd (p%:M : 'M[F]_d).
Proof.
move=> Hp; rewrite -scalemx1; apply: psd_scale => //.
by split; [rewrite trmx1 | move=> v; rewrite mulmx1 -sqn_row sqn_ge0].
Qed.
Lemma tracks_start g (e : mkal F n) : isotropic e -> tracks g (sqn (grad (mk_kf e) - g)) (mk_kf e).
Proof.
move=> [Hs [p [Hp HP]]]; split; rewrite ?HP //; [exact/psd_scalar/ltW| by rewrite -scalemx1 unitmxZ ?unitmx1 // unitfE gt_eqF |].
exists p, (kf_x (mk_kf e) - (mxvec g)^T); split=> //.
- by move=> v; rewrite /variance mul_mx_scalar -scalemxAl mxE -sqn_row.
- by rewrite invmx_scalar mul_scalar_mx.
- by rewrite grad_sub sqn_vec.
Qed.
Lemma tracks_update g e0 kf (d : 'rV[F]_n) (r : F) : tracks g e0 kf -> 0 < r ->
  let k' := kg_update d (g *m d^T) (Some r%:M) None true kf in k'.2 = Ok tt /\ tracks g e0 k'.1.
Proof.
move=> [Hs HP Hu [p [x0 [Hp Hb Hx He]]]] Hr k'.
pose c := mk_call d (g *m d^T) (Some r%:M) None true.
have HR : psd (used_R kf c) by exact/psd_scalar/ltW.
have HuR : used_R kf c \in unitmx by rewrite /used_R /= -scalemx1 unitmxZ ?unitmx1 // unitfE gt_eqF.
have HQ : c_Q c = None by [].
have [U I X] := call_information Hs HQ HP Hu HR HuR.
have Hok : k'.2 = Ok tt.
  rewrite /k' /kg_update predict_static // /correct.
  by rewrite psd_unit_add //; exact: psd_congr.
have E : k'.1 = run_call kf c by [].
split=> //; rewrite E; split=> //; [exact: static_keep | |].
  by rewrite static_call // /correct /=; case: ifP => //= _; apply: psd_add; apply: psd_congr.
exists p, x0; split=> //.
- by move=> v; apply: (le_trans (call_variance Hs HQ HP HR v)).
- rewrite mulmxBr X {}I mulmxDl -Hx mulmxBr /= opprD addrACA -[RHS]addr0; congr (_ + _).
  by rewrite -(mulmxA _ (create_H 1 d)) create_H_mul trmxK mxvecK subrr.
Qed.
End Error.

Section Converge.
Variables (F : realFieldType) (n k : nat).
Variables (A : 'M[F]_(k, n)) (c : 'rV[F]_k) (w : 'rV[F]_n -> 'rV[F]_k) (request : 'I_k -> mkal F n -> option 'rV[F]_n).
Variables (a2 e2 : F).
Hypothesis Hw : forall p i, 0 < w p 0 i.
Hypothesis HA : bounded_below A a2.
Hypothesis He : 4%:R * e2 < a2.
Let f := affines A c.

Lemma affines_diff (p q : 'rV[F]_n) : f p - f q = (A *m (p - q)^T)^T.
Proof. by rewrite /f /affines opprD addrACA subrr addr0 [in RHS]linearB /= mulmxBr linearB. Qed.

(** A Newton step with a Jacobian that is not too far off. *)
Lemma newton_contracts (J : 'M[F]_(k, n)) (d : 'rV[F]_k) : sqn (J - A) <= e2 ->
  sqn (d - (A *m lstsq J d^T)^T) <= (2%:R * e2 / (a2 - 2%:R * e2)) * sqn d.
Proof.
move=> HJ; set s := lstsq J d^T; have He0 : 0 <= e2 by apply: le_trans HJ; exact: sqn_ge0.
have Hpos : 0 < a2 - 2%:R * e2.
  rewrite subr_gt0; apply: le_lt_trans He; rewrite ler_wpmul2r // ler_nat //.
have Hlow (y : 'rV[F]_k) : (a2 - 2%:R * e2) * sqn y <= 2%:R * sqn (y *m J).
  rewrite mulrBl ler_subl_addr; apply: (le_trans (HA y)).
  have -> : y *m A = y *m J + (- (y *m (J - A))) by rewrite mulmxBr opprB addrC subrK.
  apply: (le_trans (sqn_add _ _)); rewrite sqnN ler_add2l -mulrA ler_pmul2l ?ltr0n //.
  by apply: (le_trans (sqn_mul_row _ _)); rewrite ler_wpmul2r ?sqn_ge0.
have Hfree : row_free J.
  rewrite -kermx_eq0; apply/eqP/row_matrixP => i; rewrite row0; set v := row i _.
  have Hv : v *m J = 0 by apply/eqP; rewrite -sub_kermx row_sub.
  apply/eqP; rewrite -sqn_eq0 eq_le sqn_ge0 andbT -(pmulr_rle0 _ Hpos); apply: (le_trans (Hlow v)).
  by rewrite Hv /sqn big1 ?mulr0 // => i' _; rewrite big1 // => j _; rewrite mxE expr0n.
have Hs : J *m s = d^T by exact: lstsq_exact.
have [y Hy] := lstsq_range J d^T; rewrite -/s in Hy.
have Hss : (a2 - 2%:R * e2) * sqn s <= 2%:R * sqn d.
  have [Hz|Hz] := eqVneq (sqn s) 0; first by rewrite Hz mulr0 mulr_ge0 ?sqn_ge0 ?ler0n.
  have Hz0 : 0 < sqn s by rewrite lt_neqAle eq_sym Hz sqn_ge0.
  have E : sqn s = (y^T *m d^T) 0 0 by rewrite -Hs mulmxA -[y^T *m J]trmxK trmx_mul trmxK -Hy sqn_col.
  have H1 : sqn s ^+ 2 <= sqn y * sqn d by rewrite E; have := dot_schwarz y^T d; rewrite sqn_tr.
  have H2 : (a2 - 2%:R * e2) * sqn y <= 2%:R * sqn s.
    have := Hlow y^T; rewrite sqn_tr; congr (_ <= _ * _).
    by rewrite -sqn_tr trmx_mul trmxK -Hy.
  rewrite -(ler_pmul2r Hz0) -mulrA -expr2.
  apply: (le_trans (ler_wpmul2l (ltW Hpos) H1)); rewrite mulrA.
  apply: (le_trans (ler_wpmul2r (sqn_ge0 d) H2)).
  by rewrite mulrAC.
have -> : d - (A *m s)^T = ((J - A) *m s)^T by rewrite mulmxBl Hs linearB /= trmxK.
rewrite sqn_tr; apply: (le_trans (sqn_mul _ _)); apply: (le_trans (ler_wpmul2r (sqn_ge0 _) HJ)).
set D := a2 - 2%:R * e2 in Hpos Hss *.
have -> : 2%:R * e2 / D * sqn d = e2 * (2%:R * sqn d / D).
  by rewrite [2%:R * e2]mulrC -!mulrA; congr (_ * (_ * _)); rewrite mulrC.
by rewrite ler_wpmul2l // ler_pdivl_mulr // mulrC.
Qed.
Lemma rate_lt1 : 0 <= e2 -> 0 <= 2%:R * e2 / (a2 - 2%:R * e2) < 1.
Proof.
move=> H0; have Hpos : 0 < a2 - 2%:R * e2.
  rewrite subr_gt0; apply: le_lt_trans He; rewrite ler_wpmul2r // ler_nat //.
rewrite divr_ge0 ?mulr_ge0 ?ler0n ?(ltW Hpos) //= ltr_pdivr_mulr // mul1r ltr_subr_addr -mulrDl -natrD.
exact: He.
Qed.

(** What is known of the solver all the time. *)
Definition kn_inv (des : 'rV[F]_k) (e : 'I_k -> F) (st : mkn F n k) : Prop :=
  kn_desired st = des /\ forall i, tracks (row i A) (e i) (mk_kf (kn_ests st i)) /\ remembers (fun p => f p 0 i) (kn_ests st i).

Lemma kal_step i e (st : mkal F n) p : tracks (row i A) e (mk_kf st) -> remembers (fun p => f p 0 i) st ->
  let r := mkal_update p (f p 0 i) (w p 0 i) st in
  [/\ r.2 = Ok tt, tracks (row i A) e (mk_kf r.1) & remembers (fun p => f p 0 i) r.1].
Proof.
move=> Ht Hr /=; rewrite /mkal_update; case E: (mk_val st) => [v0|]; last by split=> //= v [<-].
case: ifP => _; first by split=> //= v [<-].
have Ev : (f p 0 i - v0)%:M = row i A *m (p - mk_pos st)^T :> 'cV[F]_1.
  rewrite (Hr _ E) [RHS]mx11_scalar; congr (_%:M).
  have -> : (row i A *m (p - mk_pos st)^T) 0 0 = (A *m (p - mk_pos st)^T)^T 0 i by rewrite -row_mul !mxE.
  by rewrite -affines_diff [RHS]mxE [X in _ = _ + X]mxE.
rewrite Ev; have [H1 H2] := tracks_update (p - mk_pos st) Ht (Hw p i).
by rewrite /= in H1 H2 *; rewrite H1; split=> //= v [<-].
Qed.
Lemma kn_step des e st p : kn_inv des e st -> exists st', kn_update p (f p) (w p) st = Ok st' /\ kn_inv des e st' /\ kn_pos st' = p /\ kn_vals st' = f p.
Proof.
move=> [Hd Hi]; rewrite /kn_update first_exn_ok; last by move=> i; have [->] := kal_step p (Hi i).1 (Hi i).2.
eexists; split; first reflexivity; split=> //; split=> // i /=.
by have [_ H1 H2] := kal_step p (Hi i).1 (Hi i).2.
Qed.
Lemma kn_error des e st : kn_inv des e st -> sqn (kn_jacobian (kn_ests st) - A) <= \sum_i e i.
Proof.
move=> [_ Hi]; rewrite sqn_rows; apply: ler_sum => i _; have [Ht _] := Hi i.
have -> : row i (kn_jacobian (kn_ests st) - A) = grad (mk_kf (kn_ests st i)) - row i A; last exact: tracks_error.
by apply/rowP => j; rewrite !mxE.
Qed.
Lemma kn_suggests des e st : kn_inv des e st -> \sum_i e i = e2 -> kn_vals st = f (kn_pos st) ->
  (exists i, request i (kn_ests st i) = Some (kn_suggest request st)) \/
  sqn (des - f (kn_suggest request st)) <= (2%:R * e2 / (a2 - 2%:R * e2)) * sqn (des - f (kn_pos st)).
Proof.
move=> Hi Hsum Hv; rewrite /kn_suggest; case E: (pmap _ _) => [|p l].
- right; rewrite Hv Hi.1; set s := lstsq _ _.
  have -> : des - f (kn_pos st + s^T) = (des - f (kn_pos st)) - (A *m s)^T.
    have := affines_diff (kn_pos st + s^T) (kn_pos st); rewrite addrAC subrr add0r trmxK => <-.
    by rewrite opprB addrA subrK.
  by apply: newton_contracts; rewrite -Hsum; exact: (kn_error Hi).
- left; have : p \in pmap (fun i => request i (kn_ests st i)) (enum 'I_k) by rewrite E mem_head.
  by rewrite mem_pmap => /mapP [i _ ->]; exists i.
Qed.
End Converge.

Section Exact.
Variables (F : realFieldType) (n : nat).
Implicit Types (ds : seq 'rV[F]_n) (g d v : 'rV[F]_n).

Lemma spanned_rcons ds d v : spanned (rcons ds d) v <-> exists t, spanned ds (v - t *: d).
Proof.
split.
- move=> [c ->]; exists (c (size ds)), c; rewrite size_rcons big_ord_recr /= nth_rcons ltnn eqxx addrK.
  by apply: eq_bigr => i _; rewrite nth_rcons ltn_ord.
- move=> [t [c Hc]]; exists (fun i => if i == size ds then t else c i).
  rewrite size_rcons big_ord_recr /= nth_rcons ltnn !eqxx -[LHS](subrK (t *: d)) Hc; congr (_ + _).
  by apply: eq_bigr => i _; rewrite nth_rcons ltn_ord ltn_eqF.
Qed.
Lemma spanned_nil v : spanned [::] v <-> v = 0.
Proof. by split=> [[c ->]|->]; [rewrite big_ord0 | exists (fun _ => 0); rewrite big_ord0]. Qed.
Lemma indep_unspanned ds d : indep ds -> ~ spanned ds d -> indep (rcons ds d).
Proof.
move=> Hi Hn c; rewrite size_rcons big_ord_recr /= nth_rcons ltnn eqxx => Hsum.
have Hs : \sum_(i < size ds) c i *: nth 0 (rcons ds d) i = \sum_(i < size ds) c i *: nth 0 ds i.
  by apply: eq_bigr => i _; rewrite nth_rcons ltn_ord.
rewrite Hs in Hsum.
have Hc : c (size ds) = 0.
  apply/eqP; apply/negP => /negP Hc; apply: Hn; exists (fun i => - (c i / c (size ds))).
  apply: (scalerI Hc); rewrite scaler_sumr.
  move/eqP: Hsum; rewrite addrC addr_eq0 => /eqP ->; rewrite -sumrN; apply: eq_bigr => i _.
  by rewrite scalerA mulrN mulrCA mulfV // mulr1 scaleNr.
move: Hsum; rewrite Hc scale0r addr0 => Hsum i; rewrite ltnS leq_eqVlt => /orP [/eqP -> //|Hlt].
exact: Hi.
Qed.
Lemma spanned_mem ds d : d \in ds -> spanned ds d.
Proof.
move=> Hd; exists (fun i => (i == index d ds)%:R); have Hlt : (index d ds < size ds)%N by rewrite index_mem.
rewrite (bigD1 (Ordinal Hlt)) //= eqxx scale1r nth_index // big1 ?addr0 // => i Hi.
rewrite (_ : (i == index d ds :> nat) = false) ?scale0r //.
by apply/negbTE; apply: contraNneq Hi => E; apply/eqP/val_inj.
Qed.
Lemma full_span ds v : indep ds -> size ds = n -> spanned ds v.
Proof.
move=> Hi Hs; have HR := indep_row_free Hi.
have /submxP [x Hx] : (v <= rows_of ds)%MS.
  by apply: submx_full; rewrite /row_full (eqP HR) Hs.
exists (fun i => if insub i is Some o then x 0 o else 0); rewrite Hx mulmx_sum_row; apply: eq_bigr => i _.
by rewrite valK rowK.
Qed.

Lemma create_H1 d : create_H 1 d = mxvec d.
Proof.
apply/matrixP => i c; rewrite ord1 {i}; case/mxvec_indexP: c => i j.
by rewrite mxE !mxvecE mxE ord1 eqxx mul1r.
Qed.

(** What a filter knows after exact values along the steps [ds] of a function
    with gradient [g]. *)
Definition knows g ds (kf : filter F (1 * n) 1) : Prop :=
  [/\ static kf, psd (kf_P kf), indep ds, forall v, mxvec v *m kf_P kf = 0 <-> spanned ds v &
      forall v, spanned ds v -> grad kf *m v^T = g *m v^T].

Lemma knows_start g kf : static kf -> psd (kf_P kf) -> kf_P kf \in unitmx -> knows g [::] kf.
Proof.
move=> Hs HP Hu; split=> //; last by move=> v /spanned_nil ->; rewrite trmx0 !mulmx0.
move=> v; rewrite spanned_nil; split=> [H|->]; last by rewrite linear0 mul0mx.
have : mxvec v = 0 by rewrite -[mxvec v](mulmxK Hu) H mul0mx.
by move/(congr1 vec_mx); rewrite mxvecK linear0.
Qed.
Lemma knows_update g ds kf d : knows g ds kf ->
  let r := kg_update d (g *m d^T) (Some 0%:M) None true kf in
  (spanned ds d -> r = (kf, Raise LinAlgError)) /\ (~ spanned ds d -> r.2 = Ok tt /\ knows g (rcons ds d) r.1).
Proof.
move=> [Hs HP Hi Hk Hg] r; pose c := mk_call d (g *m d^T) (Some 0%:M) None true.
have HR : psd (used_R kf c) by rewrite /used_R /=; exact/psd_scalar.
have HQ : c_Q c = None by [].
set S := (mxvec d *m kf_P kf *m (mxvec d)^T) 0 0.
have HS : create_H 1 d *m kf_P kf *m (create_H 1 d)^T + 0%:M = S%:M.
  by rewrite create_H1 [LHS]mx11_scalar; congr (_%:M); rewrite mxE [X in _ + X]mxE /= addr0.
have Hcrit : ((S%:M : 'M[F]_1) \in unitmx) = (S != 0) by rewrite unitmxE det_scalar expr1 unitfE.
split=> [Hd|Hd].
- have S0 : S = 0 by rewrite /S; have /Hk -> := Hd; rewrite mul0mx mxE.
  by rewrite /r /kg_update predict_static // /correct HS Hcrit S0 eqxx.
have S0 : S != 0 by apply/negP => /eqP H; apply: Hd; apply/Hk; exact: (psd_null HP H).
have Hok : (kg_update (c_diff c) (c_vals c) (c_R c) (c_Q c) (c_predict c) kf).2 = Ok tt.
  by rewrite /kg_update /= predict_static // /correct HS Hcrit S0.
have [Hu Hx HP'] := call_effect Hs HQ HP HR Hok.
split=> //; change r.1 with (run_call kf c).
have Hgain v : mxvec v *m gain (kf_P kf) (create_H 1 d) (used_R kf c) = ((mxvec v *m kf_P kf *m (mxvec d)^T) 0 0 / S)%:M.
  rewrite /gain /used_R /= HS create_H1 !mulmxA invmx_scalar mul_mx_scalar [LHS]mx11_scalar; congr (_%:M).
  by rewrite mxE mulrC.
have HPv v : mxvec v *m kf_P (run_call kf c) = mxvec (v - ((mxvec v *m kf_P kf *m (mxvec d)^T) 0 0 / S) *: d) *m kf_P kf.
  by rewrite HP' mulmxBr mulmxA Hgain create_H1 mul_scalar_mx [mxvec (_ - _)]linearB /= [mxvec (_ *: d)]linearZ /= mulmxBl -scalemxAl ?scalerN.
split.
- exact: static_keep.
- by rewrite static_call // /correct /=; case: ifP => //= _; apply: psd_add; apply: psd_congr.
- exact: indep_unspanned.
- move=> v; rewrite HPv Hk spanned_rcons; split=> [H|[t Ht]]; first by eexists; exact: H.
  have Ev : mxvec v *m kf_P kf = t *: (mxvec d *m kf_P kf).
    have /Hk := Ht; rewrite linearB /= linearZ /= mulmxBl -scalemxAl => /eqP; rewrite subr_eq0 => /eqP ->.
    by [].
  by rewrite Ev -!scalemxAl mxE -/S mulfK.
- have Hstep : grad (run_call kf c) *m d^T = g *m d^T.
    by have := call_exact Hs HQ HP.1 _ Hok; apply; rewrite /= raddf0.
  have Hkeep v : spanned ds v -> grad (run_call kf c) *m v^T = g *m v^T.
    move=> Hv; rewrite -(Hg v Hv) /grad -!create_H_mul Hx mulmxDr create_H1 mulmxA Hgain.
    by have /Hk -> := Hv; rewrite mul0mx mxE mul0r raddf0 mul0mx addr0.
  move=> v /spanned_rcons [t]; have -> : v^T = (v - t *: d)^T + t *: d^T by rewrite -linearZ /= -linearD /= subrK.
  by move=> Ht; rewrite !mulmxDr Hkeep // -!scalemxAr Hstep.
Qed.
End Exact.

Section ExactLoop.
Variables (F : realFieldType) (n k : nat).
Variables (A : 'M[F]_(k, n)) (c : 'rV[F]_k) (w : 'rV[F]_n -> 'rV[F]_k) (request : 'I_k -> mkal F n -> option 'rV[F]_n).
Hypothesis Hw : forall p, w p = 0.
Hypothesis Hk : (0 < k)%N.
Let f := affines A c.

Definition exact_inv (ds : seq 'rV[F]_n) (st : mkn F n k) : Prop :=
  forall i, [/\ knows (row i A) ds (mk_kf (kn_ests st i)), mk_pos (kn_ests st i) = kn_pos st & mk_val (kn_ests st i) = Some (f (kn_pos st) 0 i)].

Lemma exact_first st p : (forall i, untold (kn_ests st i)) ->
  exists st', [/\ kn_update p (f p) (w p) st = Ok st', exact_inv [::] st', kn_pos st' = p, kn_vals st' = f p & kn_desired st' = kn_desired st].
Proof.
move=> Hu; have E i : mkal_update p (f p 0 i) (w p 0 i) (kn_ests st i) = (mk_mkal (mk_kf (kn_ests st i)) p (Some (f p 0 i)), Ok tt).
  by rewrite /mkal_update; have [_ _ _ ->] := Hu i.
rewrite /kn_update first_exn_ok; last by move=> i; rewrite E.
eexists; split; try reflexivity; move=> i /=; rewrite E; have [H1 H2 H3 _] := Hu i; split=> //=; exact: knows_start.
Qed.
Lemma exact_kal ds st v i : exact_inv ds st -> shortest2 F <= sqn (v - kn_pos st) ->
  let r := mkal_update v (f v 0 i) (w v 0 i) (kn_ests st i) in
  (spanned ds (v - kn_pos st) -> r.2 = Raise LinAlgError) /\
  (~ spanned ds (v - kn_pos st) -> [/\ r.2 = Ok tt, knows (row i A) (rcons ds (v - kn_pos st)) (mk_kf r.1), mk_pos r.1 = v & mk_val r.1 = Some (f v 0 i)]).
Proof.
move=> Hi Hl r; have [Hkn Hp Hv] := Hi i.
have Er : r = let q := kg_update (v - kn_pos st) (row i A *m (v - kn_pos st)^T) (Some 0%:M) None true (mk_kf (kn_ests st i)) in
      if q.2 is Raise e then (mk_mkal q.1 (mk_pos (kn_ests st i)) (mk_val (kn_ests st i)), Raise e) else (mk_mkal q.1 v (Some (f v 0 i)), Ok tt).
  have W : w v 0 i = 0 by rewrite Hw mxE.
  rewrite /r /mkal_update Hv Hp ltNge Hl /= W.
  have -> // : (f v 0 i - f (kn_pos st) 0 i)%:M = row i A *m (v - kn_pos st)^T :> 'cV[F]_1.
  rewrite [RHS]mx11_scalar; congr (_%:M).
  have -> : (row i A *m (v - kn_pos st)^T) 0 0 = (A *m (v - kn_pos st)^T)^T 0 i by rewrite -row_mul !mxE.
  by rewrite -(affines_diff A c) [RHS]mxE [X in _ = _ + X]mxE.
have [H1 H2] := knows_update (v - kn_pos st) Hkn; rewrite {}Er /=; split=> [Hs|Hs].
- by rewrite (H1 Hs).
- have [E K] := H2 Hs; rewrite /= in E K *; by rewrite E.
Qed.
Lemma exact_step ds st v : exact_inv ds st -> shortest2 F <= sqn (v - kn_pos st) ->
  (spanned ds (v - kn_pos st) -> kn_update v (f v) (w v) st = Raise LinAlgError) /\
  (~ spanned ds (v - kn_pos st) -> exists st', [/\ kn_update v (f v) (w v) st = Ok st', exact_inv (rcons ds (v - kn_pos st)) st', kn_pos st' = v, kn_vals st' = f v & kn_desired st' = kn_desired st]).
Proof.
move=> Hi Hl; split=> Hs; rewrite /kn_update.
- have -> : enum 'I_k = Ordinal Hk :: behead (enum 'I_k).
    have := size_enum_ord k; case E: (enum 'I_k) => [|i l] /= Hk'; first by move: (Hk); rewrite -Hk'.
    by congr (_ :: _); apply: val_inj; have := nth_enum_ord (Ordinal Hk) Hk; rewrite E.
  by have [H _] := exact_kal (Ordinal Hk) Hi Hl; rewrite /= (H Hs).
- rewrite first_exn_ok; last by move=> i; have [_ H] := exact_kal i Hi Hl; have [->] := H Hs.
  eexists; split; try reflexivity; move=> i /=; have [_ H] := exact_kal i Hi Hl; have [_ H1 H2 H3] := H Hs.
  by split.
Qed.
Lemma exact_dependent ds st : exact_inv ds st -> row_free (kn_jacobian (kn_ests st)) -> kn_vals st = f (kn_pos st) ->
  (forall i, request i (kn_ests st i) = None) -> spanned ds (kn_suggest request st - kn_pos st) -> f (kn_suggest request st) = kn_desired st.
Proof.
move=> Hi HJ Hv Hr; rewrite /kn_suggest.
have -> : pmap (fun i => request i (kn_ests st i)) (enum 'I_k) = [::] by elim: (enum 'I_k) => //= i l IH; rewrite Hr.
set s := lstsq _ _; rewrite addrAC subrr add0r => Hs.
have HAs : A *m s = kn_jacobian (kn_ests st) *m s.
  apply/row_matrixP => i; rewrite !row_mul; have [[_ _ _ _ Hg] _ _] := Hi i.
  have := Hg _ Hs; rewrite trmxK => <-; congr (_ *m _).
  by apply/rowP => j; rewrite !mxE.
have := affines_diff A c (kn_pos st + s^T) (kn_pos st); rewrite addrAC subrr add0r trmxK HAs lstsq_exact // trmxK Hv -/f.
by move/(congr1 (fun x => x + f (kn_pos st))); rewrite !subrK.
Qed.
Lemma exact_run N st0 v0 st v : (forall i, untold (kn_ests st0 i)) -> long_steps request f w (st0, v0) N ->
  kn_rounds request f w N.+1 (st0, v0) = Ok (st, v) ->
  exists ds, [/\ size ds = N, exact_inv ds st, kn_vals st = f (kn_pos st), kn_desired st = kn_desired st0 & v = kn_suggest request st].
Proof.
move=> Hu; elim: N st v => [|N IH] st v Hl.
- rewrite /= /kn_round /=; have [st' [-> Hi Hp Hv Hd]] := exact_first v0 Hu; case=> <- <-.
  by exists [::]; split=> //; rewrite Hv Hp.
- change (kn_rounds request f w N.+2 (st0, v0)) with (match kn_rounds request f w N.+1 (st0, v0) with Ok s' => kn_round request f w s' | Raise e => Raise e end).
  case E: (kn_rounds request f w N.+1 (st0, v0)) => [[st1 v1]|//].
  have [|ds [Hs Hi Hv Hd Hv1]] := IH st1 v1 _ E; first by move=> j st' v' Hj; apply: Hl; exact: leqW.
  have Hlong := Hl N st1 v1 (leqnn _) E.
  rewrite /kn_round /=; have [H1 H2] := exact_step Hi Hlong.
  have [Hsp|Hsp] : spanned ds (v1 - kn_pos st1) \/ ~ spanned ds (v1 - kn_pos st1).
    have [Hz|Hz] := boolP (mxvec (v1 - kn_pos st1) *m kf_P (mk_kf (kn_ests st1 (Ordinal Hk))) == 0).
    - by left; have [[_ _ _ HK _] _ _] := Hi (Ordinal Hk); apply/HK; exact/eqP.
    - by right; have [[_ _ _ HK _] _ _] := Hi (Ordinal Hk) => /HK H; rewrite H eqxx in Hz.
  + by rewrite (H1 Hsp).
  + have [st' [-> Hi' Hp' Hv' Hd']] := H2 Hsp; case=> <- <-.
    by exists (rcons ds (v1 - kn_pos st1)); rewrite size_rcons Hs; split=> //; [rewrite Hv' Hp' | rewrite Hd'].
Qed.
End ExactLoop.
