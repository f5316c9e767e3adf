(** Histories of a KalmanGradient. *)
From mathcomp Require Import all_ssreflect all_algebra.
From Verif Require Import PyExn LinAlgModel LinAlgSpec LinAlgProofs KalmanModel KalmanSpec KalmanProofs.
Set Implicit Arguments. Unset Strict Implicit. Unset Printing Implicit Defensive.
Import Order.TTheory GRing.Theory Num.Theory.
Local Open Scope ring_scope.

Section Gradient.
Variables (F : realFieldType) (m n : nat).
Implicit Types (k : filter F (m * n) m) (c : call F m n).

Lemma sum_mxvec (h : 'I_(m * n) -> F) : \sum_c h c = \sum_i \sum_j h (mxvec_index i j).
Proof. by rewrite pair_bigA (reindex _ (curry_mxvec_bij _ _)) /=; apply: eq_bigr => -[]. Qed.

Lemma create_H_mul (diff : 'rV[F]_n) (x : 'cV[F]_(m * n)) : create_H m diff *m x = vec_mx x^T *m diff^T.
Proof.
apply/matrixP => i j; rewrite !mxE sum_mxvec (bigD1 i) //= [X in _ + X]big1 ?addr0.
  by apply: eq_bigr => l _; rewrite !mxE mxvecE mxE eqxx mul1r mulrC ord1.
move=> i' Hi'; rewrite big1 // => l _; rewrite mxE mxvecE mxE.
by rewrite eq_sym (negbTE Hi') mul0r mul0r.
Qed.

Lemma row_create_H (diff : 'rV[F]_n) i : row i (create_H m diff) = along i diff.
Proof. by apply/rowP => j; rewrite !mxE. Qed.

Lemma correlation_H (P : 'M[F]_(m * n)) v (diff : 'rV[F]_n) i : (v *m P *m (create_H m diff)^T) 0 i = correlation P v (along i diff).
Proof. by rewrite /correlation -row_create_H [LHS]mxE [RHS]mxE; apply: eq_bigr => j _; congr (_ * _); rewrite !mxE. Qed.

Lemma predict_static k : static k -> predict None k = k.
Proof.
by case: k => x P Fm Q R a [/= -> [-> ->]]; rewrite /predict /= mul1mx expr1n scale1r mul1mx trmx1 mulmx1 addr0.
Qed.

Lemma static_call k c : static k -> c_Q c = None ->
  run_call k c = (correct (c_vals c) (c_R c) (create_H m (c_diff c)) k).1.
Proof. by move=> Hs HQ; rewrite /run_call /kg_update HQ predict_static //; case: ifP. Qed.

Lemma static_keep k c : static k -> static (run_call k c).
Proof.
move=> [HF [HQ Ha]]; rewrite /run_call /kg_update.
have [E1 [E2 [_ E4]]] := correct_keeps (c_vals c) (c_R c) (create_H m (c_diff c)) (if c_predict c then predict (c_Q c) k else k).
by rewrite /static E1 E2 E4; case: ifP.
Qed.
Lemma run_call_R k c : kf_R (run_call k c) = kf_R k.
Proof.
rewrite /run_call /kg_update.
have [_ [_ [E3 _]]] := correct_keeps (c_vals c) (c_R c) (create_H m (c_diff c)) (if c_predict c then predict (c_Q c) k else k).
by rewrite E3; case: ifP.
Qed.
Lemma run_call_Q k c : kf_Q (run_call k c) = kf_Q k.
Proof.
rewrite /run_call /kg_update.
have [_ [E2 _]] := correct_keeps (c_vals c) (c_R c) (create_H m (c_diff c)) (if c_predict c then predict (c_Q c) k else k).
by rewrite E2; case: ifP.
Qed.

(** *** C31 *)
Lemma run_call_psd k c : psd (kf_P k) -> psd (kf_Q k) -> psd (kf_R k) -> covariances c -> psd (kf_P (run_call k c)).
Proof.
move=> HP HQ HR [Hr Hq]; rewrite /run_call /kg_update.
apply: correct_psd => //; case: ifP => // _; exact: predict_psd.
Qed.
Lemma history_psd k cs : psd (kf_P k) -> psd (kf_Q k) -> psd (kf_R k) ->
  (forall i c0, (i < size cs)%N -> covariances (nth c0 cs i)) -> psd (kf_P (history k cs)).
Proof.
elim: cs k => // c cs IH k HP HQ HR Hc; apply: IH; rewrite ?run_call_Q ?run_call_R //.
- by apply: run_call_psd => //; exact: (Hc 0%N c).
- by move=> i c0 Hi; exact: (Hc i.+1 c0).
Qed.

(** *** C32 *)
Definition used_R k c : 'M[F]_m := if c_R c is Some r then r else kf_R k.

Lemma call_effect k c : static k -> c_Q c = None -> psd (kf_P k) -> psd (used_R k c) ->
  (kg_update (c_diff c) (c_vals c) (c_R c) (c_Q c) (c_predict c) k).2 = Ok tt ->
  let H := create_H m (c_diff c) in
  [/\ H *m kf_P k *m H^T + used_R k c \in unitmx,
      kf_x (run_call k c) = kf_x k + gain (kf_P k) H (used_R k c) *m (c_vals c - H *m kf_x k) &
      kf_P (run_call k c) = kf_P k - gain (kf_P k) H (used_R k c) *m (H *m kf_P k)].
Proof.
move=> Hs HQ HP HR Hok H.
have Hu : H *m kf_P k *m H^T + used_R k c \in unitmx.
  by move: Hok; rewrite /kg_update HQ predict_static // if_same /correct -/(used_R k c); case: ifP.
have [_ [Hx HPx]] := correct_ok (c_vals c) (erefl (used_R k c)) HP.1 HR.1 Hu.
by split=> //; rewrite static_call.
Qed.

Lemma call_fails k c : static k -> c_Q c = None ->
  (kg_update (c_diff c) (c_vals c) (c_R c) (c_Q c) (c_predict c) k).2 <> Ok tt -> run_call k c = k.
Proof.
move=> Hs HQ; rewrite static_call // /kg_update HQ predict_static // if_same /correct.
by case: ifP.
Qed.

Lemma call_variance k c : static k -> c_Q c = None -> psd (kf_P k) -> psd (used_R k c) ->
  forall v, variance (kf_P (run_call k c)) v <= variance (kf_P k) v.
Proof.
move=> Hs HQ HP HR v.
case E: (kg_update (c_diff c) (c_vals c) (c_R c) (c_Q c) (c_predict c) k).2 => [[]|e]; last first.
  by rewrite call_fails // E.
have [Hu _ ->] := call_effect Hs HQ HP HR E.
exact: (variance_drop v HP HR Hu).1.
Qed.

Lemma call_strict k c : static k -> c_Q c = None -> psd (kf_P k) -> psd (used_R k c) ->
  (kg_update (c_diff c) (c_vals c) (c_R c) (c_Q c) (c_predict c) k).2 = Ok tt ->
  forall i, 0 < variance (kf_P k) (along i (c_diff c)) ->
  variance (kf_P (run_call k c)) (along i (c_diff c)) < variance (kf_P k) (along i (c_diff c)).
Proof.
move=> Hs HQ HP HR Hok i Hv; have [Hu _ ->] := call_effect Hs HQ HP HR Hok.
apply: (variance_drop _ HP HR Hu).2.1; apply: contraTneq Hv => /(congr1 (fun M : 'rV_m => M 0 i)).
by rewrite correlation_H mxE /variance /correlation => ->; rewrite ltxx.
Qed.

Lemma call_uncorrelated k c v : static k -> c_Q c = None -> psd (kf_P k) -> psd (used_R k c) ->
  (forall i, correlation (kf_P k) v (along i (c_diff c)) = 0) ->
  variance (kf_P (run_call k c)) v = variance (kf_P k) v /\ v *m kf_x (run_call k c) = v *m kf_x k.
Proof.
move=> Hs HQ HP HR Hc.
case E: (kg_update (c_diff c) (c_vals c) (c_R c) (c_Q c) (c_predict c) k).2 => [[]|e]; last first.
  by rewrite call_fails // E.
have [Hu -> ->] := call_effect Hs HQ HP HR E.
have H0 : v *m kf_P k *m (create_H m (c_diff c))^T = 0 by apply/rowP => i; rewrite correlation_H mxE.
split; first exact: (variance_drop v HP HR Hu).2.2.
by rewrite mulmxDr /gain !mulmxA H0 !mul0mx addr0.
Qed.

Lemma history_variance k cs : static k -> psd (kf_P k) -> psd (kf_R k) ->
  (forall i c0, (i < size cs)%N -> covariances (nth c0 cs i) /\ c_Q (nth c0 cs i) = None) ->
  forall v, variance (kf_P (history k cs)) v <= variance (kf_P k) v.
Proof.
elim: cs k => // c cs IH k Hs HP HR Hc v.
have [Hcov HQ] := Hc 0%N c erefl.
have HQ0 : psd (kf_Q k) by rewrite Hs.2.1; split; [rewrite trmx0 | move=> u; rewrite mulmx0 mul0mx mxE].
have HR' : psd (used_R k c) by rewrite /used_R; case E: (c_R c) => [r|] //; apply: Hcov.1.
apply: (le_trans (IH (run_call k c) _ _ _ _ v)).
- exact: static_keep.
- exact: run_call_psd.
- by rewrite run_call_R.
- by move=> i c0 Hi; exact: (Hc i.+1 c0).
exact: call_variance.
Qed.

(** *** C33 *)
Lemma call_fixed k c : static k -> c_Q c = None -> c_vals c = grad k *m (c_diff c)^T -> kf_x (run_call k c) = kf_x k.
Proof.
move=> Hs HQ Hv; rewrite static_call // /correct; case: ifP => //= _.
by rewrite create_H_mul Hv subrr mulmx0 addr0.
Qed.

Lemma call_exact k c : static k -> c_Q c = None -> (kf_P k)^T = kf_P k -> c_R c = Some 0 ->
  (kg_update (c_diff c) (c_vals c) (c_R c) (c_Q c) (c_predict c) k).2 = Ok tt ->
  grad (run_call k c) *m (c_diff c)^T = c_vals c.
Proof.
move=> Hs HQ HP HR; rewrite static_call // /kg_update HQ predict_static // if_same /correct HR addr0.
case: ifP => // Hu _ /=; rewrite /grad /= -create_H_mul mulmxDr !mulmxA mulmxV // mul1mx.
by rewrite addrC subrK.
Qed.

(** Information. *)
Lemma call_information k c : static k -> c_Q c = None -> psd (kf_P k) -> kf_P k \in unitmx -> psd (used_R k c) -> used_R k c \in unitmx ->
  let H := create_H m (c_diff c) in
  [/\ kf_P (run_call k c) \in unitmx,
      invmx (kf_P (run_call k c)) = invmx (kf_P k) + H^T *m invmx (used_R k c) *m H &
      invmx (kf_P (run_call k c)) *m kf_x (run_call k c) = invmx (kf_P k) *m kf_x k + H^T *m invmx (used_R k c) *m c_vals c].
Proof.
move=> Hs HQ HP HuP HR HuR H.
have Hu : H *m kf_P k *m H^T + used_R k c \in unitmx by apply: psd_unit_add => //; exact: psd_congr.
have Hok : (kg_update (c_diff c) (c_vals c) (c_R c) (c_Q c) (c_predict c) k).2 = Ok tt.
  by rewrite /kg_update HQ predict_static // if_same /correct -/(used_R k c) -/H Hu.
have [_ -> ->] := call_effect Hs HQ HP HR Hok.
exact: (information (kf_x k) (c_vals c) HP.1 HuP HuR Hu).
Qed.

Definition info_matrix c : 'M[F]_(m * n) :=
  if c_R c is Some r then (create_H m (c_diff c))^T *m invmx r *m create_H m (c_diff c) else 0.
Definition info_vector c : 'cV[F]_(m * n) :=
  if c_R c is Some r then (create_H m (c_diff c))^T *m invmx r *m c_vals c else 0.

Lemma history_information k cs : static k -> psd (kf_P k) -> kf_P k \in unitmx ->
  (forall i c0, (i < size cs)%N -> proper (nth c0 cs i)) ->
  [/\ psd (kf_P (history k cs)), kf_P (history k cs) \in unitmx,
      invmx (kf_P (history k cs)) = invmx (kf_P k) + \sum_(c <- cs) info_matrix c &
      invmx (kf_P (history k cs)) *m kf_x (history k cs) = invmx (kf_P k) *m kf_x k + \sum_(c <- cs) info_vector c].
Proof.
elim: cs k => [|c cs IH] k Hs HP Hu Hc; first by rewrite !big_nil !addr0.
have [HQ [r [Hr [Hpr Hur]]]] := Hc 0%N c erefl.
have HR : used_R k c = r by rewrite /used_R Hr.
rewrite -HR in Hpr Hur.
have [Hu' HI Hx] := call_information Hs HQ HP Hu Hpr Hur.
have HP' : psd (kf_P (run_call k c)).
  rewrite static_call // /correct -/(used_R k c); case: ifP => //= _.
  by apply: psd_add; exact: psd_congr.
have [|HPn Hun HIn Hxn] := IH (run_call k c) (static_keep c Hs) HP' Hu'.
  by move=> i c0 Hi; exact: (Hc i.+1 c0).
rewrite !big_cons; split=> //.
- by rewrite /= HIn HI -addrA /info_matrix Hr HR.
- by rewrite /= Hxn Hx -addrA /info_vector Hr HR.
Qed.

Lemma history_determined k cs cs' : static k -> psd (kf_P k) -> kf_P k \in unitmx ->
  (forall i c0, (i < size cs)%N -> proper (nth c0 cs i)) -> (forall i c0, (i < size cs')%N -> proper (nth c0 cs' i)) ->
  \sum_(c <- cs) info_matrix c = \sum_(c <- cs') info_matrix c ->
  \sum_(c <- cs) info_vector c = \sum_(c <- cs') info_vector c ->
  kf_P (history k cs) = kf_P (history k cs') /\ kf_x (history k cs) = kf_x (history k cs').
Proof.
move=> Hs HP Hu H1 H2 EM EV.
have [_ U1 I1 X1] := history_information Hs HP Hu H1.
have [_ U2 I2 X2] := history_information Hs HP Hu H2.
have EP : kf_P (history k cs) = kf_P (history k cs') by rewrite -[LHS]invmxK -[RHS]invmxK I1 I2 EM.
split=> //.
rewrite -[LHS](mulKVmx U1) X1 EV -X2 EP mulKVmx //.
Qed.

Lemma history_order k cs c0 (s : seq nat) : static k -> psd (kf_P k) -> kf_P k \in unitmx ->
  (forall i, (i < size cs)%N -> proper (nth c0 cs i)) -> perm_eq s (iota 0 (size cs)) ->
  let cs' := [seq nth c0 cs i | i <- s] in
  kf_P (history k cs') = kf_P (history k cs) /\ kf_x (history k cs') = kf_x (history k cs).
Proof.
move=> Hs HP Hu Hc Hperm cs'.
have Hcs : cs = [seq nth c0 cs i | i <- iota 0 (size cs)] by rewrite map_nth_iota0 ?take_size.
have Hsize : size s = size cs by rewrite (perm_size Hperm) size_iota.
apply: history_determined => //.
- move=> i c1; rewrite size_map => Hi; rewrite (nth_map 0%N) //; apply: Hc.
  have : nth 0%N s i \in iota 0 (size cs) by rewrite -(perm_mem Hperm) mem_nth.
  by rewrite mem_iota.
- by move=> i c1 Hi; rewrite (set_nth_default c0) //; exact: Hc.
- by rewrite [in RHS]Hcs !big_map; apply: perm_big.
- by rewrite [in RHS]Hcs !big_map; apply: perm_big.
Qed.

Lemma noiseless_error (g : 'M[F]_(m, n)) k cs : static k -> psd (kf_P k) -> kf_P k \in unitmx ->
  (forall i c0, (i < size cs)%N -> proper (nth c0 cs i) /\ noiseless g (nth c0 cs i)) ->
  kf_x (history k cs) - (mxvec g)^T = kf_P (history k cs) *m invmx (kf_P k) *m (kf_x k - (mxvec g)^T).
Proof.
move=> Hs HP Hu Hc.
have [|_ U I X] := @history_information k cs Hs HP Hu; first by move=> i c0 Hi; exact: (Hc i c0 Hi).1.
have EV : \sum_(c <- cs) info_vector c = (\sum_(c <- cs) info_matrix c) *m (mxvec g)^T.
  elim: cs {X I U} Hc => [|c cs IH] Hc; first by rewrite !big_nil mul0mx.
  rewrite !big_cons mulmxDl IH; last by move=> i c0 Hi; exact: (Hc i.+1 c0).
  congr (_ + _); have [[_ [r [Hr _]]] Hn] := Hc 0%N c erefl.
  by rewrite /info_vector /info_matrix Hr Hn -[RHS]mulmxA create_H_mul trmxK mxvecK.
rewrite -[LHS](mulKVmx U) mulmxBr X EV I mulmxDl opprD addrACA subrr addr0 -mulmxA; congr (_ *m _).
by rewrite mulmxBr.
Qed.
End Gradient.

(** One value: the variance along the step. *)
Lemma single_variance (F : realFieldType) n (k : filter F (1 * n) 1) (c : call F 1 n) r :
  static k -> c_Q c = None -> psd (kf_P k) -> c_R c = Some r%:M -> 0 < r ->
  let q := variance (kf_P k) (along 0 (c_diff c)) in
  variance (kf_P (run_call k c)) (along 0 (c_diff c)) = q * r / (q + r).
Proof.
move=> Hs HQ HP HR Hr q.
have Hpr : psd (used_R k c).
  rewrite /used_R HR; split; first by rewrite tr_scalar_mx.
  by move=> v; rewrite mul_mx_scalar -scalemxAl mxE -sqn_row mulr_ge0 ?sqn_ge0 // ltW.
have HuR : used_R k c \in unitmx by rewrite /used_R HR unitmxE det_scalar1 unitfE lt0r_neq0.
set H := create_H 1 (c_diff c).
have HH : along 0 (c_diff c) = H by rewrite -row_create_H; apply/matrixP => i j; rewrite !mxE !ord1.
have Hu : H *m kf_P k *m H^T + used_R k c \in unitmx by apply: psd_unit_add => //; exact: psd_congr.
have Hok : (kg_update (c_diff c) (c_vals c) (c_R c) (c_Q c) (c_predict c) k).2 = Ok tt.
  by rewrite /kg_update HQ predict_static // if_same /correct -/(used_R k c) -/H Hu.
have [_ _ ->] := call_effect Hs HQ HP Hpr Hok.
rewrite gain_variance ?HP.1 // -/H HH /=.
have HS : H *m kf_P k *m H^T = q%:M by rewrite /q HH; exact: mx11_scalar.
have Hq : 0 <= q by exact: HP.2.
have Hqr : q + r != 0 by rewrite lt0r_neq0 // ltr_paddl.
rewrite {1}/variance HS /used_R HR -raddfD /= invmx_scalar tr_scalar_mx -!scalar_mxM !mxE eqxx !mulr1n.
apply: (mulIf Hqr); rewrite mulrBl [X in _ - X]mulrAC !divfK //.
by rewrite mulrDr addrC addKr.
Qed.
