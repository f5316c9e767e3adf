From mathcomp Require Import all_ssreflect all_algebra.
From Verif Require Import PyExn LinAlgModel LinAlgSpec LinAlgProofs KalmanModel KalmanSpec.
Set Implicit Arguments. Unset Strict Implicit. Unset Printing Implicit Defensive.
Import Order.TTheory GRing.Theory Num.Theory.
Local Open Scope ring_scope.

Section Psd.
Variable F : realFieldType.

Lemma psd_congr m n (M : 'M[F]_(m, n)) P : psd P -> psd (M *m P *m M^T).
Proof.
move=> [Hs Hp]; split; first by rewrite !trmx_mul trmxK Hs mulmxA.
by move=> v; have := Hp (v *m M); rewrite trmx_mul !mulmxA.
Qed.
Lemma psd_add n (P Q : 'M[F]_n) : psd P -> psd Q -> psd (P + Q).
Proof.
move=> [Hs Hp] [Hs' Hq]; split; first by rewrite (linearD (trmx_linear _ _ _)) /= Hs Hs'.
by move=> v; rewrite mulmxDr mulmxDl mxE addr_ge0.
Qed.
Lemma psd_scale n (P : 'M[F]_n) a : 0 <= a -> psd P -> psd (a *: P).
Proof.
move=> Ha [Hs Hp]; split; first by rewrite linearZ /= Hs.
by move=> v; rewrite -scalemxAr -scalemxAl mxE mulr_ge0.
Qed.
Lemma psd_inv n (S : 'M[F]_n) : S \in unitmx -> psd S -> psd (invmx S).
Proof.
move=> Hu [Hs Hp]; split; first by rewrite trmx_inv Hs.
move=> v; have := Hp (v *m invmx S).
by rewrite trmx_mul trmx_inv Hs -!mulmxA (mulmxA S) mulmxV // mul1mx.
Qed.

Lemma psd_null n (B : 'M[F]_n) (v : 'rV[F]_n) : psd B -> (v *m B *m v^T) 0 0 = 0 -> v *m B = 0.
Proof.
move=> [Hs Hp] H0; apply/eqP; rewrite -sqn_eq0; apply/eqP.
pose u := v *m B; pose s := sqn u; pose q := (u *m B *m u^T) 0 0.
have Huv : (v *m B *m u^T) 0 0 = s by rewrite /s sqn_row.
have Hvu : (u *m B *m v^T) 0 0 = s.
  by rewrite -Huv -[in LHS](trmxK (u *m B *m v^T)) mxE !trmx_mul trmxK Hs mulmxA.
have Hq : 0 <= q by apply: Hp.
have Hs0 : 0 <= s by apply: sqn_ge0.
apply/eqP; rewrite -/u -/s; apply/negPn/negP => Hne.
have Hpos : 0 < s by rewrite lt_neqAle eq_sym Hne Hs0.
pose t := - (q + 1) / (2%:R * s).
have := Hp (t *: v + u).
rewrite linearD /= linearZ /= !mulmxDl !mulmxDr -!scalemxAl -!scalemxAr !mxE.
rewrite [X in t * (t * X)](_ : _ = 0); last by rewrite -[RHS]H0 !mxE.
rewrite [X in _ + t * X + _](_ : _ = s); last by rewrite -Huv !mxE.
rewrite [X in _ + (t * X + _)](_ : _ = s); last by rewrite -Hvu !mxE.
rewrite [X in _ + (_ + X)](_ : _ = q); last by rewrite /q !mxE.
rewrite !mulr0 add0r addrA.
have -> : t * s + t * s = - (q + 1).
  by rewrite -mulr2n -mulr_natl [2%:R * _]mulrCA /t divfK // mulf_neq0 ?pnatr_eq0.
by rewrite opprD -addrA [-1 + q]addrC addrA addNr add0r ler0N1.
Qed.

Lemma psd_unit_add n (A B : 'M[F]_n) : psd A -> psd B -> B \in unitmx -> A + B \in unitmx.
Proof.
move=> HA HB Hu; rewrite -row_free_unit -kermx_eq0; apply/eqP/row_matrixP => i; rewrite row0.
set v := row i _.
have Hv : v *m (A + B) = 0 by apply/eqP; rewrite -sub_kermx row_sub.
clearbody v.
have H0 : (v *m B *m v^T) 0 0 = 0.
  have : (v *m (A + B) *m v^T) 0 0 = 0 by rewrite Hv mul0mx mxE.
  rewrite mulmxDr mulmxDl mxE => /eqP; rewrite paddr_eq0; [|exact: HA.2|exact: HB.2].
  by move=> /andP [_ /eqP].
by have := psd_null HB H0; move/(congr1 (mulmx^~ (invmx B))); rewrite mulmxK // mul0mx.
Qed.

Lemma psd_pos n (S : 'M[F]_n) (u : 'rV[F]_n) : S \in unitmx -> psd S -> u != 0 -> 0 < (u *m invmx S *m u^T) 0 0.
Proof.
move=> Hu HS Hne; have HI := psd_inv Hu HS.
rewrite lt_neqAle HI.2 andbT eq_sym; apply: contraNneq Hne => H0.
have := psd_null HI H0; move/(congr1 (mulmx^~ S)); by rewrite mulmxKV // mul0mx => ->.
Qed.
End Psd.

Section Filter.
Variables (F : realFieldType) (d z : nat).
Implicit Types (k : filter F d z) (H : 'M[F]_(z, d)).

Lemma predict_psd Q k : psd (kf_P k) -> psd (kf_Q k) -> (forall q, Q = Some q -> psd q) -> psd (kf_P (predict Q k)).
Proof.
move=> HP HQ HQ'; apply: psd_add; first by apply: psd_scale; [exact: sqr_ge0 | exact: psd_congr].
by case: Q HQ' => [q|] // /(_ q erefl).
Qed.

Lemma correct_psd y R H k : psd (kf_P k) -> psd (kf_R k) -> (forall r, R = Some r -> psd r) -> psd (kf_P (correct y R H k).1).
Proof.
move=> HP HR HR'; rewrite /correct; case: ifP => //= _; apply: psd_add; apply: psd_congr => //.
by case: R HR' => [r|] // /(_ r erefl).
Qed.

Lemma correct_keeps y R H k : let k' := (correct y R H k).1 in
  kf_F k' = kf_F k /\ kf_Q k' = kf_Q k /\ kf_R k' = kf_R k /\ kf_alpha k' = kf_alpha k.
Proof. by rewrite /correct; case: ifP. Qed.

(** Joseph form. *)
Lemma joseph (P : 'M[F]_d) H (R : 'M[F]_z) : P^T = P -> R^T = R -> H *m P *m H^T + R \in unitmx ->
  let S := H *m P *m H^T + R in
  let K := P *m H^T *m invmx S in
  (1%:M - K *m H) *m P *m (1%:M - K *m H)^T + K *m R *m K^T = P - K *m (H *m P).
Proof.
move=> HP HR; set S := _ + R => Hu /=; set K := P *m H^T *m invmx S.
have HS : S^T = S by rewrite /S linearD /= !trmx_mul trmxK HP HR mulmxA.
have HK : K *m S = P *m H^T by rewrite /K mulmxKV.
have HKT : K^T = invmx S *m (H *m P) by rewrite /K !trmx_mul trmxK trmx_inv HS HP.
have E : K *m H *m P *m H^T *m K^T + K *m R *m K^T = P *m H^T *m K^T.
  by rewrite -HK /S mulmxDr mulmxDl !mulmxA.
rewrite linearB /= trmx1 trmx_mul mulmxBl mul1mx mulmxBr mulmx1 mulmxBl !mulmxA.
by rewrite opprB -addrA [X in _ + X = _]addrAC E subrr addr0.
Qed.

Definition gain (P : 'M[F]_d) (H : 'M[F]_(z, d)) (R : 'M[F]_z) : 'M[F]_(d, z) := P *m H^T *m invmx (H *m P *m H^T + R).

Lemma correct_ok y (r : 'M[F]_z) R H k : (if R is Some r' then r' else kf_R k) = r ->
  (kf_P k)^T = kf_P k -> r^T = r -> H *m kf_P k *m H^T + r \in unitmx ->
  (correct y R H k).2 = Ok tt /\
  kf_x (correct y R H k).1 = kf_x k + gain (kf_P k) H r *m (y - H *m kf_x k) /\
  kf_P (correct y R H k).1 = kf_P k - gain (kf_P k) H r *m (H *m kf_P k).
Proof. by move=> Hr HP HR Hu; rewrite /correct Hr Hu /=; split=> //; split=> //; rewrite joseph. Qed.

(** Decrease of the variance. *)
Lemma gain_variance (P : 'M[F]_d) H r v : P^T = P ->
  variance (P - gain P H r *m (H *m P)) v =
  variance P v - (let u := v *m P *m H^T in u *m invmx (H *m P *m H^T + r) *m u^T) 0 0.
Proof.
move=> HP; rewrite /variance /gain mulmxBr mulmxBl [LHS]mxE [X in _ + X = _]mxE; congr (_ - _).
by rewrite /= !trmx_mul trmxK HP !mulmxA.
Qed.

Lemma variance_drop (P : 'M[F]_d) H r v : psd P -> psd r -> H *m P *m H^T + r \in unitmx ->
  variance (P - gain P H r *m (H *m P)) v <= variance P v /\
  (v *m P *m H^T != 0 -> variance (P - gain P H r *m (H *m P)) v < variance P v) /\
  (v *m P *m H^T = 0 -> variance (P - gain P H r *m (H *m P)) v = variance P v).
Proof.
move=> HP Hr Hu; have HS : psd (H *m P *m H^T + r) by apply: psd_add => //; exact: psd_congr.
rewrite gain_variance ?HP.1 //; split; first by rewrite ger_addl oppr_le0; apply: (psd_inv Hu HS).2.
split=> H0; first by rewrite gtr_addl oppr_lt0; apply: psd_pos.
by rewrite /= H0 mul0mx mul0mx mxE subr0.
Qed.

(** Information form. *)
Lemma information (P : 'M[F]_d) H r (x : 'cV[F]_d) y : P^T = P -> P \in unitmx -> r \in unitmx -> H *m P *m H^T + r \in unitmx ->
  let P' := P - gain P H r *m (H *m P) in
  let x' := x + gain P H r *m (y - H *m x) in
  [/\ P' \in unitmx, invmx P' = invmx P + H^T *m invmx r *m H & invmx P' *m x' = invmx P *m x + H^T *m invmx r *m y].
Proof.
move=> HP HuP Hur Hu /=; set K := gain P H r; set S := H *m P *m H^T + r in Hu *.
have HK : K *m S = P *m H^T by rewrite /K /gain -/S mulmxKV.
have HPK : P *m H^T - K *m (H *m P *m H^T) = K *m r.
  by apply/eqP; rewrite subr_eq addrC -mulmxDr -HK.
have E1 : (P - K *m (H *m P)) *m invmx P = 1%:M - K *m H by rewrite mulmxBl mulmxV // -(mulmxA K) mulmxK.
have E2 : (P - K *m (H *m P)) *m H^T = K *m r by rewrite mulmxBl -(mulmxA K).
have Hinv : (P - K *m (H *m P)) *m (invmx P + H^T *m invmx r *m H) = 1%:M.
  by rewrite mulmxDr E1 2!mulmxA E2 mulmxK // subrK.
have [Hu' _] := mulmx1_unit Hinv.
have HI : invmx (P - K *m (H *m P)) = invmx P + H^T *m invmx r *m H.
  by rewrite -[RHS]mul1mx -(mulVmx Hu') -mulmxA Hinv mulmx1.
split=> //.
have HKi : invmx (P - K *m (H *m P)) *m K = H^T *m invmx r.
  have E : (P - K *m (H *m P)) *m (H^T *m invmx r) = K.
    by rewrite mulmxA E2 mulmxK.
  by rewrite -{2}E mulKmx.
rewrite (mulmxDr (invmx _)) (mulmxA (invmx _) K) HKi HI mulmxDl mulmxBr -!mulmxA -addrA; congr (_ + _).
by rewrite addrC subrK.
Qed.
End Filter.
