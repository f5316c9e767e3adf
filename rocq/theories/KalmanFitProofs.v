From mathcomp Require Import all_ssreflect all_algebra.
From Verif Require Import PyExn LinAlgModel LinAlgSpec LinAlgProofs KalmanModel KalmanSpec KalmanProofs KalmanHistory KalmanFitSpec FieldTac.
From Coq Require Import Ring Field.
Set Implicit Arguments. Unset Strict Implicit. Unset Printing Implicit Defensive.
Import Order.TTheory GRing.Theory Num.Theory.
Local Open Scope ring_scope.

Section Quad.
Variables (F : realFieldType).
Add Field Ffield5 : (F_field F).
Lemma quad_ge0 d (A : 'M[F]_d) e : psd A -> 0 <= quad A e.
Proof. by move=> [_ H]; have := H e^T; rewrite trmxK. Qed.
Lemma quad_eq0 d (A : 'M[F]_d) e : psd A -> A \in unitmx -> quad A e = 0 -> e = 0.
Proof.
move=> HA Hu H0; have := @psd_null F d A e^T HA; rewrite trmxK => /(_ H0) /(congr1 (mulmx^~ (invmx A))).
by rewrite mulmxK // mul0mx => /(congr1 trmx); rewrite trmxK trmx0.
Qed.
Lemma quadD d (A : 'M[F]_d) u v : A^T = A -> quad A (u + v) = quad A u + (u^T *m (A *m v)) 0 0 *+ 2 + quad A v.
Proof.
move=> HA; rewrite /quad (linearD (trmx_linear _ _ _)) /= mulmxDl !mulmxDr !mulmxDl !mulmxA mxE [X in X + _]mxE [X in _ + X]mxE.
have -> : (v^T *m A *m u) 0 0 = (u^T *m A *m v) 0 0 by rewrite -[in LHS](trmxK (v^T *m A *m u)) mxE !trmx_mul trmxK HA mulmxA.
by rewrite mulr2n !addrA.
Qed.
Lemma quadN d (A : 'M[F]_d) u : quad A (- u) = quad A u.
Proof. by rewrite /quad (linearN (trmx_linear _ _ _)) /= mulmxN !mulNmx opprK. Qed.
Lemma quadZ d (A : 'M[F]_d) a u : quad (a *: A) u = a * quad A u.
Proof. by rewrite /quad -scalemxAr -scalemxAl mxE. Qed.

(** Completing the square. *)
Lemma square d z (A : 'M[F]_d) (H : 'M[F]_(z, d)) (W : 'M[F]_z) (x x' g : 'cV[F]_d) (y : 'cV[F]_z) : A^T = A -> W^T = W ->
  (A + H^T *m W *m H) *m x' = A *m x + H^T *m W *m y ->
  quad A (g - x) + quad W (y - H *m g) = quad A (x' - x) + quad W (y - H *m x') + quad (A + H^T *m W *m H) (g - x').
Proof.
move=> HA HW Hx; set e := g - x'.
have -> : g - x = e + (x' - x) by rewrite addrA subrK.
have -> : y - H *m g = - (H *m e) + (y - H *m x') by rewrite [RHS]addrC /e mulmxBr opprB addrA subrK.
clearbody e; rewrite (quadD e) // (quadD (- (H *m e))) // quadN.
have -> : quad (A + H^T *m W *m H) e = quad A e + quad W (H *m e).
  by rewrite /quad mulmxDr mulmxDl mxE; congr (_ + _); rewrite trmx_mul !mulmxA.
have E : (e^T *m (A *m (x' - x))) 0 0 + ((- (H *m e))^T *m (W *m (y - H *m x'))) 0 0 = 0.
  have -> : A *m (x' - x) = H^T *m (W *m (y - H *m x')).
    rewrite !mulmxBr; apply/eqP; rewrite subr_eq addrAC eq_sym subr_eq !mulmxA eq_sym addrC; apply/eqP.
    by rewrite [RHS]addrC -Hx mulmxDl addrC.
  by rewrite (linearN (trmx_linear _ _ _)) /= mulNmx [X in _ + X]mxE trmx_mul -mulmxA subrr.
set q1 := quad A e; set q2 := quad A (x' - x); set q3 := quad W (H *m e); set q4 := quad W (y - H *m x').
move: E; set u := (e^T *m _) 0 0; set w := (_ *m (W *m _)) 0 0 => E.
have -> : q1 + u *+ 2 + q2 + (q3 + w *+ 2 + q4) = q2 + q4 + (q1 + q3) + (u + w) *+ 2.
  by rewrite !mulr2n; move: q1 q2 q3 q4 u w {E} => q1 q2 q3 q4 u w; fold_field F; ring.
by rewrite E mul0rn addr0.
Qed.
End Quad.

Section Fit.
Variables (F : realFieldType) (m n : nat).
Variables (alpha : F) (R0 : 'M[F]_m) (x0 : 'cV[F]_(m * n)) (P0 : 'M[F]_(m * n)).
Hypothesis Ha : alpha != 0.
Hypothesis HP0 : psd P0.
Hypothesis Hu0 : P0 \in unitmx.
Implicit Types (k : filter F (m * n) m) (c : call F m n) (G : 'M[F]_(m, n)).
Local Notation cost := (fit_cost alpha R0 x0 P0).

Definition fits cs k : Prop := [/\ kf_F k = 1%:M, kf_Q k = 0, kf_R k = R0, kf_alpha k = alpha &
  [/\ psd (kf_P k), kf_P k \in unitmx & exists K, forall G, cost cs G = K + quad (invmx (kf_P k)) ((mxvec G)^T - kf_x k)]].

Lemma fits_call cs k c : fits cs k -> weighted R0 c -> fits (c :: cs) (run_call k c) /\ (kg_update (c_diff c) (c_vals c) (c_R c) (c_Q c) (c_predict c) k).2 = Ok tt.
Proof.
move=> [EF EQ ER Ea [HP Hu [K HK]]] [HQ [Hr Hur]].
rewrite /run_call /kg_update HQ.
set k1 := if c_predict c then predict None k else k.
have E2 : 0 < alpha ^+ 2 by rewrite lt_neqAle eq_sym expf_neq0 // sqr_ge0.
have Ek1 : [/\ kf_F k1 = 1%:M, kf_Q k1 = 0, kf_R k1 = R0, kf_alpha k1 = alpha & kf_x k1 = kf_x k].
  by rewrite /k1; case: c_predict; split=> //=; rewrite EF mul1mx.
have EP1 : kf_P k1 = (if c_predict c then alpha ^+ 2 else 1) *: kf_P k.
  by rewrite /k1; case: c_predict; rewrite ?scale1r //= EF EQ Ea trmx1 mulmx1 mul1mx addr0.
case: Ek1 => EF1 EQ1 ER1 Ea1 Ex1.
set a := (if c_predict c then alpha ^+ 2 else 1) in EP1.
have Ha0 : 0 < a by rewrite /a; case: c_predict; rewrite ?ltr01.
have HP1 : psd (kf_P k1) by rewrite EP1; apply: psd_scale => //; exact: ltW.
have Hu1 : kf_P k1 \in unitmx by rewrite EP1 unitmxZ // unitfE gt_eqF.
have HS : create_H m (c_diff c) *m kf_P k1 *m (create_H m (c_diff c))^T + weight R0 c \in unitmx.
  by apply: psd_unit_add => //; exact: psd_congr.
have Hw : (if c_R c is Some r' then r' else kf_R k1) = weight R0 c by rewrite /weight ER1.
have [Hok [Ex EP]] := correct_ok (c_vals c) Hw HP1.1 Hr.1 HS.
have [K1 [K2 [K3 K4]]] := correct_keeps (c_vals c) (c_R c) (create_H m (c_diff c)) k1.
have [Hu' Hinv Hx'] := information (kf_x k1) (c_vals c) HP1.1 Hu1 Hur HS.
rewrite -EP in Hu' Hinv Hx'; rewrite -Ex in Hx'.
have HW : psd (invmx (weight R0 c)) by apply: psd_inv.
have Hpsd : psd (invmx (kf_P k1) + (create_H m (c_diff c))^T *m invmx (weight R0 c) *m create_H m (c_diff c)).
  apply: psd_add; first exact: psd_inv.
  by have := psd_congr (create_H m (c_diff c))^T HW; rewrite trmxK.
split=> //; split; rewrite ?K1 ?K2 ?K3 ?K4 //; split=> //.
  by rewrite -[kf_P _]invmxK Hinv; apply: psd_inv => //; rewrite -Hinv unitmx_inv.
eexists=> G /=; rewrite HK mulrDr -addrA.
have -> : (if c_predict c then (alpha ^+ 2)^-1 else 1) = a^-1 by rewrite /a; case: c_predict; rewrite ?invr1.
have -> : a^-1 * quad (invmx (kf_P k)) ((mxvec G)^T - kf_x k) = quad (invmx (kf_P k1)) ((mxvec G)^T - kf_x k1).
  by rewrite Ex1 EP1 invmxZ -?EP1 // quadZ.
have -> : misfit R0 c G = quad (invmx (weight R0 c)) (c_vals c - create_H m (c_diff c) *m (mxvec G)^T).
  by rewrite /misfit create_H_mul trmxK mxvecK.
rewrite Hinv in Hx'.
by rewrite (square _ (psd_inv Hu1 HP1).1 HW.1 Hx') -Hinv addrA; reflexivity.
Qed.

Lemma fits_history k cs : kf_F k = 1%:M -> kf_Q k = 0 -> kf_R k = R0 -> kf_alpha k = alpha -> kf_x k = x0 -> kf_P k = P0 ->
  (forall i c0, (i < size cs)%N -> weighted R0 (nth c0 cs i)) -> fits (rev cs) (history k cs).
Proof.
move=> EF EQ ER Ea Ex EP; elim/last_ind: cs => [|cs c IH] Hc.
  by split=> //; rewrite EP; split=> //; exists 0 => G; rewrite add0r Ex.
rewrite rev_rcons /history -cats1 foldl_cat /=; apply: (fits_call _ _).1.
- by apply: IH => i c0 Hi; have := Hc i c0; rewrite size_rcons nth_rcons Hi; apply; exact: ltnW.
- by have := Hc (size cs) c; rewrite size_rcons nth_rcons ltnn eqxx; apply.
Qed.

Lemma fits_best cs k G : fits cs k -> cost cs G = cost cs (grad k) + quad (invmx (kf_P k)) ((mxvec G)^T - kf_x k).
Proof.
move=> [_ _ _ _ [_ _ [K HK]]]; rewrite (HK (grad k)) /grad vec_mxK trmxK subrr.
by rewrite [quad _ 0]/quad mulmx0 mxE addr0; exact: HK.
Qed.
End Fit.

Section Bound.
Variables (F : realFieldType) (d : nat) (P : 'M[F]_d).
Add Field Ffield6 : (F_field F).
Hypothesis HP : psd P.
Hypothesis Hu : P \in unitmx.
(** Schwarz' inequality in the metric of a covariance. *)
Lemma quad_schwarz (v : 'rV[F]_d) (e : 'cV[F]_d) : (v *m e) 0 0 ^+ 2 <= variance P v * quad (invmx P) e.
Proof.
set A := variance P v; set B := quad (invmx P) e; set s := (v *m e) 0 0.
have [A0|A0] := eqVneq A 0.
  have Hz := psd_null HP A0; have -> : s = 0; last by rewrite A0 mul0r expr0n.
  by rewrite /s -[v](mulmxK Hu) Hz mul0mx mul0mx mxE.
have HA : 0 < A by rewrite lt_neqAle eq_sym A0; exact: HP.2.
have Es : (e^T *m v^T) 0 0 = s by rewrite -trmx_mul mxE.
have := HP.2 (s *: v - A *: (e^T *m invmx P)).
have -> : ((s *: v - A *: (e^T *m invmx P)) *m P *m (s *: v - A *: (e^T *m invmx P))^T) 0 0 = A * (A * B - s ^+ 2).
  have -> : (s *: v - A *: (e^T *m invmx P)) *m P = s *: (v *m P) - A *: e^T.
    by rewrite mulmxBl -!scalemxAl mulmxKV.
  have -> : (s *: v - A *: (e^T *m invmx P))^T = s *: v^T - A *: (invmx P *m e).
    by rewrite (linearB (trmx_linear _ _ _)) /= !linearZ /= trmx_mul trmxK trmx_inv HP.1.
  rewrite mulmxBl !mulmxBr -!scalemxAl -!scalemxAr.
  rewrite [v *m P *m (invmx P *m e)]mulmxA (mulmxK Hu) [e^T *m (_ *m e)]mulmxA.
  move: (erefl A) (erefl B) (erefl s) Es; rewrite {1}/A {1}/B {1}/s /variance /quad.
  move: (v *m P *m v^T) (v *m e) (e^T *m v^T) (e^T *m invmx P *m e) => Q1 Q2 Q3 Q4 E1 E4 E2 E3.
  rewrite !mxE E1 E2 E3 E4; clear E1 E2 E3 E4; clearbody s; clearbody B; clear HA A0; clearbody A; fold_field F; ring.
by rewrite pmulr_rge0 // subr_ge0.
Qed.
End Bound.
