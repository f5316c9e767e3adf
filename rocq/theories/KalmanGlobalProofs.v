(** What every measurement teaches a Kalman estimator. *)
From mathcomp Require Import all_ssreflect all_algebra.
From Coq Require Import Ring Field.
From Verif Require Import PyExn FieldTac LinAlgModel LinAlgSpec LinAlgProofs FDProofs LoopProofs KalmanModel KalmanSpec KalmanProofs KalmanHistory KalmanRequests KalmanLoopModel KalmanLoopSpec KalmanLoopProofs KalmanFitSpec KalmanFitProofs KalmanGlobalSpec.
Set Implicit Arguments. Unset Strict Implicit. Unset Printing Implicit Defensive.
Import Order.TTheory GRing.Theory Num.Theory.
Local Open Scope ring_scope.

Section Titu.
Variable F : realFieldType.
Add Field Ffield7 : (F_field F).
Lemma am_gm (x y h : F) : 0 <= x -> 0 <= y -> h ^+ 2 <= x * y -> h *+ 2 <= x + y.
Proof.
move=> Hx Hy Hh; have [H0|H0] := lerP (h *+ 2) 0; first by apply: (le_trans H0); exact: addr_ge0.
rewrite -(@ler_pexpn2r _ 2) //; [| by rewrite nnegrE ltW | by rewrite nnegrE addr_ge0].
pose c : F := (1 + 1) + (1 + 1); have Hc : 0 < c by rewrite /c !addr_gt0 ?ltr01.
have -> : (h *+ 2) ^+ 2 = c * h ^+ 2 by rewrite mulr2n /c; clear; fold_field F; ring.
apply: (@le_trans _ _ (c * (x * y))); first by rewrite ler_pmul2l.
rewrite -subr_ge0; have -> : (x + y) ^+ 2 - c * (x * y) = (x - y) ^+ 2 by rewrite /c; clear; fold_field F; ring.
exact: sqr_ge0.
Qed.
(** A measured difference [i], split into a part [h] explained by changing the
    gradient and the rest. *)
Lemma split_cost (v r a h i : F) : 0 <= v -> 0 < r -> 0 <= a -> h ^+ 2 <= v * a ->
  i ^+ 2 / (v + r) <= a + (i - h) ^+ 2 / r.
Proof.
move=> Hv Hr Ha Hh; have Hs : 0 < v + r by rewrite ltr_paddl.
rewrite ler_pdivr_mulr //; set b := i - h; have -> : i = h + b by rewrite /b addrC subrK.
clearbody b; have Hr0 : r <> 0 by apply/eqP; rewrite gt_eqF.
have E : (a + b ^+ 2 / r) * (v + r) = v * a + b ^+ 2 + (r * a + v * b ^+ 2 / r).
  by clear Hh; fold_field F; field.
have H2 : (h * b) *+ 2 <= r * a + v * b ^+ 2 / r.
  apply: am_gm; [exact: mulr_ge0 (ltW Hr) Ha | apply: divr_ge0; [apply: mulr_ge0 => //; exact: sqr_ge0 | exact: ltW] |].
  have -> : r * a * (v * b ^+ 2 / r) = v * a * b ^+ 2 by clear Hh E; fold_field F; field.
  by rewrite exprMn ler_wpmul2r ?sqr_ge0.
have -> : (h + b) ^+ 2 = h ^+ 2 + b ^+ 2 + (h * b) *+ 2 by rewrite mulr2n; clear; fold_field F; ring.
by rewrite E; apply: ler_add => //; apply: ler_add.
Qed.
End Titu.

Section One.
Variables (F : realFieldType) (n : nat).
Implicit Types (g d : 'rV[F]_n) (kf : filter F (1 * n) 1).
Definition energy g kf : F := quad (invmx (kf_P kf)) ((mxvec g)^T - kf_x kf).
Definition regular kf : Prop := [/\ static kf, psd (kf_P kf) & kf_P kf \in unitmx].

Lemma energy_ge0 g kf : regular kf -> 0 <= energy g kf.
Proof. by move=> [_ HP Hu]; apply: quad_ge0; exact: psd_inv. Qed.

Lemma update_learns g kf d (y r : F) : regular kf -> 0 < r ->
  let u := kg_update d y%:M (Some r%:M) None true kf in
  [/\ u.2 = Ok tt, regular u.1, forall v, variance (kf_P u.1) v <= variance (kf_P kf) v &
      energy g u.1 <= energy g kf - (y - (grad kf *m d^T) 0 0) ^+ 2 / (variance (kf_P kf) (mxvec d) + r)
                      + (y - (g *m d^T) 0 0) ^+ 2 / r].
Proof.
move=> [Hs HP Hu] Hr u.
pose c := mk_call d (y%:M : 'cV[F]_1) (Some r%:M) None true.
have HR : psd (used_R kf c) by exact/psd_scalar/ltW.
have HuR : used_R kf c \in unitmx by rewrite /used_R /= -scalemx1 unitmxZ ?unitmx1 // unitfE gt_eqF.
have HQ : c_Q c = None by [].
have [U I X] := call_information Hs HQ HP Hu HR HuR.
have Hok : u.2 = Ok tt.
  rewrite /u /kg_update predict_static // /correct.
  by rewrite psd_unit_add //; exact: psd_congr.
have E : u.1 = run_call kf c by [].
rewrite Hok E; clear E u Hok; set k' := run_call kf c in U I X *.
split=> //.
- split=> //; first exact: static_keep.
  by rewrite /k' static_call // /correct /=; case: ifP => //= _; apply: psd_add; apply: psd_congr.
- by move=> v; exact: call_variance.
have HI := psd_inv Hu HP.
have HW : (invmx (used_R kf c))^T = invmx (used_R kf c) by rewrite trmx_inv HR.1.
have := square (A := invmx (kf_P kf)) (H := create_H 1 d) (W := invmx (used_R kf c)) (x := kf_x kf) (x' := kf_x k') (mxvec g)^T (y := y%:M) HI.1 HW.
rewrite -I => /(_ X); rewrite -/(energy g kf) -/(energy g k').
have HH : create_H 1 d = mxvec d by exact: create_H1.
have Hq (z : F) : quad (invmx (used_R kf c)) (z%:M : 'cV[F]_1) = z ^+ 2 / r.
  rewrite /quad /used_R /= invmx_scalar tr_scalar_mx -!scalar_mxM mxE eqxx mulr1n.
  by rewrite expr2 mulrAC.
have sc (M : 'M[F]_1) : y%:M - M = (y - M 0 0)%:M by rewrite [M in LHS]mx11_scalar -raddfB.
rewrite !sc !Hq; set h' := (_ *m kf_x k') 0 0; set a := quad _ (kf_x k' - kf_x kf).
have -> : (create_H 1 d *m (mxvec g)^T) 0 0 = (g *m d^T) 0 0 by rewrite create_H_mul trmxK mxvecK.
set nu := _ ^+ 2 / r => Esq.
pose h := (mxvec d *m (kf_x k' - kf_x kf)) 0 0.
have Hh : h ^+ 2 <= variance (kf_P kf) (mxvec d) * a by exact: quad_schwarz.
have Ei : y - h' = (y - (grad kf *m d^T) 0 0) - h.
  have -> : h = h' - (grad kf *m d^T) 0 0 by rewrite /h /h' /grad -create_H_mul HH mulmxBr mxE; congr (_ + _); rewrite mxE.
  by rewrite opprB addrA subrK.
have Hv : 0 <= variance (kf_P kf) (mxvec d) by exact: HP.2.
have Ha : 0 <= a by apply: quad_ge0.
have := split_cost (y - (grad kf *m d^T) 0 0) Hv Hr Ha Hh; rewrite -Ei => Hm.
have -> : energy g k' = energy g kf + nu - (a + (y - h') ^+ 2 / r) by rewrite Esq addrAC subrr add0r.
by rewrite [X in _ <= X]addrAC ler_add2l ler_opp2.
Qed.

Lemma trace_variance (P Q : 'M[F]_(1 * n)) : (forall v, variance P v <= variance Q v) -> \tr P <= \tr Q.
Proof.
move=> H; rewrite /mxtrace; apply: ler_sum => i _; have := H (delta_mx 0 i).
by rewrite /variance -!rowE trmx_delta -!colE !mxE.
Qed.
End One.

Section Many.
Variables (F : realFieldType) (n k : nat).
Implicit Types (A : 'M[F]_(k, n)) (st : mkn F n k) (e : mkal F n).

Lemma mkal_learns g e p (y r : F) : regular (mk_kf e) -> 0 < r ->
  let u := mkal_update p y r e in
  [/\ u.2 = Ok tt, regular (mk_kf u.1), mk_pos u.1 = p /\ mk_val u.1 = Some y,
      forall v, variance (kf_P (mk_kf u.1)) v <= variance (kf_P (mk_kf e)) v &
      energy g (mk_kf u.1) <= energy g (mk_kf e) -
        (if mk_val e is Some v0 then
           if shortest2 F <= sqn (p - mk_pos e) then
             (y - v0 - (grad (mk_kf e) *m (p - mk_pos e)^T) 0 0) ^+ 2 / (variance (kf_P (mk_kf e)) (mxvec (p - mk_pos e)) + r)
             - (y - v0 - (g *m (p - mk_pos e)^T) 0 0) ^+ 2 / r
           else 0
         else 0)].
Proof.
move=> Hg Hr /=; rewrite /mkal_update; case: (mk_val e) => [v0|]; last by rewrite subr0.
rewrite ltNge; case: (shortest2 F <= _) => /=; last by rewrite subr0.
have [E Hg' Hv He] := update_learns g (p - mk_pos e) (y - v0) Hg Hr.
rewrite /= in E Hg' Hv He *; rewrite E; split=> //=.
by apply: (le_trans He); rewrite opprB addrA [X in _ <= X]addrAC.
Qed.

Definition good st : Prop := forall i, regular (mk_kf (kn_ests st i)).
Definition synced st : Prop := forall i, mk_pos (kn_ests st i) = kn_pos st /\ mk_val (kn_ests st i) = Some (kn_vals st 0 i).
Definition total A st : F := \sum_i energy (row i A) (mk_kf (kn_ests st i)).
Definition surprise st (d : 'rV[F]_n) (vals : 'rV[F]_k) (i : 'I_k) : F :=
  (vals - kn_vals st) 0 i - (grad (mk_kf (kn_ests st i)) *m d^T) 0 0.
Definition cov_of st (i : 'I_k) : 'M[F]_(1 * n) := kf_P (mk_kf (kn_ests st i)).

Lemma total_ge0 A st : good st -> 0 <= total A st.
Proof. by move=> H; apply: sumr_ge0 => i _; exact: energy_ge0. Qed.

Lemma kn_learns A st v (vals vars : 'rV[F]_k) : good st -> (forall i, 0 < vars 0 i) ->
  exists st', [/\ kn_update v vals vars st = Ok st', good st', synced st' & kn_desired st' = kn_desired st] /\
    [/\ kn_pos st' = v, kn_vals st' = vals, forall i u, variance (cov_of st' i) u <= variance (cov_of st i) u,
      (forall i, mk_val (kn_ests st i) = None) -> total A st' <= total A st &
      synced st -> total A st' <= total A st -
        (if shortest2 F <= sqn (v - kn_pos st) then
           \sum_i (surprise st (v - kn_pos st) vals i ^+ 2 / (variance (cov_of st i) (mxvec (v - kn_pos st)) + vars 0 i)
             - ((vals - kn_vals st) 0 i - (row i A *m (v - kn_pos st)^T) 0 0) ^+ 2 / vars 0 i)
         else 0)].
Proof.
move=> Hg Hv; pose L i := mkal_learns (row i A) v (vals 0 i) (Hg i) (Hv i).
rewrite /kn_update first_exn_ok; last by move=> i; have [] := L i.
eexists; split; first split; first reflexivity.
- by move=> i; have [] := L i.
- by move=> i; have [_ _ H] := L i.
- by [].
split=> //.
- move=> i u; have [_ _ _ H _] := L i; exact: (H u).
- move=> Hn; apply: ler_sum => i _; have [_ _ _ _] := L i; by rewrite Hn subr0.
- move=> Hs; rewrite /total; case: ifP => Hl; last first.
    rewrite subr0; apply: ler_sum => i _; have [_ _ _ _] := L i; have [-> ->] := Hs i; by rewrite Hl subr0.
  rewrite -sumrB; apply: ler_sum => i _; have [_ _ _ _] := L i; have [-> ->] := Hs i; rewrite Hl => H.
  apply: (le_trans H); rewrite /surprise /cov_of; have -> : (vals - kn_vals st) 0 i = vals 0 i - kn_vals st 0 i by rewrite !mxE.
  by [].
Qed.
End Many.

Section Runs.
Variables (F : realFieldType) (n k : nat) (A : 'M[F]_(k, n)).
Variables (request : 'I_k -> mkal F n -> option 'rV[F]_n) (f w : nat -> 'rV[F]_n -> 'rV[F]_k) (s : nat -> mkn F n k * 'rV[F]_n).
Hypothesis Hw : forall t p i, 0 < w t p 0 i.
Hypothesis H0 : forall i, untold (kn_ests (s 0%N).1 i).
Hypothesis Hrun : run_of request f w s.

Lemma start_good : good (s 0%N).1.
Proof. by move=> i; have [? ? ? _] := H0 i. Qed.

Lemma round_learns t : good (s t).1 ->
  [/\ good (s t.+1).1, synced (s t.+1).1, kn_desired (s t.+1).1 = kn_desired (s t).1 & (s t.+1).2 = kn_suggest request (s t.+1).1] /\
  [/\ kn_pos (s t.+1).1 = (s t).2, kn_vals (s t.+1).1 = f t (s t).2, forall i u, variance (cov_of (s t.+1).1 i) u <= variance (cov_of (s t).1 i) u,
      (forall i, mk_val (kn_ests (s t).1 i) = None) -> total A (s t.+1).1 <= total A (s t).1 &
      synced (s t).1 -> total A (s t.+1).1 <= total A (s t).1 -
        (if long s t then
           \sum_i (surprise (s t).1 (step_of s t) (f t (s t).2) i ^+ 2 / (variance (cov_of (s t).1 i) (mxvec (step_of s t)) + w t (s t).2 0 i)
             - unexplained A f s t i ^+ 2 / w t (s t).2 0 i)
         else 0)].
Proof.
move=> Hg; have [st' [[E G S D] [P V C N L]]] := kn_learns A (s t).2 (f t (s t).2) Hg (Hw t (s t).2).
have := Hrun t; rewrite /kn_round E => -[Es]; rewrite -Es /=.
by split; split.
Qed.
Lemma run_facts t : [/\ good (s t.+1).1, synced (s t.+1).1, kn_desired (s t.+1).1 = kn_desired (s 0%N).1,
  (s t.+1).2 = kn_suggest request (s t.+1).1 & forall i u, variance (cov_of (s t.+1).1 i) u <= variance (cov_of (s 0%N).1 i) u].
Proof.
elim: t => [|t [G S D _ C]].
  by have [[G S D E] [_ _ C _ _]] := round_learns start_good.
have [[G' S' D' E'] [_ _ C' _ _]] := round_learns G; split=> //; first by rewrite D'.
by move=> i u; exact: le_trans (C' i u) (C i u).
Qed.
Lemma run_learns N : total A (s N.+1).1 + \sum_(t < N | long s t.+1) \sum_i
    surprise (s t.+1).1 (step_of s t.+1) (f t.+1 (s t.+1).2) i ^+ 2 / (variance (cov_of (s t.+1).1 i) (mxvec (step_of s t.+1)) + w t.+1 (s t.+1).2 0 i)
  <= total A (s 0%N).1 + \sum_(t < N | long s t.+1) \sum_i unexplained A f s t.+1 i ^+ 2 / w t.+1 (s t.+1).2 0 i.
Proof.
elim: N => [|N IH].
  rewrite !big_ord0 !addr0; have [_ [_ _ _ H _]] := round_learns start_good.
  by apply: H => i; have [_ _ _ ->] := H0 i.
rewrite big_mkcond [X in _ <= _ + X]big_mkcond !big_ord_recr -!big_mkcond /=.
have [G S _ _ _] := run_facts N.
have [_ [_ _ _ _ /(_ S) H]] := round_learns G.
case: (long s N.+1) H => H; last by rewrite !addr0; rewrite subr0 in H; apply: le_trans IH; rewrite ler_add2r.
rewrite sumrB in H.
set X := \sum_i _ ^+ 2 / (_ + _) in H *; set Y := \sum_i _ ^+ 2 / _ in H *.
set U := \sum_(t < N | _) _ in IH *; set V := \sum_(t < N | _) _ in IH *.
apply: (@le_trans _ _ (total A (s N.+1).1 - (X - Y) + (U + X))); first by rewrite ler_add2r.
have -> : total A (s N.+1).1 - (X - Y) + (U + X) = total A (s N.+1).1 + U + Y.
  by rewrite opprB addrACA subrK.
by rewrite addrA ler_add2r.
Qed.

Lemma newton_surprise t i : newton request s t.+1 -> surprise (s t.+1).1 (step_of s t.+1) (f t.+1 (s t.+1).2) i = - (kn_desired (s 0%N).1 - f t.+1 (s t.+1).2) 0 i.
Proof.
move=> /and3P [/forallP Hn Hf _]; have [_ _ D E _] := run_facts t.
have Es : step_of s t.+1 = (lstsq (kn_jacobian (kn_ests (s t.+1).1)) (kn_desired (s t.+1).1 - kn_vals (s t.+1).1)^T)^T.
  rewrite /step_of {1}E /kn_suggest; case Ep: (pmap _ _) => [|p l]; first by rewrite addrAC subrr add0r.
  have : p \in pmap (fun i => request i (kn_ests (s t.+1).1 i)) (enum 'I_k) by rewrite Ep mem_head.
  by rewrite mem_pmap => /mapP [j _ Ej]; have := Hn j; rewrite -Ej.
rewrite /surprise; set J := kn_jacobian _ in Es Hf *; set b := (_ - _)^T in Es.
have Hsol := lstsq_exact b Hf.
have -> : (grad (mk_kf (kn_ests (s t.+1).1 i)) *m (step_of s t.+1)^T) 0 0 = (J *m (step_of s t.+1)^T) i 0.
  rewrite [in LHS]mxE [in RHS]mxE; apply: eq_bigr => j _; by rewrite /J [kn_jacobian _ _ _]mxE.
rewrite Es trmxK Hsol /b D; rewrite !mxE; set a := f _ _ _ _; set x := kn_vals _ _ _; set y := kn_desired _ _ _.
by rewrite !opprB addrA subrK.
Qed.
End Runs.

Section Bounds.
Variables (F : realFieldType) (n k : nat) (A : 'M[F]_(k, n)).
Variables (request : 'I_k -> mkal F n -> option 'rV[F]_n) (f w : nat -> 'rV[F]_n -> 'rV[F]_k) (s : nat -> mkn F n k * 'rV[F]_n).
Hypothesis Hw : forall t p i, 0 < w t p 0 i.
Hypothesis H0 : forall i, untold (kn_ests (s 0%N).1 i).
Hypothesis Hrun : run_of request f w s.

Lemma sqn_mxvec (d : 'rV[F]_n) : sqn (mxvec d) = sqn d.
Proof. by rewrite -[LHS]sqn_tr -sqn_vec trmxK mxvecK. Qed.

Lemma newton_cost t (L wmax : F) : newton request s t.+1 -> 0 <= L ->
  (forall i u, variance (cov_of (s t.+1).1 i) u <= L * sqn u) -> (forall i, w t.+1 (s t.+1).2 0 i <= wmax) ->
  sqn (kn_desired (s 0%N).1 - f t.+1 (s t.+1).2) / (wmax + L * sqn (step_of s t.+1)) <=
  \sum_i surprise (s t.+1).1 (step_of s t.+1) (f t.+1 (s t.+1).2) i ^+ 2 / (variance (cov_of (s t.+1).1 i) (mxvec (step_of s t.+1)) + w t.+1 (s t.+1).2 0 i).
Proof.
move=> Hn HL Hv Hm; rewrite /sqn big_ord1 mulr_suml; apply: ler_sum => i _.
rewrite (newton_surprise A Hw H0 Hrun i Hn) sqrrN; apply: ler_wpmul2l; first exact: sqr_ge0.
have [G _ _ _ _] := run_facts A Hw H0 Hrun t; have [_ HP _] := G i.
have Hp : 0 < variance (cov_of (s t.+1).1 i) (mxvec (step_of s t.+1)) + w t.+1 (s t.+1).2 0 i.
  by apply: ltr_paddl; [exact: HP.2 | exact: Hw].
have Hle : variance (cov_of (s t.+1).1 i) (mxvec (step_of s t.+1)) + w t.+1 (s t.+1).2 0 i <= wmax + L * sqn (step_of s t.+1).
  by rewrite addrC; apply: ler_add; [exact: Hm | rewrite -sqn_mxvec; exact: Hv].
rewrite lef_pinv ?posrE //; exact: lt_le_trans Hle.
Qed.

Lemma regret N (L wmax : F) : 0 <= L -> (forall t i u, newton request s t.+1 -> variance (cov_of (s t.+1).1 i) u <= L * sqn u) ->
  (forall t p i, w t p 0 i <= wmax) ->
  \sum_(t < N | newton request s t.+1) sqn (kn_desired (s 0%N).1 - f t.+1 (s t.+1).2) / (wmax + L * sqn (step_of s t.+1)) <=
  total A (s 0%N).1 + \sum_(t < N | long s t.+1) \sum_i unexplained A f s t.+1 i ^+ 2 / w t.+1 (s t.+1).2 0 i.
Proof.
move=> HL Hv Hm; apply: le_trans (run_learns A Hw H0 Hrun N).
have [G _ _ _ _] := run_facts A Hw H0 Hrun N.
rewrite -[X in X <= _]add0r; apply: ler_add; first exact: total_ge0.
rewrite big_mkcond [X in _ <= X]big_mkcond; apply: ler_sum => t _.
case: ifP => Hn; last first.
  case: ifP => // _; apply: sumr_ge0 => i _; apply: divr_ge0; first exact: sqr_ge0.
  have [Gt _ _ _ _] := run_facts A Hw H0 Hrun t; have [_ HP _] := Gt i.
  by apply: addr_ge0; [exact: HP.2 | exact: ltW].
have -> : long s t.+1 by case/and3P: (Hn).
by apply: newton_cost => // i u; exact: Hv.
Qed.

Section Asking.
Variables (M wmax emin emax : F) (eps : 'rV[F]_n).
Hypothesis HM : 0 < M.
Hypothesis Hask : asks_like M eps request.
Hypothesis Hmax : forall t p i, w t p 0 i <= wmax.
Hypothesis Hemin : 0 < emin.
Hypothesis Heps : forall i, emin <= eps 0 i <= emax.

Lemma variance_place (kf : filter F (1 * n) 1) (u : 'rV[F]_(1 * n)) : variance (kf_P kf) u = variance (gate_cov kf) (u *m (place F n)^T).
Proof.
rewrite place_gate /variance; set Q := place F n.
have E : u *m Q^T *m Q = u by rewrite -mulmxA place_tr mulmx1.
by rewrite -[in LHS]E (trmx_mul (u *m Q^T) Q) !mulmxA.
Qed.

Lemma quiet_variance t : ~~ asks request s t.+1 -> forall i u, variance (cov_of (s t.+1).1 i) u <= M * sqn u.
Proof.
move=> Hn i u; have [G _ _ _ _] := run_facts A Hw H0 Hrun t; have [_ HP _] := G i.
have HC := gate_psd HP; have [vals [vecs [HE Hr]]] := Hask i HC.
have := require_uniform HE eps (mk_pos (kn_ests (s t.+1).1 i)) HC HM; rewrite -Hr.
have -> : request i (kn_ests (s t.+1).1 i) = None.
  by move: Hn; rewrite negb_exists => /forallP /(_ i); case: (request _ _).
by move=> /(_ (u *m (place F n)^T)); rewrite place_sqn -variance_place.
Qed.

Definition trace_all (st : mkn F n k) : F := \sum_i \tr (cov_of st i).
Definition drop : F := M ^+ 2 * emin ^+ 2 / (M * emax ^+ 2 + wmax).

Lemma asks_drop t : shortest2 F <= emin ^+ 2 -> asks request s t.+1 -> trace_all (s t.+2).1 <= trace_all (s t.+1).1 - drop.
Proof.
move=> Hsh Ha; have [G S _ E _] := run_facts A Hw H0 Hrun t.
have [_ [_ _ C _ _]] := round_learns A Hw Hrun G.
have [i Hi] : exists i, request i (kn_ests (s t.+1).1 i) = Some (s t.+1).2.
  rewrite E /kn_suggest; case Ep: (pmap _ _) => [|p l].
    case/existsP: Ha => i Hi; case Er: (request i _) Hi => [p|//] _.
    have : p \in pmap (fun i => request i (kn_ests (s t.+1).1 i)) (enum 'I_k).
      by rewrite mem_pmap -Er; apply: map_f; rewrite mem_enum.
    by rewrite Ep.
  have : p \in pmap (fun i => request i (kn_ests (s t.+1).1 i)) (enum 'I_k) by rewrite Ep mem_head.
  by rewrite mem_pmap => /mapP [i _ ->]; exists i.
have [Hst HP Hu] := G i; have HC := gate_psd HP; have [vals [vecs [HE Hr]]] := Hask i HC.
have Hreq : kal_require vals vecs (const_mx M^-1) eps (mk_pos (kn_ests (s t.+1).1 i)) = Some (s t.+1).2 by rewrite -Hr.
rewrite /trace_all (bigD1 i) //= [X in _ <= X - _](bigD1 i) //= addrAC; apply: ler_add; last first.
  by apply: ler_sum => j _; apply: trace_variance => v; exact: C.
have [Hp Hval] := S i.
have Hlong : shortest2 F <= sqn ((s t.+1).2 - mk_pos (kn_ests (s t.+1).1 i)).
  apply: (le_trans Hsh); have := require_uniform HE eps (mk_pos (kn_ests (s t.+1).1 i)) HC HM; rewrite Hreq => -[j [-> [Hv _]]].
  rewrite addrAC subrr add0r -[emin ^+ 2]mulr1 -Hv /sqn !big_ord1 mulr_sumr; apply: ler_sum => a _.
  have -> : scale (col j vecs)^T eps 0 a = (col j vecs)^T 0 a * eps 0 a by rewrite mxE.
  rewrite exprMn [X in _ <= X]mulrC; apply: ler_wpmul2r; first exact: sqr_ge0.
  have /andP [H1 _] := Heps a.
  by rewrite ler_pexpn2r ?nnegrE ?(ltW Hemin) // (le_trans (ltW Hemin)).
have Ek : mk_kf (kn_ests (s t.+2).1 i) = (kg_update ((s t.+1).2 - mk_pos (kn_ests (s t.+1).1 i)) (f t.+1 (s t.+1).2 0 i - kn_vals (s t.+1).1 0 i)%:M (Some (w t.+1 (s t.+1).2 0 i)%:M) None true (mk_kf (kn_ests (s t.+1).1 i))).1.
  have [st' [[Eu _ _ _] _]] := kn_learns A (s t.+1).2 (f t.+1 (s t.+1).2) G (Hw t.+1 (s t.+1).2).
  have := Hrun t.+1; rewrite /kn_round Eu => -[<-] /=; move: Eu; rewrite /kn_update; case: first_exn => // _ [<-] /=.
  rewrite /mkal_update Hval ltNge Hlong /=; by case: (kg_update _ _ _ _ _ _).2.
rewrite /cov_of Ek.
have Hgr := @Granted F n M eps (w t.+1 (s t.+1).2 0 i) (mk_kf (kn_ests (s t.+1).1 i)) vals vecs _ _ (f t.+1 (s t.+1).2 0 i - kn_vals (s t.+1).1 0 i)%:M HE Hreq.
by have [_ _ Hd] := granted_drop Hst HP HM Hemin Heps (Hw t.+1 (s t.+1).2 i) (Hmax t.+1 (s t.+1).2 i) Hgr.
Qed.

Lemma asks_bounded N : shortest2 F <= emin ^+ 2 -> 0 <= wmax -> #|[pred t : 'I_N | asks request s t.+1]|%:R * drop <= trace_all (s 0%N).1.
Proof.
move=> Hsh Hwm.
have Hs : trace_all (s N.+1).1 + \sum_(t < N | asks request s t.+1) drop <= trace_all (s 0%N).1.
  elim: N => [|N IH].
    rewrite big_ord0 addr0; apply: ler_sum => i _; apply: trace_variance => v.
    by have [_ _ _ _ C] := run_facts A Hw H0 Hrun 0; exact: C.
  apply: le_trans IH; rewrite big_mkcond big_ord_recr -big_mkcond /=.
  case: ifP => Ha; first by rewrite addrA addrAC ler_add2r -ler_subr_addr; exact: asks_drop.
  rewrite addr0 ler_add2r; apply: ler_sum => i _; apply: trace_variance => v.
  have [G _ _ _ _] := run_facts A Hw H0 Hrun N.
  by have [_ [_ _ C _ _]] := round_learns A Hw Hrun G; exact: C.
apply: le_trans Hs; rewrite sumr_const mulr_natl -[X in X <= _]add0r ler_add2r.
apply: sumr_ge0 => i _; apply: trace_ge0.
by have [G _ _ _ _] := run_facts A Hw H0 Hrun N; have [_ HP _] := G i.
Qed.
End Asking.

Lemma energy_error (g : 'rV[F]_n) (kf : filter F (1 * n) 1) (L : F) : regular kf -> 0 <= L -> (forall u, variance (kf_P kf) u <= L * sqn u) ->
  sqn (grad kf - g) <= L * energy g kf.
Proof.
move=> Hg; have [_ HP Hu] := Hg => HL Hv; rewrite grad_sub sqn_vec; set e := kf_x kf - _.
have Ee : energy g kf = quad (invmx (kf_P kf)) e by rewrite /energy -/(quad _ _) -[in LHS]opprB quadN.
have HE : 0 <= energy g kf by exact: energy_ge0.
have [->|Hz] := eqVneq (sqn e) 0; first exact: mulr_ge0.
have Hz0 : 0 < sqn e by rewrite lt_neqAle eq_sym Hz sqn_ge0.
rewrite -(ler_pmul2l Hz0) -expr2.
have := quad_schwarz HP Hu e^T e; rewrite -Ee.
have -> : (e^T *m e) 0 0 = sqn e by rewrite -sqn_col.
move=> H; apply: (le_trans H); rewrite mulrA; apply: ler_wpmul2r => //.
by rewrite mulrC -sqn_tr; exact: Hv.
Qed.
End Bounds.
