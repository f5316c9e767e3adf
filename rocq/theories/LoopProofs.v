(** Error propagation and the closed loop of Newton's method with finite
    differences. *)
From mathcomp Require Import all_ssreflect all_algebra.
From Verif Require Import PyExn LinAlgModel LinAlgSpec LinAlgProofs FDProofs.
Set Implicit Arguments. Unset Strict Implicit. Unset Printing Implicit Defensive.
Import Order.TTheory GRing.Theory Num.Theory.
Local Open Scope ring_scope.

Section Propagation.
Variables (F : realFieldType) (n : nat).
Implicit Types (ms : seq (mmeas F n)).

Lemma size_with_values ms (vals : seq F) : size vals = size ms ->
  size [seq (q.1, q.2, 0 : F) | q <- zip [seq m.1.1 | m <- ms] vals] = size ms.
Proof. by move=> Hv; rewrite size_map size_zip size_map Hv minnn. Qed.

Lemma point_with_values ms (vals : seq F) i : size vals = size ms -> (i < size ms)%N ->
  point [seq (q.1, q.2, 0 : F) | q <- zip [seq m.1.1 | m <- ms] vals] i = ((point ms i).1.1, nth 0 vals i, 0).
Proof.
move=> Hv Hi; rewrite /point (nth_map (0 : 'rV[F]_n, 0 : F)); last by rewrite size_zip size_map Hv minnn.
rewrite nth_zip ?size_map //=; congr (_, _, _).
by rewrite (nth_map (0 : 'rV[F]_n, 0 : F, 0 : F)).
Qed.

Lemma gradient_of_linear ms vals : size vals = size ms ->
  (size ms == n.+1) || (size ms == 2 * n)%N -> voltage_diff ms \in unitmx ->
  gradient_of [seq m.1.1 | m <- ms] vals =
  (\row_j (if diff_index n (size ms) j is Some (a, b) then nth 0 vals a - nth 0 vals b else 0)) *m invmx (voltage_diff ms).
Proof.
move=> Hv Hs Hu; rewrite /gradient_of /calc_gradient size_with_values // Hs.
have Hvd : voltage_diff [seq (q.1, q.2, 0 : F) | q <- zip [seq m.1.1 | m <- ms] vals] = voltage_diff ms.
  apply/matrixP => i j; rewrite !mxE size_with_values //.
  case E: (diff_index _ _ _) => [[a b]|] //; have [Ha Hb] := diff_index_lt (ltn_ord j) E.
  by rewrite !point_with_values.
rewrite Hvd Hu; congr (_ *m _); apply/rowP => j; rewrite !mxE size_with_values //.
case E: (diff_index _ _ _) => [[a b]|] //; have [Ha Hb] := diff_index_lt (ltn_ord j) E.
by rewrite !point_with_values.
Qed.

Lemma sum_pick s (v h : nat -> F) (p : nat) : (p < s)%N -> \sum_(i < s) v i * ((p == i)%:R * h i) = v p * h p.
Proof.
move=> Hp; rewrite (bigD1 (Ordinal Hp)) //= eqxx mul1r big1 ?addr0 // => i Hi.
have -> : (p == i) = false; last by rewrite mul0r mulr0.
by apply/negbTE; apply: contraNneq Hi => H; apply/eqP/val_inj.
Qed.

Lemma sum_pairs s (v : nat -> F) (p q r t : nat) : (p < s)%N -> (q < s)%N ->
  \sum_(i < s) v i * (((p == i :> nat)%:R - (q == i :> nat)%:R) * ((r == i :> nat)%:R - (t == i :> nat)%:R)) =
  v p * ((r == p)%:R - (t == p)%:R) - v q * ((r == q)%:R - (t == q)%:R).
Proof.
move=> Hp Hq.
rewrite -(@sum_pick s v (fun i => (r == i)%:R - (t == i)%:R) p Hp) -(@sum_pick s v (fun i => (r == i)%:R - (t == i)%:R) q Hq).
by rewrite -sumrB; apply: eq_bigr => i _; rewrite -mulrBr -mulrBl.
Qed.

(** The covariance that propagates the differences. *)
Lemma propagated_differences ms : (size ms == n.+1) || (size ms == 2 * n)%N -> voltage_diff ms \in unitmx ->
  let inv := invmx (voltage_diff ms) in
  propagated (gradient_of [seq m.1.1 | m <- ms]) [seq m.2 | m <- ms] =
  inv^T *m (\matrix_(i, j) (if diff_index n (size ms) i is Some (p, q) then
                            if diff_index n (size ms) j is Some (r, t) then
     (point ms p).2 * ((r == p)%:R - (t == p)%:R) - (point ms q).2 * ((r == q)%:R - (t == q)%:R) else 0 else 0)) *m inv.
Proof.
move=> Hs Hu inv; rewrite /propagated size_map.
set s := size ms.
pose dl (i : nat) : 'rV[F]_n := \row_j (if diff_index n s j is Some (a, b) then (a == i)%:R - (b == i)%:R else 0).
have Hz : gradient_of [seq m.1.1 | m <- ms] (nseq s 0) = 0.
  rewrite gradient_of_linear ?size_nseq //.
  apply/rowP => j; rewrite [X in X *m _](_ : _ = 0) ?mul0mx //.
  by apply/rowP => k; rewrite !mxE; case: diff_index => [[a b]|] //; rewrite !nth_nseq !if_same subrr.
have Hd : forall i : 'I_s, gradient_of [seq m.1.1 | m <- ms] [seq (j == i :> nat)%:R | j <- iota 0 s] = dl i *m inv.
  move=> i; rewrite gradient_of_linear ?size_map ?size_iota //; congr (_ *m _).
  apply/rowP => j; rewrite !mxE -/s; case E: (diff_index _ _ _) => [[a b]|] //.
  have [Ha Hb] := diff_index_lt (ltn_ord j) E.
  by rewrite !(nth_map 0%N) ?size_iota // !nth_iota // !add0n.
under eq_bigr do rewrite Hz subr0 Hd trmx_mul mulmxA -(mulmxA _ _ (dl _)) scalemxAl scalemxAr.
rewrite -mulmx_suml -mulmx_sumr; congr (_ *m _ *m _).
apply/matrixP => a b; rewrite summxE mxE.
transitivity (\sum_(i < s) (point ms i).2 * (dl i 0 a * dl i 0 b)).
  apply: eq_bigr => i _; rewrite mxE (nth_map (0 : 'rV[F]_n, 0 : F, 0 : F)) ?ltn_ord //; congr (_ * _).
  by rewrite mxE big_ord1 mxE.
case Ea: (diff_index n s a) => [[p q]|]; last first.
  by rewrite big1 // => i _; rewrite !mxE Ea mul0r mulr0.
case Eb: (diff_index n s b) => [[r t]|]; last first.
  by rewrite big1 // => i _; rewrite !mxE Eb mulr0 mulr0.
have [Hp Hq] := diff_index_lt (ltn_ord a) Ea.
rewrite -(@sum_pairs s (fun i => (point ms i).2) p q r t Hp Hq).
by apply: eq_bigr => i _; rewrite !mxE Ea Eb.
Qed.

Lemma covariance_symmetric ms g c : size ms = (2 * n)%N -> n != 1%N -> calc_gradient ms = Ok (g, c) ->
  c = propagated (gradient_of [seq m.1.1 | m <- ms]) [seq m.2 | m <- ms].
Proof.
move=> Hs Hn; rewrite /calc_gradient; case: ifP => // Hsz; case: ifP => // Hu [_ <-].
rewrite propagated_differences //=; congr (_ *m _ *m _); apply/matrixP => i j.
have Hne : (2 * n == n.+1)%N = false.
  by rewrite mul2n -addnn -addn1 eqn_add2l (negbTE Hn).
rewrite !mxE Hs /diff_index Hne eqxx.
have E4 : ((2 * j)%N == (2 * i)%N) = (i == j) by rewrite eqn_mul2l [RHS]eq_sym.
have E1 : ((2 * j).+1 == (2 * i).+1)%N = (i == j) by rewrite eqSS.
have E2 : ((2 * j)%N == (2 * i).+1) = false by rewrite eq_sym odd_neq.
rewrite E1 E2 E4 odd_neq; case: (i == j).
- by rewrite mulr1n subr0 mulr1 sub0r mulrN mulr1 opprK.
- by rewrite mulr0n subrr !mulr0 subr0.
Qed.

Lemma covariance_asymmetric ms g c : size ms = n.+1 -> calc_gradient ms = Ok (g, c) ->
  propagated (gradient_of [seq m.1.1 | m <- ms]) [seq m.2 | m <- ms] =
  c + (point ms 0).2 *: ((invmx (voltage_diff ms))^T *m (const_mx 1 - 1%:M) *m invmx (voltage_diff ms)).
Proof.
move=> Hs; rewrite /calc_gradient; case: ifP => // Hsz; case: ifP => // Hu [_ <-].
rewrite propagated_differences //= scalemxAl scalemxAr -mulmxDl -mulmxDr; congr (_ *m _ *m _).
apply/matrixP => i j; rewrite !mxE Hs /diff_index eqxx.
rewrite !eqSS /= subr0 sub0r mulrN mulr1 opprK [(j == i :> nat)]eq_sym.
case: eqP => [/val_inj ->|Hij].
- by rewrite eqxx mulr1 mulr1n subrr mulr0 addr0.
- have -> : (i == j) = false by apply/negP => /eqP H; apply: Hij; rewrite H.
  by rewrite mulr0 add0r mulr0n add0r subr0 mulr1.
Qed.

Lemma covariance_psd ms g c : (forall m, m \in ms -> 0 <= m.2) -> calc_gradient ms = Ok (g, c) -> psd c.
Proof.
move=> Hv; rewrite /calc_gradient; case: ifP => // Hsz; case: ifP => // Hu [_ <-].
have := @diag_psd F n (diff_variances ms) (invmx (voltage_diff ms))^T; rewrite trmxK; apply.
move=> i; rewrite mxE; case E: (diff_index _ _ _) => [[a b]|] //.
have [Ha Hb] := diff_index_lt (ltn_ord i) E.
by rewrite addr_ge0 //; apply: Hv; exact: mem_nth.
Qed.
End Propagation.

(** *** C30 *)
Section Loop.
Variables (F : realFieldType) (n k : nat) (ortho : seq 'rV[F]_n -> res 'rV[F]_n).
Hypothesis Hortho : chooses_orthogonal ortho.
Variables (A : 'M[F]_(k, n)) (c : 'rV[F]_k) (w : 'rV[F]_n -> 'rV[F]_k) (p0 : 'rV[F]_n) (eps : 'I_k -> 'rV[F]_n) (des : 'rV[F]_k).
Hypothesis HA : row_free A.
Hypothesis Heps : forall i j, 0 < eps i 0 j.
Hypothesis Hk : (0 < k)%N.

Let f := affines A c.
Let fi i := affine (row i A) (c 0 i).
Let wi i p := w p 0 i.

Lemma affines_row p i : f p 0 i = fi i p.
Proof. by rewrite /f /affines /fi /affine !mxE; congr (_ + _); apply: eq_bigr => j _; rewrite !mxE. Qed.

Lemma Hn : (0 < n)%N.
Proof. by apply: (leq_trans Hk); move: HA; rewrite -row_leq_rank => H; apply: (leq_trans H (rank_leq_col _)). Qed.

Definition loop_inv (ds : seq 'rV[F]_n) (st : mnewton F n k) : Prop :=
  mn_desired st = des /\ forall i, asym p0 (fi i) (wi i) (eps i) ds (mn_ests st i).


Lemma first_exn_ok (T : Type) (l : seq T) (h : T -> res unit) : (forall x, h x = Ok tt) -> first_exn [seq h x | x <- l] = Ok tt.
Proof. by move=> H; elim: l => //= x l IH; rewrite H. Qed.

Lemma update_all v (st : mnewton F n k) :
  (forall i, exists e, mfd_update v (fi i v) (wi i v) (mn_ests st i) = (e, Ok tt)) ->
  exists st', mn_update v (f v) (w v) st = Ok st' /\ mn_desired st' = mn_desired st /\ mn_pos st' = v /\ mn_vals st' = f v /\
    forall i, mn_ests st' i = (mfd_update v (fi i v) (wi i v) (mn_ests st i)).1.
Proof.
move=> H; rewrite /mn_update first_exn_ok.
  by eexists; split; first reflexivity; do 3!split=> //; move=> i; rewrite -affines_row.
by move=> i; rewrite affines_row; have [e ->] := H i.
Qed.

Lemma first_of_all (l : seq 'I_k) (h : 'I_k -> res (option 'rV[F]_n)) i0 p :
  h i0 = Ok (Some p) -> first_request [seq h i | i <- i0 :: l] = Ok (Some p).
Proof. by move=> /= ->. Qed.

Lemma suggest_request ds (st : mnewton F n k) : loop_inv ds st -> (size ds < n)%N -> indep ds ->
  exists d, mn_suggest ortho st = Ok (p0 + d) /\ indep (rcons ds d).
Proof.
move=> [Hdes Hall] Hs Hi; have [ov [Hr Hind]] := asym_request Hortho Hn (Heps (Ordinal Hk)) Hs (Hall (Ordinal Hk)) Hi.
exists (scale ov (eps (Ordinal Hk))); split=> //; rewrite /mn_suggest.
have -> : enum 'I_k = Ordinal Hk :: behead (enum 'I_k).
  have := size_enum_ord k; case E: (enum 'I_k) => [|i l] /= Hk'; first by move: (Hk); rewrite -Hk'.
  by congr (_ :: _); apply: val_inj; have := nth_enum_ord (Ordinal Hk) Hk; rewrite E.
by rewrite (first_of_all _ Hr).
Qed.

Lemma first_request_none (T : Type) (l : seq T) (h : T -> res (option 'rV[F]_n)) :
  (forall x, h x = Ok None) -> first_request [seq h x | x <- l] = Ok None.
Proof. by move=> H; elim: l => //= x l IH; rewrite H. Qed.

Lemma suggest_final (st : mnewton F n k) : (forall i, mf_est (mn_ests st i) = Some (row i A)) ->
  mn_vals st = f (mn_pos st) -> mn_desired st = des ->
  exists v, mn_suggest ortho st = Ok v /\ f v = des.
Proof.
move=> He Hv Hdes; rewrite /mn_suggest first_request_none; last by move=> i; rewrite /mfd_require He.
have -> : jacobian (mn_ests st) = Some A.
  rewrite /jacobian; case: ifP => [_|/negbT /forallPn [i]]; last by rewrite He.
  by congr Some; apply/matrixP => i j; rewrite mxE He mxE.
eexists; split; first reflexivity.
rewrite Hv Hdes /f /affines linearD /= trmxK mulmxDr lstsq_exact // linearD /= trmxK.
by rewrite addrAC -/(affines A c _) addrC subrK.
Qed.

Definition start (vals0 : 'rV[F]_k) : mnewton F n k := mk_mnewton des (fun i => fresh p0 (eps i) false) p0 vals0.

Lemma round_ok v (st st' : mnewton F n k) v' :
  mn_update v (f v) (w v) st = Ok st' -> mn_suggest ortho st' = Ok v' -> round ortho f w (st, v) = Ok (st', v').
Proof. by rewrite /round /= => -> ->. Qed.

Lemma roundsS m s : rounds ortho f w m.+1 s =
  match rounds ortho f w m s with Ok s' => round ortho f w s' | Raise e => Raise e end.
Proof.
elim: m s => [|m IH] s; first by rewrite /=; case: round.
by rewrite /=; rewrite /= in IH; case: (round ortho f w s) => // s'; rewrite IH.
Qed.

Lemma loop_partial vals0 m : (m < n)%N ->
  exists ds st d, rounds ortho f w m.+1 (start vals0, p0) = Ok (st, p0 + d) /\ loop_inv ds st /\
    size ds = m /\ indep (rcons ds d) /\ mn_pos st = p0 + last 0 ds /\ mn_vals st = f (mn_pos st).
Proof.
elim: m => [|m IH] Hm.
- have Hfirst : forall i, exists e, mfd_update p0 (fi i p0) (wi i p0) (mn_ests (start vals0) i) = (e, Ok tt).
    by move=> i; have [e [He _]] := asym_first p0 Hn (fi i) (wi i) (eps i); exists e.
  have [st [Hu [Hd [Hp [Hv He]]]]] := update_all Hfirst.
  have Hinv : loop_inv [::] st.
    split=> // i; rewrite He; have [e [He' Ha]] := asym_first p0 Hn (fi i) (wi i) (eps i).
    by rewrite /= He'.
  have [d [Hs Hind]] := suggest_request Hinv Hm (@indep_nil F n).
  exists [::], st, d; rewrite roundsS /= (round_ok Hu Hs) Hp addr0; repeat split=> //; exact: Hinv.2.
- have [ds [st [d [Hr [Hinv [Hs [Hi [Hp Hv]]]]]]]] := IH (ltnW Hm).
  have Hmore : forall i, exists e, mfd_update (p0 + d) (fi i (p0 + d)) (wi i (p0 + d)) (mn_ests st i) = (e, Ok tt) /\
      asym p0 (fi i) (wi i) (eps i) (rcons ds d) e.
    by move=> i; apply: asym_more; [exact: Hinv.2 | rewrite Hs].
  have [|st' [Hu [Hd' [Hp' [Hv' He']]]]] := @update_all (p0 + d) st.
    by move=> i; have [e [He _]] := Hmore i; exists e.
  have Hinv' : loop_inv (rcons ds d) st'.
    split=> [|i]; first by rewrite Hd' Hinv.1.
    by rewrite He'; have [e [-> Ha]] := Hmore i.
  have [|d' [Hs' Hind]] := suggest_request Hinv' _ Hi; first by rewrite size_rcons Hs.
  exists (rcons ds d), st', d'; rewrite roundsS Hr (round_ok Hu Hs') size_rcons Hs last_rcons Hp'.
  by repeat split=> //; exact: Hinv'.2 || exact: Hinv'.1.
Qed.

Lemma loop_reaches vals0 : exists st v, rounds ortho f w n.+1 (start vals0, p0) = Ok (st, v) /\ f v = des /\
  mn_desired st = des /\ forall i, mf_est (mn_ests st i) = Some (row i A).
Proof.
have Hm : (n.-1 < n)%N by rewrite prednK ?Hn.
have [ds [st [d [Hr [Hinv [Hs [Hi [Hp Hv]]]]]]]] := loop_partial vals0 Hm.
rewrite (prednK Hn) in Hr.
have Hdone : forall i, exists e, mfd_update (p0 + d) (fi i (p0 + d)) (wi i (p0 + d)) (mn_ests st i) = (e, Ok tt) /\
    mf_est e = Some (row i A).
  by move=> i; apply: (asym_done (Hinv.2 i) _ Hi); rewrite Hs prednK ?Hn.
have [|st' [Hu [Hd' [Hp' [Hv' He']]]]] := @update_all (p0 + d) st.
  by move=> i; have [e [He _]] := Hdone i; exists e.
have Hest : forall i, mf_est (mn_ests st' i) = Some (row i A).
  by move=> i; rewrite He'; have [e [-> ->]] := Hdone i.
have [||v [Hs' Hv2]] := @suggest_final st' Hest; [by rewrite Hv' Hp' | by rewrite Hd' Hinv.1 |].
by exists st', v; rewrite roundsS Hr (round_ok Hu Hs') Hd' Hinv.1.
Qed.
End Loop.

(** After the target has been reached the loop stays there. *)
Section Stay.
Variables (F : realFieldType) (n k : nat) (ortho : seq 'rV[F]_n -> res 'rV[F]_n).
Variables (f w : 'rV[F]_n -> 'rV[F]_k).

Lemma lstsq0 (J : 'M[F]_(k, n)) : lstsq J 0 = 0.
Proof. by rewrite /lstsq mulmx0. Qed.

Lemma known_update (st : mnewton F n k) v : (forall i, mf_est (mn_ests st i) != None) ->
  exists st', mn_update v (f v) (w v) st = Ok st' /\ mn_desired st' = mn_desired st /\ mn_pos st' = v /\ mn_vals st' = f v /\
    forall i, mn_ests st' i = mn_ests st i.
Proof.
move=> He.
have Hup : forall i, mfd_update v (f v 0 i) (w v 0 i) (mn_ests st i) = (mn_ests st i, Ok tt).
  by move=> i; rewrite /mfd_update; case: (mf_est _) (He i).
rewrite /mn_update first_exn_ok; last by move=> i; rewrite Hup.
by eexists; split; first reflexivity; do 3!split=> //; move=> i /=; rewrite Hup.
Qed.

Lemma known_suggest (st : mnewton F n k) : (forall i, mf_est (mn_ests st i) != None) ->
  exists J, mn_suggest ortho st = Ok (mn_pos st + (lstsq J (mn_desired st - mn_vals st)^T)^T).
Proof.
move=> He; rewrite /mn_suggest first_request_none; last first.
  by move=> i; rewrite /mfd_require; case: (mf_est _) (He i).
rewrite /jacobian; case: ifP => [_|/negbT /forallPn [i]]; last by rewrite He.
by eexists; reflexivity.
Qed.

Lemma stays m (st : mnewton F n k) v : (forall i, mf_est (mn_ests st i) != None) -> f v = mn_desired st ->
  exists st', rounds ortho f w m (st, v) = Ok (st', v).
Proof.
elim: m st => [|m IH] st He Hv; first by exists st.
have [st' [Hu [Hd [Hp [Hvals Hests]]]]] := known_update v He.
have He' : forall i, mf_est (mn_ests st' i) != None by move=> i; rewrite Hests.
have [J Hs] := known_suggest He'.
have [|st2 H2] := IH st' He'; first by rewrite Hd.
exists st2; rewrite /= /round /= Hu Hs Hp Hvals Hd Hv subrr trmx0 lstsq0 trmx0 addr0; exact: H2.
Qed.

Lemma rounds_add m1 m2 s : rounds ortho f w (m1 + m2) s =
  match rounds ortho f w m1 s with Ok s' => rounds ortho f w m2 s' | Raise e => Raise e end.
Proof. by elim: m1 s => //= m1 IH s; case: round => // s'; rewrite IH. Qed.
End Stay.
