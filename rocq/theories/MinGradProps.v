(** Property C129: gradients from a minimal number of points; the suggested
    direction. *)
From mathcomp Require Import all_ssreflect all_algebra.
From Verif Require Import PyExn LinAlgModel LinAlgSpec LinAlgProofs FDProofs KalmanModel KalmanSpec KalmanHistory KalmanRequests KalmanProps MinGradModel MinGradSpec MinGradProofs.
Set Implicit Arguments. Unset Strict Implicit. Unset Printing Implicit Defensive.
Import Order.TTheory GRing.Theory Num.Theory.
Local Open Scope ring_scope.

(** The result explains all differences of the values by those of the points and
    is the only matrix that does; there is none with EvaluationError exactly if
    some direction is orthogonal to all differences. *)
Theorem min_gradient_explains :
  forall (F : realFieldType) k n (vals : seq 'rV[F]_k) (points : seq 'rV[F]_n),
  (0 < n)%N -> size vals = size points -> size points = n.+1 \/ size points = (2 * n)%N ->
  match min_gradient vals points with
  | Ok G => explains vals points G /\ forall G', explains vals points G' -> G' = G
  | Raise e => e = EvaluationError
  end /\
  (min_gradient vals points = Raise EvaluationError <->
   exists y : 'rV[F]_n, y != 0 /\ forall a b, (a, b) \in compared n (size points) -> dot y (nth 0 points b - nth 0 points a) = 0).
Proof.
move=> F k n vals points Hn Hs Hp.
have He : enough n (size points) by apply/orP; case: Hp => ->; [left | right].
have E : min_gradient vals points = if differences n points \in unitmx then Ok (differences n vals *m invmx (differences n points)) else Raise EvaluationError.
  have Hpos : (0 < size points)%N by case: Hp => -> //; rewrite muln_gt0.
  rewrite /min_gradient Hs eqxx /=; case Ep: points Hpos => [//|p l] _; rewrite -Ep -/(enough n (size points)) He.
  by move: Hn; rewrite lt0n => /negbTE ->.
rewrite E; have HU := unit_iff He; case: ifP => Hu; last first.
  by split=> //; split=> // _; apply/HU; rewrite Hu.
split; last by split=> // /HU; rewrite Hu.
split; first by apply/explains_iff => //; rewrite mulmxKV.
by move=> G' /(explains_iff _ (esym Hs) He) ->; rewrite mulmxK.
Qed.
Print Assumptions min_gradient_explains.

(** All other calls raise: lists of different lengths, empty lists, another
    number of points, no gates. *)
Theorem min_gradient_refused :
  forall (F : realFieldType) k n (vals : seq 'rV[F]_k) (points : seq 'rV[F]_n),
  (size points <> size vals -> min_gradient vals points = Raise AssertionError) /\
  (points = [::] -> vals = [::] -> min_gradient vals points = Raise IndexError) /\
  (size points = size vals -> points <> [::] -> size points <> n.+1 -> size points <> (2 * n)%N -> min_gradient vals points = Raise RuntimeError) /\
  (size points = size vals -> n = 0%N -> size points = 1%N -> min_gradient vals points = Raise ValueError).
Proof.
move=> F k n vals points; rewrite /min_gradient; split; [|split; [|split]].
- by move=> /eqP ->.
- by move=> -> ->.
- move=> -> Hp /eqP H1 /eqP H2; rewrite eqxx /= (negbTE H1) (negbTE H2) /=; by case: points Hp {H1 H2}.
- by move=> Hs Hn H; subst n; rewrite -Hs H /=; case: points H Hs.
Qed.
Print Assumptions min_gradient_refused.

(** Affine parameters: exact from any points, one or two sided. *)
Theorem min_gradient_affine :
  forall (F : realFieldType) k n (A : 'M[F]_(k, n)) (c : 'rV[F]_k) (points : seq 'rV[F]_n),
  (0 < n)%N -> size points = n.+1 \/ size points = (2 * n)%N ->
  (forall y : 'rV[F]_n, (forall a b, (a, b) \in compared n (size points) -> dot y (nth 0 points b - nth 0 points a) = 0) -> y = 0) ->
  min_gradient (map (affines A c) points) points = Ok A.
Proof.
move=> F k n A c points Hn Hp Hi.
have He : enough n (size points) by apply/orP; case: Hp => ->; [left | right].
have [H1 H2] := min_gradient_explains (vals := map (affines A c) points) Hn (size_map _ _) Hp.
have HA : explains (map (affines A c) points) points A by apply/explains_iff => //; [rewrite size_map | exact: differences_affine].
case E: min_gradient H1 H2 => [G|e] H1 H2; first by rewrite (H1.2 A HA).
by case: H2 => [/(_ _)]; rewrite H1 => /(_ erefl) [y [Hy H]]; rewrite (Hi y H) eqxx in Hy.
Qed.
Print Assumptions min_gradient_affine.

(** Quadratic parameters: exact at the centre of two sided points. *)
Theorem min_gradient_quadratic :
  forall (F : realFieldType) k n (Q : 'I_k -> 'M[F]_n) (A : 'M[F]_(k, n)) (c : 'rV[F]_k) (p : 'rV[F]_n) (ds : seq 'rV[F]_n),
  (0 < n)%N -> size ds = n -> indep ds ->
  min_gradient (map (quadratic Q A c) (both_sides p ds)) (both_sides p ds) = Ok (slope Q A p).
Proof.
move=> F k n Q A c p ds Hn Hs Hi; set points := both_sides p ds.
have Hsz : size points = (2 * n)%N by rewrite size_both_sides Hs.
have He : enough n (size points) by rewrite /enough Hsz eqxx orbT.
have [H1 [H2 _]] := min_gradient_explains (vals := map (quadratic Q A c) points) Hn (size_map _ _) (or_intror Hsz).
have HA : explains (map (quadratic Q A c) points) points (slope Q A p) by apply/explains_iff => //; [rewrite size_map | exact: differences_quadratic].
case E: min_gradient H1 H2 => [G|e] H1 H2; first by rewrite (H1.2 _ HA).
rewrite H1 in H2; have [y [Hy H]] := H2 erefl; exfalso; move/eqP: Hy; apply.
apply: (annihilated Hi Hs) => v /(nthP 0) [j Hj <-].
have [N1 N2] := nth_both_sides p Hj.
have Hd : p - nth 0 ds j - (p + nth 0 ds j) = - (nth 0 ds j + nth 0 ds j) by rewrite opprD addrA [p - _ - p]addrAC subrr add0r opprD.
have : dot y (- (nth 0 ds j + nth 0 ds j)) = 0.
  rewrite -Hd -N1 -N2; apply: H; rewrite compared_index //.
  rewrite Hs in Hj; exists (Ordinal Hj); rewrite /diff_index -/points Hsz eqxx /=; case: eqP => // Hn1.
  have -> : j = 0%N; last by rewrite muln0.
  move/eqP: Hn1; rewrite mul2n -addnn -addn1 eqn_add2l => /eqP Hn1; by move: Hj; rewrite Hn1 ltnS leqn0 => /eqP.
rewrite dotNr dotDr => /eqP; rewrite oppr_eq0 -mulr2n mulrn_eq0 /= => /eqP //.
Qed.
Print Assumptions min_gradient_quadratic.

(** Row by row this is the gradient the finite difference estimators compute,
    for all values. *)
Theorem min_gradient_rows :
  forall (F : realFieldType) k n (ms : seq ('rV[F]_k * 'rV[F]_n)) (G : 'M[F]_(k, n)),
  min_gradient [seq m.1 | m <- ms] [seq m.2 | m <- ms] = Ok G ->
  forall i, exists cov, calc_gradient [seq (m.2, fun_of_matrix m.1 0 i, 0) | m <- ms] = Ok (row i G, cov).
Proof.
move=> F k n ms G; rewrite /min_gradient !size_map eqxx /=.
case: ms => // m0 ms'; set ms := m0 :: ms'.
change ((if (size ms == n.+1) || (size ms == 2 * n)%N then
    if n == 0%N then Raise ValueError
    else if differences n [seq m.2 | m <- ms] \in unitmx then Ok (differences n [seq m.1 | m <- ms] *m invmx (differences n [seq m.2 | m <- ms])) else Raise EvaluationError
  else Raise RuntimeError) = Ok G -> forall i, exists cov, calc_gradient [seq (m.2, fun_of_matrix m.1 0 i, 0) | m <- ms] = Ok (row i G, cov)).
case: ifP => // He; case: ifP => // Hn; case: ifP => // Hu [<-] i.
set L := [seq (m.2, fun_of_matrix m.1 0 i, 0) | m <- ms].
have Hlt j a b : (j < n)%N -> diff_index n (size ms) j = Some (a, b) -> (a < size ms)%N /\ (b < size ms)%N by exact: diff_index_lt.
have E1 : voltage_diff L = differences n [seq m.2 | m <- ms].
  apply/matrixP => a b; rewrite !mxE !size_map; case E: diff_index => [[x y]|//]; have [Hx Hy] := Hlt _ _ _ (ltn_ord b) E.
  by rewrite /point !(nth_map (0, 0)).
have E2 : parameter_diff L = row i (differences n [seq m.1 | m <- ms]).
  apply/rowP => b; rewrite !mxE !size_map; case E: diff_index => [[x y]|//]; have [Hx Hy] := Hlt _ _ _ (ltn_ord b) E.
  by rewrite /point !(nth_map (0, 0)).
by rewrite /calc_gradient size_map He E1 Hu E2 row_mul; eexists.
Qed.
Print Assumptions min_gradient_rows.

(** The square of one gate: two sided points give the slope 6 at 3, one sided
    points 7. *)
Definition sq (x : rat) : 'M[rat_realFieldType]_1 := x%:M.
Definition parabola := quadratic (fun _ : 'I_1 => sq 1) 0 0.
Example two_sided : min_gradient (map parabola (both_sides (sq 3%:R) [:: sq 1])) (both_sides (sq 3%:R) [:: sq 1]) = Ok (sq 6%:R).
Proof.
rewrite min_gradient_quadratic //.
  congr Ok; rewrite /slope add0r; apply/matrixP => i j; rewrite !ord1 !mxE big_ord1 !mxE; by apply/eqP; vm_compute.
move=> a; rewrite big_ord1 /= => /matrixP /(_ 0 0); rewrite !mxE mulr1n mulr1 => H [|i] //.
Qed.
(** A line through two points, slope 2. *)
Example affine_ex : min_gradient (map (affines (sq 2%:R) (sq 5%:R)) [:: sq 3%:R; sq 4%:R]) [:: sq 3%:R; sq 4%:R] = Ok (sq 2%:R) /\
  exists cov, calc_gradient [:: (sq 3%:R, fun_of_matrix (affines (sq 2%:R) (sq 5%:R) (sq 3%:R)) 0 0, 0); (sq 4%:R, fun_of_matrix (affines (sq 2%:R) (sq 5%:R) (sq 4%:R)) 0 0, 0)]
    = Ok (row 0 (sq 2%:R), cov).
Proof.
have H : min_gradient (map (affines (sq 2%:R) (sq 5%:R)) [:: sq 3%:R; sq 4%:R]) [:: sq 3%:R; sq 4%:R] = Ok (sq 2%:R).
  apply: min_gradient_affine => //; first by left.
  move=> y /(_ 0%N 1%N erefl); rewrite /dot big_ord1 /= !mxE => /eqP; rewrite mulf_eq0 => /orP [/eqP Hy|]; last by vm_compute.
  by apply/matrixP => i j; rewrite !ord1 Hy mxE.
split=> //; exact: (@min_gradient_rows _ _ _ [:: (affines (sq 2%:R) (sq 5%:R) (sq 3%:R), sq 3%:R); (affines (sq 2%:R) (sq 5%:R) (sq 4%:R), sq 4%:R)] _ H 0).
Qed.
(** Two values at one point, no points, three points for one gate. *)
Example refused_ex : min_gradient [:: sq 1; sq 2%:R] [:: sq 3%:R] = Raise AssertionError /\
  min_gradient (F := rat_realFieldType) (k := 1) (n := 1) [::] [::] = Raise IndexError /\
  min_gradient [:: sq 1; sq 2%:R; sq 3%:R] [:: sq 3%:R; sq 4%:R; sq 5%:R] = Raise RuntimeError.
Proof.
split; [by case: (min_gradient_refused [:: sq 1; sq 2%:R] [:: sq 3%:R]) => H _; apply: H | split].
  by case: (@min_gradient_refused rat_realFieldType 1 1 [::] [::]) => _ [H _]; apply: H.
by case: (min_gradient_refused [:: sq 1; sq 2%:R; sq 3%:R] [:: sq 3%:R; sq 4%:R; sq 5%:R]) => _ [_ [H _]]; apply: H.
Qed.
Example one_sided : min_gradient (map parabola [:: sq 3%:R; sq 4%:R]) [:: sq 3%:R; sq 4%:R] = Ok (sq 7%:R).
Proof.
have [H1 [H2 _]] := @min_gradient_explains rat_realFieldType 1 1 (map parabola [:: sq 3%:R; sq 4%:R]) [:: sq 3%:R; sq 4%:R] erefl erefl (or_introl erefl).
have HG : explains (map parabola [:: sq 3%:R; sq 4%:R]) [:: sq 3%:R; sq 4%:R] (sq 7%:R).
  move=> a b; rewrite /compared /= inE => /eqP [-> ->] /=.
  apply/matrixP => i j; rewrite !ord1 /parabola /quadratic /affines !mxE !big_ord1 !mxE !big_ord1 !mxE; by apply/eqP; vm_compute.
case E: min_gradient H1 H2 => [G|e] H1 H2; first by rewrite (H1.2 _ HG).
rewrite H1 in H2; have [y [Hy H]] := H2 erefl; have := H 0%N 1%N erefl.
rewrite /dot big_ord1 /= !mxE => /eqP Hz; exfalso; move/negP: Hy; apply; apply/eqP/matrixP => i j; rewrite !ord1 [RHS]mxE.
by move: Hz; rewrite mulf_eq0 => /orP [/eqP //|Hf]; exfalso; move: Hf; vm_compute.
Qed.

(** ** The suggested direction *)
(** It is the first part that is not zero of an eigenvector of largest variance;
    if no other part is, as for one value, it has length 1 and no linear form of
    the gradients has a larger variance. *)
Theorem suggested_direction :
  forall (F : realFieldType) k n (P vecs : 'M[F]_(k * n)) (vals : 'rV[F]_(k * n)), (0 < k * n)%N -> eigenbasis P vecs vals ->
  exists (v : 'M[F]_(k, n)) i, sugg_diff vals vecs = Some (row i v) /\ row i v != 0 /\ (forall i' : 'I_k, (i' < i)%N -> row i' v = 0) /\
    sqn v = 1 /\ (forall w, variance P w <= variance P (mxvec v) * sqn w) /\
    ((forall i', i' != i -> row i' v = 0) -> sqn (row i v) = 1 /\ mxvec v = along i (row i v)).
Proof.
move=> F k n P vecs vals Hkn HE.
have [j [Hj Hmax]] := argmax_max (fun j => vals 0 j) Hkn.
rewrite /sugg_diff Hj; set v := vec_mx (col j vecs)^T.
have Hv : mxvec v = (col j vecs)^T by rewrite vec_mxK.
have Hsv : sqn v = 1.
  rewrite -(col_sqn HE j); transitivity (sqn (mxvec v)); last by rewrite Hv sqn_row trmxK -sqn_col.
  by rewrite /sqn big_ord1 sum_mxvec; apply: eq_bigr => i _; apply: eq_bigr => l _; rewrite mxvecE.
have [|i [H1 H2 H3]] := @first_part F k n (fun i => row i v).
  have [i Hi|H] := pickP (fun i => row i v != 0); first by exists i.
  have Hv0 : v = 0 by apply/row_matrixP => i; rewrite row0; apply/eqP; move: (H i) => /negbFE.
  move/eqP: Hsv; rewrite Hv0 /sqn big1 ?(eq_sym 0) ?oner_eq0 // => i _; by rewrite big1 // => l _; rewrite mxE expr0n.
exists v, i; split=> //; split=> //; split=> //; split=> //; split.
  by move=> w; rewrite Hv (eigen_col_variance HE); exact: (eigen_bound HE).
move=> Hz; have Ev : v = \matrix_(i', l) ((i == i')%:R * row i v 0 l).
  apply/matrixP => i' l; rewrite !mxE; case: eqP => [<-|/eqP Hi]; first by rewrite mul1r.
  by rewrite eq_sym in Hi; have /rowP /(_ l) := Hz i' Hi; rewrite !mxE mul0r => ->.
split; last by rewrite {1}Ev.
rewrite -Hsv /sqn big_ord1 [RHS](bigD1 i) //= [X in _ + X]big1 ?addr0; first by apply: eq_bigr => l _; rewrite mxE.
by move=> i' Hi'; rewrite big1 // => l _; have /rowP /(_ l) := Hz i' Hi'; rewrite !mxE => ->; rewrite expr0n.
Qed.
Print Assumptions suggested_direction.

(** One value: a direction of largest variance of the gradient. *)
Theorem suggested_direction_single :
  forall (F : realFieldType) n (P vecs : 'M[F]_(1 * n)) (vals : 'rV[F]_(1 * n)), (0 < n)%N -> eigenbasis P vecs vals ->
  exists d, sugg_diff vals vecs = Some d /\ sqn d = 1 /\ forall u, variance P (along 0 u) <= variance P (along 0 d) * sqn u.
Proof.
move=> F n P vecs vals Hn HE; have [|v [i [H1 [_ [_ [_ [H2 H3]]]]]]] := suggested_direction _ HE; first by rewrite mul1n.
have [|Hs Ha] := H3 _; first by move=> i'; rewrite !ord1.
exists (row i v); split=> //; split=> // u; move: Ha; rewrite (ord1 i) => Ha; rewrite -Ha.
have -> : sqn u = sqn (along (0 : 'I_1) u); last exact: H2.
rewrite /sqn !big_ord1 sum_mxvec big_ord1; apply: eq_bigr => l _; by rewrite /along mxvecE !mxE eqxx mul1r.
Qed.
Print Assumptions suggested_direction_single.

Definition single_P : 'M[rat_realFieldType]_(1 * 2) := case_vecs *m diag_mx case_vals *m case_vecs^T.
Example suggested_ex : exists d, sugg_diff (k := 1) (n := 2) (case_vals : 'rV[rat_realFieldType]_(1 * 2)) case_vecs = Some d /\ sqn d = 1 /\
  forall u, variance single_P (along 0 u) <= variance single_P (along 0 d) * sqn u.
Proof. exact: (@suggested_direction_single rat_realFieldType 2 _ _ _ erefl (case_eigen case_vals)). Qed.

(** Two values: the comment in the code, that all other parts are null vectors,
    does not hold for correlated gradients.  Two gates and values whose gradients
    vary most together: the suggested direction is too short and not one of
    largest variance. *)
Definition corr (a b c d : nat) : rat :=
  match a, b, c, d with
  | O, O, O, O => 3%:R / 5%:R | S O, S O, O, O => 4%:R / 5%:R
  | O, O, S O, S O => - (4%:R / 5%:R) | S O, S O, S O, S O => 3%:R / 5%:R
  | O, S O, O, S O => 1 | S O, O, S O, O => 1 | _, _, _, _ => 0
  end.
Definition corr_vecs : 'M[rat_realFieldType]_(2 * 2) :=
  \matrix_(c, b) (mxvec (\matrix_(i < 2, l < 2) (mxvec (\matrix_(i' < 2, l' < 2) corr i l i' l')) 0 b)) 0 c.
Definition corr_vals : 'rV[rat_realFieldType]_(2 * 2) := mxvec (\matrix_(i < 2, l < 2) (if (i + l == 0)%N then 2%:R else 1)).
Definition corr_P := corr_vecs *m diag_mx corr_vals *m corr_vecs^T.
Lemma corr_vecsE (i l i' l' : 'I_2) : corr_vecs (mxvec_index i l) (mxvec_index i' l') = corr i l i' l'.
Proof. by rewrite mxE mxvecE mxE mxvecE mxE. Qed.
Lemma corr_valsE (i l : 'I_2) : corr_vals 0 (mxvec_index i l) = if (i + l == 0)%N then 2%:R else 1.
Proof. by rewrite mxvecE mxE. Qed.
Lemma mvi_eq (i l i' l' : 'I_2) : (mxvec_index i l == mxvec_index i' l') = (i == i') && (l == l').
Proof. by apply/eqP/andP => [/cast_ord_inj/enum_rank_inj [-> ->]|[/eqP -> /eqP ->]]. Qed.
Lemma corr_basis : eigenbasis corr_P corr_vecs corr_vals.
Proof.
have H : corr_vecs^T *m corr_vecs = 1%:M.
  apply/matrixP => b b'; case/mxvec_indexP: b => i l; case/mxvec_indexP: b' => i' l'.
  rewrite [LHS]mxE [RHS]mxE mvi_eq sum_mxvec.
  rewrite (eq_bigr (fun a : 'I_2 => \sum_(c < 2) corr a c i l * corr a c i' l')); last first.
    by move=> a _; apply: eq_bigr => c _; rewrite [_^T _ _]mxE !corr_vecsE.
  rewrite !big_ord_recl !big_ord0.
  by case: i l i' l' => -[|[|i]] Hi [[|[|l]] Hl] [[|[|i']] Hi'] [[|[|l']] Hl'] //; apply/eqP; vm_compute.
by split=> //; rewrite /corr_P -(mulmxA _ _ corr_vecs) H mulmx1.
Qed.
Lemma corr_variance (i : 'I_2) (u : 'rV[rat_realFieldType]_2) :
  variance corr_P (along i u) = \sum_(a < 2) \sum_(c < 2) (if (a + c == 0)%N then 2%:R else 1) * (\sum_(l < 2) u 0 l * corr i l a c) ^+ 2.
Proof.
rewrite (eigen_variance corr_basis) sum_mxvec; apply: eq_bigr => a _; apply: eq_bigr => c _.
rewrite corr_valsE; congr (_ * _ ^+ 2); rewrite [LHS]mxE sum_mxvec (bigD1 i) //= [X in _ + X]big1 ?addr0.
  by apply: eq_bigr => l _; rewrite corr_vecsE /along mxvecE mxE eqxx mul1r.
by move=> i' Hi'; rewrite big1 // => l _; rewrite /along mxvecE mxE eq_sym (negbTE Hi') !mul0r.
Qed.
Definition gate2 (x y : rat) : 'rV[rat_realFieldType]_2 := \row_l (if l == 0 then x else y).
Theorem suggested_direction_refuted :
  exists d, eigenbasis corr_P corr_vecs corr_vals /\ sugg_diff (k := 2) corr_vals corr_vecs = Some d /\ sqn d < 1 /\
    exists i u, sqn u = 1 /\ forall i', variance corr_P (along i' d) < variance corr_P (along i u) * sqn d.
Proof.
have [j [Hj Hmax]] : exists j, argmax (fun j => corr_vals 0 j) = Some j /\ forall i, corr_vals 0 i <= corr_vals 0 j by apply: argmax_max.
have Ej : j = mxvec_index 0 0.
  have := Hmax (mxvec_index 0 0); case/mxvec_indexP: j {Hj Hmax} => a c; rewrite !corr_valsE.
  by case: a c => -[|[|a]] Ha [[|[|c]] Hc] //= H; try (by exfalso; move: H; vm_compute); congr mxvec_index; apply: val_inj.
exists (gate2 (3%:R / 5%:R) 0); split; first exact: corr_basis.
have Hd : row 0 (vec_mx (col j corr_vecs)^T) = gate2 (3%:R / 5%:R) 0.
  apply/rowP => l; rewrite Ej [LHS]mxE [LHS]mxE [LHS]mxE [LHS]mxE corr_vecsE [RHS]mxE; by case: l => -[|[|l]] Hl.
split.
  rewrite /sugg_diff Hj; have [|i [H1 H2 H3]] := @first_part rat_realFieldType 2 2 (fun i => row i (vec_mx (col j corr_vecs)^T)).
    by exists 0; rewrite Hd; apply/eqP => /rowP /(_ 0); rewrite !mxE.
  rewrite H1; congr Some; rewrite -Hd; congr (row _ _); apply: val_inj; case: i {H1 H2} H3 => -[|i] Hi // H3.
  by have := H3 0 erefl; rewrite Hd => /rowP /(_ 0); rewrite !mxE.
have Es : sqn (gate2 (3%:R / 5%:R) 0) = 9%:R / 25%:R.
  by rewrite /sqn big_ord1 big_ord_recl big_ord1 !mxE; apply/eqP; vm_compute.
rewrite Es; split; first by vm_compute.
exists 1, (gate2 0 1); split; first by rewrite /sqn big_ord1 big_ord_recl big_ord1 !mxE; apply/eqP; vm_compute.
move=> i'; rewrite !corr_variance !big_ord_recl !big_ord0 !mxE; by case: i' => -[|[|i']] Hi' //; vm_compute.
Qed.
Print Assumptions suggested_direction_refuted.
