From mathcomp Require Import all_ssreflect all_algebra.
From Verif Require Import PyExn LinAlgModel LinAlgSpec.
Set Implicit Arguments. Unset Strict Implicit. Unset Printing Implicit Defensive.
Import GRing.Theory Num.Theory.
Local Open Scope ring_scope.

Section Proofs.
Variable F : realFieldType.

Lemma sqn_ge0 m n (v : 'M[F]_(m, n)) : 0 <= sqn v.
Proof. by apply: sumr_ge0 => i _; apply: sumr_ge0 => j _; exact: sqr_ge0. Qed.

Lemma sqn_eq0 m n (v : 'M[F]_(m, n)) : (sqn v == 0) = (v == 0).
Proof.
apply/idP/eqP => [|->]; last first.
  by rewrite /sqn big1 // => i _; rewrite big1 // => j _; rewrite mxE expr0n.
rewrite /sqn psumr_eq0; last by move=> i _; apply: sumr_ge0 => j _; exact: sqr_ge0.
move=> /allP H; apply/matrixP => i j; rewrite mxE.
have /= := H i (mem_index_enum i); rewrite psumr_eq0; last by move=> k _; exact: sqr_ge0.
by move=> /allP /(_ j (mem_index_enum j)) /=; rewrite sqrf_eq0 => /eqP.
Qed.

Lemma sqn_row n (v : 'rV[F]_n) : sqn v = (v *m v^T) 0 0.
Proof. by rewrite /sqn big_ord1 mxE; apply: eq_bigr => j _; rewrite mxE expr2. Qed.
Lemma sqn_col n (v : 'cV[F]_n) : sqn v = (v^T *m v) 0 0.
Proof. by rewrite /sqn mxE; apply: eq_bigr => j _; rewrite big_ord1 mxE expr2. Qed.

Lemma gram_row_free m n (R : 'M[F]_(m, n)) : row_free R -> R *m R^T \in unitmx.
Proof.
move=> HR; rewrite -row_free_unit -kermx_eq0; apply/eqP/row_matrixP => i.
rewrite row0; set v := row i _.
have Hv : v *m (R *m R^T) = 0 by apply/eqP; rewrite -sub_kermx; exact: row_sub.
have : sqn (v *m R) == 0.
  by rewrite sqn_row trmx_mul mulmxA -(mulmxA v) Hv mul0mx mxE.
rewrite sqn_eq0 => /eqP H0; apply: (row_free_inj HR); by rewrite H0 mul0mx.
Qed.

Lemma gram_row m n (J : 'M[F]_(m, n)) : row_base J *m (row_base J)^T \in unitmx.
Proof. by apply: gram_row_free; rewrite row_base_free. Qed.
Lemma gram_col m n (J : 'M[F]_(m, n)) : (col_base J)^T *m col_base J \in unitmx.
Proof.
have := @gram_row_free _ _ (col_base J)^T; rewrite trmxK; apply.
by rewrite -row_leq_rank mxrank_tr; have := col_base_full J; rewrite /row_full => /eqP ->.
Qed.

(** Penrose conditions. *)
Lemma pinv1 m n (J : 'M[F]_(m, n)) : J *m pinv J *m J = J.
Proof.
rewrite /pinv.
set C := col_base J; set R := row_base J; set A := invmx (R *m R^T); set B := invmx (C^T *m C).
have HJ : C *m R = J by rewrite mulmx_base.
have HA : R *m R^T *m A = 1%:M by rewrite mulmxV // gram_row.
have HB : B *m (C^T *m C) = 1%:M by rewrite mulVmx // gram_col.
transitivity (C *m (R *m R^T *m A) *m (B *m (C^T *m C)) *m R); last by rewrite HA HB !mulmx1.
transitivity (C *m R *m (R^T *m A *m (B *m C^T)) *m (C *m R)); first by rewrite HJ.
by rewrite !mulmxA.
Qed.
Lemma pinv2 m n (J : 'M[F]_(m, n)) : J *m pinv J = col_base J *m invmx ((col_base J)^T *m col_base J) *m (col_base J)^T.
Proof.
rewrite /pinv.
set C := col_base J; set R := row_base J; set A := invmx (R *m R^T); set B := invmx (C^T *m C).
have HJ : C *m R = J by rewrite mulmx_base.
have HA : R *m R^T *m A = 1%:M by rewrite mulmxV // gram_row.
transitivity (C *m (R *m R^T *m A) *m (B *m C^T)).
  by transitivity (C *m R *m (R^T *m A *m (B *m C^T))); [rewrite HJ | rewrite !mulmxA].
by rewrite HA mulmx1 !mulmxA.
Qed.
Lemma pinv_proj_sym m n (J : 'M[F]_(m, n)) : (J *m pinv J)^T = J *m pinv J.
Proof. by rewrite pinv2 trmx_mul trmxK [X in _ *m X]trmx_mul trmx_inv trmx_mul trmxK mulmxA. Qed.

Lemma lstsq_residual m n (J : 'M[F]_(m, n)) d : J^T *m (J *m lstsq J d - d) = 0.
Proof.
rewrite /lstsq mulmxBr 2!mulmxA.
have -> : J^T *m J *m pinv J = J^T; last by rewrite subrr.
by rewrite -mulmxA -pinv_proj_sym -trmx_mul pinv1.
Qed.

Lemma lstsq_range m n (J : 'M[F]_(m, n)) d : exists y, lstsq J d = J^T *m y.
Proof.
rewrite /lstsq /pinv; set R := row_base J.
have [X HX] : exists X, R = X *m J by apply/submxP; rewrite eq_row_base.
rewrite {1}HX trmx_mul -!mulmxA; by eexists.
Qed.

Lemma sqn_pyth m (a b : 'cV[F]_m) : (a^T *m b) = 0 -> sqn (a + b) = sqn a + sqn b.
Proof.
move=> H; rewrite !sqn_col (linearD (trmx_linear _ _ _)) mulmxDl !mulmxDr H addr0.
have -> : b^T *m a = 0 by apply: trmx_inj; rewrite trmx_mul trmxK H trmx0.
by rewrite add0r mxE.
Qed.

(** *** C22 *)
Lemma lstsq_minimises m n (J : 'M[F]_(m, n)) d x : sqn (J *m lstsq J d - d) <= sqn (J *m x - d).
Proof.
have -> : J *m x - d = J *m (x - lstsq J d) + (J *m lstsq J d - d) by rewrite mulmxBr addrA subrK.
rewrite [X in _ <= X]sqn_pyth ?ler_addr ?sqn_ge0 //.
by rewrite trmx_mul -mulmxA lstsq_residual mulmx0.
Qed.

Lemma lstsq_normal m n (J : 'M[F]_(m, n)) d x :
  sqn (J *m x - d) = sqn (J *m lstsq J d - d) -> J *m x = J *m lstsq J d.
Proof.
have -> : J *m x - d = J *m (x - lstsq J d) + (J *m lstsq J d - d) by rewrite mulmxBr addrA subrK.
rewrite sqn_pyth; last by rewrite trmx_mul -mulmxA lstsq_residual mulmx0.
move/eqP; rewrite -subr_eq0 addrK sqn_eq0 mulmxBr subr_eq0 => /eqP; exact.
Qed.

Lemma lstsq_smallest m n (J : 'M[F]_(m, n)) d x :
  J *m x = J *m lstsq J d -> sqn (lstsq J d) <= sqn x /\ (sqn x = sqn (lstsq J d) -> x = lstsq J d).
Proof.
move=> H; have [y Hy] := lstsq_range J d.
have -> : sqn x = sqn (lstsq J d) + sqn (x - lstsq J d).
  rewrite -sqn_pyth; first by rewrite addrC subrK.
  by rewrite {1}Hy trmx_mul trmxK -mulmxA mulmxBr H subrr mulmx0.
split; first by rewrite ler_addl sqn_ge0.
move/eqP; rewrite -subr_eq0 addrC addKr sqn_eq0 subr_eq0 => /eqP; exact.
Qed.

Lemma lstsq_kernel m n (J : 'M[F]_(m, n)) d (x : 'cV[F]_n) : J *m x = 0 -> ((lstsq J d)^T *m x) = 0.
Proof. by move=> H; have [y ->] := lstsq_range J d; rewrite trmx_mul trmxK -mulmxA H mulmx0. Qed.

Lemma lstsq_exact m n (J : 'M[F]_(m, n)) d : row_free J -> J *m lstsq J d = d.
Proof.
move=> HJ; have HC : J *m pinv J = 1%:M; last by rewrite /lstsq mulmxA HC mul1mx.
apply/eqP; rewrite -subr_eq0; apply/eqP; apply: (row_free_inj HJ).
by rewrite mul0mx mulmxBl pinv1 mul1mx subrr.
Qed.

(** *** C26 *)
Lemma dotC n (u v : 'rV[F]_n) : dot u v = dot v u.
Proof. by apply: eq_bigr => i _; rewrite mulrC. Qed.
Lemma dotDr n (u v w : 'rV[F]_n) : dot u (v + w) = dot u v + dot u w.
Proof. by rewrite -big_split; apply: eq_bigr => i _; rewrite mxE mulrDr. Qed.
Lemma dotNr n (u v : 'rV[F]_n) : dot u (- v) = - dot u v.
Proof. by rewrite -sumrN; apply: eq_bigr => i _; rewrite mxE mulrN. Qed.
Lemma dotBr n (u v w : 'rV[F]_n) : dot u (v - w) = dot u v - dot u w.
Proof. by rewrite dotDr dotNr. Qed.
Lemma dot0r n (u : 'rV[F]_n) : dot u 0 = 0.
Proof. by apply: big1 => i _; rewrite mxE mulr0. Qed.
Lemma dotZr n (u v : 'rV[F]_n) c : dot u (c *: v) = c * dot u v.
Proof. by rewrite big_distrr; apply: eq_bigr => i _; rewrite mxE mulrCA. Qed.
Lemma dot_sumr n I (r : seq I) P (u : 'rV[F]_n) (E : I -> 'rV[F]_n) :
  dot u (\sum_(i <- r | P i) E i) = \sum_(i <- r | P i) dot u (E i).
Proof. by apply: (big_morph _ (dotDr u) (dot0r u)). Qed.

Lemma point_measured n (f w : 'rV[F]_n -> F) ps i : (i < size ps)%N ->
  point (measured f w ps) i = (nth 0 ps i, f (nth 0 ps i), w (nth 0 ps i)).
Proof. by move=> H; rewrite /point /measured (nth_map 0). Qed.

Lemma diff_index_lt n s j a b : (j < n)%N -> diff_index n s j = Some (a, b) -> (a < s)%N /\ (b < s)%N.
Proof.
rewrite /diff_index => Hj; case: eqP => [-> [<- <-]|_]; first by rewrite ltnS.
case: eqP => // -> [<- <-]; rewrite !mul2n; split; last by rewrite ltn_double.
by rewrite -doubleS leq_double.
Qed.

Lemma parameter_diff_affine n g c (w : 'rV[F]_n -> F) ps :
  parameter_diff (measured (affine g c) w ps) = g *m voltage_diff (measured (affine g c) w ps).
Proof.
apply/rowP => j; rewrite !mxE.
case E: (diff_index n _ j) => [[a b]|].
- move: (E); rewrite size_map => /(diff_index_lt (ltn_ord j)) [Ha Hb].
  rewrite !point_measured //= /affine opprD addrACA subrr addr0 -dotBr /dot.
  by apply: eq_bigr => i _; rewrite !mxE E !point_measured //= mxE.
- by rewrite big1 // => i _; rewrite mxE E mulr0.
Qed.

Lemma calc_affine n g c (w : 'rV[F]_n -> F) ps :
  (size ps == n.+1) || (size ps == 2 * n)%N ->
  voltage_diff (measured (affine g c) w ps) \in unitmx ->
  exists cov, calc_gradient (measured (affine g c) w ps) = Ok (g, cov).
Proof.
move=> Hs Hu; rewrite /calc_gradient size_map Hs Hu.
by rewrite parameter_diff_affine mulmxK //; eexists.
Qed.

Lemma calc_singular n (ms : seq (mmeas F n)) :
  (size ms == n.+1) || (size ms == 2 * n)%N ->
  voltage_diff ms \notin unitmx -> calc_gradient ms = Raise EvaluationError.
Proof. by move=> Hs Hu; rewrite /calc_gradient Hs (negbTE Hu). Qed.

(** *** C27 *)
Lemma diag_psd n (d : 'rV[F]_n) (A : 'M[F]_n) :
  (forall i, 0 <= d 0 i) -> psd (A *m diag_mx d *m A^T).
Proof.
move=> Hd; split; first by rewrite !trmx_mul trmxK tr_diag_mx mulmxA.
move=> v; rewrite -!mulmxA -trmx_mul !mulmxA; set u := v *m A.
rewrite mxE; apply: sumr_ge0 => i _; rewrite mul_mx_diag !mxE mulrAC -expr2.
by rewrite mulr_ge0 // sqr_ge0.
Qed.
End Proofs.
