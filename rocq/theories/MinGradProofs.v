(** Proofs about gradients from a minimal number of points. *)
From mathcomp Require Import all_ssreflect all_algebra.
From Verif Require Import PyExn LinAlgModel LinAlgSpec LinAlgProofs FDProofs KalmanModel KalmanSpec KalmanRequests MinGradModel MinGradSpec.
Set Implicit Arguments. Unset Strict Implicit. Unset Printing Implicit Defensive.
Import Order.TTheory GRing.Theory Num.Theory.
Local Open Scope ring_scope.

Section Diff.
Variables (F : realFieldType) (n : nat).

Definition enough (s : nat) := (s == n.+1) || (s == 2 * n)%N.

Lemma compared_index s a b : enough s -> ((a, b) \in compared n s) <-> exists j : 'I_n, diff_index n s j = Some (b, a).
Proof.
rewrite /enough /compared /diff_index; case: eqP => [_ _|_ /= Hs].
  split; first by move=> /mapP [j]; rewrite mem_iota /= => Hj [-> ->]; exists (Ordinal Hj).
  by move=> [j [<- <-]]; apply/mapP; exists (j : nat) => //; rewrite mem_iota /= ltn_ord.
rewrite Hs; split; first by move=> /mapP [j]; rewrite mem_iota /= => Hj [-> ->]; exists (Ordinal Hj).
by move=> [j [<- <-]]; apply/mapP; exists (j : nat) => //; rewrite mem_iota /= ltn_ord.
Qed.

Lemma index_some s (j : 'I_n) : enough s -> exists a b, diff_index n s j = Some (b, a).
Proof. by rewrite /enough /diff_index; case: eqP => [_ _|_ /= ->]; [exists 0%N, j.+1 | exists (2 * j)%N, (2 * j).+1]. Qed.

Lemma col_differences m (l : seq 'rV[F]_m) (j : 'I_n) a b : diff_index n (size l) j = Some (b, a) ->
  col j (differences n l) = (nth 0 l b - nth 0 l a)^T.
Proof. by move=> E; apply/colP => i; rewrite !mxE E. Qed.

Lemma colM_ m p q (A : 'M[F]_(m, p)) (B : 'M[F]_(p, q)) j : col j (A *m B) = A *m col j B.
Proof. by rewrite !colE mulmxA. Qed.

Lemma explains_iff k (vals : seq 'rV[F]_k) (points : seq 'rV[F]_n) G : size points = size vals -> enough (size points) ->
  explains vals points G <-> differences n vals = G *m differences n points.
Proof.
move=> Hs He; split=> [H|H a b Hab].
- apply/matrixP => i j; have [a [b E]] := index_some j He.
  have := H a b; rewrite compared_index // => /(_ (ex_intro _ j E)) Hab.
  have E' : diff_index n (size vals) j = Some (b, a) by rewrite -Hs.
  have /(congr1 (fun M : 'cV[F]_k => M i 0)) := col_differences E'; rewrite Hab trmx_mul trmxK mxE => ->.
  by rewrite -(col_differences E) -colM_ mxE.
- move: Hab; rewrite compared_index // => -[j E].
  have E' : diff_index n (size vals) j = Some (b, a) by rewrite -Hs.
  apply: trmx_inj; rewrite -(col_differences E') H colM_ (col_differences E) trmx_mul trmxK //.
Qed.

Lemma unit_iff (points : seq 'rV[F]_n) : enough (size points) ->
  (differences n points \notin unitmx) <->
  exists y : 'rV[F]_n, y != 0 /\ forall a b, (a, b) \in compared n (size points) -> dot y (nth 0 points b - nth 0 points a) = 0.
Proof.
move=> He; have Hd y : y *m differences n points = 0 <-> forall a b, (a, b) \in compared n (size points) -> dot y (nth 0 points b - nth 0 points a) = 0.
  have Edot (u v : 'rV[F]_n) : dot u v = (u *m v^T) 0 0 by rewrite /dot mxE; apply: eq_bigr => i _; rewrite mxE.
  split=> [H a b|H].
  - by rewrite compared_index // => -[j E]; rewrite Edot -(col_differences E) -colM_ H !mxE.
  - apply/rowP => j; have [a [b E]] := index_some j He; have := H a b; rewrite compared_index // => /(_ (ex_intro _ j E)).
    by rewrite Edot -(col_differences E) -colM_ !mxE.
rewrite -row_free_unit; split.
- rewrite -kermx_eq0 => /matrix0Pn [i [j Hij]]; exists (row i (kermx (differences n points))).
  split; first by apply/eqP => /rowP /(_ j); rewrite [LHS]mxE [RHS]mxE => H; rewrite H eqxx in Hij.
  by apply/Hd; rewrite -row_mul mulmx_ker row0.
- move=> [y [Hy /Hd H]]; apply/negP => Hf; move/eqP: Hy; apply.
  by apply: (row_free_inj Hf); rewrite mul0mx.
Qed.

Lemma differences_affine k (A : 'M[F]_(k, n)) c (points : seq 'rV[F]_n) : enough (size points) ->
  differences n (map (affines A c) points) = A *m differences n points.
Proof.
move=> He; apply/explains_iff => //; first by rewrite size_map.
move=> a b; rewrite compared_index // => -[j /(diff_index_lt (ltn_ord j)) [Hb Ha]].
by rewrite !(nth_map 0) // /affines !trmx_mul !trmxK opprD addrACA subrr addr0 -mulmxBl.
Qed.

(** Two sided differences of a quadratic function. *)
Lemma nth_both_sides (p : 'rV[F]_n) ds j : (j < size ds)%N ->
  nth 0 (both_sides p ds) (2 * j) = p + nth 0 ds j /\ nth 0 (both_sides p ds) (2 * j).+1 = p - nth 0 ds j.
Proof.
elim: ds j => // d ds IH [|j] Hj //.
by have [H1 H2] := IH j Hj; rewrite mulnS /= H1 H2.
Qed.
Lemma size_both_sides (p : 'rV[F]_n) ds : size (both_sides p ds) = (2 * size ds)%N.
Proof. by elim: ds => //= d ds IH; rewrite IH mulnS. Qed.

Lemma quadratic_diff k Q (A : 'M[F]_(k, n)) c (p d : 'rV[F]_n) :
  quadratic Q A c (p - d) - quadratic Q A c (p + d) = (p - d - (p + d)) *m (slope Q A p)^T.
Proof.
have Hd : p - d - (p + d) = - (d + d) by rewrite opprD addrA [p - d - p]addrAC subrr add0r opprD.
rewrite Hd; apply/rowP => i.
pose b (u v : 'rV[F]_n) := (u *m Q i *m v^T) 0 0.
have bDl u u' v : b (u + u') v = b u v + b u' v by rewrite /b !mulmxDl mxE.
have bDr u v v' : b u (v + v') = b u v + b u v' by rewrite /b linearD /= mulmxDr mxE.
have bNl u v : b (- u) v = - b u v by rewrite /b !mulNmx mxE.
have bNr u v : b u (- v) = - b u v by rewrite /b linearN /= mulmxN mxE.
have bt u v : b u v = (v *m (Q i)^T *m u^T) 0 0.
  have -> : v *m (Q i)^T *m u^T = (u *m Q i *m v^T)^T by rewrite !trmx_mul trmxK mulmxA.
  by rewrite mxE.
have Hm : b (p - d) (p - d) = b p p + b d d - (b p d + b d p).
  by rewrite bDl !bDr !bNl !bNr opprK [- b d p + _]addrC addrACA opprD.
have Hp : b (p + d) (p + d) = b p p + b d d + (b p d + b d p).
  by rewrite bDl !bDr [b d p + _]addrC addrACA.
have E1 (u v : 'rV[F]_k) : (u - v) 0 i = u 0 i - v 0 i by rewrite !mxE.
have E3 (q : 'rV[F]_n) : quadratic Q A c q 0 i = b q q + affines A c q 0 i.
  by rewrite /quadratic; set x := affines A c q; rewrite [LHS]mxE; congr (_ + _); rewrite [LHS]mxE.
rewrite E1 !E3 Hm Hp; set t := b p d + b d p; set t' := b p p + b d d.
have -> (a a' : F) : t' - t + a - (t' + t + a') = - (t + t) + (a - a').
  by rewrite opprD addrACA; congr (_ + _); rewrite opprD addrACA subrr add0r -opprD.
rewrite -E1.
have -> : affines A c (p - d) - affines A c (p + d) = - (d + d) *m A^T.
  by rewrite -Hd; move: (p - d) (p + d) => u v; rewrite /affines !trmx_mul !trmxK opprD addrACA subrr addr0 -mulmxBl.
rewrite /slope; set M := (X in A + X); have -> : (A + M)^T = A^T + M^T by rewrite [(_ + _)^T]linearD.
rewrite mulmxDr [RHS]mxE [RHS]addrC; congr (_ + _). transitivity (- ((d + d) *m (row i M)^T) 0 0).
  have -> : (row i M)^T = (Q i + (Q i)^T) *m p^T.
    by rewrite /M rowK trmx_mul; congr (_ *m _); rewrite [(_ + _)^T]linearD /= trmxK addrC.
  rewrite !mulmxDl !mulmxDr.
  have E4 (u v : 'M[F]_1) : (u + v) 0 0 = u 0 0 + v 0 0 by rewrite mxE.
  by rewrite !mulmxA !E4 -bt -/(b d p) [b d p + _]addrC -/t.
by rewrite tr_row -colM_ mulNmx !mxE.
Qed.

Lemma differences_quadratic k Q (A : 'M[F]_(k, n)) c (p : 'rV[F]_n) ds : size ds = n ->
  differences n (map (quadratic Q A c) (both_sides p ds)) = slope Q A p *m differences n (both_sides p ds).
Proof.
move=> Hs; have He : enough (size (both_sides p ds)) by rewrite /enough size_both_sides Hs eqxx orbT.
apply/explains_iff => //; first by rewrite size_map.
move=> a b; rewrite compared_index // => -[j]; rewrite /diff_index size_both_sides Hs.
rewrite eqxx; have Hj : (j < size ds)%N by rewrite Hs.
have [H1 H2] := nth_both_sides p Hj.
have Hsz : ((2 * j).+1 < size (both_sides p ds))%N by rewrite size_both_sides Hs !mul2n -doubleS leq_double.
case: eqP => [Hn [<- <-]|_ [<- <-]]; last by rewrite !(nth_map 0) ?(ltnW Hsz) // H1 H2 quadratic_diff.
have Hj0 : (j : nat) = 0%N.
  move/eqP: Hn; rewrite mul2n -addnn -addn1 eqn_add2l => /eqP Hn; by move: (ltn_ord j); rewrite {2}Hn ltnS leqn0 => /eqP.
by move: H1 H2 Hsz; rewrite Hj0 => H1 H2 Hsz; rewrite !(nth_map 0) ?(ltnW Hsz) // H1 H2 quadratic_diff.
Qed.
End Diff.

Section First.
Variables (F : realFieldType) (k n : nat) (f : 'I_k -> 'rV[F]_n).
Lemma first_part_in (s : seq 'I_k) : sorted ltn (map val s) -> has (fun i => f i != 0) s ->
  exists i, [/\ ohead [seq x <- [seq f i | i <- s] | x != 0] = Some (f i), f i != 0, i \in s &
              forall i' : 'I_k, i' \in s -> (i' < i)%N -> f i' = 0].
Proof.
elim: s => // x s IH /= Hs; have [Hx _|Hx /= Hh] := boolP (f x != 0).
- exists x; split=> //=; first by rewrite inE eqxx.
  move=> i'; rewrite inE => /orP [/eqP ->|Hi'] Hlt; first by rewrite ltnn in Hlt.
  have /allP := order_path_min ltn_trans Hs; move=> /(_ (val i') (map_f _ Hi')) /= H; by rewrite ltnNge (ltnW H) in Hlt.
- have [i [H1 H2 H3 H4]] := IH (path_sorted Hs) Hh; exists i; split=> //; first by rewrite inE H3 orbT.
  move=> i'; rewrite inE => /orP [/eqP -> _|]; [by move/negPn/eqP: Hx | exact: H4].
Qed.
Lemma first_part : (exists i, f i != 0) ->
  exists i, [/\ ohead [seq x <- [seq f i | i <- enum 'I_k] | x != 0] = Some (f i), f i != 0 & forall i' : 'I_k, (i' < i)%N -> f i' = 0].
Proof.
move=> [i Hi]; have [||j [H1 H2 _ H4]] := @first_part_in (enum 'I_k).
- by rewrite val_enum_ord iota_ltn_sorted.
- by apply/hasP; exists i; rewrite ?mem_enum.
- by exists j; split=> // i'; apply: H4; rewrite mem_enum.
Qed.
End First.
