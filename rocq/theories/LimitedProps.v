(** Property C134: limited steps while the gradients are being learnt. *)
From mathcomp Require Import all_ssreflect all_algebra.
From Verif Require Import PyExn LinAlgModel LinAlgSpec LinAlgProofs FDProofs LoopProofs KalmanLoopProofs ChordModel ChordSpec ChordProofs LinAlgProps LimitedModel LimitedSpec LimitedProofs FieldTac.
From Coq Require Import Ring Field.
Set Implicit Arguments. Unset Strict Implicit. Unset Printing Implicit Defensive.
Import Order.TTheory GRing.Theory Num.Theory.
Local Open Scope ring_scope.

(** One step per evaluation (the default), whatever the device does: no round
    fails, every round evaluates, no step is longer than the limit; the first
    [n+1] points are in general position although the requested ones need not
    have been reached, and the Jacobian of their chords is used from then on,
    in steps along the shortest least squares solution. *)
Theorem limited_learning :
  forall (F : realFieldType) n k (ortho : seq 'rV[F]_n -> res 'rV[F]_n) (norm : 'rV[F]_n -> F) (int_of : F -> nat) (limit : option F)
         (f w : nat -> 'rV[F]_n -> 'rV[F]_k) (p0 : 'rV[F]_n) (eps : 'I_k -> 'rV[F]_n) (desired vals0 : 'rV[F]_k),
  chooses_orthogonal ortho -> is_norm norm -> is_int int_of -> (forall m, limit = Some m -> 0 < m) ->
  (0 < n)%N -> (0 < k)%N -> (forall i j, nat_of_ord i = 0%N -> 0 < eps i 0 j) ->
  exists (s : nat -> ltuner F n k) J,
    let ps := [seq lt_volt (s i) | i <- iota 0 n.+1] in
    [/\ forall i, [/\ lt_rounds ortho norm int_of limit 1 f w i (starting desired p0 eps vals0) = Ok (s i), lt_evals (s i) = i & lt_queue (s i) = 0%N],
        general ps, chords f ps J,
        forall i, (n <= i)%N -> jacobian (mn_ests (lt_solver (s i.+1))) = Some J /\
          towards limit (lt_volt (s i)) (lt_volt (s i) + (lstsq J (desired - f i (lt_volt (s i)))^T)^T) (lt_volt (s i.+1)) &
        forall m i, limit = Some m -> sqn (lt_volt (s i.+1) - lt_volt (s i)) <= m ^+ 2].
Proof.
move=> F n k ortho norm int_of limit f w p0 eps des vals0 Ho Hno Hi Hl Hn Hk He.
have Hl' : is_true (if limit is Some m then 0 < m else true) by case: limit Hl => // m; apply.
have He' : forall j, 0 < eps (Ordinal Hk) 0 j by move=> j; apply: He.
have [ds [J [Hs Hin Hc Hb Ha]]] := rounds_all Hno Hi Hl' f w Ho p0 des vals0 Hn He'.
pose s := at_round ortho norm int_of limit f w p0 eps des vals0.
have Hall : forall i, [/\ lt_rounds ortho norm int_of limit 1 f w i (starting des p0 eps vals0) = Ok (s i), lt_evals (s i) = i & lt_queue (s i) = 0%N].
  move=> i; rewrite /s; case: (leqP i n) => H.
    by have [st Hst] := Hb i H; rewrite (at_rounds Hst) Hst.
  by have [st [v [v' [Hst _ _]]]] := Ha (i - n)%N; rewrite subnKC ?(ltnW H) // in Hst; rewrite (at_rounds Hst) Hst.
have Eps : [seq lt_volt (s i) | i <- iota 0 n.+1] = pts p0 ds.
  apply: (@eq_from_nth _ 0); first by rewrite size_map size_iota size_pts Hs.
  move=> i; rewrite size_map size_iota => Hi'; rewrite (nth_map 0%N) ?size_iota // nth_iota // add0n.
  by have [st Hst] := Hb i Hi'; rewrite /s (at_rounds Hst).
exists s, J; cbv zeta; rewrite Eps; split=> //.
- move=> x Hx; apply: (annihilated Hin Hs) => v Hv; rewrite -(Hx (p0 + v) p0); last exact: mem_head.
  + by rewrite addrC addKr.
  + by rewrite inE map_f ?orbT.
- move=> i Hi'; have [st [v [v' [H1 [st' [H2 K]] T]]]] := Ha (i - n)%N; rewrite subnKC // in H1 H2 T.
  by rewrite /s (at_rounds H1) (at_rounds H2) /= (knows_jacobian K).
- move=> m i Hm; have [H1 _ _] := Hall i; have [H2 _ _] := Hall i.+1.
  exact: (rounds_close Hno Hi Hl' Ho Hn He' Hm H1 H2).
Qed.
Print Assumptions limited_learning.

(** On an affine device: if the target can be met at a distance of at most [M]
    steps from the start, it is met exactly after [2n + M] rounds and for ever. *)
Theorem limited_reaches_target :
  forall (F : realFieldType) n k (ortho : seq 'rV[F]_n -> res 'rV[F]_n) (norm : 'rV[F]_n -> F) (int_of : F -> nat) (m : F)
         (A : 'M[F]_(k, n)) (b : 'rV[F]_k) (w : nat -> 'rV[F]_n -> 'rV[F]_k) (p0 x0 : 'rV[F]_n) (eps : 'I_k -> 'rV[F]_n) (desired vals0 : 'rV[F]_k) (M i : nat),
  chooses_orthogonal ortho -> is_norm norm -> is_int int_of -> 0 < m ->
  (0 < n)%N -> (0 < k)%N -> (forall i j, nat_of_ord i = 0%N -> 0 < eps i 0 j) ->
  affines A b x0 = desired -> sqn (x0 - p0) <= (M%:R * m) ^+ 2 -> (2 * n + M <= i)%N ->
  exists s, lt_rounds ortho norm int_of (Some m) 1 (fun _ => affines A b) w i (starting desired p0 eps vals0) = Ok s /\ affines A b (lt_volt s) = desired /\
    exists s', lt_rounds ortho norm int_of (Some m) 1 (fun _ => affines A b) w i.+1 (starting desired p0 eps vals0) = Ok s' /\ lt_volt s' = lt_volt s.
Proof.
move=> F n k ortho norm int_of m A b w p0 x0 eps des vals0 M i Ho Hno Hi Hm Hn Hk He Hx Hd Hi'.
have He' : forall j, 0 < eps (Ordinal Hk) 0 j by move=> j; apply: He.
apply: (@reaches_target F n k ortho norm int_of (Some m) Hno Hi Hm (fun _ => affines A b) w Ho p0 eps des vals0 Hk Hn He' A b x0 m M) => //.
by rewrite addnn -mul2n.
Qed.
Print Assumptions limited_reaches_target.

(** Several steps per evaluation: if the first request is at a distance of
    exactly [K] steps, [K] between 2 and the number of steps, the tuner goes
    there and never evaluates again. *)
Theorem limited_blocked_refuted :
  forall (F : realFieldType) n k (ortho : seq 'rV[F]_n -> res 'rV[F]_n) (norm : 'rV[F]_n -> F) (int_of : F -> nat) (m : F)
         (f w : nat -> 'rV[F]_n -> 'rV[F]_k) (p0 ov : 'rV[F]_n) (eps : 'I_k -> 'rV[F]_n) (desired vals0 : 'rV[F]_k) (i0 : 'I_k) (K N i : nat),
  is_norm norm -> is_int int_of -> 0 < m -> (0 < n)%N -> nat_of_ord i0 = 0%N -> ortho [:: 0] = Ok ov ->
  sqn (scale ov (eps i0)) = (K%:R * m) ^+ 2 -> (1 < K)%N -> (K <= N)%N -> (K <= i)%N ->
  exists s, [/\ lt_rounds ortho norm int_of (Some m) N f w i (starting desired p0 eps vals0) = Ok s,
    lt_evals s = 1%N, lt_queue s = 1%N & lt_volt s = p0 + scale ov (eps i0)].
Proof.
move=> F n k ortho norm int_of m f w p0 ov eps des vals0 i0 K N i Hno Hi Hm Hn E0 Hov Hd HK HN Hi'.
by have [st [-> _]] := blocked f w Hno Hi Hm p0 des vals0 Hn E0 Hov Hd HK HN Hi'; eexists; split; first reflexivity.
Qed.
Print Assumptions limited_blocked_refuted.

(** Once the gradients are known, a long step is made in as many parts of the
    length of the limit as are allowed, all in the direction found by the first
    evaluation and not beyond its end; there are no evaluations in between, and
    the queue is empty after the last part. *)
Theorem limited_queue :
  forall (F : realFieldType) n k (ortho : seq 'rV[F]_n -> res 'rV[F]_n) (norm : 'rV[F]_n -> F) (int_of : F -> nat) (m : F)
         (f w : nat -> 'rV[F]_n -> 'rV[F]_k) (J : 'M[F]_(k, n)) (N : nat) (s : ltuner F n k),
  let v := lt_volt s in
  let t := lt_evals s in
  let d := (lstsq J (mn_desired (lt_solver s) - f t v)^T)^T in
  let q := minn (int_of (norm d / m)) N in
  is_int int_of -> 0 < m -> m < norm d -> (0 < N)%N -> lt_queue s = 0%N ->
  (forall i, mf_est (mn_ests (lt_solver s) i) = Some (row i J)) ->
  [/\ (0 < q)%N, q%:R * m <= norm d &
    forall j, (0 < j <= q)%N -> exists s', [/\ lt_rounds ortho norm int_of (Some m) N f w j s = Ok s',
      lt_volt s' = v + (j%:R * m / norm d) *: d, lt_evals s' = t.+1 & lt_queue s' = (q - j)%N]].
Proof.
move=> F n k ortho norm int_of m f w J N s v t d q Hi Hm Hd HN Hq0 HJ.
have Hpos : 0 <= norm d / m by rewrite divr_ge0 ?(ltW Hm) // (le_trans (ltW Hm) (ltW Hd)).
have /andP [Hi1 Hi2] := Hi _ Hpos.
have Hq : (0 < q)%N.
  rewrite /q leq_min HN andbT; case E: (int_of _) Hi2 => [|//]; rewrite ltr_pdivr_mulr // mul1r => H.
  by have := lt_trans Hd H; rewrite ltxx.
split=> //.
  rewrite -ler_pdivl_mulr //; apply: le_trans Hi1; rewrite ler_nat; exact: geq_minl.
have Hk : knows (mn_desired (lt_solver s)) J (lt_solver s) by [].
have cut u r : cut_step norm int_of (Some m) N u (u + d) r = (u + (m / norm d) *: d, (if r == 0%N then q else r).-1).
  by rewrite /cut_step addrAC subrr add0r Hd.
have Hall j : (j < q)%N -> exists st', [/\ lt_rounds ortho norm int_of (Some m) N f w j.+1 s = Ok (mk_ltuner st' (v + (j.+1%:R * m / norm d) *: d) t.+1 (q - j.+1)),
    knows (mn_desired (lt_solver s)) J st' & mn_vals st' = f t v].
  elim: j => [|j IH] Hj.
    have [|st' [Hu [Hds [Hp [Hv He]]]]] := @known_update _ _ _ (f t) (w t) (lt_solver s) v; first by move=> i; rewrite HJ.
    have H' : knows (mn_desired (lt_solver s)) J st' by split=> [|i]; rewrite ?Hds ?He.
    exists st'; split=> //; rewrite roundsS /= /lt_round /lt_check Hq0 eqxx -/v -/t Hu.
    by rewrite (knows_suggest ortho H') Hv Hp -/d cut eqxx subn1 mul1r.
  have [st' [E H' Hv]] := IH (ltnW Hj).
  pose st2 := mk_mnewton (mn_desired st') (mn_ests st') (v + (j.+1%:R * m / norm d) *: d) (mn_vals st').
  have H2 : knows (mn_desired (lt_solver s)) J st2 by [].
  exists st2; split=> //; rewrite roundsS E /lt_round /lt_check; cbn [lt_queue lt_volt lt_solver lt_evals].
  have -> : (q - j.+1 == 0)%N = false by rewrite subn_eq0 leqNgt Hj.
  rewrite -/st2 (knows_suggest ortho H2) [mn_pos _]/= [mn_vals _]/= Hv -/d.
  rewrite cut.
  have -> : (q - j.+1 == 0)%N = false by rewrite subn_eq0 leqNgt Hj.
  rewrite -addrA -scalerDl -mulrDl -subnS.
  by have -> : j.+2%:R * m = j.+1%:R * m + m by rewrite -[j.+2]addn1 natrD mulrDl mul1r.
by case=> // j /andP [_ Hj]; have [st' [E _ _]] := Hall j Hj; eexists; split; first exact: E.
Qed.
Print Assumptions limited_queue.

(** One gate: the length is the absolute value; integer part of a rational. *)
Definition abs1 (v : 'rV[rat]_1) : rat := `|v 0 0|.
Lemma abs1_norm : is_norm abs1.
Proof. by move=> v; split; [exact: normr_ge0 | rewrite /abs1 /sqn !big_ord1 -normrX ger0_norm ?sqr_ge0]. Qed.
Lemma some_int (x : rat) : exists i : nat, x < i.+1%:R.
Proof.
exists (Num.bound x); have [Hx|Hx] := lerP 0 x; last exact: lt_trans Hx (ltr0Sn _ _).
by apply: lt_trans (archi_boundP Hx) _; rewrite ltr_nat.
Qed.
Definition int_rat (x : rat) : nat := ex_minn (some_int x).
Lemma int_rat_is : is_int int_rat.
Proof.
move=> x Hx; rewrite /int_rat; case: ex_minnP => i Hi Hmin; rewrite Hi andbT.
case: i Hi Hmin => [//|i] Hi Hmin; rewrite leNgt; apply/negP => H; by have := Hmin i H; rewrite ltnn.
Qed.

(** A step edge on top of a drift, and steps of at most 1/3, although the
    estimator asks for one at a distance of 2. *)
Definition edge1 (t : nat) (p : 'rV[rat]_1) : 'rV[rat]_1 := \row_i ((if 1 / 2%:R <= p 0 0 then 1 else p 0 i) + t%:R).
Example case_limited_edge : exists (s : nat -> ltuner rat_realFieldType 1 1) J,
  [/\ lt_rounds (@null_choice rat_realFieldType 1) abs1 int_rat (Some (1 / 3%:R)) 1 edge1 edge1 7 (starting 0 0 (fun _ => const_mx 2%:R) 0) = Ok (s 7%N),
      jacobian (mn_ests (lt_solver (s 7%N))) = Some J & sqn (lt_volt (s 7%N) - lt_volt (s 6%N)) <= (1 / 3%:R) ^+ 2].
Proof.
have [||||||| s [J [Hs _ _ HJ Hc]]] := @limited_learning rat_realFieldType 1 1 (@null_choice rat_realFieldType 1) abs1 int_rat (Some (1 / 3%:R)) edge1 edge1 0 (fun _ => const_mx 2%:R) 0 0.
- exact: null_choice_chooses.
- exact: abs1_norm.
- exact: int_rat_is.
- by move=> m [<-]; vm_compute.
- by [].
- by [].
- by move=> i j _; rewrite mxE; vm_compute.
exists s, J; split; [by have [] := Hs 7%N | by have [] := HJ 6%N isT | exact: Hc].
Qed.

(** The parameter is twice the voltage; the target 10 is five steps away. *)
Definition doubled : 'M[rat_realFieldType]_1 := const_mx 2%:R.
Example case_limited_target : exists s : ltuner rat_realFieldType 1 1,
  lt_rounds (@null_choice rat_realFieldType 1) abs1 int_rat (Some 1) 1 (fun _ => affines doubled 0) (fun _ _ => 0) 7
    (starting (const_mx 10%:R) 0 (fun _ => const_mx 3%:R) 0) = Ok s /\ affines doubled 0 (lt_volt s) = const_mx 10%:R.
Proof.
have [|||||||||| s [Hs [Ht _]]] := @limited_reaches_target rat_realFieldType 1 1 (@null_choice rat_realFieldType 1) abs1 int_rat 1 doubled 0 (fun _ _ => 0) 0
  (const_mx 5%:R) (fun _ => const_mx 3%:R) (const_mx 10%:R) 0 5 7.
- exact: null_choice_chooses.
- exact: abs1_norm.
- exact: int_rat_is.
- exact: ltr01.
- by [].
- by [].
- by move=> i j _; rewrite mxE; vm_compute.
- by apply/rowP => i; rewrite !mxE big_ord1 !mxE addr0; apply/eqP; vm_compute.
- by rewrite /sqn !big_ord1 !mxE; vm_compute.
- by [].
by exists s.
Qed.

(** Two steps of 1 towards a request at a distance of 2. *)
Example case_limited_blocked : forall i, (2 <= i)%N -> exists s : ltuner rat_realFieldType 1 1,
  lt_rounds (fun _ => Ok (const_mx 1)) abs1 int_rat (Some 1) 3 edge1 edge1 i (starting 0 0 (fun _ => const_mx 2%:R) 0) = Ok s /\ lt_evals s = 1%N.
Proof.
move=> i Hi; have [|||||||||| s [Hs He _ _]] := @limited_blocked_refuted rat_realFieldType 1 1 (fun _ => Ok (const_mx 1)) abs1 int_rat 1 edge1 edge1 0 (const_mx 1) (fun _ => const_mx 2%:R) 0 0 ord0 2 3 i.
- exact: abs1_norm.
- exact: int_rat_is.
- exact: ltr01.
- by [].
- by [].
- by [].
- by rewrite /sqn !big_ord1 !mxE; apply/eqP; vm_compute.
- by [].
- by [].
- by [].
by exists s.
Qed.

(** A step of 5 in parts of 2, at most three of them: two are made. *)
Definition knowing : mfd rat_realFieldType 1 := mk_mfd 0 0 (Some (const_mx 2%:R)) None [::] false.
Lemma doubled_step : (lstsq doubled (const_mx 10%:R : 'rV[rat_realFieldType]_1)^T)^T = const_mx 5%:R.
Proof.
have Hf : row_free doubled.
  have -> : doubled = 2%:R%:M by apply/matrixP => i j; rewrite !ord1 !mxE.
  by rewrite row_free_unit unitmxE det_scalar expr1 unitfE.
have := lstsq_exact (const_mx 10%:R : 'rV[rat_realFieldType]_1)^T Hf; move: (lstsq _ _) => x /matrixP /(_ 0 0).
rewrite !mxE big_ord1 mxE => E; apply/matrixP => i j; rewrite !ord1 !mxE.
apply: (@mulfI rat_realFieldType 2%:R) => //; rewrite E; by apply/eqP; vm_compute.
Qed.
Lemma int_five_halves : int_rat (5%:R / 2%:R) = 2%N.
Proof.
have /andP [H1 H2] := int_rat_is (x := 5%:R / 2%:R) isT.
apply/eqP; rewrite eqn_leq -ltnS -(ltr_nat rat_realFieldType) -ltnS -(ltr_nat rat_realFieldType).
by rewrite (le_lt_trans H1) //= (le_lt_trans _ H2).
Qed.
Example case_limited_queue : exists s : ltuner rat_realFieldType 1 1,
  lt_rounds (fun _ => Ok (const_mx 1)) abs1 int_rat (Some 2%:R) 3 (fun _ => affines doubled 0) (fun _ _ => 0) 2
    (mk_ltuner (mk_mnewton (const_mx 10%:R) (fun _ => knowing) 0 0) 0 4 0) = Ok s /\
  lt_evals s = 5%N /\ lt_queue s = 0%N /\ lt_volt s 0 0 = 4%:R.
Proof.
set s0 := mk_ltuner _ _ _ _.
have := @limited_queue rat_realFieldType 1 1 (fun _ => Ok (const_mx 1)) abs1 int_rat 2%:R (fun _ => affines doubled 0) (fun _ _ => 0) doubled 3 s0 int_rat_is isT.
have -> : mn_desired (lt_solver s0) - affines doubled 0 (lt_volt s0) = const_mx 10%:R.
  by rewrite /affines /= trmx0 mulmx0 trmx0 addr0 subr0.
have E5 : abs1 (const_mx 5%:R) = 5%:R by rewrite /abs1 mxE.
rewrite doubled_step E5 int_five_halves => H.
have [||||_ _ H2] := H _ _ _ _ => //; first by move=> i; congr Some; apply/matrixP => a b; rewrite !mxE.
have [s [Hs Hv He Hq]] := H2 2%N isT; exists s; split=> //; split=> //; split=> //.
by rewrite Hv !mxE; apply/eqP; vm_compute.
Qed.
