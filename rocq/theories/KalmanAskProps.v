(** Property C142: requests of Kalman estimators with limited steps. *)
From mathcomp Require Import all_ssreflect all_algebra.
From Verif Require Import PyExn LinAlgModel LinAlgSpec LinAlgProofs FDProofs LoopProofs LimitedModel LimitedSpec LimitedProofs LimitedProps KalmanModel KalmanSpec KalmanProofs KalmanRequests KalmanLoopModel KalmanLoopSpec KalmanLoopProofs KalmanLoopProps KalmanGlobalSpec KalmanGlobalProofs KalmanGlobalProps KalmanLimitedModel KalmanLimitedSpec KalmanLimitedProofs KalmanLimitedProps KalmanAskProofs.
Set Implicit Arguments. Unset Strict Implicit. Unset Printing Implicit Defensive.
Import Order.TTheory GRing.Theory Num.Theory.
Local Open Scope ring_scope.

(** Every round of a tuner that makes one step per measurement. *)
Lemma before_taken (F : realFieldType) n k request norm int_of (m : F) (f w : nat -> 'rV[F]_n -> 'rV[F]_k) (S : nat -> ktuner F n k) :
  is_norm norm -> is_int int_of -> 0 < m -> rounds_of request norm int_of (Some m) 1 f w S -> kt_queue (S 0%N) = 0%N -> kt_evals (S 0%N) = 0%N ->
  taken f w (before S) /\ forall t, towards (Some m) (before S t).2 (kn_suggest request (before S t.+1).1) (before S t.+1).2.
Proof. by move=> Hn Hi Hm Hr Hq He; split=> t; have [_ _] := single_round Hn Hi Hm Hr Hq He t. Qed.

(** ** Few rounds are spent on requests *)
(** Requested measurements are made nearer than asked for when the limit is
    shorter than the request.  Their number is still limited, on any device:
    [e1] is at most the shortest request [emin] and at most the part of it that
    is left when the longest is cut to the limit [m]. *)
Theorem limited_requests_few :
  forall (F : realFieldType) n k request norm int_of (m : F) (f w : nat -> 'rV[F]_n -> 'rV[F]_k) (S : nat -> ktuner F n k) (M wmax emin emax e1 : F) (eps : 'rV[F]_n) N,
  is_norm norm -> is_int int_of -> 0 < m -> rounds_of request norm int_of (Some m) 1 f w S -> kt_queue (S 0%N) = 0%N -> kt_evals (S 0%N) = 0%N ->
  (forall t p i, 0 < w t p 0 i <= wmax) -> (forall i, untold (kn_ests (kt_solver (S 0%N)) i)) ->
  0 < M -> asks_like M eps request -> 0 < emin -> (forall j, emin <= eps 0 j <= emax) ->
  0 < e1 -> e1 <= emin -> e1 * emax <= m * emin -> shortest2 F <= e1 ^+ 2 ->
  #|[pred t : 'I_N | asks request (before S) t.+1]|%:R * (M ^+ 2 * e1 ^+ 2 / (M * emax ^+ 2 + wmax)) <=
  \sum_i \tr (kf_P (mk_kf (kn_ests (kt_solver (S 0%N)) i))).
Proof.
move=> F n k request norm int_of m f w S M wmax emin emax e1 eps N Hn Hi Hm Hr Hq He Hw H0 HM Hask Hemin Heps He1 He1m He1l Hsh.
have Hw0 t p i : 0 < w t p 0 i by have /andP [] := Hw t p i.
have Hmax t p i : w t p 0 i <= wmax by have /andP [] := Hw t p i.
have [Ht Hto] := before_taken Hn Hi Hm Hr Hq He.
have H0' i : untold (kn_ests (before S 0%N).1 i) by exact: H0.
exact: (ask_bounded 0 Hw0 H0' Ht Hm Hto HM Hask Hmax Hemin Heps He1 He1m He1l N Hsh).
Qed.
Print Assumptions limited_requests_few.

(** ** The other rounds *)
(** An affine device, any first gradients, a maximum covariance that is small
    enough for their errors: a round that is not spent on a request reduces the
    squared distance to the target by a factor that depends on how far the
    limit [m] is from the length of the whole step. *)
Theorem limited_requests_converge :
  forall (F : realFieldType) n k (A : 'M[F]_(k, n)) (c : 'rV[F]_k) request norm int_of (m : F) (w : nat -> 'rV[F]_n -> 'rV[F]_k) (S : nat -> ktuner F n k) (M a2 : F) (eps : 'rV[F]_n),
  let f := affines A c in
  let r t := kn_desired (kt_solver (S 0%N)) - f (kt_volt (S t)) in
  let e2 := M * \sum_i prior_error (row i A) (kn_ests (kt_solver (S 0%N)) i) in
  let q := 2%:R * e2 / (a2 - 2%:R * e2) in
  is_norm norm -> is_int int_of -> 0 < m -> rounds_of request norm int_of (Some m) 1 (fun _ => f) w S -> kt_queue (S 0%N) = 0%N -> kt_evals (S 0%N) = 0%N ->
  (forall t p i, 0 < w t p 0 i) -> (forall i, untold (kn_ests (kt_solver (S 0%N)) i)) ->
  0 < M -> asks_like M eps request -> bounded_below A a2 -> 4%:R * e2 < a2 ->
  0 <= q < 1 /\
  (forall t, sqn (kt_volt (S t.+1) - kt_volt (S t)) <= m ^+ 2) /\
  forall t N b, 0 <= b <= 1 -> b ^+ 2 * (2%:R * sqn (r t)) <= m ^+ 2 * (a2 - 2%:R * e2) ->
  (forall j, (j < N)%N -> ~~ asks request (before S) (t + j).+1) ->
  sqn (r (t + N)%N) <= (1 - b * (1 - q)) ^+ N * sqn (r t).
Proof.
move=> F n k A c request norm int_of m w S M a2 eps f r e2 q Hn Hi Hm Hr Hq He Hw H0 HM Hask HA Ha.
have [Ht Hto] := before_taken Hn Hi Hm Hr Hq He.
have H0' i : untold (kn_ests (before S 0%N).1 i) by exact: H0.
split; first exact: (ask_rate H0' HM Ha).
split; first by move=> t; exact: (towards_length erefl (Hto t)).
move=> t N b Hb Hb2 Hno.
exact: (ask_iterate (fun _ => erefl) Hw H0' Ht Hm Hto HM Hask HA Ha Hno Hb Hb2).
Qed.
Print Assumptions limited_requests_converge.

(** ** The target is reached *)
(** Within a number of rounds that is known beforehand: [K] limits the requests
    and [R] the distance after them, [L] is the number of rounds that reduce
    this distance enough. *)
Theorem limited_requests_bound :
  forall (F : realFieldType) n k (A : 'M[F]_(k, n)) (c : 'rV[F]_k) request norm normk int_of (m : F) (w : nat -> 'rV[F]_n -> 'rV[F]_k) (S : nat -> ktuner F n k)
         (M a2 la wmax emin emax e1 eta b : F) (eps : 'rV[F]_n) K L,
  let f := affines A c in
  let r t := kn_desired (kt_solver (S 0%N)) - f (kt_volt (S t)) in
  let e2 := M * \sum_i prior_error (row i A) (kn_ests (kt_solver (S 0%N)) i) in
  let q := 2%:R * e2 / (a2 - 2%:R * e2) in
  let R := normk (r 0%N) + K%:R * (la * m) in
  is_norm norm -> is_norm normk -> is_int int_of -> 0 < m -> rounds_of request norm int_of (Some m) 1 (fun _ => f) w S -> kt_queue (S 0%N) = 0%N -> kt_evals (S 0%N) = 0%N ->
  (forall t p i, 0 < w t p 0 i <= wmax) -> 0 <= wmax -> (forall i, untold (kn_ests (kt_solver (S 0%N)) i)) ->
  0 < M -> asks_like M eps request -> bounded_below A a2 -> 4%:R * e2 < a2 -> 0 <= la -> (forall x : 'rV[F]_n, sqn (x *m A^T) <= la ^+ 2 * sqn x) ->
  0 < emin -> (forall j, emin <= eps 0 j <= emax) -> 0 < emax -> 0 < e1 -> e1 <= emin -> e1 * emax <= m * emin -> shortest2 F <= e1 ^+ 2 ->
  \sum_i \tr (kf_P (mk_kf (kn_ests (kt_solver (S 0%N)) i))) < K.+1%:R * (M ^+ 2 * e1 ^+ 2 / (M * emax ^+ 2 + wmax)) ->
  0 <= b <= 1 -> b ^+ 2 * (2%:R * R ^+ 2) <= m ^+ 2 * (a2 - 2%:R * e2) -> (1 - b * (1 - q)) ^+ L * R ^+ 2 <= eta ->
  exists t, (t <= K.+1 * L)%N /\ sqn (r t) <= eta.
Proof.
move=> F n k A c request norm normk int_of m w S M a2 la wmax emin emax e1 eta b eps K L f r e2 q R Hn Hnk Hi Hm Hr Hq He Hw Hwm H0 HM Hask HA Ha Hla Hlip Hemin Heps Hemax He1 He1m He1l Hsh HK Hb Hb2 HL.
have Hw0 t p i : 0 < w t p 0 i by have /andP [] := Hw t p i.
have [Ht Hto] := before_taken Hn Hi Hm Hr Hq He.
have H0' i : untold (kn_ests (before S 0%N).1 i) by exact: H0.
have Hcount N : (\sum_(t < N) asks request (before S) t.+1 <= K)%N.
  have := limited_requests_few N Hn Hi Hm Hr Hq He Hw H0 HM Hask Hemin Heps He1 He1m He1l Hsh.
  rewrite -sum1_card big_mkcond /= => H; have := le_lt_trans H HK.
  have Hd : 0 < M ^+ 2 * e1 ^+ 2 / (M * emax ^+ 2 + wmax).
    apply: divr_gt0; first by apply: mulr_gt0; exact: exprn_gt0.
    by rewrite ltr_paddr // mulr_gt0 // exprn_gt0.
  rewrite ltr_pmul2r // ltr_nat ltnS; apply: leq_trans; apply: leq_sum => t _.
  by rewrite inE; case: asks.
have [[j [Hj Hno]]|Hc] := quiet_window request (before S) K L; last by have := Hcount (K.+1 * L)%N; rewrite leqNgt Hc.
have Hoff : sqn (r (j * L)%N) <= R ^+ 2.
  have [Hp <-] := Hnk (r (j * L)%N).
  have Hg : normk (r (j * L)%N) <= R.
    apply: (le_trans (off_grows (fun _ => erefl) Hw0 H0' Ht Hm Hto HM Hask HA Ha Hnk Hla Hlip (j * L))).
    rewrite ler_add2l; apply: ler_wpmul2r; first by apply: mulr_ge0 => //; exact: ltW.
    by rewrite ler_nat; exact: Hcount.
  by rewrite ler_pexpn2r ?nnegrE // (le_trans Hp).
exists (j * L + L)%N; split; first by rewrite mulSn addnC leq_add2l leq_mul2r Hj orbT.
have Hw1 := limited_requests_converge Hn Hi Hm Hr Hq He Hw0 H0 HM Hask HA Ha.
have [/andP [Hq0 Hq1] [_ Hit]] := Hw1.
have Hrho : 0 <= 1 - b * (1 - q).
  have /andP [Hb0 Hb1] := Hb; by rewrite subr_ge0 mulr_ile1 // ?subr_ge0 ?(ltW Hq1) // ler_subl_addr ler_addl.
apply: (@le_trans _ _ ((1 - b * (1 - q)) ^+ L * sqn (r (j * L)%N))).
  apply: Hit => //; apply: le_trans Hb2; apply: ler_wpmul2l; first exact: sqr_ge0.
  by apply: ler_wpmul2l; first exact: ler0n.
by apply: le_trans HL; apply: ler_wpmul2l; first exact: exprn_ge0.
Qed.
Print Assumptions limited_requests_bound.

(** In particular the tuner comes as close to the target as wanted. *)
Theorem limited_requests_reach :
  forall (F : archiFieldType) n k (A : 'M[F]_(k, n)) (c : 'rV[F]_k) request (norm : 'rV[F]_n -> F) (normk : 'rV[F]_k -> F) int_of (m : F) (w : nat -> 'rV[F]_n -> 'rV[F]_k) (S : nat -> ktuner F n k)
         (M a2 wmax emin emax e1 : F) (eps : 'rV[F]_n),
  let f := affines A c in
  let e2 := M * \sum_i prior_error (row i A) (kn_ests (kt_solver (S 0%N)) i) in
  is_norm norm -> is_norm normk -> is_int int_of -> 0 < m -> rounds_of request norm int_of (Some m) 1 (fun _ => f) w S -> kt_queue (S 0%N) = 0%N -> kt_evals (S 0%N) = 0%N ->
  (forall t p i, 0 < w t p 0 i <= wmax) -> 0 <= wmax -> (forall i, untold (kn_ests (kt_solver (S 0%N)) i)) ->
  0 < M -> asks_like M eps request -> bounded_below A a2 -> 4%:R * e2 < a2 ->
  0 < emin -> (forall j, emin <= eps 0 j <= emax) -> 0 < emax -> 0 < e1 -> e1 <= emin -> e1 * emax <= m * emin -> shortest2 F <= e1 ^+ 2 ->
  forall eta, 0 < eta -> exists t, sqn (kn_desired (kt_solver (S 0%N)) - f (kt_volt (S t))) <= eta.
Proof.
move=> F n k A c request norm normk int_of m w S M a2 wmax emin emax e1 eps f e2 Hn Hnk Hi Hm Hr Hq He Hw Hwm H0 HM Hask HA Ha Hemin Heps Hemax He1 He1m He1l Hsh eta Heta.
have Hw0 t p i : 0 < w t p 0 i by have /andP [] := Hw t p i.
have H0' i : untold (kn_ests (before S 0%N).1 i) by exact: H0.
have He0 : 0 <= e2 by exact: (ask_e2 A H0' HM).
have Hpos : 0 < a2 - 2%:R * e2.
  rewrite subr_gt0; apply: le_lt_trans Ha; rewrite ler_wpmul2r // ler_nat //.
have /andP [Hq0 Hq1] := ask_rate H0' HM Ha.
pose la := 1 + sqn A; have Hla : 0 <= la by apply: addr_ge0; [exact: ler01 | exact: sqn_ge0].
have Hlip (x : 'rV[F]_n) : sqn (x *m A^T) <= la ^+ 2 * sqn x.
  apply: (le_trans (sqn_mul_row _ _)); apply: ler_wpmul2r; first exact: sqn_ge0.
  rewrite sqn_tr; apply: (@le_trans _ _ la); first by rewrite ler_addr ler01.
  by rewrite expr2 ler_pemulr // ler_addl sqn_ge0.
pose D := M ^+ 2 * e1 ^+ 2 / (M * emax ^+ 2 + wmax).
have HD : 0 < D.
  apply: divr_gt0; first by apply: mulr_gt0; exact: exprn_gt0.
  by rewrite ltr_paddr // mulr_gt0 // exprn_gt0.
pose T := \sum_i \tr (kf_P (mk_kf (kn_ests (kt_solver (S 0%N)) i))).
have HT : 0 <= T.
  by have := limited_requests_few 0 Hn Hi Hm Hr Hq He Hw H0 HM Hask Hemin Heps He1 He1m He1l Hsh; apply: le_trans; rewrite mulr_ge0 ?ler0n // ltW.
pose K := Num.bound (T / D).
have HK : T < K.+1%:R * D.
  rewrite -ltr_pdivr_mulr //; apply: (@lt_le_trans _ _ K%:R); last by rewrite ler_nat.
  by apply: archi_boundP; apply: divr_ge0 => //; exact: ltW.
pose R := normk (kn_desired (kt_solver (S 0%N)) - f (kt_volt (S 0%N))) + K%:R * (la * m).
pose X := 2%:R * R ^+ 2 / (m ^+ 2 * (a2 - 2%:R * e2)).
have HmD : 0 < m ^+ 2 * (a2 - 2%:R * e2) by apply: mulr_gt0 => //; exact: exprn_gt0.
have HX : 0 <= X by apply: divr_ge0; [apply: mulr_ge0; [exact: ler0n | exact: sqr_ge0] | exact: ltW].
pose b : F := (Num.bound X).+1%:R^-1.
have Hb0 : 0 < b by rewrite invr_gt0 ltr0n.
have Hb1 : b <= 1 by rewrite invf_le1 ?ltr0n // ler1n.
have HbX : b ^+ 2 * (2%:R * R ^+ 2) <= m ^+ 2 * (a2 - 2%:R * e2).
  rewrite -[X in _ <= X]mul1r -ler_pdivr_mulr // -mulrA -/X expr2 -mulrA; apply: mulr_ile1 => //.
  - exact: ltW.
  - by apply: mulr_ge0 => //; exact: ltW.
  - rewrite mulrC ler_pdivr_mulr ?ltr0n // mul1r; apply: (@le_trans _ _ (Num.bound X)%:R); last by rewrite ler_nat.
    by apply: ltW; exact: archi_boundP.
have [L HL] : exists L, (1 - b * (1 - 2%:R * e2 / (a2 - 2%:R * e2))) ^+ L * R ^+ 2 <= eta.
  apply: geometric => //; last exact: sqr_ge0.
  apply/andP; split.
    by rewrite subr_ge0 mulr_ile1 // ?subr_ge0 ?(ltW Hq1) ?(ltW Hb0) // ler_subl_addr ler_addl.
  by rewrite ltr_subl_addr ltr_addl mulr_gt0 // subr_gt0.
have Hb : 0 <= b <= 1 by rewrite Hb1 ltW.
have [t [_ Ht]] := limited_requests_bound Hn Hnk Hi Hm Hr Hq He Hw Hwm H0 HM Hask HA Ha Hla Hlip Hemin Heps Hemax He1 He1m He1l Hsh HK Hb HbX HL.
by exists t.
Qed.
Print Assumptions limited_requests_reach.

(** One gate, one parameter of slope 2, target 1, first estimate of the slope -1
    with variance 9; requests of length 1 and steps of up to 1/2. *)
Lemma half_pos : (0 : rat_realFieldType) < 1 / 2%:R. Proof. by vm_compute. Qed.
Lemma asking_run : exists S, S 0%N = limited_wrong /\
  rounds_of (asker (1 / 2%:R)) abs1 int_rat (Some (1 / 2%:R)) 1 (fun _ => affines (one 2%:R) 0) ones S.
Proof.
apply: limited_runs; last exact: wrong_untold.
by move=> t p i; have /andP [] := ones_range t p i.
Qed.
Lemma asking_step (j : 'I_1) : (1 : rat_realFieldType) <= (const_mx 1 : 'rV[rat_realFieldType]_1) 0 j <= 1.
Proof. by rewrite mxE lexx. Qed.
Lemma asking_short : shortest2 rat_realFieldType <= (1 / 2%:R) ^+ 2.
Proof. by apply: (@shortest_le rat_realFieldType); vm_compute. Qed.
Lemma half_one : (1 / 2%:R : rat_realFieldType) <= 1. Proof. by vm_compute. Qed.
Lemma half_limit : (1 / 2%:R : rat_realFieldType) * 1 <= 1 / 2%:R * 1. Proof. exact: lexx. Qed.
Lemma half_enough : 4%:R * (1 / 2%:R * 1) < (4%:R : rat_realFieldType). Proof. by vm_compute. Qed.
Lemma ones_pos t p i : (0 : rat_realFieldType) < ones t p 0 i.
Proof. by have /andP [] := ones_range t p i. Qed.
(** The first request is for the voltage 1 and cut to 1/2. *)
Lemma first_request e : gate_cov (mk_kf e) = one 9%:R -> mk_pos e = 0 -> asker (1 / 2%:R) 0 e = Some (one 1).
Proof.
move=> Ec Ep; have HP : psd (gate_cov (mk_kf e)) by rewrite Ec; exact: psd_scalar.
have HE : eigenbasis (gate_cov (mk_kf e)) 1%:M (const_mx 9%:R).
  rewrite Ec; split; first by rewrite trmx1 mulmx1.
  by rewrite mulmx1 mul1mx; apply/matrixP => a b; rewrite !ord1 !mxE eqxx.
have := require_uniform HE (const_mx 1) (mk_pos e) HP half_pos.
have -> : kal_require (const_mx 9%:R) 1%:M (const_mx (1 / 2%:R)^-1) (const_mx 1) (mk_pos e) = asker (1 / 2%:R) 0 e by rewrite /asker Ec mxE eqxx.
case: (asker _ _ _) => [p [j [-> _]]|/(_ 1%:M)].
  by rewrite Ep add0r; congr Some; apply/matrixP => a b; rewrite !ord1 !mxE eqxx.
rewrite Ec /variance tr_scalar_mx !mul_scalar_mx mulmx1 scale1r /sqn !big_ord1 !mxE eqxx => H; exfalso; move: H.
have -> : ((9%:R : rat_realFieldType) *+ true <= 1 / 2%:R * (1 *+ true) ^+ 2) = false by vm_compute.
by [].
Qed.
(** The first request is for the voltage 1 and is cut to 1/2.  There are at most
    216 requests; in a round without one the squared distance is divided by 3
    if the whole step is within the limit; and the distance becomes as small as
    wanted. *)
Example asking_ex : exists S, S 0%N = limited_wrong /\
  rounds_of (asker (1 / 2%:R)) abs1 int_rat (Some (1 / 2%:R)) 1 (fun _ => affines (one 2%:R) 0) ones S /\
  asks (asker (1 / 2%:R)) (before S) 1 /\ kt_volt (S 1%N) = one (1 / 2%:R) /\
  (forall N, (#|[pred t : 'I_N | asks (asker (1 / 2%:R)) (before S) t.+1]| <= 216)%N) /\
  (forall t, ~~ asks (asker (1 / 2%:R)) (before S) t.+1 -> 2%:R * sqn (one 1 - affines (one 2%:R) 0 (kt_volt (S t))) <= 3%:R / 4%:R ->
    sqn (one 1 - affines (one 2%:R) 0 (kt_volt (S t.+1))) <= 3%:R^-1 * sqn (one 1 - affines (one 2%:R) 0 (kt_volt (S t)))) /\
  forall eta, 0 < eta -> exists t, sqn (one 1 - affines (one 2%:R) 0 (kt_volt (S t))) <= eta.
Proof.
have [S [E0 Hrun]] := asking_run.
have H0 i : untold (kn_ests (kt_solver (S 0%N)) i) by rewrite E0; exact: wrong_untold.
have Hq : kt_queue (S 0%N) = 0%N by rewrite E0.
have He : kt_evals (S 0%N) = 0%N by rewrite E0.
have [_ _ Hup Hto] := single_round abs1_norm int_rat_is half_pos Hrun Hq He 0.
have Er : asker (1 / 2%:R) 0 (kn_ests (kt_solver (S 1%N)) 0) = Some (one 1).
  move: Hup; rewrite /kn_update E0; case: first_exn => // _ [<-] /=; apply: first_request => //.
  by apply/matrixP => a b; rewrite !ord1 !mxE eqxx.
exists S; split; first exact: E0.
split; first exact: Hrun.
split; first by apply/existsP; exists 0; rewrite /before /= Er.
split.
  move: Hto; rewrite /kn_suggest enum_ordS /= Er E0 => -[c [/andP [Hc0 Hc1] -> /=]].
  have -> : (1 / 2%:R) ^+ 2 < sqn (one 1 - 0 : 'rV[rat_realFieldType]_1) by rewrite subr0 sqn_one; vm_compute.
  rewrite !subr0 !add0r sqnZ sqn_one => Hc.
  have -> : c = 1 / 2%:R.
    by apply/eqP; rewrite -(@eqr_expn2 _ 2) // ?(ltW Hc0) // -Hc expr1n mulr1.
  by rewrite /one -[in LHS]scalemx1 scalerA mulr1 scalemx1.
split.
  move=> N; have := limited_requests_few N abs1_norm int_rat_is half_pos Hrun Hq He ones_range H0 half_pos (@asker_asks _) ltr01 asking_step half_pos half_one half_limit asking_short.
  have -> : \sum_i \tr (kf_P (mk_kf (kn_ests (kt_solver (S 0%N)) i))) = 9%:R by rewrite E0 big_ord1 /= mxtrace_scalar.
  have -> : (1 / 2%:R) ^+ 2 * (1 / 2%:R) ^+ 2 / (1 / 2%:R * 1 ^+ 2 + 1) = 24%:R^-1 :> rat_realFieldType by apply/eqP; vm_compute.
  by rewrite ler_pdivr_mulr ?ltr0n // -natrM ler_nat.
have Hd : kn_desired (kt_solver (S 0%N)) = one 1 by rewrite E0.
have Hsum : 1 / 2%:R * (\sum_i prior_error (row i (one 2%:R)) (kn_ests (kt_solver (S 0%N)) i)) = 1 / 2%:R * 1 by rewrite E0 wrong_sum.
have H4 : 4%:R * (1 / 2%:R * (\sum_i prior_error (row i (one 2%:R)) (kn_ests (kt_solver (S 0%N)) i))) < (4%:R : rat_realFieldType) by rewrite Hsum; exact: half_enough.
split.
  move=> t Ha Hn.
  have [_ [_ H]] := limited_requests_converge abs1_norm int_rat_is half_pos Hrun Hq He ones_pos H0 half_pos (@asker_asks _) one_bounded H4.
  have Hb : (0 : rat_realFieldType) <= (1 : rat_realFieldType) <= 1 by rewrite ler01 lexx.
  have := H t 1%N 1 Hb; rewrite Hd Hsum addn1.
  have -> : (1 - 1 * (1 - 2%:R * (1 / 2%:R * 1) / (4%:R - 2%:R * (1 / 2%:R * 1)))) ^+ 1 = 3%:R^-1 :> rat_realFieldType by apply/eqP; vm_compute.
  have -> : (1 / 2%:R) ^+ 2 * (4%:R - 2%:R * (1 / 2%:R * 1)) = 3%:R / 4%:R :> rat_realFieldType by apply/eqP; vm_compute.
  rewrite expr1n mul1r => H1; apply: H1; first exact: Hn.
  by case=> // _; rewrite addn0.
move=> eta Heta.
rewrite -Hd; apply: (@limited_requests_reach archiType 1 1 (one 2%:R) 0 (asker (1 / 2%:R)) abs1 abs1 int_rat (1 / 2%:R) ones S (1 / 2%:R) 4%:R 1 1 1 (1 / 2%:R) (const_mx 1)
  abs1_norm abs1_norm int_rat_is half_pos Hrun Hq He ones_range ler01 H0 half_pos (@asker_asks _) one_bounded H4 ltr01 asking_step ltr01 half_pos half_one half_limit asking_short eta Heta).
Qed.
