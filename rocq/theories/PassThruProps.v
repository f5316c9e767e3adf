(** SMQQDPassThru: dealing of values, estimate of errors, failures. *)
From Coq Require Import Reals List String Bool Arith Lra Lia.
From Verif Require Import PyExn PyBase SeriesLemmas EvaluatorModel EvaluatorSpec EvaluatorProofs PassThruModel PassThruSpec PassThruProofs.
Import ListNotations.

Lemma lookup_over_values ps pairs i p : NoDup ps -> nth_error ps i = Some p ->
  lookup p (tab ps (over (values_of ps pairs) (fun _ => NaN))) =
  Some (match nth_error pairs i with Some q => fst q | None => NaN end).
Proof.
  intros N H. rewrite lookup_tab. pose proof (nth_error_In _ _ H) as I. apply mem_In in I. rewrite I.
  unfold over, values_of. rewrite (lookup_combine (num * num) (fun _ q => fst q) ps pairs i p N H).
  destruct (nth_error pairs i); reflexivity.
Qed.
Lemma lookup_over_errors E Rf ps pairs i p : NoDup ps -> nth_error ps i = Some p ->
  lookup p (tab ps (over (errors_of E Rf ps pairs) (fun _ => NaN))) =
  Some (match nth_error pairs i with Some q => scaled (E p) (snd q) (Rf p) | None => NaN end).
Proof.
  intros N H. rewrite lookup_tab. pose proof (nth_error_In _ _ H) as I. apply mem_In in I. rewrite I.
  unfold over, errors_of. rewrite (lookup_combine (num * num) (fun l q => scaled (E l) (snd q) (Rf l)) ps pairs i p N H).
  destruct (nth_error pairs i); reflexivity.
Qed.

(** Without line measurements every parameter receives the value of its
    position and an error scaled with the residual of the same measurement;
    parameters without a value stay NaN. *)
Theorem passthru_dealt x names parameters reference error (E Rf : label -> num) s rs :
  NoDup parameters -> names <> [] -> ~ In "line"%string names -> pt_error s = Some error ->
  (forall p, In p parameters -> lookup p error = Some (E p) /\ lookup p reference = Some (Rf p)) ->
  measured x (pt_done s) names rs ->
  exists s' result err,
    evaluate x names parameters reference s = (s', Ok (result, err)) /\
    index result = parameters /\ index err = parameters /\
    pt_error s' = Some error /\ pt_done s' = pt_done s + List.length names /\
    pt_x s' = [pt_count s] /\ pt_y s' = map snd result /\
    forall i p, nth_error parameters i = Some p ->
      match nth_error (all_own names rs) i with
      | Some (v, r) => lookup p result = Some v /\ lookup p err = Some (scaled (E p) r (Rf p))
      | None => lookup p result = Some NaN /\ lookup p err = Some NaN
      end.
Proof.
  intros ND NE NL Er K M. unfold evaluate. rewrite Er.
  destruct (eval_known_plain x names parameters reference error E Rf s rs ND NE NL K M) as [files H]. rewrite H.
  do 3 eexists. split; [reflexivity|]. rewrite !index_tab. cbn. repeat split; auto.
  { unfold tab. rewrite map_map. reflexivity. }
  intros i p I. rewrite (lookup_over_values _ _ _ _ ND I), (lookup_over_errors _ _ _ _ _ _ ND I).
  destruct (nth_error (all_own names rs) i) as [[v r]|]; auto.
Qed.
Print Assumptions passthru_dealt.
Example passthru_dealt_ex :
  let x := mk_experiment (fun k => if (k =? 0)%nat then Ok [Fin 1; Fin 2; Fin 3] else Ok [Fin 7; Fin 8]) (fun _ => Ok "f"%string) in
  let ps := ["a"; "b"; "c"; "d"; "e"]%string in
  let error := tab ps (fun _ => Fin 2) in
  let reference := tab ps (fun p => if String.eqb p "b" then NaN else Fin 4) in
  exists s' result err,
    evaluate x ["lead"; "stp"]%string ps reference (mk_passthru (Some error) [] 0 [] [] 0) = (s', Ok (result, err)) /\
    lookup "a"%string result = Some (Fin 1) /\ lookup "a"%string err = Some (ndiv (Fin (2 * 3)) (Fin 4)) /\
    lookup "b"%string err = Some (Fin 2) /\ lookup "d"%string result = Some (Fin 8) /\
    lookup "d"%string err = Some (Fin 2) /\ lookup "e"%string result = Some NaN.
Proof.
  intros x ps error reference.
  destruct (passthru_dealt x ["lead"; "stp"]%string ps reference error (fun _ => Fin 2) (fun p => if String.eqb p "b" then NaN else Fin 4)
              (mk_passthru (Some error) [] 0 [] [] 0) [[Fin 1; Fin 2; Fin 3]; [Fin 7; Fin 8]]) as (s' & result & err & H & _ & _ & _ & _ & _ & _ & D).
  - unfold ps. repeat constructor; cbn; intuition discriminate.
  - discriminate.
  - cbn. intuition discriminate.
  - reflexivity.
  - intros p I. unfold error, reference. rewrite !lookup_tab. apply mem_In in I. rewrite I. auto.
  - cbn. repeat split; eauto; try discriminate.
  - exists s', result, err. split; [exact H|].
    pose proof (D 0 "a"%string eq_refl) as D0. pose proof (D 1 "b"%string eq_refl) as D1.
    pose proof (D 3 "d"%string eq_refl) as D3. pose proof (D 4 "e"%string eq_refl) as D4.
    cbn in D0, D1, D3, D4. tauto.
Qed.

(** Only line measurements: value and variance of the i-th measurement go to
    the i-th parameter. *)
Lemma all_own_lines : forall names rs x k, Forall (eq "line"%string) names -> measured x k names rs ->
  combine (all_values names rs) (all_variances names rs) = map (fun r => (nth 0 r NaN, nth 1 r NaN)) rs.
Proof.
  induction names as [|n names IH]; intros rs x k L M; destruct rs as [|r rs]; try contradiction; auto.
  inversion L; subst. destruct M as (_ & _ & (_ & E & _) & M). specialize (E eq_refl).
  destruct r as [|a [|b r]]; cbn in E; try lia. cbn. f_equal. eapply IH; eauto.
Qed.
Theorem passthru_lines x names parameters reference error s rs :
  NoDup parameters -> names <> [] -> Forall (eq "line"%string) names -> pt_error s = Some error ->
  measured x (pt_done s) names rs ->
  exists s' result err,
    evaluate x names parameters reference s = (s', Ok (result, err)) /\
    pt_done s' = pt_done s + List.length names /\
    forall i p, nth_error parameters i = Some p ->
      match nth_error rs i with
      | Some r => lookup p result = Some (nth 0 r NaN) /\ lookup p err = Some (nth 1 r NaN)
      | None => lookup p result = Some NaN /\ lookup p err = Some NaN
      end.
Proof.
  intros ND NE L Er M. unfold evaluate. rewrite Er. unfold evaluate_known.
  destruct (gather_any x names (pt_done s) rs [] (mk_gathered [] [] []) M (le_n _)) as (files & g & G & _ & Gv & Gw).
  rewrite G. cbn [g_values g_variances app] in Gv, Gw. rewrite Gv, Gw.
  assert (LL : String.eqb (last names ""%string) "line" = true).
  { apply String.eqb_eq. rewrite (app_removelast_last ""%string NE) in L. rewrite Forall_app in L. destruct L as [_ L]. inversion L; auto. }
  rewrite LL, nan_tab. destruct names as [|n0 ns] eqn:En; [congruence|]. rewrite <- En in *.
  rewrite deal_line_tab by (auto using incl_refl). rewrite (all_own_lines names rs x (pt_done s) L M).
  do 3 eexists. split; [reflexivity|]. split; [reflexivity|]. intros i p I.
  rewrite (lookup_over_values _ _ _ _ ND I). rewrite lookup_tab. pose proof (nth_error_In _ _ I) as J. apply mem_In in J. rewrite J.
  unfold over. rewrite (lookup_combine (num * num) (fun _ q => snd q) _ _ i p ND I). rewrite nth_error_map.
  destruct (nth_error rs i); auto.
Qed.
Print Assumptions passthru_lines.
Example passthru_lines_ex :
  let x := mk_experiment (fun k => Ok [Fin (INR k); Fin 5]) (fun _ => Ok "f"%string) in
  exists s' result err,
    evaluate x ["line"; "line"]%string ["a"; "b"]%string [] (mk_passthru (Some []) [] 0 [] [] 3) = (s', Ok (result, err)) /\
    lookup "b"%string result = Some (Fin (INR 4)) /\ lookup "b"%string err = Some (Fin 5).
Proof.
  intros x.
  destruct (passthru_lines x ["line"; "line"]%string ["a"; "b"]%string [] [] (mk_passthru (Some []) [] 0 [] [] 3)
     [[Fin (INR 3); Fin 5]; [Fin (INR 4); Fin 5]]) as (s' & result & err & H & _ & D).
  - repeat constructor; cbn; intuition discriminate.
  - discriminate.
  - repeat constructor.
  - reflexivity.
  - cbn -[INR]. repeat split; eauto; try discriminate; auto.
  - exists s', result, err. split; [exact H|]. apply (D 1 "b"%string eq_refl).
Qed.

(** The first evaluation measures nine times: eight evaluations whose sample
    variances become the errors, then the evaluation itself. *)
Definition variance_of (l : list R) : R :=
  (fold_right Rplus 0 (map (fun r => (r - fold_right Rplus 0 l / INR (List.length l)) * (r - fold_right Rplus 0 l / INR (List.length l))) l)
   / INR (List.length l - 1))%R.
Lemma sample_variance_fin (l : list R) : 2 <= List.length l -> sample_variance (map Fin l) = Fin (variance_of l).
Proof.
  intros L. unfold sample_variance.
  assert (NN : non_nan (map Fin l) = map Fin l).
  { clear. induction l as [|r l IH]; auto. cbn. unfold non_nan in IH. rewrite IH. reflexivity. }
  assert (FV : finite_values (map Fin l) = l).
  { clear. induction l as [|r l IH]; auto. cbn. unfold finite_values in IH. rewrite IH. reflexivity. }
  rewrite NN. destruct l as [|a [|b l]]; cbn in L; try lia.
  set (ll := a :: b :: l) in *. change (map Fin ll) with (Fin a :: Fin b :: map Fin l). cbv iota beta.
  change (Fin a :: Fin b :: map Fin l) with (map Fin ll).
  unfold nanmean. rewrite NN, nsum_fin, ncount_fin, ndiv_fin by (apply not_0_INR; discriminate).
  rewrite map_map. cbn [nsub nadd nopp nmul].
  rewrite <- (map_map (fun r => ((r + - (rsum ll / INR (length ll))) * (r + - (rsum ll / INR (length ll))))%R) Fin).
  rewrite nsum_fin, map_length, ndiv_fin by (apply not_0_INR; cbn; lia). reflexivity.
Qed.
Theorem passthru_first x names parameters reference (Rf : label -> num) s (rs : nat -> list (list num)) :
  NoDup parameters -> names <> [] -> ~ In "line"%string names -> pt_error s = None ->
  (forall p, In p parameters -> lookup p reference = Some (Rf p)) ->
  (forall j, j < 9 -> measured x (pt_done s + j * List.length names) names (rs j)) ->
  exists s' result err e,
    evaluate x names parameters reference s = (s', Ok (result, err)) /\
    pt_done s' = pt_done s + 9 * List.length names /\ pt_error s' = Some e /\
    forall i p, nth_error parameters i = Some p ->
      lookup p result = Some (nth i (map fst (all_own names (rs 8))) NaN) /\
      forall q : nat -> R,
        (forall j, j < 8 -> nth i (map fst (all_own names (rs j))) NaN = Fin (q j)) ->
        lookup p e = Some (Fin (variance_of (map q (seq 0 8)))) /\
        forall v r, nth_error (all_own names (rs 8)) i = Some (v, r) ->
          lookup p err = Some (scaled (Fin (variance_of (map q (seq 0 8)))) r (Rf p)).
Proof.
  intros ND NE NL Er K M. unfold evaluate. rewrite Er. unfold evaluate_error.
  destruct (estimate_ok x names parameters reference Rf ND NE NL K 8 (with_error (nan_series parameters) s) rs) as (s1 & Es & D1 & _ & C1).
  { intros j Hj. cbn [with_error pt_done]. apply M. lia. }
  rewrite Es. cbn [with_error pt_error pt_done pt_count] in *.
  set (V := fun p => sample_variance (map (get p) (map (fun j => reading names parameters (rs j)) (seq 0 8)))).
  assert (K2 : forall p, In p parameters -> lookup p (tab parameters V) = Some (V p) /\ lookup p reference = Some (Rf p)).
  { intros p I. split; auto. rewrite lookup_tab. apply mem_In in I. rewrite I. reflexivity. }
  change (map (fun p => (p, sample_variance (map (get p) (map (fun j => reading names parameters (rs j)) (seq 0 8))))) parameters)
    with (tab parameters V).
  destruct (eval_known_plain x names parameters reference (tab parameters V) V Rf (with_error (tab parameters V) s1) (rs 8) ND NE NL K2) as [files H].
  { cbn [with_error pt_done]. rewrite D1. apply M. lia. }
  unfold with_error in *. cbn [pt_error pt_done pt_files pt_count pt_x pt_y] in *. rewrite H.
  do 4 eexists. split; [reflexivity|]. cbn [pt_done pt_error]. split; [lia|]. split; [reflexivity|].
  intros i p I.
  assert (NTH : forall l : list (num * num), match nth_error l i with Some q => fst q | None => NaN end = nth i (map fst l) NaN).
  { clear. intros l. rewrite nth_default_eq || idtac. revert i. induction l as [|a l IH]; intros [|i]; cbn; auto. }
  split. { rewrite (lookup_over_values _ _ _ _ ND I), NTH. reflexivity. }
  intros q Q.
  assert (VV : V p = Fin (variance_of (map q (seq 0 8)))).
  { unfold V. rewrite map_map.
    replace (map (fun j => get p (reading names parameters (rs j))) (seq 0 8)) with (map Fin (map q (seq 0 8))).
    - apply sample_variance_fin. cbn. lia.
    - rewrite map_map. apply map_ext_in. intros j J. apply in_seq in J. unfold get, reading.
      rewrite (lookup_over_values _ _ _ _ ND I), NTH. symmetry. apply Q. lia. }
  split. { rewrite (proj1 (K2 p (nth_error_In _ _ I))), VV. reflexivity. }
  intros v r N. rewrite (lookup_over_errors _ _ _ _ _ _ ND I), N, VV. reflexivity.
Qed.
Print Assumptions passthru_first.
Example passthru_first_ex :
  let x := mk_experiment (fun k => Ok [Fin (INR k)]) (fun _ => Ok "f"%string) in
  exists s' result err e,
    evaluate x ["stp"]%string ["a"]%string [("a"%string, NaN)] (mk_passthru None [] 0 [] [] 0) = (s', Ok (result, err)) /\
    pt_done s' = 9 /\ pt_error s' = Some e /\ lookup "a"%string result = Some (Fin (INR 8)) /\
    lookup "a"%string e = Some (Fin (variance_of (map INR (seq 0 8)))).
Proof.
  intros x.
  destruct (passthru_first x ["stp"]%string ["a"]%string [("a"%string, NaN)] (fun _ => NaN) (mk_passthru None [] 0 [] [] 0)
              (fun j => [[Fin (INR j)]])) as (s' & result & err & e & H & D & Er & P).
  - repeat constructor; cbn; intuition.
  - discriminate.
  - cbn. intuition discriminate.
  - reflexivity.
  - intros p [<-|[]]. reflexivity.
  - intros j _. cbn -[INR Nat.mul]. replace (j * 1)%nat with j by lia. repeat split; eauto; try discriminate.
  - exists s', result, err, e. split; [exact H|]. split; [exact D|]. split; [exact Er|].
    destruct (P 0 "a"%string eq_refl) as [P1 P2]. split; [exact P1|]. apply (P2 INR). intros j _. reflexivity.
Qed.

(** The names of the files are those of the measurements of this evaluation, up
    to the one that failed; the file of a measurement whose values are too few
    is among them. *)
Theorem passthru_files x names parameters reference error s :
  pt_error s = Some error ->
  let s' := fst (evaluate x names parameters reference s) in
  let of_the_first n := map (@Ok string) (pt_files s') = map (fun i => file_name x (pt_done s + i)) (seq 0 n) in
  (forall rs, measured x (pt_done s) names rs -> of_the_first (List.length names)) /\
  forall pre name post rs, names = pre ++ name :: post -> measured x (pt_done s) pre rs ->
    let k := pt_done s + List.length pre in
    (forall e, outcome x k = Raise e -> snd (evaluate x names parameters reference s) = Raise e /\ of_the_first (List.length pre)) /\
    (forall r f, outcome x k = Ok r -> file_name x k = Ok f -> ~ enough name r ->
       snd (evaluate x names parameters reference s) = Raise IndexError /\ of_the_first (S (List.length pre))).
Proof.
  intros Er. cbv zeta. unfold evaluate. rewrite Er. unfold evaluate_known. split.
  - intros rs M. destruct (gather_files x [] names (pt_done s) rs [] (mk_gathered [] [] []) M) as (fs & g' & G & Q).
    rewrite app_nil_r in G. rewrite G. cbn [gather app]. rewrite Q.
    match goal with |- context [match ?d with Ok _ => _ | Raise _ => _ end] => destruct d end; reflexivity.
  - intros pre name post rs -> M.
    destruct (gather_files x (name :: post) pre (pt_done s) rs [] (mk_gathered [] [] []) M) as (fs & g' & G & Q).
    rewrite G. cbn [gather app]. split.
    + intros e ->. cbn [fst snd pt_files]. auto.
    + intros r f -> F N. rewrite F, contribution_short by exact N. cbn [fst snd pt_files]. split; [reflexivity|].
      rewrite seq_S, !map_app, <- Q. cbn [map]. rewrite Nat.add_0_l, F. reflexivity.
Qed.
Print Assumptions passthru_files.
(** Too few values of the second measurement. *)
Example passthru_files_ex :
  let x := mk_experiment (fun k => Ok (if k =? 3 then [Fin 1; Fin 2] else [Fin 5])) (fun k => Ok (if Nat.eqb k 3 then "third" else "fourth")%string) in
  let s' := evaluate x ["line"; "resp"; "load"]%string ["a"]%string [("a"%string, NaN)] (mk_passthru (Some [("a"%string, Fin 1)]) [] 0 [] [] 3) in
  snd s' = Raise IndexError /\ pt_files (fst s') = ["third"; "fourth"]%string /\ pt_done (fst s') = 5.
Proof. cbv zeta. repeat split. Qed.

(** One failing measurement while the errors are estimated: the evaluation
    fails, and the errors of all later evaluations are NaN. *)
Theorem passthru_failed_refuted x names parameters reference s i e0 :
  names <> [] -> ~ In "line"%string names -> pt_error s = None ->
  i < 8 * List.length names -> outcome x (pt_done s + i) = Raise e0 ->
  exists s1 e, evaluate x names parameters reference s = (s1, Raise e) /\
    forall m s' result err,
      evaluate x names parameters reference (evaluations x names parameters reference m s1) = (s', Ok (result, err)) ->
      forall p, In p parameters -> lookup p err = Some NaN.
Proof.
  intros NE NL Er L O. unfold evaluate at 1. rewrite Er. unfold evaluate_error.
  destruct (estimate_fail x names parameters reference e0 8 (with_error (nan_series parameters) s) i O L) as (s1 & e & E & E1).
  rewrite E. exists s1, e. split; [reflexivity|]. intros m s' result err H p I.
  pose proof (evaluations_error x names parameters reference (nan_series parameters) m s1 E1) as Em.
  unfold evaluate in H. rewrite Em in H. apply eval_known_nan in H; auto. rewrite H.
  rewrite nan_tab, lookup_tab. apply mem_In in I. rewrite I. reflexivity.
Qed.
Print Assumptions passthru_failed_refuted.
Example passthru_failed_refuted_ex :
  let x := mk_experiment (fun k => if (k =? 5)%nat then Raise (OtherError 0) else Ok [Fin 1]) (fun _ => Ok "f"%string) in
  exists s1 e s' result err,
    evaluate x ["stp"]%string ["a"]%string [("a"%string, NaN)] (mk_passthru None [] 0 [] [] 0) = (s1, Raise e) /\
    evaluate x ["stp"]%string ["a"]%string [("a"%string, NaN)] (evaluations x ["stp"]%string ["a"]%string [("a"%string, NaN)] 3 s1) = (s', Ok (result, err)) /\
    lookup "a"%string err = Some NaN.
Proof.
  intros x.
  destruct (passthru_failed_refuted x ["stp"]%string ["a"]%string [("a"%string, NaN)] (mk_passthru None [] 0 [] [] 0) 5 (OtherError 0)) as (s1 & e & H & P).
  - discriminate.
  - cbn. intuition discriminate.
  - reflexivity.
  - cbn. lia.
  - reflexivity.
  - assert (S1 : s1 = mk_passthru (Some [("a"%string, NaN)]) [] 5 [4] [Fin 1] 6).
    { cbn in H. injection H as <- _. reflexivity. }
    exists s1, e. eexists. eexists. eexists. split; [exact H|]. subst s1. split; [cbn; reflexivity|]. cbn. reflexivity.
Qed.

(** No experiment of the package has the method [get_last_file_name]: every
    evaluation measures once and fails. *)
Theorem passthru_package_refuted x names parameters reference s :
  names <> [] -> (forall k, exists r, outcome x k = Ok r) -> (forall k, file_name x k = Raise AttributeError) ->
  forall m, let s' := evaluations x names parameters reference m s in
    pt_done s' = pt_done s + m /\ snd (evaluate x names parameters reference s') = Raise AttributeError.
Proof.
  intros NE O F.
  assert (G : forall k, gather x names k [] (mk_gathered [] [] []) = (S k, [], Raise AttributeError)).
  { intros k. destruct names as [|n ns]; [congruence|]. cbn. destruct (O k) as [r R]. rewrite R, F. reflexivity. }
  assert (Kn : forall error t, evaluate_known x names parameters reference error t =
                (mk_passthru (pt_error t) [] (pt_count t) (pt_x t) (pt_y t) (S (pt_done t)), Raise AttributeError)).
  { intros error t. unfold evaluate_known. rewrite G. reflexivity. }
  assert (Ev : forall t, exists t', evaluate x names parameters reference t = (t', Raise AttributeError) /\ pt_done t' = S (pt_done t)).
  { intros t. unfold evaluate. destruct (pt_error t).
    - rewrite Kn. eexists. split; [reflexivity|]. reflexivity.
    - unfold evaluate_error. cbn [estimate]. rewrite Kn. eexists. split; [reflexivity|]. reflexivity. }
  intros m. cbv zeta. revert s. induction m as [|m IH]; intros s; cbn [evaluations].
  - destruct (Ev s) as (t' & E & _). rewrite E. cbn. split; [lia|reflexivity].
  - destruct (Ev s) as (t' & E & D). rewrite E. cbn [fst]. destruct (IH t') as [A B]. rewrite A, D. split; [lia|exact B].
Qed.
Print Assumptions passthru_package_refuted.
Example passthru_package_refuted_ex :
  snd (evaluate (mk_experiment (fun _ => Ok [Fin 1; Fin 2]) (fun _ => Raise AttributeError)) ["tl"]%string ["x"; "y"]%string []
         (mk_passthru None [] 0 [] [] 0)) = Raise AttributeError.
Proof.
  apply (passthru_package_refuted (mk_experiment (fun _ => Ok [Fin 1; Fin 2]) (fun _ => Raise AttributeError)) ["tl"]%string ["x"; "y"]%string []
          (mk_passthru None [] 0 [] [] 0)) with (m := 0); [discriminate|intros k; eexists; reflexivity|reflexivity].
Qed.

(** Mixtures.  If the last measurement is a line, only as many parameters as
    there are lines receive anything, the i-th the i-th of all values with the
    variance of the i-th line.  If a line comes before a lead scan, the errors
    of the lead scan are not scaled with its residual. *)
Theorem passthru_mixed_refuted x names parameters reference error s rs :
  NoDup parameters -> pt_error s = Some error -> last names ""%string = "line"%string ->
  measured x (pt_done s) names rs ->
  exists s' result err,
    evaluate x names parameters reference s = (s', Ok (result, err)) /\
    forall i p, nth_error parameters i = Some p ->
      let lines := filter (fun q => String.eqb (fst q) "line") (combine names rs) in
      match nth_error lines i with
      | Some (_, r) => lookup p result = Some (nth i (concat (map (fun q => own_values (fst q) (snd q)) (combine names rs))) NaN) /\
                       (i < List.length (concat (map (fun q => own_values (fst q) (snd q)) (combine names rs))) -> lookup p err = Some (nth 1 r NaN))
      | None => lookup p result = Some NaN /\ lookup p err = Some NaN
      end.
Proof.
  intros ND Er LL M. unfold evaluate. rewrite Er. unfold evaluate_known.
  destruct (gather_any x names (pt_done s) rs [] (mk_gathered [] [] []) M (le_n _)) as (files & g & G & _ & Gv & Gw).
  rewrite G. cbn [g_values g_variances app] in Gv, Gw. rewrite Gv, Gw. rewrite LL, nan_tab. cbn [String.eqb].
  replace (String.eqb "line" "line") with true by reflexivity.
  destruct names as [|n0 ns] eqn:En; [discriminate|]. rewrite <- En in *.
  rewrite deal_line_tab by (auto using incl_refl).
  do 3 eexists. split; [reflexivity|]. intros i p I. cbv zeta.
  rewrite (lookup_over_values _ _ _ _ ND I). rewrite lookup_tab. pose proof (nth_error_In _ _ I) as J. apply mem_In in J. rewrite J.
  unfold over. rewrite (lookup_combine (num * num) (fun _ q => snd q) _ _ i p ND I).
  assert (AV : all_values names rs = concat (map (fun q => own_values (fst q) (snd q)) (combine names rs))).
  { clear. revert rs. induction names as [|n ns IH]; intros [|r rs]; cbn; auto. rewrite IH. reflexivity. }
  assert (AW : all_variances names rs = map (fun q => nth 1 (snd q) NaN) (filter (fun q => String.eqb (fst q) "line") (combine names rs))).
  { clear. revert rs. induction names as [|n ns IH]; intros [|r rs]; cbn [all_variances combine filter fst snd]; auto.
    rewrite IH. destruct (String.eqb n "line"); reflexivity. }
  rewrite AV, AW. set (vs := concat _). set (ws := filter _ _).
  assert (CB : forall i, nth_error (combine vs (map (fun q : string * list num => nth 1 (snd q) NaN) ws)) i =
     match nth_error vs i, nth_error ws i with Some v, Some q => Some (v, nth 1 (snd q) NaN) | _, _ => None end).
  { generalize vs, ws. clear. induction vs as [|v vs IH]; intros [|w ws] [|i]; cbn; auto. destruct (nth_error vs i); reflexivity. }
  rewrite CB. destruct (nth_error ws i) as [[nm r]|]; [|destruct (nth_error vs i); auto].
  destruct (nth_error vs i) as [v|] eqn:Ev; cbn.
  - split; [|auto]. f_equal. symmetry. apply nth_error_nth. exact Ev.
  - apply nth_error_None in Ev. rewrite nth_overflow by lia. split; auto. lia.
Qed.
Print Assumptions passthru_mixed_refuted.
Example passthru_mixed_refuted_ex :
  let x := mk_experiment (fun k => if (k =? 0)%nat then Ok [Fin 1; Fin 2; Fin 3] else Ok [Fin 7; Fin 8]) (fun _ => Ok "f"%string) in
  exists s' result err,
    evaluate x ["lead"; "line"]%string ["a"; "b"; "c"]%string [] (mk_passthru (Some []) [] 0 [] [] 0) = (s', Ok (result, err)) /\
    lookup "a"%string result = Some (Fin 1) /\ lookup "a"%string err = Some (Fin 8) /\ lookup "c"%string result = Some NaN.
Proof.
  intros x.
  destruct (passthru_mixed_refuted x ["lead"; "line"]%string ["a"; "b"; "c"]%string [] [] (mk_passthru (Some []) [] 0 [] [] 0)
     [[Fin 1; Fin 2; Fin 3]; [Fin 7; Fin 8]]) as (s' & result & err & H & D).
  - repeat constructor; cbn; intuition discriminate.
  - reflexivity.
  - reflexivity.
  - cbn. repeat split; eauto; try discriminate; auto.
  - exists s', result, err. split; [exact H|].
    pose proof (D 0 "a"%string eq_refl) as D0. pose proof (D 2 "c"%string eq_refl) as D2. cbn in D0, D2. destruct D0 as [A B]. destruct D2 as [C _].
    split; [exact A|]. split; [apply B; lia|exact C].
Qed.

(** A line before a lead scan. *)
Theorem passthru_line_lead_refuted x p0 p1 reference error e0 e1 r1 s a b c d rest :
  p0 <> p1 -> pt_error s = Some error -> lookup p0 error = Some e0 -> lookup p1 error = Some e1 -> lookup p1 reference = Some r1 ->
  measured x (pt_done s) ["line"; "lead"]%string [a :: b :: rest; [c; d]] ->
  exists s' result err,
    evaluate x ["line"; "lead"]%string [p0; p1] reference s = (s', Ok (result, err)) /\
    lookup p1 result = Some c /\ lookup p1 err = Some e1 /\ lookup p0 err = Some e0.
Proof.
  intros N Er E0 E1 R1 (O1 & [f1 F1] & _ & O2 & [f2 F2] & _). unfold evaluate. rewrite Er. unfold evaluate_known.
  cbn [gather]. rewrite O1, F1, O2, F2. cbn [contribution String.eqb Ascii.eqb Bool.eqb List.length repeat app g_values g_residuals g_variances last removelast Nat.sub].
  cbn. rewrite E0, E1. do 3 eexists. split; [reflexivity|].
  assert (N1 : label_eqb p1 p0 = false) by (unfold label_eqb; destruct (String.eqb_spec p1 p0); congruence).
  assert (R0 : label_eqb p0 p0 = true) by apply String.eqb_refl.
  assert (R2 : label_eqb p1 p1 = true) by apply String.eqb_refl.
  rewrite ?N1, ?R0, ?R2. cbn [fst snd set_label]. rewrite ?N1, ?R0, ?R2. cbn [fst snd set_label lookup]. rewrite ?N1, ?R0, ?R2. auto.
Qed.
Print Assumptions passthru_line_lead_refuted.
Example passthru_line_lead_refuted_ex :
  let x := mk_experiment (fun k => if (k =? 0)%nat then Ok [Fin 7; Fin 8] else Ok [Fin 1; Fin 9]) (fun _ => Ok "f"%string) in
  let error := [("a"%string, Fin 5); ("b"%string, Fin 6)] in
  exists s' result err,
    evaluate x ["line"; "lead"]%string ["a"; "b"]%string [("a"%string, Fin 3); ("b"%string, Fin 3)] (mk_passthru (Some error) [] 0 [] [] 0) = (s', Ok (result, err)) /\
    lookup "b"%string result = Some (Fin 1) /\ lookup "b"%string err = Some (Fin 6).
Proof.
  intros x error.
  destruct (passthru_line_lead_refuted x "a"%string "b"%string [("a"%string, Fin 3); ("b"%string, Fin 3)] error (Fin 5) (Fin 6) (Fin 3)
              (mk_passthru (Some error) [] 0 [] [] 0) (Fin 7) (Fin 8) (Fin 1) (Fin 9) []) as (s' & result & err & H & A & B & _); try reflexivity.
  - discriminate.
  - cbn. repeat split; eauto; try discriminate; auto.
  - exists s', result, err. auto.
Qed.
