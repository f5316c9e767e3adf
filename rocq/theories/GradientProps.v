(** Properties of the finite differences estimator on labelled positions, and of
    failing updates of the NewtonSolver (C91-C93). *)
From Verif Require Import PyBase TargetModel TunerModel TunerSpec SeriesLemmas TunerProofs SolverModel SolverSpec SensingDotProofs NewtonModel EstimatorModel NewtonSpec NewtonProofs EstimatorProofs.
From Coq Require Import Lra.
Local Open Scope string_scope.
Local Open Scope list_scope.

(** A vector as an array, in the order of the gates. *)
Definition array (ls : list label) (f : label -> R) : list num := map (fun l => Fin (f l)) ls.
(** A measurement at a finite position. *)
Definition point : Type := ((label -> R) * num * num)%type.
Definition at_points (all : list label) (ms : list point) : list measurement :=
  map (fun m => (vec all (fst (fst m)), snd (fst m), snd m)) ms.
Definition place (m : point) : label -> R := fst (fst m).

Lemma combine_maps {A B C} (f : A -> B) (g : A -> C) l : combine (map f l) (map g l) = map (fun x => (f x, g x)) l.
Proof. induction l; cbn; congruence. Qed.
Lemma displaced_vec ls p u e : displaced (vec ls p) (array ls u) (vec ls e) = vec ls (fun l => p l + u l * e l)%R.
Proof.
  unfold displaced, array. change (vec ls p) with (map (fun l => (l, Fin (p l))) ls). rewrite combine_maps, map_map.
  change (vec ls (fun l => p l + u l * e l)%R) with (map (fun l => (l, Fin (p l + u l * e l))) ls).
  apply map_ext_in. intros l Hl. cbn [fst snd]. rewrite vec_tab, get_tab by exact Hl. reflexivity.
Qed.
Lemma mirrored_vec ls p q : mirrored (vec ls p) (vec ls q) = vec ls (fun l => 2 * p l - q l)%R.
Proof.
  unfold mirrored. change (vec ls p) with (map (fun l => (l, Fin (p l))) ls). rewrite map_map.
  change (vec ls (fun l => 2 * p l - q l)%R) with (map (fun l => (l, Fin (2 * p l - q l))) ls).
  apply map_ext_in. intros l Hl. cbn [fst snd]. rewrite vec_tab, get_tab by exact Hl. reflexivity.
Qed.
Lemma difference_vec ls p q : difference (vec ls p) (vec ls q) = array ls (fun l => p l - q l)%R.
Proof.
  unfold difference, array. change (vec ls p) with (map (fun l => (l, Fin (p l))) ls). rewrite map_map.
  apply map_ext_in. intros l Hl. cbn [fst snd]. rewrite (vec_tab ls q), get_tab by exact Hl. reflexivity.
Qed.
Lemma select_points gates all ms : gates <> [] -> incl gates all ->
  all_ok (map (fun m => select gates (m_pos m)) (at_points all ms)) = Ok (map (fun m => vec gates (place m)) ms).
Proof.
  intros Hne Hi. unfold at_points. rewrite map_map. induction ms as [|m ms IH]; cbn; [reflexivity|].
  rewrite (select_vec gates all) by assumption. cbn in IH. rewrite IH. reflexivity.
Qed.
Lemma unknown_vec ls f : ls <> [] -> unknown (vec ls f) = false.
Proof. destruct ls; [contradiction|reflexivity]. Qed.

(** The pairs of points (2i, 2i+1) of a list. *)
Fixpoint pairs {A} (l : list A) : list (A * A) :=
  match l with a :: b :: l' => (a, b) :: pairs l' | _ => [] end.
Lemma pairs_odds_evens {A B} (f : A -> B) (l : list A) :
  combine (odds (map f l)) (evens (map f l)) = map (fun q => (f (snd q), f (fst q))) (pairs l).
Proof.
  assert (H : forall n (l : list A), length l <= n -> combine (odds (map f l)) (evens (map f l)) = map (fun q => (f (snd q), f (fst q))) (pairs l)).
  { induction n as [|n IH]; intros [|a [|b m]] Hl; cbn in *; try reflexivity; try lia. 
    f_equal. specialize (IH m ltac:(lia)). rewrite <- IH. unfold odds. destruct m as [|c m]; reflexivity. }
  apply (H (length l)). lia.
Qed.

(** ** C91 *)
(** What is asked for next: the first point is one step along the first gate; a
    symmetric estimator mirrors every other point; otherwise the point lies, in
    units of the step widths, in the direction chosen by [get_orthogonal_vector],
    which gets the differences between the points of each pair (symmetric) or
    to the first point (asymmetric, a zero vector as long as there is only
    one).  A point that was asked for is remembered as the latest one, nothing
    else changes. *)
Theorem fd_requests :
  forall ortho gates tj all p e cov req sym ms, let st := mk_fd (vec all p) (vec all e) None cov (at_points all ms) req sym in
  gates <> [] -> incl gates all -> NoDup gates ->
  let asked := snd (fd_require ortho gates tj st) in
  (forall g0 gs, gates = g0 :: gs -> ms = [] ->
     asked = Ok (Some (vec gates (fun l => if label_eqb l g0 then p l + e l else p l)))%R) /\
  (forall ms' m, ms = ms' ++ [m] -> sym = true -> Nat.even (length ms') = true ->
     asked = Ok (Some (vec gates (fun l => 2 * p l - place m l)))%R) /\
  (forall u, ms <> [] -> (sym = true -> Nat.even (length ms) = true) -> (sym = false -> length ms <= length all) ->
     ortho (if sym then map (fun q => array gates (fun l => place (snd q) l - place (fst q) l)%R) (pairs ms)
            else match ms with
                 | [_] => [array gates (fun _ => 0%R)]
                 | m0 :: ms' => map (fun m => array gates (fun l => place m l - place m0 l)%R) ms'
                 | [] => []
                 end) = Ok (array gates u) ->
     asked = Ok (Some (vec gates (fun l => p l + u l * e l)))%R) /\
  (sym = false -> length all < length ms -> asked = Raise RuntimeError) /\
  fst (fd_require ortho gates tj st) = mk_fd (vec all p) (vec all e) None cov (at_points all ms) (match asked with Ok (Some q) => req ++ [q] | _ => req end) sym.
Proof.
  intros ortho gates tj all p e cov req sym ms st Hne Hi Hnd asked.
  assert (Hall : all <> []) by (destruct gates as [|g gs]; [contradiction|]; intros ->; apply (Hi g); left; reflexivity).
  assert (Hask : asked = match fd_point ortho gates st with Ok q => Ok (Some q) | Raise x => Raise x end).
  { unfold asked, fd_require, st at 1. cbn [fd_pos fd_est]. rewrite unknown_vec by exact Hall.
    change (fd_est st) with (@None series). cbv iota. destruct (fd_point ortho gates st); reflexivity. }
  assert (Hfst : fst (fd_require ortho gates tj st) = mk_fd (vec all p) (vec all e) None cov (at_points all ms) (match asked with Ok (Some q) => req ++ [q] | _ => req end) sym).
  { rewrite Hask. unfold fd_require, st at 1. cbn [fd_pos fd_est]. rewrite unknown_vec by exact Hall.
    change (fd_est st) with (@None series). cbv iota. destruct (fd_point ortho gates st); reflexivity. }
  assert (Hpt : fd_point ortho gates st =
    let towards r := match r with Ok ov => Ok (displaced (vec gates p) ov (vec gates e)) | Raise x => Raise x end in
    match map (fun m => vec gates (place m)) ms with
    | [] => towards (first_step (vec gates p))
    | p0 :: ps => if sym then if Nat.odd (length ms) then Ok (mirrored (vec gates p) (last (map (fun m => vec gates (place m)) ms) p0))
                  else towards (ortho (map (fun q => difference (fst q) (snd q)) (combine (odds (map (fun m => vec gates (place m)) ms)) (evens (map (fun m => vec gates (place m)) ms)))))
                  else if Nat.eqb (length ms) 1 then towards (ortho [map (fun _ => Fin 0) p0])
                  else if Nat.leb (length ms) (length all) then towards (ortho (map (fun q => difference q p0) ps)) else Raise RuntimeError
    end).
  { unfold fd_point, st. cbn [fd_stored fd_pos fd_eps fd_sym]. rewrite select_points by assumption. rewrite !(select_vec gates all) by assumption.
    rewrite map_length. rewrite (map_length _ all : length (vec all p) = length all). reflexivity. }
  rewrite Hpt in Hask. clear Hpt. cbn zeta in Hask. split; [|split; [|split; [|split; [|exact Hfst]]]].
  - intros g0 gs -> ->. rewrite Hask. cbn [map]. change (first_step (vec (g0 :: gs) p)) with (@Ok (list num) (Fin 1 :: map (fun _ => Fin 0) (vec gs p))).
    replace (Fin 1 :: map (fun _ => Fin 0) (vec gs p)) with (array (g0 :: gs) (fun l => if label_eqb l g0 then 1 else 0)%R).
    + rewrite displaced_vec. do 2 f_equal. apply vec_ext. intros l _. destruct (label_eqb l g0); lra.
    + unfold array. cbn [map]. unfold label_eqb at 1. rewrite String.eqb_refl. f_equal. unfold vec, tab. rewrite map_map. apply map_ext_in.
      intros l Hl. unfold label_eqb. destruct (String.eqb_spec l g0) as [->|]; [|reflexivity]. inversion Hnd. contradiction.
  - intros ms' m -> -> Hev. rewrite Hask. rewrite app_length. cbn [length]. rewrite Nat.add_1_r, Nat.odd_succ, Hev.
    rewrite map_app. cbn [map].
    destruct (map (fun m => vec gates (place m)) ms') as [|a L]; cbn [app]; [cbn [last]; rewrite mirrored_vec; reflexivity|].
    change (a :: L ++ [vec gates (place m)]) with ((a :: L) ++ [vec gates (place m)]). rewrite last_last, mirrored_vec. reflexivity.
  - intros u Hms Hs Ha Ho. rewrite Hask. destruct ms as [|m0 ms]; [contradiction|]. cbn [map]. destruct sym.
    + specialize (Hs eq_refl). rewrite <- Nat.negb_even, Hs. cbn [negb].
      change (vec gates (place m0) :: map (fun m => vec gates (place m)) ms) with (map (fun m => vec gates (place m)) (m0 :: ms)).
      rewrite pairs_odds_evens, map_map.
      replace (map _ (pairs (m0 :: ms))) with (map (fun q => array gates (fun l => (place (snd q) l - place (fst q) l)%R)) (pairs (m0 :: ms))).
      * rewrite Ho, displaced_vec. reflexivity.
      * apply map_ext. intros q. cbn [fst snd]. symmetry. apply difference_vec.
    + specialize (Ha eq_refl). destruct ms as [|m1 ms].
      * cbn [length Nat.eqb map]. replace (map (fun _ : label * num => Fin 0) (vec gates (place m0))) with (array gates (fun _ => 0%R)).
        { rewrite Ho, displaced_vec. reflexivity. }
        unfold array, vec, tab. rewrite map_map. reflexivity.
      * rewrite (proj2 (Nat.leb_le _ _) Ha). cbn [length Nat.eqb]. rewrite map_map.
        replace (map _ (m1 :: ms)) with (map (fun m => array gates (fun l => (place m l - place m0 l)%R)) (m1 :: ms)).
        { rewrite Ho, displaced_vec. reflexivity. }
        apply map_ext. intros q. symmetry. apply difference_vec.
  - intros -> Hl. rewrite Hask. destruct ms as [|m0 ms]; [cbn in Hl; lia|]. cbn [map].
    destruct all as [|a0 all]; [contradiction|]. cbn [length] in *. destruct ms as [|m1 ms]; [cbn in Hl; lia|].
    rewrite (proj2 (Nat.leb_gt _ _)) by exact Hl. reflexivity.
Qed.
Print Assumptions fd_requests.
(** Two gates, step widths 1/2 and 3, asked for the second one first. *)
Example fd_requests_ex :
  let p l := if label_eqb l "A" then 1%R else 2%R in let e l := if label_eqb l "A" then (/ 2)%R else 3%R in
  snd (fd_require (fun _ => Raise ValueError) ["B"; "A"] None (mk_fd (vec ["A"; "B"] p) (vec ["A"; "B"] e) None None [] [] false)) =
  Ok (Some [("B", Fin (2 + 3)%R); ("A", Fin 1%R)]).
Proof.
  intros p e. destruct (fd_requests (fun _ => Raise ValueError) ["B"; "A"] None ["A"; "B"] p e None [] false []) as [H _]; try discriminate.
  - intros l [<-|[<-|[]]]; cbn; auto.
  - repeat constructor; cbn; intuition discriminate.
  - change (at_points ["A"; "B"] []) with (@nil measurement) in H. rewrite (H "B" ["A"] eq_refl eq_refl). reflexivity.
Qed.

(** ** C92 *)
(** When the gradient is computed and from what: an asymmetric estimator for n
    gates takes the first n+1 measurements, latest first; a symmetric one takes
    2n, not counting the one from which it learnt its position.  Before that
    there is no gradient. *)
Definition given (sup : list label) (m : point) : est_op := EUpdate (vec sup (place m)) (snd (fst m)) (snd m).
Definition needed (n : nat) (sym : bool) : nat := if sym then 2 * n else S n.

Lemma intersection_incl a b : incl a b -> intersection a b = a.
Proof.
  intros H. unfold intersection. induction a as [|x a IH]; cbn; [reflexivity|].
  rewrite (proj2 (SeriesLemmas.mem_In x b)) by (apply H; left; reflexivity). f_equal. apply IH. intros y Hy. apply H. right. exact Hy.
Qed.
Lemma reindex_vec ls all p : incl ls all -> reindex ls (vec all p) = vec ls p.
Proof. intros H. rewrite reindex_tab, !vec_tab. apply tab_ext. intros l Hl. apply get_tab. auto. Qed.
Lemma length_vec ls f : length (vec ls f) = length ls.
Proof. unfold vec. apply map_length. Qed.

Section Count.
Variable ortho : list (list num) -> res (list num).
Variable calc : list measurement -> res (list num * list (list num)).
Variables (all sup : list label) (p e : label -> R) (sym : bool).
Hypothesis Hne : all <> [].
Hypothesis Hsup : incl all sup.
Let state (stored : list measurement) : fd := mk_fd (vec all p) (vec all e) None None stored [] sym.

Lemma update_known stored m : fd_update calc (vec sup (place m)) (snd (fst m)) (snd m) (state stored) =
  fd_finish calc (state (stored ++ at_points all [m])).
Proof.
  unfold fd_update, state, fd_store. cbn [fd_pos fd_est fd_eps fd_cov fd_stored fd_requested fd_sym]. rewrite unknown_vec by exact Hne.
  rewrite !index_vec, intersection_incl, reindex_vec by assumption.
  rewrite (select_vec all all) by (exact Hne || apply incl_refl). reflexivity.
Qed.
Lemma count_known ms : forall stored, length stored + length ms < needed (length all) sym ->
  est_run (fd_ops ortho calc) (map (given sup) ms) (state stored) = state (stored ++ at_points all ms).
Proof.
  induction ms as [|m ms IH]; intros stored Hl; cbn [map]; [unfold at_points; cbn; rewrite app_nil_r; reflexivity|].
  change (est_run (fd_ops ortho calc) (given sup m :: map (given sup) ms) (state stored)) with
    (est_run (fd_ops ortho calc) (map (given sup) ms) (fst (fd_update calc (vec sup (place m)) (snd (fst m)) (snd m) (state stored)))).
  rewrite update_known. assert (Hf : fd_finish calc (state (stored ++ at_points all [m])) = (state (stored ++ at_points all [m]), Ok tt)).
  { unfold fd_finish, state. cbn [fd_pos fd_stored fd_sym]. rewrite length_vec, app_length. cbn [length map at_points] in *.
    unfold needed in Hl. destruct sym.
    - destruct (Nat.eqb_spec (length stored + 1) (2 * length all)); [lia|reflexivity].
    - destruct (Nat.eqb_spec (length stored + 1) (length all + 1)); [lia|reflexivity]. }
  rewrite Hf. cbn [fst]. rewrite IH; [|rewrite app_length; cbn in *; lia]. f_equal. rewrite <- app_assoc. reflexivity.
Qed.
End Count.

Theorem fd_estimate_when :
  forall ortho calc all sup start e sym ms (known : bool),
  all <> [] -> NoDup all -> incl all sup ->
  let st := mk_fd (if known then vec all start else map (fun l => (l, NaN)) all) (vec all e) None None [] [] sym in
  let used := if sym && negb known then tl ms else ms in
  (length used < needed (length all) sym -> fd_est (est_run (fd_ops ortho calc) (map (given sup) ms) st) = None) /\
  (forall ms' m, ms = ms' ++ [m] -> length used = needed (length all) sym ->
     let call := calc (if sym then at_points all used else rev (at_points all used)) in
     let last := fd_update calc (vec sup (place m)) (snd (fst m)) (snd m) (est_run (fd_ops ortho calc) (map (given sup) ms') st) in
     match call with
     | Ok (g, c) => fd_est (fst last) = Some (combine all g) /\ fd_cov (fst last) = Some c /\ snd last = Ok tt
     | Raise x => fd_est (fst last) = None /\ snd last = Raise x
     end).
Proof.
  intros ortho calc all sup start e sym ms known Hne Hnd Hs st used.
  assert (Hn0 : 0 < length all) by (destruct all; [contradiction|cbn; lia]).
  (* the first measurement of an estimator that does not know its position *)
  assert (Hfirst : forall m, fst (fd_update calc (vec sup (place m)) (snd (fst m)) (snd m) (mk_fd (map (fun l => (l, NaN)) all) (vec all e) None None [] [] sym)) =
     mk_fd (vec all (place m)) (vec all e) None None (if sym then [] else at_points all [m]) [] sym).
  { intros m. unfold fd_update. cbn [fd_pos fd_eps fd_est fd_cov fd_stored fd_requested fd_sym].
    change (map (fun l => (l, NaN)) all) with (tab all (fun _ => NaN)).
    replace (unknown (tab all (fun _ => NaN))) with true by (clear; unfold unknown, tab; induction all; cbn in *; auto).
    rewrite !index_tab, intersection_incl, ?index_vec, reindex_vec by (rewrite ?index_vec; assumption).
    rewrite vec_tab, assign_tab by (assumption || apply incl_refl).
    replace (tab all (fun l => if mem l all then Fin (place m l) else NaN)) with (vec all (place m))
      by (rewrite vec_tab; apply tab_ext; intros l Hl; rewrite (proj2 (SeriesLemmas.mem_In l all) Hl); reflexivity).
    destruct sym; [reflexivity|]. rewrite index_vec, <- vec_tab, (select_vec all all) by (exact Hne || apply incl_refl). reflexivity. }
  assert (Hrun : forall ms0, (let u := if sym && negb known then tl ms0 else ms0 in length u < needed (length all) sym) ->
     (known = false -> ms0 <> []) ->
     exists pos, est_run (fd_ops ortho calc) (map (given sup) ms0) st =
       mk_fd (vec all pos) (vec all e) None None (at_points all (if sym && negb known then tl ms0 else ms0)) [] sym).
  { intros ms0 Hl Hk. destruct known.
    - rewrite andb_false_r in *. exists start. unfold st. rewrite (count_known ortho calc all sup start e sym Hne Hs ms0 []) by (cbn in *; lia). reflexivity.
    - rewrite andb_true_r in *. destruct ms0 as [|m0 ms0]; [exfalso; apply Hk; reflexivity|]. exists (place m0). cbn [map].
      change (est_run (fd_ops ortho calc) (given sup m0 :: map (given sup) ms0) st) with
        (est_run (fd_ops ortho calc) (map (given sup) ms0) (fst (fd_update calc (vec sup (place m0)) (snd (fst m0)) (snd m0) st))).
      unfold st. rewrite Hfirst. destruct sym; cbn [tl] in *.
      + rewrite (count_known ortho calc all sup (place m0) e true Hne Hs ms0 []) by (cbn in *; lia). reflexivity.
      + rewrite (count_known ortho calc all sup (place m0) e false Hne Hs ms0 (at_points all [m0])) by (cbn in *; lia). reflexivity. }
  split.
  - intros Hl. destruct (Bool.bool_dec known false) as [Hk|Hk]; [destruct ms as [|m0 ms0]; [reflexivity|]|].
    + destruct (Hrun (m0 :: ms0) Hl ltac:(discriminate)) as [pos ->]. reflexivity.
    + destruct (Hrun ms Hl ltac:(congruence)) as [pos ->]. reflexivity.
  - intros ms' m Hms Hl.
    assert (Hu : used = (if sym && negb known then tl ms' else ms') ++ [m] /\ (known = false -> ms' <> [])).
    { assert (Hk : known = false -> ms' <> []).
      { intros -> ->. unfold used in Hl. subst ms. rewrite andb_true_r in Hl. unfold needed in Hl. destruct sym; cbn in Hl; lia. }
      split; [|exact Hk]. unfold used. rewrite Hms. destruct (sym && negb known) eqn:Hb; [|reflexivity].
      apply andb_prop in Hb. destruct Hb as [_ Hb]. destruct known; [discriminate|]. specialize (Hk eq_refl). destruct ms'; [contradiction|reflexivity]. }
    destruct Hu as [Hu Hk]. assert (Hl' : length (if sym && negb known then tl ms' else ms') < needed (length all) sym).
    { rewrite Hu, app_length in Hl. cbn in Hl. lia. }
    destruct (Hrun ms' Hl' Hk) as [pos ->]. cbn zeta.
    rewrite (update_known calc all sup pos e sym Hne Hs). rewrite Hu in *. unfold fd_finish.
    cbn [fd_pos fd_stored fd_sym fd_eps fd_est fd_cov fd_requested]. rewrite length_vec.
    replace (at_points all (if sym && negb known then tl ms' else ms') ++ at_points all [m]) with (at_points all ((if sym && negb known then tl ms' else ms') ++ [m])) by (unfold at_points; rewrite map_app; reflexivity).
    rewrite (map_length _ _ : length (at_points all ((if sym && negb known then tl ms' else ms') ++ [m])) = length ((if sym && negb known then tl ms' else ms') ++ [m])).
    rewrite Hl, index_vec. unfold needed. destruct sym.
    + rewrite Nat.eqb_refl. destruct (calc _) as [[g c]|x]; cbn; auto.
    + rewrite Nat.add_1_r, Nat.eqb_refl. destruct (calc _) as [[g c]|x]; cbn; auto.
Qed.
Print Assumptions fd_estimate_when.
(** One gate, unknown position: two measurements for the asymmetric estimator,
    three for the symmetric one, which forgets the first. *)
Definition ms_ex : list point := [(fun _ => 1%R, Fin 10, Fin 0); (fun _ => 2%R, Fin 20, Fin 0); (fun _ => 3%R, Fin 40, Fin 0)].
Definition spy_calc (ms : list measurement) : res (list num * list (list num)) := Ok (map (fun m => snd (fst m)) ms, []).
Example fd_estimate_when_ex :
  let run sym n := fd_est (est_run (fd_ops (fun _ => Raise ValueError) spy_calc) (map (given ["A"; "C"]) (firstn n ms_ex))
                                   (mk_fd [("A", NaN)] [("A", Fin 1)] None None [] [] sym)) in
  run false 1 = None /\ run false 2 = Some [("A", Fin 20)] /\ run true 2 = None /\ run true 3 = Some [("A", Fin 20)].
Proof. repeat split. Qed.

(** ** C93 *)
(** An update that raises: target, position and values are kept; the estimators
    before the failing one have taken the measurement, the failing one keeps
    what it did before it raised, and those after it have not seen it. *)
Definition visited {G} (E : est_ops G) (pos vals : series) (vars : series) (i : nat) (row : trow) (g : G) : G :=
  match nth_error vars i with
  | Some (_, var) => if isna (t_desired row) then g else fst (eo_update E pos (get (t_name row) vals) var g)
  | None => g
  end.

Lemma update_ests_prefix {G} (E : est_ops G) t pos : forall gs (rows : list trow) f vars gs' a,
  length rows = length gs -> (forall r, In r rows -> get (t_name r) (t_column Desired t) = t_desired r) ->
  update_ests E t pos gs (map (fun r => (t_name r, f r)) rows) vars = (gs', a) ->
  exists k,
   (forall i row g, nth_error rows i = Some row -> nth_error gs i = Some g ->
      nth_error gs' i = Some (if Nat.ltb i k then match nth_error vars i with
        | Some var => if isna (t_desired row) then g else fst (eo_update E pos (f row) var g) | None => g end else g)) /\
   match a with
   | Ok _ => k = length gs
   | Raise e => exists j row g var, k = S j /\ nth_error rows j = Some row /\ nth_error gs j = Some g /\ nth_error vars j = Some var /\
       t_desired row <> NaN /\ snd (eo_update E pos (f row) var g) = Raise e
   end.
Proof.
  induction gs as [|g gs IH]; intros [|r rows] f vars gs' a Hl Hd H; try discriminate; cbn in H.
  { inversion H; subst. exists 0. split; [intros [|i] row g; discriminate|reflexivity]. }
  destruct vars as [|var vars].
  { inversion H; subst. exists (length (g :: gs)). split; [|reflexivity]. intros i row g0 _ Hg. rewrite Hg.
    destruct (Nat.ltb i (length (g :: gs))); [destruct i; reflexivity|reflexivity]. }
  rewrite (Hd r (or_introl eq_refl)) in H. destruct (isna (t_desired r)) eqn:Hna.
  - destruct (update_ests E t pos gs (map (fun r => (t_name r, f r)) rows) vars) as [gs1 a1] eqn:Hu. inversion H; subst; clear H.
    destruct (IH rows f vars gs1 a ltac:(cbn in Hl; lia) ltac:(intros; apply Hd; right; assumption) Hu) as (k & K1 & K2). exists (S k). split.
    + intros [|i] row g0 Hr Hg; [|apply K1; assumption]. cbn in *. inversion Hr; inversion Hg; subst. rewrite Hna. reflexivity.
    + destruct a; [cbn; congruence|]. destruct K2 as (j & row & g0 & v & -> & K2). exists (S j), row, g0, v. auto.
  - destruct (eo_update E pos (f r) var g) as [g1 [u|e]] eqn:Hg1.
    + destruct (update_ests E t pos gs (map (fun r => (t_name r, f r)) rows) vars) as [gs1 a1] eqn:Hu. inversion H; subst; clear H.
      destruct (IH rows f vars gs1 a ltac:(cbn in Hl; lia) ltac:(intros; apply Hd; right; assumption) Hu) as (k & K1 & K2). exists (S k). split.
      * intros [|i] row g0 Hr Hg; [|apply K1; assumption]. cbn in *. inversion Hr; inversion Hg; subst. rewrite Hna, Hg1. reflexivity.
      * destruct a; [cbn; congruence|]. destruct K2 as (j & row & g0 & v & -> & K2). exists (S j), row, g0, v. auto.
    + inversion H; subst; clear H. exists 1. split.
      * intros [|i] row g0 Hr Hg; [|exact Hg]. cbn in *. inversion Hr; inversion Hg; subst. rewrite Hna, Hg1. reflexivity.
      * exists 0, r, g, var. cbn. repeat split; auto; [intros E0; rewrite E0 in Hna; discriminate|rewrite Hg1; reflexivity].
Qed.

Theorem newton_failing_update :
  forall (G : Type) (E : est_ops G) pos vals vars (st st' : newton G) e,
  well_formed st -> nw_update E pos vals vars st = (st', Raise e) ->
  nw_target st' = nw_target st /\ nw_pos st' = nw_pos st /\ nw_vals st' = nw_vals st /\
  exists k,
    (forall i row g, nth_error (nw_target st) i = Some row -> nth_error (nw_ests st) i = Some g ->
       nth_error (nw_ests st') i = Some (if Nat.ltb i k then visited E pos vals vars i row g else g)) /\
    (k = 0 /\ e = KeyError \/
     k = length (nw_ests st) /\ e = KeyError /\ (forall l, In l (index (nw_pos st)) -> ~ In l (index pos)) \/
     exists j row g l var, k = S j /\ nth_error (nw_target st) j = Some row /\ nth_error (nw_ests st) j = Some g /\
       nth_error vars j = Some (l, var) /\ t_desired row <> NaN /\ snd (eo_update E pos (get (t_name row) vals) var g) = Raise e).
Proof.
  intros G E pos vals vars st st' e (W1 & W2 & W3) H. unfold nw_update in H.
  destruct (select (index (nw_vals st)) vals) as [vs|e0] eqn:Hs.
  - apply select_ok in Hs. rewrite W2 in Hs. unfold t_index in Hs. unfold reindex in Hs. rewrite map_map in Hs. subst vs.
    destruct (update_ests E (nw_target st) pos (nw_ests st) (map (fun r => (t_name r, get (t_name r) vals)) (nw_target st)) (map snd vars)) as [gs a] eqn:Hu.
    apply update_ests_prefix in Hu; [|exact W1|].
    + destruct Hu as (k & K1 & K2).
      assert (K1' : forall i row g, nth_error (nw_target st) i = Some row -> nth_error (nw_ests st) i = Some g ->
         nth_error gs i = Some (if Nat.ltb i k then visited E pos vals vars i row g else g)).
      { intros i row g Hr Hg. rewrite (K1 i row g Hr Hg). unfold visited. rewrite nth_error_map. destruct (nth_error vars i) as [[l v]|]; reflexivity. }
      destruct a as [[]|e1].
      * destruct (select (index (nw_pos st)) pos) as [p|e1] eqn:Hp; inversion H; subst; clear H. cbn [nw_target nw_pos nw_vals nw_ests]. repeat split.
        exists (length (nw_ests st)). split; [exact K1'|]. right; left. split; [reflexivity|].
        unfold select in Hp. destruct (index (nw_pos st)) as [|l0 ls] eqn:Hi; [discriminate|].
        destruct (existsb (fun l => mem l (index pos)) (l0 :: ls)) eqn:Hx; [discriminate|]. inversion Hp. split; [reflexivity|].
        intros l Hl Hl'. apply SeriesLemmas.mem_In in Hl'. assert (existsb (fun l => mem l (index pos)) (l0 :: ls) = true) by (apply existsb_exists; eauto). congruence.
      * inversion H; subst; clear H. cbn [nw_target nw_pos nw_vals nw_ests]. repeat split. exists k. split; [exact K1'|]. right; right.
        destruct K2 as (j & row & g & v & -> & J1 & J2 & J3 & J4 & J5). rewrite nth_error_map in J3.
        destruct (nth_error vars j) as [[l w]|] eqn:Hv; [|discriminate]. cbn in J3. inversion J3; subst. exists j, row, g, l, v. auto 10.
    + intros r Hr. destruct (In_nth_error _ _ Hr) as [i Hi]. apply (desired_of _ i); assumption.
  - inversion H; subst; clear H. repeat split. exists 0. split; [intros i row g _ Hg; exact Hg|]. left. split; [reflexivity|].
    unfold select in Hs. destruct (index (nw_vals st')); [discriminate|]. destruct (existsb _ _); [discriminate|]. inversion Hs. reflexivity.
Qed.
Print Assumptions newton_failing_update.
(** Three estimators that count their updates, the second one fails: it and the
    first have counted, the third has not. *)
Definition counting (bad : nat) : est_ops (nat * nat) :=
  mk_est_ops _ (fun _ => [("A", Fin 0); ("B", Fin 0); ("C", Fin 0)]) (fun _ => None) (fun _ _ g => (g, Ok None))
    (fun _ _ _ g => ((fst g, S (snd g)), if Nat.eqb (fst g) bad then Raise EvaluationError else Ok tt)) (fun _ g => (g, Ok tt)).
Definition three : newton (nat * nat) :=
  mk_newton (map (fun l => mk_trow l (Fin 1) NaN NaN (Fin 1) NaN (Fin 1)) ["x"; "y"; "z"]) [(0, 0); (1, 0); (2, 0)] [("A", Fin 0)]
            [("x", NaN); ("y", NaN); ("z", NaN)].
Example newton_failing_update_ex :
  well_formed three /\ nw_update (counting 1) [("A", Fin 1)] [("x", Fin 1); ("y", Fin 1); ("z", Fin 1)] [("x", Fin 1); ("y", Fin 1); ("z", Fin 1)] three =
  (mk_newton (nw_target three) [(0, 1); (1, 1); (2, 0)] (nw_pos three) (nw_vals three), Raise EvaluationError).
Proof. split; [|reflexivity]. repeat split; repeat constructor; cbn; intuition discriminate. Qed.

(** What the constructor accepts: as many estimators as parameters, not more
    parameters than gates, and every estimator knows the gates of the solver. *)
Theorem newton_init_iff :
  forall (G : Type) (E : est_ops G) t gs pos vals,
  (exists st, nw_init E t gs pos vals = Ok st) <->
  (length t = length gs /\ (forall g, In g gs -> incl (index pos) (index (eo_position E g))) /\ length t <= length pos /\
   forall v, vals = Some v -> incl (t_index t) (index v)).
Proof.
  intros G E t gs pos vals. unfold nw_init.
  assert (Hlen : forall f, length (map f (t_index t) : series) = length t) by (intros f; rewrite map_length; unfold t_index; apply map_length).
  destruct (Nat.eqb_spec (length t) (length gs)) as [H1|H1]; cbn [negb].
  2:{ split; [intros [st H]; discriminate|intros [H _]; contradiction]. }
  destruct (forallb (fun g => subset (index pos) (index (eo_position E g))) gs) eqn:H2; cbn [negb].
  2:{ split; [intros [st H]; discriminate|]. intros (_ & H & _). assert (X : forallb (fun g => subset (index pos) (index (eo_position E g))) gs = true); [|congruence].
      apply forallb_forall. intros g Hg. apply SeriesLemmas.subset_incl. apply H. exact Hg. }
  assert (H2' : forall g, In g gs -> incl (index pos) (index (eo_position E g))).
  { intros g Hg. apply SeriesLemmas.subset_incl. rewrite forallb_forall in H2. apply H2. exact Hg. }
  destruct vals as [v|].
  - destruct (subset (t_index t) (index v)) eqn:H3.
    + apply SeriesLemmas.subset_incl in H3. unfold reindex. rewrite Hlen. destruct (Nat.leb_spec (length t) (length pos)) as [H4|H4].
      * split; [intros _|intros _; eexists; reflexivity]. repeat split; auto. intros v0 Hv. inversion Hv; subst. exact H3.
      * split; [intros [st H]; discriminate|intros (_ & _ & H & _); lia].
    + split; [intros [st H]; discriminate|]. intros (_ & _ & _ & H). assert (X : subset (t_index t) (index v) = true); [|congruence].
      apply SeriesLemmas.subset_incl. apply H. reflexivity.
  - rewrite Hlen. destruct (Nat.leb_spec (length t) (length pos)) as [H4|H4].
    + split; [intros _|intros _; eexists; reflexivity]. repeat split; auto. discriminate.
    + split; [intros [st H]; discriminate|intros (_ & _ & H & _); lia].
Qed.
Print Assumptions newton_init_iff.
Example newton_init_iff_ex : exists st, nw_init (counting 7) (nw_target three) (nw_ests three) [("C", Fin 0); ("A", Fin 1); ("B", Fin 2)] None = Ok st.
Proof. apply newton_init_iff. repeat split; cbn; auto; try discriminate. intros g _ l [<-|[<-|[<-|[]]]]; cbn; tauto. Qed.
