(** Statements about the window with the raw data (C137). *)
From Coq Require Import String List Bool Arith ZArith Lia.
From Verif Require Import GuiModel RawWindowModel RawWindowSpec.
Import ListNotations.
Local Open Scope list_scope.

Lemma names_on_app a b : names_on (a ++ b) = names_on a ++ names_on b.
Proof. induction a as [|[[n| |] r c] a IH]; cbn; [reflexivity| |exact IH|exact IH]. now rewrite IH. Qed.
Lemma names_on_buttons names : forall i, names_on (buttons i names) = names.
Proof. induction names as [|n l IH]; intros i; cbn; [reflexivity|now rewrite IH]. Qed.
Lemma nth_buttons names : forall i k, nth_error (buttons i names) k =
  match nth_error names k with Some n => Some (mk_placed (Button n) ((i + k) / 2) ((i + k) mod 2)) | None => None end.
Proof.
  induction names as [|n l IH]; intros i [|k]; cbn [buttons nth_error]; try reflexivity.
  - now rewrite Nat.add_0_r.
  - rewrite IH. now rewrite Nat.add_succ_comm.
Qed.
Lemma length_buttons names : forall i, length (buttons i names) = length names.
Proof. induction names as [|n l IH]; intros i; cbn; [reflexivity|now rewrite IH]. Qed.
Lemma nth_layout names k : nth_error (layout names) k =
  match nth_error names k with
  | Some n => Some (mk_placed (Button n) (k / 2) (k mod 2))
  | None => if k =? length names then Some (mk_placed Label 0 2)
            else if k =? S (length names) then Some (mk_placed Field 1 2) else None
  end.
Proof.
  unfold layout. destruct (Nat.lt_ge_cases k (length names)) as [H|H].
  - rewrite nth_error_app1 by now rewrite length_buttons. rewrite nth_buttons. destruct (nth_error names k) eqn:E; [reflexivity|]. apply nth_error_None in E. lia.
  - rewrite nth_error_app2, length_buttons by (rewrite length_buttons; lia).
    rewrite (proj2 (nth_error_None names k)) by lia.
    destruct (Nat.eqb_spec k (length names)) as [->|H1]; [now rewrite Nat.sub_diag|].
    destruct (Nat.eqb_spec k (S (length names))) as [->|H2]; [now replace (S (length names) - length names) with 1 by lia|].
    destruct (k - length names) as [|[|[|m]]] eqn:E; try lia; reflexivity.
Qed.

Definition run (s : stored * window) (es : list event) := fold_left happen es s.
Lemma run_top es : forall s, w_top (snd (run s es)) = w_top (snd s).
Proof.
  induction es as [|e es IH]; intros [h w]; [reflexivity|]. cbn [run fold_left].
  change (fold_left happen es (happen (h, w) e)) with (run (happen (h, w) e) es). rewrite IH.
  destruct e; cbn; try reflexivity. now destruct (nth_error (w_top w) i) as [[[n| |] r c]|].
Qed.
Lemma run_rows es : forall s, s_rows (fst (run s es)) = rows_after (s_rows (fst s)) es.
Proof.
  induction es as [|e es IH]; intros [h w]; [reflexivity|]. cbn [run fold_left].
  change (fold_left happen es (happen (h, w) e)) with (run (happen (h, w) e) es). rewrite IH.
  destruct e; cbn; try reflexivity. now destruct (nth_error (w_top w) i) as [[[n| |] r c]|].
Qed.

(** ** C137 *)
(** Whatever happens, the buttons are those of the evaluators known when the
    window was opened, two in a row and in their order; every widget has a
    place of its own. *)
Theorem raw_window_buttons h es : let top := w_top (snd (session h es)) in
  names_on top = s_names h /\ length top = length (s_names h) + 2 /\ NoDup (map place top) /\
  (forall k n, nth_error (s_names h) k = Some n -> exists p, nth_error top k = Some p /\ p_what p = Button n /\ p_row p * 2 + p_col p = k /\ p_col p < 2).
Proof.
  intros top. assert (Ht : top = layout (s_names h)) by exact (run_top es (h, open_window h)). clearbody top. subst top.
  split; [unfold layout; rewrite names_on_app, names_on_buttons; cbn; now rewrite app_nil_r|].
  split; [unfold layout; now rewrite app_length, length_buttons|]. split.
  - apply NoDup_nth_error. intros i j Hi. rewrite map_length in Hi. unfold layout in Hi. rewrite app_length, length_buttons in Hi. cbn in Hi.
    rewrite !nth_error_map, !nth_layout. pose proof (Nat.mod_upper_bound i 2 ltac:(lia)). pose proof (Nat.mod_upper_bound j 2 ltac:(lia)).
    pose proof (Nat.div_mod i 2 ltac:(lia)). pose proof (Nat.div_mod j 2 ltac:(lia)).
    generalize dependent (i / 2). generalize dependent (i mod 2). generalize dependent (j / 2). generalize dependent (j mod 2). intros rj Hrj qj Hj ri Hri qi Hqi.
    destruct (nth_error (s_names h) i) as [a|] eqn:Ea; destruct (nth_error (s_names h) j) as [b|] eqn:Eb; cbn [option_map place p_row p_col].
    + intros E. injection E as E1 E2. lia.
    + destruct (j =? _); [|destruct (j =? _)]; intros E; [injection E as E1 E2|injection E as E1 E2|discriminate]; unfold place in *; cbn in *; lia.
    + apply nth_error_None in Ea. destruct (Nat.eqb_spec i (length (s_names h))); [|destruct (Nat.eqb_spec i (S (length (s_names h))))]; intros E; [injection E as E1 E2|injection E as E1 E2|lia]; unfold place in *; cbn in *; lia.
    + apply nth_error_None in Ea, Eb. destruct (Nat.eqb_spec i (length (s_names h))), (Nat.eqb_spec i (S (length (s_names h)))), (Nat.eqb_spec j (length (s_names h))), (Nat.eqb_spec j (S (length (s_names h)))); intros E; try lia; try discriminate E.
  - intros k n Hk. rewrite nth_layout, Hk. eexists; split; [reflexivity|]. cbn [p_what p_row p_col].
    pose proof (Nat.mod_upper_bound k 2 ltac:(lia)). pose proof (Nat.div_mod k 2 ltac:(lia)). repeat split; lia.
Qed.
Example raw_window_buttons_ex :
  let top := w_top (snd (session (mk_stored ["a"; "b"; "c"]%string 4) [Press 1; Grows (mk_stored ["a"; "b"; "c"; "d"]%string 5); Enter (Some 9%Z)])) in
  names_on top = ["a"; "b"; "c"]%string /\ map place top = [(0, 0); (0, 1); (1, 0); (0, 2); (1, 2)].
Proof. split; reflexivity. Qed.

Lemma run_number es : forall s, w_text (snd s) = w_number (snd s) -> w_text (snd (run s es)) = w_number (snd (run s es)).
Proof.
  induction es as [|e es IH]; intros [h w] H; [exact H|]. change (run (h, w) (e :: es)) with (run (happen (h, w) e) es). apply IH.
  destruct e; cbn in *; try assumption; [reflexivity|]. now destruct (nth_error (w_top w) i) as [[[n| |] r c]|].
Qed.
Lemma run_range es : forall s, growing (s_rows (fst s)) es -> (0 <= w_number (snd s) < Z.of_nat (s_rows (fst s)))%Z ->
  (0 <= w_number (snd (run s es)) < Z.of_nat (s_rows (fst (run s es))))%Z.
Proof.
  induction es as [|e es IH]; intros [h w] Hg H; [exact H|]. change (run (h, w) (e :: es)) with (run (happen (h, w) e) es).
  cbn [fst snd] in *. destruct e; cbn in Hg.
  - apply IH; cbn; [tauto|]. lia.
  - apply IH; cbn [happen fst snd]; [assumption|]. cbn. unfold set_run_number. destruct text as [i|].
    + destruct (Z.ltb_spec i 0); [lia|]. destruct (Z.leb_spec (Z.of_nat (s_rows h)) i); lia.
    + cbn. destruct (Z.leb_spec (Z.of_nat (s_rows h)) 0); lia.
  - apply IH; cbn; destruct (nth_error (w_top w) i) as [[[n| |] r c]|]; cbn; assumption.
Qed.
(** The field always shows the number that is used; in a window opened on a
    history with rows it is the number of one of its rows as long as no rows
    are lost. *)
Theorem raw_window_number h es :
  w_text (snd (session h es)) = w_number (snd (session h es)) /\
  (0 < s_rows h -> growing (s_rows h) es -> (0 <= w_number (snd (session h es)) < Z.of_nat (rows_after (s_rows h) es))%Z).
Proof.
  split; [now apply (run_number es (h, open_window h))|]. intros Hr Hg.
  pose proof (run_rows es (h, open_window h)) as E. cbn [fst] in E. rewrite <- E. apply (run_range es (h, open_window h)); cbn; [assumption|lia].
Qed.
Example raw_window_number_ex :
  let es := [Enter (Some 9%Z); Grows (mk_stored ["a"]%string 7)] in
  growing 5 es /\ w_text (snd (session (mk_stored ["a"]%string 5) es)) = 4%Z.
Proof. cbn. repeat split. lia. Qed.

Lemma run_pictures es : forall s names, w_top (snd s) = layout names ->
  w_pictures (snd (run s es)) = rev (asked names (s_rows (fst s)) (w_number (snd s)) es) ++ w_pictures (snd s).
Proof.
  induction es as [|e es IH]; intros [h w] names Ht; [reflexivity|]. change (run (h, w) (e :: es)) with (run (happen (h, w) e) es).
  cbn [fst snd] in *. destruct e; cbn [happen asked].
  - match goal with |- context[run ?s es] => rewrite (IH s names ltac:(first [exact Ht|reflexivity])) end. reflexivity.
  - match goal with |- context[run ?s es] => rewrite (IH s names ltac:(first [exact Ht|reflexivity])) end. cbn [fst snd w_number w_pictures]. f_equal. f_equal. unfold set_run_number. destruct text as [i|].
    + destruct (Z.ltb_spec i 0); [reflexivity|]. f_equal. destruct (Z.leb_spec (Z.of_nat (s_rows h)) i); lia.
    + cbn [Z.ltb Z.compare]. f_equal. destruct (Z.leb_spec (Z.of_nat (s_rows h)) 0); lia.
  - rewrite Ht, nth_layout. destruct (nth_error names i) as [n|] eqn:E.
    + match goal with |- context[run ?s es] => rewrite (IH s names ltac:(first [exact Ht|reflexivity])) end. cbn. now rewrite <- app_assoc.
    + destruct (i =? _); [|destruct (i =? _)]; match goal with |- context[run ?s es] => rewrite (IH s names ltac:(first [exact Ht|reflexivity])) end; reflexivity.
Qed.
(** Every press of a button puts up the picture of its evaluator for the number
    shown at that time; the older pictures stay, all in the same place. *)
Theorem raw_window_pictures h es :
  w_pictures (snd (session h es)) = rev (asked (s_names h) (s_rows h) 0 es).
Proof. pose proof (run_pictures es (h, open_window h) (s_names h) eq_refl) as H. cbn [snd open_window w_pictures] in H. now rewrite app_nil_r in H. Qed.
Example raw_window_pictures_ex :
  w_pictures (snd (session (mk_stored ["a"; "b"]%string 5) [Press 1; Enter (Some 3%Z); Press 0; Press 2; Enter None; Press 0])) =
  [("a", 0%Z); ("a", 3%Z); ("b", 0%Z)]%string.
Proof. reflexivity. Qed.

(** An evaluator that turns up later gets no button in a window that is open,
    only in a new one; a window opened before the first row shows -1 once a
    number is entered, and keeps it. *)
Theorem raw_window_stale_refuted : exists h h' es,
  In "late"%string (s_names h') /\ ~ In "late"%string (names_on (w_top (snd (session h es)))) /\ fst (session h es) = h' /\
  In "late"%string (names_on (w_top (open_window h'))) /\ w_number (snd (session h es)) = (-1)%Z /\ 0 < s_rows h'.
Proof.
  exists (mk_stored ["early"]%string 0), (mk_stored ["early"; "late"]%string 1), [Enter (Some 0%Z); Grows (mk_stored ["early"; "late"]%string 1)].
  cbn. repeat split; try tauto; try lia. intros [H|[]]; discriminate.
Qed.

Print Assumptions raw_window_buttons.
Print Assumptions raw_window_number.
Print Assumptions raw_window_pictures.
Print Assumptions raw_window_stale_refuted.
