(** References in a live history (AliasModel.v). *)
From Coq Require Import List Arith Lia Bool.
From Verif Require Import AliasModel.
Import ListNotations.

(** ** Specification *)
Section Spec.
Context {V : Type} (nan : V).
Notation outcome := (outcome V).
(** What an evaluation says about an attribute, if anything. *)
Definition says (k : kind) (o : outcome) (a : attr) : option V :=
  match a, k with
  | ARawX, _ => Some (o_x V o)
  | ARawY, _ => Some (o_y V o)
  | AFit, KLead => o_fit V o
  | AFit, KTc => Some (match o_second V o, o_fit V o with Some _, Some q => q | _, _ => nan end)
  | AFit, KLoad => Some (match o_fit V o with Some q => q | None => nan end)
  | AInit, KLead | AInit, KTc => Some (o_start V o)
  | AInit, KLoad => match o_fit V o with Some _ => Some (o_start V o) | None => None end
  | AInter, KTc => o_second V o
  | APositions, KTransition => Some (match o_fit V o with Some q => q | None => nan end)
  | APositions, KSens2 => o_fit V o
  | ACenter, KSens1 | ACenter, KSens2 => Some (o_center V o)
  | _, _ => None
  end.
(** The latest word on it; [v0] before there is any. *)
Fixpoint latest (k : kind) (a : attr) (v0 : V) (os : list outcome) : V :=
  match os with
  | [] => v0
  | o :: os' => latest k a (match says k o a with Some v => v | None => v0 end) os'
  end.
(** Attributes whose object is changed in place. *)
Definition in_place (k : kind) (a : attr) : bool :=
  match k, a with KLoad, AInit | KTc, AInter | KSens1, ACenter | KSens2, ACenter => true | _, _ => false end.
Definition outcomes (es : list (event V)) : list outcome := flat_map (fun e => match e with Evaluate _ o => [o] | Append _ => [] end) es.
Definition appends (es : list (event V)) : nat := length (filter (fun e => match e with Append _ => true | _ => false end) es).
(** Objects of different attributes are different and exist. *)
Definition separate (h : heap V) (e : evaluator) : Prop := (forall a, e a < length h) /\ (forall a b, e a = e b -> a = b).
End Spec.

Section Proofs.
Context {V : Type} (nan : V).
Notation exec := (exec V). Notation op := (op V). Notation evaluate := (evaluate V nan).

Lemma overwrite_length p v (h : heap V) : length (overwrite V p v h) = length h.
Proof. revert p. induction h as [|w h IH]; intros [|p]; cbn; auto. Qed.
Lemma overwrite_same p v (h : heap V) : p < length h -> nth_error (overwrite V p v h) p = Some v.
Proof. revert p. induction h as [|w h IH]; intros [|p] H; cbn in *; try lia; auto. apply IH. lia. Qed.
Lemma overwrite_other p q v (h : heap V) : p <> q -> nth_error (overwrite V p v h) q = nth_error h q.
Proof. revert p q. induction h as [|w h IH]; intros [|p] [|q] H; cbn; auto; try contradiction. Qed.

(** The operations of an evaluation respect [in_place]. *)
Definition fits (k : kind) (o : op) : Prop := match o with Rebind _ a _ => in_place k a = false | Fill _ a _ => in_place k a = true end.
Lemma assignments_fit k o : Forall (fits k) (assignments V nan k o).
Proof. destruct k; cbn [assignments]; try destruct (o_second V o); try destruct (o_fit V o); cbn [app]; repeat constructor. Qed.

(** One operation. *)
Lemma exec_step k o h e h' e' : fits k o -> separate h e -> exec (h, e) o = (h', e') ->
  separate h' e' /\ length h <= length h' /\
  (forall p, p < length h -> (forall a, in_place k a = true -> p <> e a) -> nth_error h' p = nth_error h p) /\
  (forall a, in_place k a = true -> e' a = e a) /\
  forall a, nth_error h' (e' a) = match o with Rebind _ b v | Fill _ b v => if attr_eq_dec b a then Some v else nth_error h (e a) end.
Proof.
  intros F [S1 S2] H. destruct o as [b v|b v]; cbn in H; injection H as <- <-.
  - cbn in F. split; [split|split; [|split; [|split]]].
    + intros a. rewrite app_length. cbn. destruct (attr_eq_dec b a); [lia|]. specialize (S1 a). lia.
    + intros a c. destruct (attr_eq_dec b a) as [<-|]; destruct (attr_eq_dec b c) as [<-|]; auto; intros E; [specialize (S1 c); lia|specialize (S1 a); lia].
    + rewrite app_length. lia.
    + intros p Hp _. apply nth_error_app1. exact Hp.
    + intros a Ha. destruct (attr_eq_dec b a) as [<-|]; [congruence|reflexivity].
    + intros a. destruct (attr_eq_dec b a) as [<-|].
      * rewrite nth_error_app2, Nat.sub_diag by lia. reflexivity.
      * apply nth_error_app1, S1.
  - cbn in F. split; [split|split; [|split; [|split]]].
    + intros a. rewrite overwrite_length. apply S1.
    + exact S2.
    + rewrite overwrite_length. lia.
    + intros p Hp Hi. apply overwrite_other. intros E. apply (Hi b F). auto.
    + reflexivity.
    + intros a. destruct (attr_eq_dec b a) as [<-|N]; [apply overwrite_same, S1|]. apply overwrite_other. intros E. apply N, S2, E.
Qed.

(** Several operations: what they say about an attribute. *)
Definition op_attr (o : op) : attr := match o with Rebind _ a _ | Fill _ a _ => a end.
Definition op_value (o : op) : V := match o with Rebind _ _ v | Fill _ _ v => v end.
Fixpoint last_word (a : attr) (ops : list op) : option V :=
  match ops with
  | [] => None
  | o :: ops' => match last_word a ops' with Some v => Some v | None => if attr_eq_dec (op_attr o) a then Some (op_value o) else None end
  end.
Lemma exec_all k ops : Forall (fits k) ops -> forall h e h' e', separate h e -> fold_left exec ops (h, e) = (h', e') ->
  separate h' e' /\ length h <= length h' /\
  (forall p, p < length h -> (forall a, in_place k a = true -> p <> e a) -> nth_error h' p = nth_error h p) /\
  (forall a, in_place k a = true -> e' a = e a) /\
  forall a, nth_error h' (e' a) = match last_word a ops with Some v => Some v | None => nth_error h (e a) end.
Proof.
  induction 1 as [|o ops F Fs IH]; intros h e h' e' S H; cbn [fold_left] in H.
  - injection H as <- <-. repeat split; auto; try apply S.
  - destruct (exec (h, e) o) as [h1 e1] eqn:E. destruct (exec_step k o h e h1 e1 F S E) as [S1 [L1 [K1 [P1 V1]]]].
    destruct (IH h1 e1 h' e' S1 H) as [S2 [L2 [K2 [P2 V2]]]]. split; [exact S2|]. split; [lia|]. split; [|split].
    + intros p Hp Hi. rewrite K2; [apply K1; assumption|lia|]. intros a Ha. rewrite P1 by exact Ha. apply Hi, Ha.
    + intros a Ha. rewrite P2, P1 by exact Ha. reflexivity.
    + intros a. rewrite V2, V1. cbn [last_word]. destruct (last_word a ops); [reflexivity|]. destruct o; cbn [op_attr op_value]; destruct (attr_eq_dec _ a); reflexivity.
Qed.
Lemma last_word_says k o a : last_word a (assignments V nan k o) = says nan k o a.
Proof. destruct k; cbn [assignments]; try destruct (o_second V o) eqn:?; try destruct (o_fit V o) eqn:?; destruct a; cbn; rewrite ?Heqo0, ?Heqo1; reflexivity. Qed.
Lemma evaluate_step k o h e h' e' : separate h e -> evaluate k o (h, e) = (h', e') ->
  separate h' e' /\ length h <= length h' /\
  (forall p, p < length h -> (forall a, in_place k a = true -> p <> e a) -> nth_error h' p = nth_error h p) /\
  (forall a, in_place k a = true -> e' a = e a) /\
  forall a, nth_error h' (e' a) = match says nan k o a with Some v => Some v | None => nth_error h (e a) end.
Proof.
  intros S H. destruct (exec_all k _ (assignments_fit k o) h e h' e' S H) as [A [B [C [D E]]]]. repeat (split; [assumption|]). intros a. rewrite E, last_word_says. reflexivity.
Qed.

(** The state of the evaluator after the events, and old objects. *)
Lemma history_step k es : forall l, separate (l_heap V l) (l_eval V l) -> let l' := history V nan k l es in
  separate (l_heap V l') (l_eval V l') /\ length (l_heap V l) <= length (l_heap V l') /\
  (forall p, p < length (l_heap V l) -> (forall a, in_place k a = true -> p <> l_eval V l a) -> nth_error (l_heap V l') p = nth_error (l_heap V l) p) /\
  (forall a, in_place k a = true -> l_eval V l' a = l_eval V l a) /\
  (forall a v0, nth_error (l_heap V l) (l_eval V l a) = Some v0 -> nth_error (l_heap V l') (l_eval V l' a) = Some (latest nan k a v0 (outcomes es))) /\
  exists new, l_rows V l' = l_rows V l ++ new /\ length new = appends es.
Proof.
  induction es as [|[o|] es IH]; intros l S; cbn zeta.
  - repeat split; auto; try apply S. exists []. rewrite app_nil_r. auto.
  - destruct (evaluate k o (l_heap V l, l_eval V l)) as [h1 e1] eqn:E. destruct (evaluate_step k o _ _ h1 e1 S E) as [S1 [L1 [K1 [P1 V1]]]].
    change (history V nan k l (Evaluate V o :: es)) with (history V nan k (happens V nan k l (Evaluate V o)) es). cbn [happens]. rewrite E.
    destruct (IH (mk_live V h1 e1 (l_rows V l)) S1) as [S2 [L2 [K2 [P2 [V2 [new [R2 N2]]]]]]]. cbn [l_heap l_eval l_rows] in *.
    split; [exact S2|]. split; [lia|]. split; [|split; [|split]].
    + intros p Hp Hi. rewrite K2; [apply K1; assumption|lia|]. intros a Ha. rewrite P1 by exact Ha. apply Hi, Ha.
    + intros a Ha. rewrite P2, P1 by exact Ha. reflexivity.
    + intros a v0 H0. cbn [outcomes flat_map app latest]. apply V2. rewrite V1. destruct (says nan k o a); [reflexivity|exact H0].
    + exists new. auto.
  - change (history V nan k l (Append V :: es)) with (history V nan k (happens V nan k l (Append V)) es). cbn [happens].
    destruct (IH (mk_live V (l_heap V l) (l_eval V l) (l_rows V l ++ [l_eval V l])) S) as [S2 [L2 [K2 [P2 [V2 [new [R2 N2]]]]]]]. cbn [l_heap l_eval l_rows] in *.
    repeat (split; [assumption|]). exists (l_eval V l :: new). split; [rewrite R2, <- app_assoc; reflexivity|]. cbn. rewrite N2. reflexivity.
Qed.
Lemma history_app k l a b : history V nan k l (a ++ b) = history V nan k (history V nan k l a) b.
Proof. apply fold_left_app. Qed.

(** The averaging evaluator: its inner evaluations are a history without rows. *)
Definition evals (k : kind) (os : list (outcome V)) (s : heap V * evaluator) := fold_left (fun s o => evaluate k o s) os s.
Lemma evals_step k os h e h' e' : separate h e -> evals k os (h, e) = (h', e') ->
  separate h' e' /\ length h <= length h' /\
  (forall p, p < length h -> (forall a, in_place k a = true -> p <> e a) -> nth_error h' p = nth_error h p) /\
  (forall a, in_place k a = true -> e' a = e a) /\
  forall a v0, nth_error h (e a) = Some v0 -> nth_error h' (e' a) = Some (latest nan k a v0 os).
Proof.
  intros S H. assert (E : history V nan k (mk_live V h e []) (map (Evaluate V) os) = mk_live V h' e' []).
  { revert h e S H. induction os as [|o os IH]; intros h e S H; [cbn in H; injection H as <- <-; reflexivity|].
    cbn [evals fold_left] in H. change (history V nan k (mk_live V h e []) (map (Evaluate V) (o :: os))) with (history V nan k (happens V nan k (mk_live V h e []) (Evaluate V o)) (map (Evaluate V) os)).
    cbn [happens l_heap l_eval l_rows]. destruct (evaluate k o (h, e)) as [h1 e1] eqn:E1. apply IH; [|exact H]. apply (evaluate_step k o h e h1 e1 S E1). }
  destruct (history_step k (map (Evaluate V) os) (mk_live V h e []) S) as [S2 [L2 [K2 [P2 [V2 _]]]]]. rewrite E in *. cbn [l_heap l_eval] in *.
  repeat (split; [assumption|]). intros a v0 H0. rewrite (V2 a v0 H0). f_equal. f_equal. unfold outcomes. clear. induction os as [|o os IH]; [reflexivity|]. cbn. rewrite IH. reflexivity.
Qed.
(** Stored raw data: objects of their own with the data of these measurements. *)
Definition holds (k : kind) (h : heap V) (e : evaluator) (raw : list addr) (os : list (outcome V)) : Prop :=
  Forall2 (fun p o => p < length h /\ (forall a, in_place k a = true -> p <> e a) /\ nth_error h p = Some (o_y V o)) raw os.
Lemma holds_later k h e h' e' raw os : length h <= length h' ->
  (forall p, p < length h -> (forall a, in_place k a = true -> p <> e a) -> nth_error h' p = nth_error h p) ->
  (forall a, in_place k a = true -> e' a = e a) -> holds k h e raw os -> holds k h' e' raw os.
Proof.
  intros L K P H. induction H as [|p o raw os [H1 [H2 H3]] H IH]; constructor; [|exact IH]. split; [lia|]. split.
  - intros a Ha. rewrite P by exact Ha. apply H2, Ha.
  - rewrite K by assumption. exact H3.
Qed.
Lemma holds_values k h e raw os : holds k h e raw os -> map (nth_error h) raw = map (fun o => Some (o_y V o)) os.
Proof. induction 1 as [|p o raw os [_ [_ E]] H IH]; [reflexivity|]. cbn [map]. rewrite IH, E. reflexivity. Qed.
Lemma repeat_steps k os : forall h e raw os0 h' e' raw', separate h e -> holds k h e raw os0 ->
  fold_left (repeat_step V nan k) os ((h, e), raw) = ((h', e'), raw') -> evals k os (h, e) = (h', e') /\ holds k h' e' raw' (os0 ++ os).
Proof.
  induction os as [|o os IH]; intros h e raw os0 h' e' raw' S H0 H; cbn [fold_left] in H.
  - injection H as <- <- <-. rewrite app_nil_r. auto.
  - unfold repeat_step at 2 in H. cbn [fst snd] in H. destruct (evaluate k o (h, e)) as [h1 e1] eqn:E. destruct (evaluate_step k o h e h1 e1 S E) as [S1 [L1 [K1 [P1 V1]]]].
    cbn [evals fold_left]. rewrite E. cbn [snd] in H. apply (IH h1 e1 _ (os0 ++ [o])) in H; [rewrite <- app_assoc in H; exact H|exact S1|].
    apply Forall2_app; [exact (holds_later k h e h1 e1 raw os0 L1 K1 P1 H0)|]. constructor; [|constructor]. split; [apply S1|]. split.
    + intros a Ha Eq. apply S1 in Eq. subst a. destruct k; discriminate.
    + rewrite (V1 ARawY). destruct k; reflexivity.
Qed.
Definition averaged (es : list (averaging_event V)) : list (outcome V) := flat_map (fun e => match e with Repeat _ os => os | AppendAverage _ => [] end) es.
Fixpoint last_repeat (os0 : list (outcome V)) (es : list (averaging_event V)) : list (outcome V) :=
  match es with
  | [] => os0
  | Repeat _ os :: es' => last_repeat os es'
  | AppendAverage _ :: es' => last_repeat os0 es'
  end.
Definition average_appends (es : list (averaging_event V)) : nat := length (filter (fun e => match e with AppendAverage _ => true | _ => false end) es).
Lemma average_step k es : forall l os0, separate (a_heap V l) (a_inner V l) -> holds k (a_heap V l) (a_inner V l) (a_raw V l) os0 -> let l' := average_history V nan k l es in
  separate (a_heap V l') (a_inner V l') /\ length (a_heap V l) <= length (a_heap V l') /\
  (forall p, p < length (a_heap V l) -> (forall a, in_place k a = true -> p <> a_inner V l a) -> nth_error (a_heap V l') p = nth_error (a_heap V l) p) /\
  (forall a, in_place k a = true -> a_inner V l' a = a_inner V l a) /\
  (forall a v0, nth_error (a_heap V l) (a_inner V l a) = Some v0 -> nth_error (a_heap V l') (a_inner V l' a) = Some (latest nan k a v0 (averaged es))) /\
  holds k (a_heap V l') (a_inner V l') (a_raw V l') (last_repeat os0 es) /\
  exists new, a_rows V l' = a_rows V l ++ new /\ length new = average_appends es.
Proof.
  induction es as [|[os|] es IH]; intros l os0 S H0; cbn zeta.
  - repeat split; auto; try apply S. exists []. rewrite app_nil_r. auto.
  - change (average_history V nan k l (Repeat V os :: es)) with (average_history V nan k (average_happens V nan k l (Repeat V os)) es). cbn [average_happens].
    destruct (fold_left (repeat_step V nan k) os ((a_heap V l, a_inner V l), [])) as [[h1 e1] raw1] eqn:E. apply (repeat_steps k os _ _ [] [] h1 e1 raw1 S) in E as [E H1]; [|constructor].
    destruct (evals_step k os _ _ h1 e1 S E) as [S1 [L1 [K1 [P1 V1]]]]. cbn [fst snd app] in *.
    destruct (IH (mk_average V h1 e1 raw1 (a_rows V l)) os S1 H1) as [S2 [L2 [K2 [P2 [V2 [H2 [new [R2 N2]]]]]]]]. cbn [a_heap a_inner a_raw a_rows] in *.
    split; [exact S2|]. split; [lia|]. split; [|split; [|split; [|split; [exact H2|exists new; auto]]]].
    + intros p Hp Hi. rewrite K2; [apply K1; assumption|lia|]. intros a Ha. rewrite P1 by exact Ha. apply Hi, Ha.
    + intros a Ha. rewrite P2, P1 by exact Ha. reflexivity.
    + intros a v0 Hv. cbn [averaged flat_map].
      assert (T : forall os1 os2 v, latest nan k a v (os1 ++ os2) = latest nan k a (latest nan k a v os1) os2) by (induction os1 as [|o os1 IH1]; intros os2 v; [reflexivity|apply IH1]).
      rewrite T. apply V2, V1, Hv.
  - change (average_history V nan k l (AppendAverage V :: es)) with (average_history V nan k (average_happens V nan k l (AppendAverage V)) es). cbn [average_happens].
    destruct (IH (mk_average V (a_heap V l) (a_inner V l) (a_raw V l) (a_rows V l ++ [a_raw V l])) os0 S H0) as [S2 [L2 [K2 [P2 [V2 [H2 [new [R2 N2]]]]]]]]. cbn [a_heap a_inner a_raw a_rows] in *.
    repeat (split; [assumption|]). exists (a_raw V l :: new). split; [rewrite R2, <- app_assoc; reflexivity|]. cbn. rewrite N2. reflexivity.
Qed.
End Proofs.

(** ** C114 *)
(** A row of a live history.  Attributes that get a new object at every
    evaluation (raw data, fit results) show what was there when the row was
    appended.  The starting values of the load time, the intermediate values of
    the tunnel coupling and the centres of the sensing dot scans are changed in
    place: every row shows the latest ones of the whole tuning. *)
Theorem live_rows : forall V (nan : V) k l pre post a v0, separate (l_heap V l) (l_eval V l) -> l_rows V l = [] ->
  nth_error (l_heap V l) (l_eval V l a) = Some v0 ->
  shown V (history V nan k l (pre ++ Append V :: post)) (appends pre) a =
  Some (latest nan k a v0 (outcomes (if in_place k a then pre ++ Append V :: post else pre))).
Proof.
  intros V nan k l pre post a v0 S R H0. rewrite history_app.
  destruct (history_step nan k pre l S) as [S1 [L1 [K1 [P1 [V1 [new [R1 N1]]]]]]]. cbn zeta in *. set (l1 := history V nan k l pre) in *.
  change (history V nan k l1 (Append V :: post)) with (history V nan k (mk_live V (l_heap V l1) (l_eval V l1) (l_rows V l1 ++ [l_eval V l1])) post).
  set (l2 := mk_live V _ _ _). destruct (history_step nan k post l2 S1) as [S2 [L2 [K2 [P2 [V2 [new2 [R2 N2]]]]]]]. cbn zeta in *. cbn [l2 l_heap l_eval l_rows] in *.
  unfold shown. rewrite R2, R1, R. cbn [app]. rewrite nth_error_app1 by (rewrite app_length, N1; cbn; lia). rewrite nth_error_app2, N1, Nat.sub_diag by lia. cbn [nth_error].
  destruct (in_place k a) eqn:I.
  - rewrite <- (P2 a I). unfold outcomes. rewrite flat_map_app. cbn [flat_map app]. 
    assert (T : forall os1 os2 v, latest nan k a v (os1 ++ os2) = latest nan k a (latest nan k a v os1) os2) by (induction os1 as [|o os1 IH]; intros os2 v; [reflexivity|apply IH]).
    rewrite T. apply V2, V1, H0.
  - rewrite K2; [apply V1, H0|apply S1|]. intros b Hb E. apply S1 in E. congruence.
Qed.
(** Rows of an AveragingEvaluator hold the raw data of their own measurements,
    but show everything else, in every plot, as the averaged evaluator has it
    now: raw data, fit and starting values of the very last measurement. *)
Theorem average_rows : forall V (nan : V) k l pre post a v0, separate (a_heap V l) (a_inner V l) -> a_rows V l = [] -> a_raw V l = [] ->
  nth_error (a_heap V l) (a_inner V l a) = Some v0 -> let l' := average_history V nan k l (pre ++ AppendAverage V :: post) in
  average_raw V l' (average_appends pre) = Some (map (fun o => Some (o_y V o)) (last_repeat [] pre)) /\
  average_shown V l' (average_appends pre) a = Some (latest nan k a v0 (averaged (pre ++ AppendAverage V :: post))).
Proof.
  intros V nan k l pre post a v0 S R W H0. cbn zeta. assert (Hn : holds k (a_heap V l) (a_inner V l) (a_raw V l) []) by (rewrite W; constructor).
  destruct (average_step nan k (pre ++ AppendAverage V :: post) l [] S Hn) as [_ [_ [_ [_ [Va [_ [new [Rn Nn]]]]]]]]. cbn zeta in *.
  split.
  - unfold average_history. rewrite fold_left_app. fold (average_history V nan k l pre). destruct (average_step nan k pre l [] S Hn) as [S1 [L1 [K1 [P1 [V1 [H1 [new1 [R1 N1]]]]]]]]. cbn zeta in *.
    set (l1 := average_history V nan k l pre) in *. cbn [fold_left average_happens].
    set (l2 := mk_average V _ _ _ _). fold (average_history V nan k l2 post). destruct (average_step nan k post l2 _ S1 H1) as [S2 [L2 [K2 [P2 [V2 [_ [new2 [R2 N2]]]]]]]]. cbn zeta in *. cbn [l2 a_heap a_inner a_raw a_rows] in *.
    unfold average_raw. rewrite R2, R1, R. cbn [app]. rewrite nth_error_app1 by (rewrite app_length, N1; cbn; lia). rewrite nth_error_app2, N1, Nat.sub_diag by lia. cbn [nth_error option_map]. f_equal.
    apply (holds_later k _ _ _ _ _ _ L2 K2 P2) in H1. exact (holds_values k _ _ _ _ H1).
  - unfold average_shown. rewrite Rn, R. cbn [app]. assert (L : average_appends pre < length new).
    { rewrite Nn. unfold average_appends. rewrite filter_app, app_length. cbn. lia. }
    destruct (nth_error new (average_appends pre)) eqn:E; [|apply nth_error_None in E; lia]. apply Va, H0.
Qed.
(** The load time: two measurements, both fitted; the first row then shows the
    starting values of the second fit. *)
Theorem live_start_refuted : forall V (nan : V) l o1 o2 q1 q2, separate (l_heap V l) (l_eval V l) -> l_rows V l = [] -> o_fit V o1 = Some q1 -> o_fit V o2 = Some q2 ->
  let l' := history V nan KLoad l [Evaluate V o1; Append V; Evaluate V o2; Append V] in
  shown V l' 0 AFit = Some q1 /\ shown V l' 0 ARawY = Some (o_y V o1) /\ shown V l' 0 AInit = Some (o_start V o2).
Proof.
  intros V nan l o1 o2 q1 q2 S R F1 F2. cbn zeta.
  assert (G : forall a, exists v, nth_error (l_heap V l) (l_eval V l a) = Some v) by (intros a; destruct (nth_error (l_heap V l) (l_eval V l a)) as [v|] eqn:E; [exists v; reflexivity|apply nth_error_None in E; destruct S as [S _]; specialize (S a); lia]).
  assert (T : forall a v0, nth_error (l_heap V l) (l_eval V l a) = Some v0 -> shown V (history V nan KLoad l [Evaluate V o1; Append V; Evaluate V o2; Append V]) 0 a =
    Some (latest nan KLoad a v0 (outcomes (if in_place KLoad a then [Evaluate V o1; Append V; Evaluate V o2; Append V] else [Evaluate V o1])))) by (intros a v0; exact (live_rows V nan KLoad l [Evaluate V o1] [Evaluate V o2; Append V] a v0 S R)).
  destruct (G AFit) as [f Hf]. destruct (G ARawY) as [y Hy]. destruct (G AInit) as [i Hi]. rewrite (T _ _ Hf), (T _ _ Hy), (T _ _ Hi). cbn. rewrite F1, F2. auto.
Qed.

(** ** Instances *)
Definition ex_first : evaluator := fun a => match a with ARawX => 0 | ARawY => 1 | AFit => 2 | AInit => 3 | AInter => 4 | APositions => 5 | ACenter => 6 end.
Definition ex_live : live nat := mk_live nat [0; 0; 0; 0; 0; 0; 0] ex_first [].
Definition ex_out (n : nat) : outcome nat := mk_outcome nat (n + 1) (n + 2) (n + 3) (n + 4) (Some (n + 5)) (Some (n + 6)).
Lemma ex_separate : separate [0; 0; 0; 0; 0; 0; 0] ex_first.
Proof. split; [intros []; cbn; lia|intros [] []; cbn; intros H; congruence]. Qed.
Example live_rows_ex : map (fun row => (shown nat (history nat 999 KTc ex_live [Evaluate nat (ex_out 10); Append nat; Evaluate nat (ex_out 20); Append nat]) row AFit,
    shown nat (history nat 999 KTc ex_live [Evaluate nat (ex_out 10); Append nat; Evaluate nat (ex_out 20); Append nat]) row AInter)) [0; 1] = [(Some 16, Some 25); (Some 26, Some 25)].
Proof. reflexivity. Qed.
Example average_rows_ex : let l := average_history nat 999 KTc (mk_average nat [0; 0; 0; 0; 0; 0; 0] ex_first [] []) [Repeat nat [ex_out 10; ex_out 20]; AppendAverage nat; Repeat nat [ex_out 30; ex_out 40]; AppendAverage nat] in
  average_raw nat l 0 = Some [Some 13; Some 23] /\ average_shown nat l 0 ARawY = Some 43 /\ average_shown nat l 0 AFit = Some 46.
Proof. repeat split. Qed.
Example live_start_ex : shown nat (history nat 999 KLoad ex_live [Evaluate nat (ex_out 10); Append nat; Evaluate nat (ex_out 20); Append nat]) 0 AInit = Some 24.
Proof. apply (live_start_refuted nat 999 ex_live (ex_out 10) (ex_out 20) 16 26 ex_separate); reflexivity. Qed.
Print Assumptions live_rows.
Print Assumptions average_rows.
Print Assumptions live_start_refuted.
