(** Statements about the repeated evaluation of stored data (C138). *)
From Coq Require Import String List Bool Arith ZArith Lia.
From Verif Require Import PyExn GuiModel PlotModel ReevalModel ReevalSpec.
Import ListNotations.
Local Open Scope string_scope.
Local Open Scope list_scope.

Lemma at_position_some {A} (l : list A) i : in_range (length l) i -> exists a, at_position l i = Some a /\ In a l.
Proof.
  intros H. unfold in_range in H. assert (E : exists k, at_position l i = nth_error l k /\ k < length l).
  { unfold at_position. destruct (Z.ltb_spec i 0).
    - destruct (Z.leb_spec (- Z.of_nat (length l)) i); [|lia]. eexists; split; [reflexivity|lia].
    - eexists; split; [reflexivity|lia]. }
  destruct E as (k & -> & Hk). destruct (nth_error l k) eqn:E; [|apply nth_error_None in E; lia].
  exists a. split; [reflexivity|]. eapply nth_error_In; eassumption.
Qed.
Lemma at_position_none {A} (l : list A) i : ~ in_range (length l) i -> at_position l i = None.
Proof.
  intros H. unfold in_range in H. unfold at_position. destruct (Z.ltb_spec i 0).
  - destruct (Z.leb_spec (- Z.of_nat (length l)) i); [lia|reflexivity].
  - apply nth_error_None. lia.
Qed.
Lemma stored_has_none c : has_attribute (as_object c) "measurements" = false.
Proof. now destruct c. Qed.

Section P.
Context (measure : Z -> res nat) (hold : bool).
Lemma one_stored f name i : let r := reevaluate_one measure hold (column_of f name) i in
  fst r = [] /\ snd r = Raise (if known (f_columns f) name then if (- Z.of_nat (length (f_rows f)) <=? i)%Z && (i <? Z.of_nat (length (f_rows f)))%Z then AttributeError else IndexError else KeyError).
Proof.
  unfold column_of. destruct (known (f_columns f) name); cbn -[Z.leb Z.ltb Z.of_nat has_attribute]; [|split; reflexivity].
  set (col := map _ _). assert (Hl : length col = length (f_rows f)) by apply map_length. rewrite <- Hl.
  destruct (Z.leb_spec (- Z.of_nat (length col)) i); [destruct (Z.ltb_spec i (Z.of_nat (length col)))|]; cbn [andb].
  - destruct (at_position_some col i) as (a & Ea & Ha); [split; assumption|]. rewrite Ea.
    apply in_map_iff in Ha as (row & <- & _). rewrite stored_has_none. split; reflexivity.
  - rewrite at_position_none by (unfold in_range; lia). split; reflexivity.
  - rewrite at_position_none by (unfold in_range; lia). split; reflexivity.
Qed.
End P.

(** ** C138 *)
(** On the data that a history stores no index is ever evaluated: nothing is
    measured, no option is set and no question is asked, and apart from an
    empty list of indices the call fails, with an error that the first index
    decides. *)
Theorem reevaluate_never measure hold f name is :
  let r := reevaluate measure hold (column_of f name) is in
  fst r = [] /\
  (snd r = Ok [] <-> is = Several []) /\ (forall rs, snd r = Ok rs -> rs = []) /\
  (forall i l, is = One i \/ is = Several (i :: l) ->
     (known (f_columns f) name = false -> snd r = Raise KeyError) /\
     (known (f_columns f) name = true -> ~ in_range (length (f_rows f)) i -> snd r = Raise IndexError) /\
     (known (f_columns f) name = true -> in_range (length (f_rows f)) i -> snd r = Raise AttributeError)) /\
  (forall i, is = NumpyNumber i -> snd r = Raise TypeError).
Proof.
  assert (H1 : forall i l, reevaluate_all measure hold (column_of f name) (i :: l) =
    ([], Raise (if known (f_columns f) name then if (- Z.of_nat (length (f_rows f)) <=? i)%Z && (i <? Z.of_nat (length (f_rows f)))%Z then AttributeError else IndexError else KeyError))).
  { intros i l. cbn -[Z.leb Z.ltb Z.of_nat column_of]. destruct (one_stored measure hold f name i) as [Ha Hb].
    destruct (reevaluate_one measure hold (column_of f name) i) as [w r]. cbn in Ha, Hb. subst. reflexivity. }
  assert (H2 : forall i, let e := if known (f_columns f) name then if (- Z.of_nat (length (f_rows f)) <=? i)%Z && (i <? Z.of_nat (length (f_rows f)))%Z then AttributeError else IndexError else KeyError in
     (known (f_columns f) name = false -> e = KeyError) /\ (known (f_columns f) name = true -> ~ in_range (length (f_rows f)) i -> e = IndexError) /\
     (known (f_columns f) name = true -> in_range (length (f_rows f)) i -> e = AttributeError)).
  { intros i. unfold in_range. destruct (known (f_columns f) name); cbn zeta; repeat split; try discriminate; intros _ H.
    - destruct (Z.leb_spec (- Z.of_nat (length (f_rows f))) i), (Z.ltb_spec i (Z.of_nat (length (f_rows f)))); cbn [andb]; try reflexivity; lia.
    - destruct (Z.leb_spec (- Z.of_nat (length (f_rows f))) i), (Z.ltb_spec i (Z.of_nat (length (f_rows f)))); cbn [andb]; try reflexivity; lia. }
  destruct is as [i|[|i l]|i]; cbn zeta; cbn [reevaluate]; rewrite ?H1; cbn [fst snd].
  - split; [reflexivity|]. split; [split; discriminate|]. split; [discriminate|]. split; [|discriminate].
    intros j l [E|E]; [|discriminate]. injection E as <-. destruct (H2 i) as (Ha & Hb & Hc). repeat split; intros; f_equal; auto.
  - cbn. split; [reflexivity|]. split; [tauto|]. split; [intros rs E; now injection E as <-|]. split; [intros i l [E|E]; discriminate|discriminate].
  - split; [reflexivity|]. split; [split; discriminate|]. split; [discriminate|]. split; [|discriminate].
    intros j l' [E|E]; [discriminate|]. injection E as <- <-. destruct (H2 i) as (Ha & Hb & Hc). repeat split; intros; f_equal; auto.
  - split; [reflexivity|]. split; [split; discriminate|]. split; [discriminate|]. split; [intros j l [E|E]; discriminate|reflexivity].
Qed.
Definition sample : frame := mk_frame ["load"; "line"] [[("load", Stored 1 (FitData (Some 1) None None))]; [("line", Stored 1 (ScanData None))]].
Example reevaluate_never_ex :
  reevaluate (fun _ => Ok 7) true (column_of sample "load") (One 0) = ([], Raise AttributeError) /\
  reevaluate (fun _ => Ok 7) true (column_of sample "load") (Several [1%Z; 0%Z]) = ([], Raise AttributeError) /\
  reevaluate (fun _ => Ok 7) true (column_of sample "load") (Several [(-3)%Z]) = ([], Raise IndexError) /\
  reevaluate (fun _ => Ok 7) true (column_of sample "other") (Several [0%Z]) = ([], Raise KeyError) /\
  reevaluate (fun _ => Ok 7) true (column_of sample "other") (Several []) = ([], Ok []).
Proof. repeat split. Qed.

(** With evaluators in the column, which the function is written for, every
    index is measured in turn with the files of its row, and a question follows
    each measurement if so wanted. *)
Theorem reevaluate_intended (results : Z -> nat) hold (files : Z -> list string) col is :
  (forall i, In i is -> exists l n, at_position col i = Some (Instance l (S n) (files i)) /\ In "measurements" l /\ In "_last_file_names" l) ->
  reevaluate (fun i => Ok (results i)) hold (Some col) (Several is) =
  (flat_map (fun i => [SetFiles i (files i); Measured i] ++ if hold then [Asked] else []) is, Ok (map results is)).
Proof.
  cbn [reevaluate]. assert (Hk : forall l n, In n l -> known l n = true).
  { intros l n H. apply existsb_exists. exists n. split; [assumption|apply String.eqb_refl]. }
  induction is as [|i is IH]; intros H; [reflexivity|].
  destruct (H i (or_introl eq_refl)) as (l & n & E & H1 & H2).
  cbn [reevaluate_all reevaluate_one]. rewrite E. cbn [has_attribute]. rewrite (Hk _ _ H1), (Hk _ _ H2).
  rewrite IH by (intros j Hj; apply H; now right). reflexivity.
Qed.
Example reevaluate_intended_ex :
  reevaluate (fun i => Ok (Z.to_nat i + 5)) true (Some [Number; Instance ["measurements"; "_last_file_names"] 1 ["a.mat"]]) (Several [1%Z]) =
  ([SetFiles 1 ["a.mat"]; Measured 1; Asked], Ok [6]).
Proof. reflexivity. Qed.

Print Assumptions reevaluate_never.
Print Assumptions reevaluate_intended.
