(** Properties of the index translation, qtune/mat2py.py L74-126 (C48). *)
From Coq Require Import ZArith String List Bool Lia.
From Verif Require Import PyExn Mat2pyModel Mat2pySpec.
Import ListNotations.
Local Open Scope Z_scope.

Lemma literal i : str_z i = digits i.
Proof. reflexivity. Qed.

(** Non-negative integers: the same element, or an error on both sides. *)
Theorem transform_int_same n i : 0 <= i -> selects (transform_int i) n (py_int n i).
Proof.
  intros Hi. exists (MOne (MLit (i + 1))). unfold transform_int, py_int, m_elements, in_bounds; cbn.
  destruct (Z.ltb_spec i 0); [lia|]. split; [reflexivity|].
  destruct (Z.leb_spec 0 i); [|lia]. destruct (Z.leb_spec 1 (i + 1)); [|lia]. cbn.
  destruct (Z.ltb_spec i n), (Z.leb_spec (i + 1) n); try lia; cbn.
  - repeat f_equal; lia.
  - destruct (Z.leb_spec (- n) i), (Z.ltb_spec i 0); try lia; reflexivity.
Qed.
Example transform_int_same_ex : transform_int 4 = "5"%string /\ py_int 7 4 = Some [4].
Proof. split; reflexivity. Qed.

(** Negative integers: the element before the one meant by Python; the last
    element cannot be addressed, and [-n] is an error. *)
Theorem transform_int_negative n k : 0 < k <= n ->
  selects (transform_int (- k)) n (if k =? n then None else Some [n - k - 1]) /\ py_int n (- k) = Some [n - k].
Proof.
  intros Hk. split.
  - exists (MOne (MEndMinus k)). unfold transform_int, m_elements, in_bounds; cbn.
    destruct (Z.ltb_spec (- k) 0); [|lia]. split; [cbn; rewrite Z.abs_opp, Z.abs_eq by lia; reflexivity|].
    destruct (Z.eqb_spec k n); destruct (Z.leb_spec 1 (n - k)); try lia; cbn; auto.
    all: destruct (Z.leb_spec (n - k) n); try lia; reflexivity.
  - unfold py_int. destruct (Z.leb_spec 0 (- k)); [lia|]. cbn.
    destruct (Z.leb_spec (- n) (- k)), (Z.ltb_spec (- k) 0); try lia. cbn. repeat f_equal; lia.
Qed.
Example transform_int_negative_ex : transform_int (-1) = "end - 1"%string /\ py_int 7 (-1) = Some [6].
Proof. split; reflexivity. Qed.

Lemma bounds_up n b s : 0 < s -> 0 <= b <= n -> in_bounds n (colon 1 s b) = Some (colon 1 s b).
Proof.
  intros Hs Hb. unfold in_bounds, colon. destruct (Z.eqb_spec s 0); [lia|].
  replace (forallb _ _) with true; [reflexivity|]. symmetry. apply forallb_forall. intros x Hx.
  apply in_map_iff in Hx. destruct Hx as (k & <- & Hk). apply in_seq in Hk.
  assert (Hq : Z.of_nat k <= (b - 1) / s) by lia.
  assert (Hm : s * ((b - 1) / s) <= b - 1) by (apply Z.mul_div_le; lia).
  apply andb_true_iff. split; apply Z.leb_le; nia.
Qed.
Lemma colon_range b s : 0 < s -> map (fun i => i - 1) (colon 1 s b) = py_range 0 b s.
Proof.
  intros Hs. unfold colon, py_range. destruct (Z.eqb_spec s 0); [lia|]. destruct (Z.ltb_spec 0 s); [|lia].
  rewrite map_map. replace ((b - 0 + s - 1) / s) with ((b - 1) / s + 1).
  - apply map_ext. intros k. lia.
  - replace (b - 0 + s - 1) with (b - 1 + 1 * s) by lia. rewrite Z.div_add by lia. reflexivity.
Qed.
Lemma in_bounds_nil n : in_bounds n [] = Some []. Proof. reflexivity. Qed.
Lemma colon_empty a s b : 0 < s -> b < a -> colon a s b = [].
Proof.
  intros Hs Hb. unfold colon. destruct (Z.eqb_spec s 0); [lia|].
  assert ((b - a) / s < 0) by (apply Z.div_lt_upper_bound; lia).
  replace (Z.to_nat _) with O by lia. reflexivity.
Qed.
Lemma range_empty s : 0 < s -> py_range 0 0 s = [].
Proof.
  intros Hs. unfold py_range. destruct (Z.ltb_spec 0 s); [|lia].
  replace ((0 - 0 + s - 1) / s) with 0; [reflexivity|]. symmetry. apply Z.div_small. lia.
Qed.

(** Slices without start and with positive (or default) step: the same
    elements; a stop beyond the end must not occur (MATLAB does not clip). *)
Theorem transform_slice_same n stop step : 0 <= n ->
  match step with None => True | Some s => 0 < s end ->
  match stop with None => True | Some e => e <= n end ->
  exists text, transform_slice None stop step = Ok text /\ selects text n (py_slice n None stop step).
Proof.
  intros Hn Hs He. unfold transform_slice, py_slice.
  set (s := match step with None => 1 | Some s => s end). assert (Hs' : 0 < s) by (subst s; destruct step; lia).
  destruct (Z.ltb_spec 0 s); [|lia]. destruct (Z.eqb_spec s 0); [lia|].
  eexists; split; [reflexivity|].
  destruct stop as [e|].
  - destruct (Z.ltb_spec e 0).
    + exists (MColon (MLit 1) s (MEndMinus (Z.abs e))). split; [reflexivity|]. cbn [m_elements term_value].
      rewrite Z.abs_neq by lia. replace (n - - e) with (e + n) by lia.
      destruct (Z.le_gt_cases 0 (e + n)).
      * rewrite bounds_up by lia. cbn [option_map]. rewrite colon_range by lia. f_equal; f_equal; lia.
      * rewrite colon_empty by lia. cbn. f_equal. rewrite Z.max_l by lia. now rewrite range_empty.
    + exists (MColon (MLit 1) s (MLit e)). split; [reflexivity|]. cbn [m_elements term_value].
      rewrite bounds_up by lia. cbn [option_map]. rewrite colon_range by lia. f_equal; f_equal; lia.
  - exists (MColon (MLit 1) s MEnd). split; [reflexivity|]. cbn [m_elements term_value].
    rewrite bounds_up by lia. cbn [option_map]. rewrite colon_range by lia. reflexivity.
Qed.
Example transform_slice_same_ex :
  transform_slice None (Some (-2)) (Some 2) = Ok "1:2:(end - 2)"%string /\ py_slice 9 None (Some (-2)) (Some 2) = Some [0; 2; 4; 6].
Proof. split; reflexivity. Qed.
(** The whole array backwards is translated correctly as well. *)
Theorem transform_slice_backwards n s : 0 <= n -> s < 0 ->
  exists text, transform_slice None None (Some s) = Ok text /\ selects text n (py_slice n None None (Some s)).
Proof.
  intros Hn Hs. unfold transform_slice, py_slice. destruct (Z.ltb_spec 0 s); [lia|]. destruct (Z.eqb_spec s 0); [lia|].
  eexists; split; [reflexivity|]. exists (MColon MEnd s (MLit 1)). split; [reflexivity|]. cbn [m_elements term_value].
  assert (E : (1 - n) / s + 1 = (n - 1 - -1 - s - 1) / - s).
  { replace (1 - n) with (- (n - 1)) by lia. replace s with (- - s) at 1 by lia. rewrite Z.div_opp_opp by lia.
    replace (n - 1 - -1 - s - 1) with (n - 1 + 1 * - s) by lia. rewrite Z.div_add by lia. reflexivity. }
  assert (B : in_bounds n (colon n s 1) = Some (colon n s 1)).
  { unfold in_bounds, colon. destruct (Z.eqb_spec s 0); [lia|].
    replace (forallb _ _) with true; [reflexivity|]. symmetry. apply forallb_forall. intros x Hx.
    apply in_map_iff in Hx. destruct Hx as (k & <- & Hk). apply in_seq in Hk. rewrite E in Hk.
    replace (n - 1 - -1 - s - 1) with (n - 1 + 1 * - s) in Hk by lia. rewrite Z.div_add in Hk by lia.
    assert (Hq : Z.of_nat k <= (n - 1) / - s) by lia.
    assert (Hm : - s * ((n - 1) / - s) <= n - 1) by (apply Z.mul_div_le; lia).
    apply andb_true_iff. split; apply Z.leb_le; nia. }
  rewrite B. cbn [option_map]. f_equal. unfold colon, py_range.
  destruct (Z.eqb_spec s 0); [lia|]. destruct (Z.ltb_spec 0 s); [lia|]. rewrite map_map, E.
  apply map_ext. intros k. lia.
Qed.
Example transform_slice_backwards_ex : py_slice 6 None None (Some (-2)) = Some [5; 3; 1] /\
  transform_slice None None (Some (-2)) = Ok "end:-2:1"%string.
Proof. split; reflexivity. Qed.

(** Every slice with a start raises NameError, alone or in a tuple. *)
Theorem transform_slice_start_raises start stop step is :
  transform_index (Py1 (PySlice (Some start) stop step)) = Raise NameError /\
  ((exists i, In i is /\ exists s e t, i = PySlice (Some s) e t) <-> transform_index (PyTuple is) = Raise NameError).
Proof.
  split; [reflexivity|]. unfold transform_index.
  assert (G : (exists i, In i is /\ exists s e t, i = PySlice (Some s) e t) <-> transform_all is = Raise NameError).
  { induction is as [|i is IH]; cbn.
    - split; [intros (? & [] & _)|discriminate].
    - destruct i as [i|[s|] e t]; cbn.
      + destruct (transform_all is) eqn:E.
        * split; [|discriminate]. intros (j & [<-|Hj] & s & e & t & Ej); [discriminate|].
          destruct IH as [IH _]. discriminate IH. eauto 6.
        * split.
          -- intros (j & [<-|Hj] & s & e' & t & Ej); [discriminate|]. f_equal. destruct IH as [IH _].
             assert (Raise (A := list string) e = Raise NameError) as R by (apply IH; eauto 6). now inversion R.
          -- intros R. inversion R; subst. destruct IH as [_ IH]. destruct (IH eq_refl) as (j & ? & ?). eauto.
      + split; auto. intros _. eexists; split; [left; reflexivity|]. eauto.
      + destruct (transform_all is) eqn:E.
        * split; [|discriminate]. intros (j & [<-|Hj] & s & e' & t' & Ej); [discriminate|].
          destruct IH as [IH _]. discriminate IH. eauto 6.
        * split.
          -- intros (j & [<-|Hj] & s & e' & t' & Ej); [discriminate|]. f_equal. destruct IH as [IH _].
             assert (Raise (A := list string) e0 = Raise NameError) as R by (apply IH; eauto 6). now inversion R.
          -- intros R. inversion R; subst. destruct IH as [_ IH]. destruct (IH eq_refl) as (j & ? & ?). eauto. }
  rewrite G. destruct (transform_all is); split; intros H; try discriminate; inversion H; reflexivity.
Qed.
Example transform_slice_start_raises_ex :
  transform_index (PyTuple [PyInt 3; PySlice None (Some 2) None]) = Ok "4,1:1:2"%string /\
  transform_index (PyTuple [PyInt 3; PySlice (Some 0) (Some 2) None]) = Raise NameError.
Proof. split; reflexivity. Qed.

(** A tuple becomes the texts of its entries with commas in between; it is
    translated iff all entries are. *)
Theorem transform_tuple is ss :
  Forall2 (fun i t => transform_index (Py1 i) = Ok t) is ss <->
  (transform_index (PyTuple is) = Ok (String.concat "," ss) /\ List.length ss = List.length is /\ forall k i, nth_error is k = Some i -> transform_index (Py1 i) = Ok (nth k ss ""%string)).
Proof.
  split.
  - intros H. assert (E : transform_all is = Ok ss) by (induction H as [|i t is ss Hi H IH]; [reflexivity|]; cbn [transform_all]; cbn [transform_index] in Hi; rewrite Hi, IH; reflexivity).
    cbn [transform_index]. rewrite E. split; [reflexivity|]. split; [clear E; induction H; cbn; congruence|].
    induction H as [|i t is ss Hi H IH]; intros [|k] j Hk; try discriminate.
    + injection Hk as <-. exact Hi.
    + cbn [nth]. apply IH; [|exact Hk]. cbn [transform_all] in E. cbn [transform_index] in Hi. rewrite Hi in E. destruct (transform_all is); [|discriminate]. injection E as ->. reflexivity.
  - intros [_ [L H]]. revert ss L H. induction is as [|i is IH]; intros [|t ss] L H; try discriminate; constructor.
    + exact (H 0%nat i eq_refl).
    + apply IH; [injection L as L; exact L|]. intros k j Hk. exact (H (S k) j Hk).
Qed.
Example transform_tuple_ex : transform_index (PyTuple [PyInt 3; PyInt (-1); PySlice None (Some 2) None]) = Ok "4,end - 1,1:1:2"%string.
Proof. apply (transform_tuple _ ["4"; "end - 1"; "1:1:2"]%string). repeat constructor. Qed.

(** Claim "slices without start select the same elements": refuted for negative
    steps (one element too many) and for a stop beyond the end (MATLAB raises).
    The expression that the text denotes is given explicitly. *)
Theorem transform_slice_refuted :
  (transform_slice None (Some 1) (Some (-1)) = Ok (write_expr (MColon MEnd (-1) (MLit 2))) /\
   m_elements 4 (MColon MEnd (-1) (MLit 2)) = Some [4; 3; 2] /\ py_slice 4 None (Some 1) (Some (-1)) = Some [3; 2]) /\
  (transform_slice None (Some 9) None = Ok (write_expr (MColon (MLit 1) 1 (MLit 9))) /\
   m_elements 4 (MColon (MLit 1) 1 (MLit 9)) = None /\ py_slice 4 None (Some 9) None = Some [0; 1; 2; 3]).
Proof. repeat split; reflexivity. Qed.

Print Assumptions transform_int_same.
Print Assumptions transform_int_negative.
Print Assumptions transform_slice_same.
Print Assumptions transform_slice_backwards.
Print Assumptions transform_slice_start_raises.
Print Assumptions transform_tuple.
Print Assumptions transform_slice_refuted.
