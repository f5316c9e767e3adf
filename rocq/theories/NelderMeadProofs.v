From Verif Require Import PyBase TargetModel TunerModel TunerSpec SeriesLemmas SolverModel NelderMeadModel NelderMeadSpec.
From Coq Require Import Lra Permutation.
Local Open Scope nat_scope.

(** Order of floats other than NaN. *)
Lemma nleb_refl a : a <> NaN -> nleb a a = true.
Proof. destruct a; cbn; auto; try congruence. intros _. apply Rleb_true. lra. Qed.
Lemma nltb_nleb a b : a <> NaN -> b <> NaN -> nltb a b = negb (nleb b a).
Proof.
  destruct a, b; cbn; auto; try congruence. intros _ _. unfold Rltb, Rleb.
  destruct (Rlt_dec r r0), (Rle_dec r0 r); auto; lra.
Qed.
Lemma nleb_trans a b c : nleb a b = true -> nleb b c = true -> nleb a c = true.
Proof. destruct a, b, c; cbn; auto; try congruence. rewrite !Rleb_true. lra. Qed.
Lemma nleb_total a b : a <> NaN -> b <> NaN -> nleb a b = false -> nleb b a = true.
Proof. destruct a, b; cbn; auto; try congruence. rewrite Rleb_false, Rleb_true. lra. Qed.

Section Insert.
Variable cost : series -> num.
Hypothesis Hc : ordered cost.
Variable t : target.
Local Notation ec := (entry_cost cost t).

Lemma ec_nan e : ec e <> NaN.
Proof. apply Hc. Qed.
Lemma ec_deviation e : ec e = cost (deviation t (snd e)).
Proof. reflexivity. Qed.

Inductive asc : list entry -> Prop :=
| asc_nil : asc []
| asc_cons x l : (forall y, In y l -> nleb (ec x) (ec y) = true) -> asc l -> asc (x :: l).

Lemma insert_perm e l : Permutation (insert_entry cost t e l) (e :: l).
Proof.
  induction l as [|x l IH]; cbn; [auto|]. destruct (nltb _ _); [|auto].
  rewrite IH. apply perm_swap.
Qed.
Lemma sorted_perm l : Permutation (sorted_simplex cost t l) l.
Proof. induction l as [|x l IH]; cbn; [auto|]. rewrite insert_perm. auto. Qed.
Lemma insert_asc e l : asc l -> asc (insert_entry cost t e l).
Proof.
  induction 1 as [|x l Hx Hl IH]; cbn; [constructor; [intros ? []|constructor]|].
  rewrite nltb_nleb by apply ec_nan. destruct (nleb (ec e) (ec x)) eqn:E; cbn.
  - constructor; [|constructor; auto]. intros y [<-|Hy]; [auto|]. eapply nleb_trans; eauto.
  - constructor; [|auto]. intros y Hy. apply (Permutation_in _ (insert_perm e l)) in Hy.
    destruct Hy as [<-|Hy]; [|auto]. apply nleb_total; auto using ec_nan.
Qed.
Lemma sorted_asc l : asc (sorted_simplex cost t l).
Proof. induction l; cbn; [constructor|]. apply insert_asc. assumption. Qed.

Lemma removelast_in {A} (x : A) l : In x (removelast l) -> In x l.
Proof.
  induction l as [|a l IH]; cbn; [auto|]. destruct l; [intros []|]. intros [H|H]; auto.
Qed.
Lemma removelast_asc l : asc l -> asc (removelast l).
Proof.
  induction 1 as [|x l Hx Hl IH]; [constructor|]. cbn [removelast]. destruct l; [constructor|].
  constructor; [|exact IH]. intros y Hy. apply Hx. apply removelast_in. exact Hy.
Qed.
Lemma insert_into_asc l e : asc (insert_into cost t l e).
Proof. apply removelast_asc, sorted_asc. Qed.
Lemma removelast_length {A} (l : list A) : length (removelast l) = length l - 1.
Proof.
  induction l as [|a l IH]; [reflexivity|]. cbn [removelast]. destruct l; [reflexivity|].
  cbn [length] in *. rewrite IH. lia.
Qed.
Lemma insert_into_length l e : length (insert_into cost t l e) = length l.
Proof.
  unfold insert_into. rewrite removelast_length, (Permutation_length (sorted_perm _)), app_length. cbn. lia.
Qed.
Lemma sorted_length l : length (sorted_simplex cost t l) = length l.
Proof. apply Permutation_length, sorted_perm. Qed.
Lemma insert_into_in l e x : In x (insert_into cost t l e) -> In x l \/ x = e.
Proof.
  intros H. apply removelast_in in H. apply (Permutation_in _ (sorted_perm _)) in H.
  apply in_app_iff in H. destruct H as [H|[H|[]]]; auto.
Qed.

(** Counting costs below a threshold. *)
Definition below (c : num) (l : list entry) : nat := length (filter (fun e => nleb (ec e) c) l).
Lemma below_perm c l l' : Permutation l l' -> below c l = below c l'.
Proof.
  unfold below. induction 1; cbn; auto.
  - destruct (nleb _ _); cbn; auto.
  - destruct (nleb (ec x) c), (nleb (ec y) c); auto.
  - congruence.
Qed.
Lemma below_app c l l' : below c (l ++ l') = below c l + below c l'.
Proof. unfold below. rewrite filter_app, app_length. reflexivity. Qed.
Lemma asc_app l x : asc (l ++ [x]) -> forall y, In y l -> nleb (ec y) (ec x) = true.
Proof.
  induction l as [|a l IH]; cbn; [intros _ y []|]. inversion 1; subst. intros y [<-|Hy]; [|auto].
  apply H2, in_or_app. right. left. reflexivity.
Qed.
Lemma below_all c l : (forall y, In y l -> nleb (ec y) c = true) -> below c l = length l.
Proof.
  unfold below. induction l as [|a l IH]; cbn; intros H; [reflexivity|]. rewrite (H a) by auto. cbn. auto.
Qed.
Lemma below_le c l : below c l <= length l.
Proof. unfold below. induction l as [|a l IH]; cbn; [auto|]. destruct (nleb _ _); cbn; lia. Qed.

Lemma insert_into_split l e :
  exists w, Permutation (insert_into cost t l e ++ [w]) (l ++ [e]) /\
            forall y, In y (insert_into cost t l e) -> nleb (ec y) (ec w) = true.
Proof.
  unfold insert_into. pose proof (sorted_perm (l ++ [e])) as HP. pose proof (sorted_asc (l ++ [e])) as HA.
  remember (sorted_simplex cost t (l ++ [e])) as s.
  assert (Hne : s <> []).
  { intros ->. apply Permutation_length in HP. rewrite app_length in HP. cbn in HP. lia. }
  exists (last s e). rewrite <- app_removelast_last by assumption. split; [exact HP|].
  apply asc_app. rewrite <- app_removelast_last; assumption.
Qed.

Lemma insert_into_below l e c : below c l <= below c (insert_into cost t l e).
Proof.
  destruct (insert_into_split l e) as [w [HP Hw]].
  pose proof (below_perm c _ _ HP) as HB. rewrite !below_app in HB.
  destruct (nleb (ec w) c) eqn:E.
  - rewrite (below_all c (insert_into cost t l e)); [rewrite insert_into_length; apply below_le|].
    intros y Hy. eapply nleb_trans; eauto.
  - assert (below c [w] = 0) by (unfold below; cbn; rewrite E; reflexivity). lia.
Qed.

(** Prepending an element with the strictly smallest cost. *)
Lemma insert_last e l : (forall y, In y l -> nltb (ec y) (ec e) = true) -> insert_entry cost t e l = l ++ [e].
Proof.
  induction l as [|x l IH]; cbn; intros H; [reflexivity|]. rewrite H by auto. rewrite IH; auto.
Qed.
Lemma insert_first e l : (forall y, In y l -> nleb (ec e) (ec y) = true) -> insert_entry cost t e l = e :: l.
Proof.
  destruct l as [|x l]; cbn; intros H; [reflexivity|].
  rewrite nltb_nleb by apply ec_nan. rewrite H by auto. reflexivity.
Qed.
Lemma sorted_fix l : asc l -> sorted_simplex cost t l = l.
Proof. induction 1 as [|x l Hx Hl IH]; [reflexivity|]. change (insert_entry cost t x (sorted_simplex cost t l) = x :: l). rewrite IH. apply insert_first. assumption. Qed.

(** Inserting into a sorted simplex: before the costlier points, the last
    dropped. *)
Fixpoint place (e : entry) (l : list entry) : list entry :=
  match l with
  | [] => [e]
  | x :: l' => if nltb (ec e) (ec x) then e :: x :: l' else x :: place e l'
  end.
Lemma place_in e l y : In y (place e l) <-> y = e \/ In y l.
Proof.
  induction l as [|x l IH]; cbn; [intuition|]. destruct (nltb _ _); cbn; [intuition|].
  rewrite IH. intuition.
Qed.
Lemma sorted_app e l : asc l -> sorted_simplex cost t (l ++ [e]) = place e l.
Proof.
  induction 1 as [|x l Hx Hl IH]; [reflexivity|].
  change (insert_entry cost t x (sorted_simplex cost t (l ++ [e])) = place e (x :: l)). rewrite IH. cbn [place].
  destruct (nltb (ec e) (ec x)) eqn:E.
  - assert (Hp : place e l = e :: l).
    { destruct l as [|z l]; cbn; [reflexivity|].
      rewrite nltb_nleb in * by apply ec_nan. rewrite negb_true_iff in E.
      destruct (nleb (ec z) (ec e)) eqn:E2; [|reflexivity].
      exfalso. rewrite (nleb_trans (ec x) (ec z) (ec e)) in E; [discriminate| |auto].
      apply Hx. left. reflexivity. }
    rewrite Hp. cbn. rewrite E. f_equal. apply insert_first. assumption.
  - apply insert_first. intros y Hy. apply place_in in Hy. destruct Hy as [->|Hy]; [|auto].
    rewrite nltb_nleb in E by apply ec_nan. apply negb_false_iff. exact E.
Qed.
Lemma insert_into_place l e : asc l -> insert_into cost t l e = removelast (place e l).
Proof. intros H. unfold insert_into. rewrite sorted_app by assumption. reflexivity. Qed.
End Insert.
