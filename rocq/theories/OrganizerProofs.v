(** Lemmas for the live plot. *)
From Coq Require Import String List Bool Arith ZArith Ascii Lia Permutation.
From Verif Require Import PyExn OrganizerModel OrganizerSpec.
Import ListNotations.
Local Open Scope string_scope.
Local Open Scope list_scope.

(** ** Keys *)
Inductive id := KG (g : string) | KP (p : string) | KE (p : string) | KD (p g : string) | KX (p g : string).
Definition text (i : id) : string :=
  match i with
  | KG g => g | KP p => p | KE p => (p ++ "#err_bar")%string
  | KD p g => (p ++ "#" ++ g)%string | KX p g => ((p ++ "#" ++ g) ++ "#err_bar")%string
  end.

Lemma ascii_app s t : list_ascii_of_string (s ++ t)%string = list_ascii_of_string s ++ list_ascii_of_string t.
Proof. induction s as [|c s IH]; [reflexivity|]. cbn. rewrite IH. reflexivity. Qed.
Lemma ascii_inj s t : list_ascii_of_string s = list_ascii_of_string t -> s = t.
Proof. intros H. rewrite <- (string_of_list_ascii_of_string s), <- (string_of_list_ascii_of_string t), H. reflexivity. Qed.
Lemma hash_split a : forall b r r', plain a -> plain b -> (a ++ String "#" r)%string = (b ++ String "#" r')%string -> a = b /\ r = r'.
Proof.
  induction a as [|c a IH]; intros [|d b] r r' Ha Hb E; cbn in E.
  - injection E as ->. auto.
  - injection E as <- _. contradiction Hb. left. reflexivity.
  - injection E as -> _. contradiction Ha. left. reflexivity.
  - injection E as <- E. destruct (IH b r r') as [-> ->]; auto; intros K; [apply Ha|apply Hb]; right; exact K.
Qed.
Lemma plain_app a b : plain (a ++ String "#" b)%string -> False.
Proof. intros H. apply H. rewrite ascii_app. apply in_or_app. right. left. reflexivity. Qed.
Lemma app_hash a b c : ((a ++ String "#" b) ++ c)%string = (a ++ String "#" (b ++ c))%string.
Proof. induction a as [|x a IH]; cbn; [reflexivity|]. rewrite IH. reflexivity. Qed.

Lemma length_app a b : String.length (a ++ b)%string = String.length a + String.length b.
Proof. induction a; cbn; [reflexivity|]. f_equal. exact IHa. Qed.

Definition good (i : id) : Prop :=
  match i with
  | KG g => plain g | KP p => plain p | KE p => plain p
  | KD p g => plain p /\ plain g /\ g <> "err_bar"
  | KX p g => plain p /\ plain g /\ g <> "err_bar"
  end.
Definition apart (i j : id) : Prop := match i, j with KG a, KP b | KP a, KG b => a <> b | _, _ => True end.
Lemma text_inj i j : good i -> good j -> apart i j -> text i = text j -> i = j.
Proof.
  intros Hi Hj Ha E. destruct i, j; cbn [text good apart append] in *; try rewrite !app_hash in E; repeat match goal with H : _ /\ _ |- _ => destruct H end;
    try (subst; reflexivity || contradiction || (exfalso; eapply plain_app; eassumption));
    try (apply hash_split in E; [|assumption..]; destruct E as [-> E]; try reflexivity; try congruence; try (exfalso; subst; eapply plain_app; eassumption)).
  - exfalso. apply (f_equal String.length) in E. rewrite length_app in E. cbn in E. lia.
  - exfalso. apply (f_equal String.length) in E. rewrite length_app in E. cbn in E. lia.
  - apply hash_split in E; [|assumption..]. destruct E as [-> _]. reflexivity.
Qed.

(** ** Slots: keys with the colour of their curve *)
Definition slot : Type := (id * option nat)%type.
Definition gate_slots (pen : nat) (e : string * bool) : list slot := [(KG (fst e), Some pen)].
Definition param_slots (pen : nat) (e : string * mode) : list slot := [(KP (fst e), Some pen); (KE (fst e), None)].
Definition grad_slots (p : string) (pen : nat) (e : string * mode) : list slot := [(KD p (fst e), Some pen); (KX p (fst e), None)].
Fixpoint zip_slots {A} (h : nat) (f : nat -> A -> list slot) (n : nat) (l : list A) : list slot :=
  match l with [] => [] | a :: l' => f (n mod h) a ++ zip_slots h f (S n) l' end.
Fixpoint group_slots (h n : nat) (l : list (string * mode * list (string * mode))) : list slot :=
  match l with
  | [] => []
  | (p, _, gates) :: l' => zip_slots h (grad_slots p) n gates ++ group_slots h (n + S (length gates)) l'
  end.
Definition slots (T : tree) : list slot :=
  zip_slots (hues T) gate_slots 0 (t_gates T) ++
  zip_slots (hues T) param_slots (S (length (t_gates T))) (t_params T) ++
  group_slots (hues T) (S (length (t_gates T)) + S (length (t_params T))) (t_grads T).

Section Plans.
Variable D : Type.
Variable twice twice_root : D -> D.
Notation view := (view D). Notation item := (item D). Notation source := (source D).
Notation put_curve := (put_curve D). Notation put_bars := (put_bars D). Notation remove_plot := (remove_plot D).

Inductive op := Show (pen : nat) (d : D) | Bar (y height : D) | Drop.
Definition plan : Type := (list (id * op) * option exn)%type.
Definition apply (e : id * op) (v : view) : view * res unit :=
  match snd e with
  | Show pen d => put_curve (text (fst e)) pen d v
  | Bar y h => put_bars (text (fst e)) y h v
  | Drop => (remove_plot (text (fst e)) v, Ok tt)
  end.
Fixpoint exec_ops (l : list (id * op)) (stop : option exn) (v : view) : view * option exn :=
  match l with
  | [] => (v, stop)
  | e :: l' => match apply e v with (v1, Raise x) => (v1, Some x) | (v1, Ok _) => exec_ops l' stop v1 end
  end.
Definition exec (p : plan) (v : view) : view * option exn := exec_ops (fst p) (snd p) v.
Definition andthen (p q : plan) : plan := match snd p with Some _ => p | None => (fst p ++ fst q, snd q) end.
Lemma exec_andthen p q v : exec (andthen p q) v = match exec p v with (v1, Some x) => (v1, Some x) | (v1, None) => exec q v1 end.
Proof.
  destruct p as [l [x|]]; unfold andthen, exec; cbn [fst snd].
  - revert v. induction l as [|e l IH]; intros v; cbn [exec_ops]; [reflexivity|]. destruct (apply e v) as [v1 [u|y]]; [apply IH|reflexivity].
  - revert v. induction l as [|e l IH]; intros v; cbn [exec_ops app]; [reflexivity|]. destruct (apply e v) as [v1 [u|y]]; [apply IH|reflexivity].
Qed.
Definition err {A} (r : res A) : option exn := match r with Raise x => Some x | Ok _ => None end.

Definition gate_plan (H : source) (pen : nat) (e : string * bool) : plan :=
  let (g, b) := e in
  if b then match gate_values H g with Raise x => ([], Some x) | Ok d => ([(KG g, Show pen d)], None) end else ([(KG g, Drop)], None).
Definition param_plan (H : source) (pen : nat) (e : string * mode) : plan :=
  let (p, m) := e in
  match m with
  | Off => ([(KP p, Drop); (KE p, Drop)], None)
  | _ => match parameter_values H p with
         | Raise x => ([], Some x)
         | Ok d => match m with
                   | PlotError => match parameter_std H p with Raise x => ([(KP p, Show pen d)], Some x) | Ok s => ([(KP p, Show pen d); (KE p, Bar d (twice s))], None) end
                   | _ => ([(KP p, Show pen d); (KE p, Drop)], None)
                   end
         end
  end.
Definition grad_plan (p : string) (df dv : list (string * D)) (pen : nat) (e : string * mode) : plan :=
  let (g, m) := e in
  match m with
  | Off => ([(KD p g, Drop); (KX p g, Drop)], None)
  | _ => match column g df with
         | None => ([], Some KeyError)
         | Some d => ([(KD p g, Show pen d); (KX p g, match m, column g dv with PlotError, Some s => Bar d (twice_root s) | _, _ => Drop end)], None)
         end
  end.
Fixpoint zip_plan {A} (h : nat) (f : nat -> A -> plan) (n : nat) (l : list A) : plan :=
  match l with [] => ([], None) | a :: l' => andthen (f (n mod h) a) (zip_plan h f (S n) l') end.
Fixpoint group_plan (H : source) (h n : nat) (l : list (string * mode * list (string * mode))) : plan :=
  match l with
  | [] => ([], None)
  | (p, _, gates) :: l' =>
      match gradients H p with
      | Raise x => ([], Some x)
      | Ok df => match gradient_variances H p with
                 | Raise x => ([], Some x)
                 | Ok dv => andthen (zip_plan h (grad_plan p df dv) n gates) (group_plan H h (n + S (length gates)) l')
                 end
      end
  end.
Definition the_plan (T : tree) (H : source) : plan :=
  andthen (zip_plan (hues T) (gate_plan H) 0 (t_gates T))
    (andthen (zip_plan (hues T) (param_plan H) (S (length (t_gates T))) (t_params T))
      (group_plan H (hues T) (S (length (t_gates T)) + S (length (t_params T))) (t_grads T))).

Lemma gate_step_plan H pen e v : let (v1, r) := gate_step D H pen e v in exec (gate_plan H pen e) v = (v1, err r).
Proof.
  destruct e as [g b]. unfold gate_step, gate_plan. destruct b; [|reflexivity]. destruct (gate_values H g); [|reflexivity].
  unfold exec. cbn [fst snd exec_ops apply text]. destruct (put_curve g pen a v) as [v1 [[]|x]]; reflexivity.
Qed.
Lemma param_step_plan H pen e v : let (v1, r) := param_step D twice H pen e v in exec (param_plan H pen e) v = (v1, err r).
Proof.
  destruct e as [p m]. unfold param_step, param_plan. destruct m; cbn [mode_text].
  - reflexivity.
  - change (startswith "plot" "plot") with true. change (endswith "plot" "error") with false. cbn iota.
    destruct (parameter_values H p); [|reflexivity]. unfold exec. cbn [fst snd exec_ops apply text]. destruct (put_curve p pen a v) as [v1 [[]|x]]; reflexivity.
  - change (startswith "plot + error" "plot") with true. change (endswith "plot + error" "error") with true. cbn iota.
    destruct (parameter_values H p); [|reflexivity]. destruct (parameter_std H p); unfold exec; cbn [fst snd exec_ops apply text]; destruct (put_curve p pen a v) as [v1 [[]|x]]; try reflexivity.
    destruct (put_bars _ _ _ v1) as [v2 [[]|x]]; reflexivity.
Qed.
Lemma grad_step_plan p df dv pen e v : let (v1, r) := grad_step D twice_root p df dv pen e v in exec (grad_plan p df dv pen e) v = (v1, err r).
Proof.
  destruct e as [g m]. unfold grad_step, grad_plan. destruct m; cbn [mode_text].
  - reflexivity.
  - change (startswith "plot" "plot") with true. change (endswith "plot" "error") with false. cbn iota.
    destruct (column g df); [|reflexivity]. unfold exec. cbn [fst snd exec_ops apply text]. destruct (put_curve _ pen d v) as [v1 [[]|x]]; [|reflexivity]. destruct (column g dv); reflexivity.
  - change (startswith "plot + error" "plot") with true. change (endswith "plot + error" "error") with true. cbn iota.
    destruct (column g df); [|reflexivity]. unfold exec. cbn [fst snd exec_ops apply text]. destruct (put_curve _ pen d v) as [v1 [[]|x]]; [|reflexivity].
    destruct (column g dv); [|reflexivity]. unfold apply. cbn [fst snd text]. destruct (put_bars _ _ _ v1) as [v2 [[]|x]]; reflexivity.
Qed.
Lemma zipped_plan {A} h (f : nat -> A -> view -> view * res unit) pf :
  (forall pen a v, let (v1, r) := f pen a v in exec (pf pen a) v = (v1, err r)) ->
  forall l n v, let (v1, r) := zipped D h f n l v in exec (zip_plan h pf n l) v = (v1, err r) /\ forall m, r = Ok m -> m = n + S (length l).
Proof.
  intros Hf. induction l as [|a l IH]; intros n v; cbn [zipped zip_plan].
  - split; [reflexivity|]. intros m K. injection K as <-. cbn. lia.
  - rewrite exec_andthen. specialize (Hf (n mod h) a v). destruct (f (n mod h) a v) as [v1 [u|x]]; rewrite Hf; cbn [err].
    + specialize (IH (S n) v1). destruct (zipped D h f (S n) l v1) as [v2 r]. destruct IH as [-> K]. split; [reflexivity|]. intros m Hm. rewrite (K m Hm). cbn. lia.
    + split; [reflexivity|discriminate].
Qed.
Lemma groups_plan H h : forall l n v, let (v1, r) := grad_groups D twice_root H h n l v in exec (group_plan H h n l) v = (v1, err r).
Proof.
  induction l as [|[[p pm] gates] l IH]; intros n v; cbn [grad_groups group_plan]; [reflexivity|].
  destruct (gradients H p) as [df|x]; [|reflexivity]. destruct (gradient_variances H p) as [dv|x]; [|reflexivity].
  rewrite exec_andthen. pose proof (zipped_plan h _ _ (grad_step_plan p df dv) gates n v) as Z.
  destruct (zipped D h (grad_step D twice_root p df dv) n gates v) as [v1 [m|x]]; destruct Z as [-> Z]; cbn [err]; [|reflexivity].
  rewrite (Z m eq_refl). apply IH.
Qed.
Lemma refresh_plan T H v : refresh D twice twice_root T H v = exec (the_plan T H) v.
Proof.
  unfold refresh, the_plan. rewrite !exec_andthen.
  pose proof (zipped_plan (hues T) _ _ (gate_step_plan H) (t_gates T) 0 v) as Z1.
  destruct (zipped D (hues T) (gate_step D H) 0 (t_gates T) v) as [v1 [n1|x]]; destruct Z1 as [-> Z1]; cbn [err]; [|reflexivity].
  rewrite exec_andthen. rewrite (Z1 n1 eq_refl). cbn [Nat.add].
  pose proof (zipped_plan (hues T) _ _ (param_step_plan H) (t_params T) (S (length (t_gates T))) v1) as Z2.
  destruct (zipped D (hues T) (param_step D twice H) (S (length (t_gates T))) (t_params T) v1) as [v2 [n2|x]]; destruct Z2 as [-> Z2]; cbn [err]; [|reflexivity].
  rewrite (Z2 n2 eq_refl). pose proof (groups_plan H (hues T) (t_grads T) (S (length (t_gates T)) + S (length (t_params T))) v2) as Z3. cbn [Nat.add] in Z3 |- *.
  destruct (grad_groups D twice_root H (hues T) _ (t_grads T) v2) as [v3 [n3|x]]; rewrite Z3; reflexivity.
Qed.

(** ** A plan fills the slots from the first one on *)
Definition fit (e : id * op) (s : slot) : Prop :=
  fst e = fst s /\ match snd e, snd s with Show pen _, Some pen' => pen = pen' | Bar _ _, None => True | Drop, _ => True | _, _ => False end.
Definition fills (p : plan) (sl : list slot) : Prop :=
  exists done rest, sl = done ++ rest /\ Forall2 fit (fst p) done /\ (snd p = None -> rest = []).
Lemma fills_andthen p q a b : fills p a -> (snd p = None -> fills q b) -> fills (andthen p q) (a ++ b).
Proof.
  intros [d [r [-> [Hd Hr]]]] Hq. unfold andthen. destruct p as [l [x|]]; cbn [fst snd] in *.
  - exists d, (r ++ b). split; [rewrite <- app_assoc; reflexivity|]. split; [exact Hd|discriminate].
  - destruct (Hq eq_refl) as [d' [r' [-> [Hd' Hr']]]].
    rewrite (Hr eq_refl) in *. exists (d ++ d'), r'. rewrite app_nil_r. split; [rewrite app_assoc; reflexivity|]. split; [apply Forall2_app; assumption|]. assumption.
Qed.
Lemma fills_done l sl : Forall2 fit l sl -> fills (l, None) sl.
Proof. intros H. exists sl, []. rewrite app_nil_r. split; [reflexivity|]. split; [exact H|]. reflexivity. Qed.
Lemma fills_stop l x d r : Forall2 fit l d -> fills (l, Some x) (d ++ r).
Proof. intros H. exists d, r. split; [reflexivity|]. split; [exact H|discriminate]. Qed.
Lemma gate_fills H pen e : fills (gate_plan H pen e) (gate_slots pen e).
Proof.
  destruct e as [g b]. unfold gate_plan, gate_slots. cbn [fst]. destruct b; [|apply fills_done; repeat constructor].
  destruct (gate_values H g); [apply fills_done; repeat constructor|apply (fills_stop [] e [] _); constructor].
Qed.
Lemma param_fills H pen e : fills (param_plan H pen e) (param_slots pen e).
Proof.
  destruct e as [p m]. unfold param_plan, param_slots. cbn [fst]. destruct m; [apply fills_done; repeat constructor| |].
  - destruct (parameter_values H p); [apply fills_done; repeat constructor|apply (fills_stop [] e [] _); constructor].
  - destruct (parameter_values H p); [|apply (fills_stop [] e [] _); constructor].
    destruct (parameter_std H p); [apply fills_done; repeat constructor|]. apply (fills_stop _ e [(KP p, Some pen)] [(KE p, None)]); repeat constructor.
Qed.
Lemma grad_fills p df dv pen e : fills (grad_plan p df dv pen e) (grad_slots p pen e).
Proof.
  destruct e as [g m]. unfold grad_plan, grad_slots. cbn [fst]. destruct m; [apply fills_done; repeat constructor| |].
  - destruct (column g df); [apply fills_done; repeat constructor|apply (fills_stop [] KeyError [] _); constructor].
  - destruct (column g df); [|apply (fills_stop [] KeyError [] _); constructor]. apply fills_done. destruct (column g dv); repeat constructor.
Qed.
Lemma zip_fills {A} h (f : nat -> A -> plan) sf : (forall pen a, fills (f pen a) (sf pen a)) -> forall l n, fills (zip_plan h f n l) (zip_slots h sf n l).
Proof.
  intros Hf. induction l as [|a l IH]; intros n; cbn [zip_plan zip_slots]; [apply fills_done; constructor|]. apply fills_andthen; [apply Hf|intros _; apply IH].
Qed.
Lemma group_fills H h : forall l n, fills (group_plan H h n l) (group_slots h n l).
Proof.
  induction l as [|[[p pm] gates] l IH]; intros n; cbn [group_plan group_slots]; [apply fills_done; constructor|].
  destruct (gradients H p) as [df|x]; [|apply (fills_stop [] x [] _); constructor]. destruct (gradient_variances H p) as [dv|x]; [|apply (fills_stop [] x [] _); constructor].
  apply fills_andthen; [apply zip_fills; intros; apply grad_fills|intros _; apply IH].
Qed.
Lemma plan_fills T H : fills (the_plan T H) (slots T).
Proof.
  apply fills_andthen; [apply zip_fills; intros; apply gate_fills|]. intros _. apply fills_andthen; [apply zip_fills; intros; apply param_fills|]. intros _. apply group_fills.
Qed.

(** ** What a plan shows *)
Definition result (o : op) : option item := match o with Show pen d => Some (Curve pen d) | Bar y h => Some (Bars y h) | Drop => None end.
Lemma andthen_in p q e : In e (fst (andthen p q)) -> In e (fst p) \/ (snd p = None /\ In e (fst q)).
Proof. unfold andthen. destruct p as [l [x|]]; cbn [fst snd]; [auto|]. intros H. apply in_app_or in H as [H|H]; auto. Qed.
Lemma andthen_done p q : snd (andthen p q) = None -> snd p = None /\ snd q = None.
Proof. unfold andthen. destruct p as [l [x|]]; cbn [fst snd]; [discriminate|auto]. Qed.
Lemma andthen_both p q e : snd p = None -> In e (fst p) \/ In e (fst q) -> In e (fst (andthen p q)).
Proof. unfold andthen. destruct p as [l [x|]]; cbn [fst snd]; [discriminate|]. intros _ H. apply in_or_app. exact H. Qed.
Lemma zip_in {A} h (f : nat -> A -> plan) e : forall l n, In e (fst (zip_plan h f n l)) -> exists k a, nth_error l k = Some a /\ In e (fst (f ((n + k) mod h) a)).
Proof.
  induction l as [|a l IH]; intros n H; cbn [zip_plan] in H; [destruct H|]. apply andthen_in in H as [H|[_ H]].
  - exists 0, a. rewrite Nat.add_0_r. auto.
  - apply IH in H as [k [b [Hk Hb]]]. exists (S k), b. replace (n + S k) with (S n + k) by lia. auto.
Qed.
Lemma zip_all {A} h (f : nat -> A -> plan) e : forall l n k a, snd (zip_plan h f n l) = None -> nth_error l k = Some a ->
  snd (f ((n + k) mod h) a) = None /\ (In e (fst (f ((n + k) mod h) a)) -> In e (fst (zip_plan h f n l))).
Proof.
  induction l as [|b l IH]; intros n k a Hn Hk; [destruct k; discriminate|]. cbn [zip_plan] in *. apply andthen_done in Hn as [H1 H2]. destruct k as [|k].
  - injection Hk as ->. rewrite Nat.add_0_r. split; [exact H1|]. intros H. apply andthen_both; auto.
  - destruct (IH (S n) k a H2 Hk) as [K1 K2]. replace (n + S k) with (S n + k) by lia. split; [exact K1|]. intros H. apply andthen_both; auto.
Qed.
Lemma group_in H h e : forall l n, In e (fst (group_plan H h n l)) -> exists k p pm gates df dv,
  nth_error l k = Some (p, pm, gates) /\ gradients H p = Ok df /\ gradient_variances H p = Ok dv /\ In e (fst (zip_plan h (grad_plan p df dv) (n + pens_before k l) gates)).
Proof.
  induction l as [|[[p pm] gates] l IH]; intros n K; cbn [group_plan] in K; [destruct K|].
  destruct (gradients H p) as [df|x] eqn:E1; [|destruct K]. destruct (gradient_variances H p) as [dv|x] eqn:E2; [|destruct K].
  apply andthen_in in K as [K|[_ K]].
  - exists 0, p, pm, gates, df, dv. cbn [pens_before]. rewrite Nat.add_0_r. auto.
  - apply IH in K as [k [p' [pm' [gates' [df' [dv' [K1 [K2 [K3 K4]]]]]]]]]. exists (S k), p', pm', gates', df', dv'. cbn [pens_before].
    replace (n + (S (length gates) + pens_before k l)) with (n + S (length gates) + pens_before k l) by lia. auto.
Qed.
Lemma group_all H h e : forall l n k p pm gates, snd (group_plan H h n l) = None -> nth_error l k = Some (p, pm, gates) ->
  exists df dv, gradients H p = Ok df /\ gradient_variances H p = Ok dv /\ snd (zip_plan h (grad_plan p df dv) (n + pens_before k l) gates) = None /\
    (In e (fst (zip_plan h (grad_plan p df dv) (n + pens_before k l) gates)) -> In e (fst (group_plan H h n l))).
Proof.
  induction l as [|[[p0 pm0] gates0] l IH]; intros n k p pm gates Hn Hk; [destruct k; discriminate|]. cbn [group_plan] in *.
  destruct (gradients H p0) as [df|x] eqn:E1; [|discriminate]. destruct (gradient_variances H p0) as [dv|x] eqn:E2; [|discriminate].
  apply andthen_done in Hn as [H1 H2]. destruct k as [|k].
  - injection Hk as <- <- <-. exists df, dv. cbn [pens_before]. rewrite Nat.add_0_r. repeat split; auto. intros K. apply andthen_both; auto.
  - destruct (IH _ k p pm gates H2 Hk) as [df' [dv' [K1 [K2 [K3 K4]]]]]. exists df', dv'. cbn [pens_before].
    replace (n + (S (length gates0) + pens_before k l)) with (n + S (length gates0) + pens_before k l) by lia.
    repeat split; auto. intros K. apply andthen_both; auto.
Qed.

Lemma plan_wanted T H i o it : In (i, o) (fst (the_plan T H)) -> result o = Some it -> wanted D twice twice_root T H (text i) it.
Proof.
  intros K R. unfold the_plan in K. apply andthen_in in K as [K|[_ K]]; [|apply andthen_in in K as [K|[_ K]]].
  - apply zip_in in K as [k [[g b] [Hk K]]]. cbn [Nat.add] in K. unfold gate_plan in K. destruct b.
    + destruct (gate_values H g) as [d|x] eqn:E; [|destruct K]. destruct K as [K|[]]. injection K as <- <-. injection R as <-. eapply WantGate; eassumption.
    + destruct K as [K|[]]. injection K as <- <-. discriminate.
  - apply zip_in in K as [k [[p m] [Hk K]]]. replace (S (length (t_gates T)) + k) with (length (t_gates T) + 1 + k) in K by lia. unfold param_plan in K. destruct m.
    + destruct K as [K|[K|[]]]; injection K as <- <-; discriminate.
    + destruct (parameter_values H p) as [d|x] eqn:E; [|destruct K]. destruct K as [K|[K|[]]]; injection K as <- <-; [|discriminate]. injection R as <-. eapply WantParam; [eassumption|discriminate|assumption].
    + destruct (parameter_values H p) as [d|x] eqn:E; [|destruct K]. destruct (parameter_std H p) as [s|x] eqn:E2.
      * destruct K as [K|[K|[]]]; injection K as <- <-; injection R as <-; [eapply WantParam; [eassumption|discriminate|assumption]|eapply WantError; eassumption].
      * destruct K as [K|[]]; injection K as <- <-; injection R as <-. eapply WantParam; [eassumption|discriminate|assumption].
  - apply group_in in K as [k [p [pm [gates [df [dv [Hk [Hf [Hv K]]]]]]]]]. apply zip_in in K as [j [[g m] [Hj K]]].
    replace (S (length (t_gates T)) + S (length (t_params T)) + pens_before k (t_grads T) + j) with (length (t_gates T) + length (t_params T) + 2 + pens_before k (t_grads T) + j) in K by lia.
    unfold grad_plan in K. destruct m.
    + destruct K as [K|[K|[]]]; injection K as <- <-; discriminate.
    + destruct (column g df) as [d|] eqn:E; [|destruct K]. destruct K as [K|[K|[]]]; injection K as <- <-; [|discriminate]. injection R as <-. eapply WantGrad; try eassumption. discriminate.
    + destruct (column g df) as [d|] eqn:E; [|destruct K]. destruct K as [K|[K|[]]]; injection K as <- <-.
      * injection R as <-. eapply WantGrad; try eassumption. discriminate.
      * destruct (column g dv) as [s|] eqn:E2; [|discriminate]. injection R as <-. eapply WantGradError; eassumption.
Qed.
Lemma wanted_plan T H n it : snd (the_plan T H) = None -> wanted D twice twice_root T H n it ->
  exists i o, In (i, o) (fst (the_plan T H)) /\ text i = n /\ result o = Some it.
Proof.
  intros K W. unfold the_plan in K |- *. destruct (andthen_done _ _ K) as [K1 K23]. destruct (andthen_done _ _ K23) as [K2 K3].
  destruct W as [k g d Hk Hd|k p m d Hk Hm Hd|k p d s Hk Hd Hs|k p pm gates j g m df d Hk Hj Hm Hf Hd|k p pm gates j g df d dv s Hk Hj Hf Hd Hv Hs].
  - exists (KG g), (Show (k mod hues T) d). split; [|auto]. apply andthen_both; [exact K1|]. left. apply (zip_all _ _ _ _ _ _ _ K1 Hk). cbn [Nat.add gate_plan]. rewrite Hd. left. reflexivity.
  - exists (KP p), (Show ((length (t_gates T) + 1 + k) mod hues T) d). split; [|auto]. apply andthen_both; [exact K1|]. right. apply andthen_both; [exact K2|]. left.
    destruct (zip_all _ _ (KP p, Show ((length (t_gates T) + 1 + k) mod hues T) d) _ _ _ _ K2 Hk) as [J1 J2]. apply J2. replace (S (length (t_gates T)) + k) with (length (t_gates T) + 1 + k) in * by lia.
    unfold param_plan in *. destruct m; [contradiction| |]; rewrite Hd in *; [left; reflexivity|]. destruct (parameter_std H p); [left; reflexivity|discriminate].
  - exists (KE p), (Bar d (twice s)). split; [|auto]. apply andthen_both; [exact K1|]. right. apply andthen_both; [exact K2|]. left.
    apply (zip_all _ _ _ _ _ _ _ K2 Hk). unfold param_plan. rewrite Hd, Hs. right. left. reflexivity.
  - destruct (group_all H (hues T) (KD p g, Show ((length (t_gates T) + length (t_params T) + 2 + pens_before k (t_grads T) + j) mod hues T) d) _ _ _ _ _ _ K3 Hk) as [df' [dv [E1 [E2 [E3 E4]]]]]. rewrite E1 in Hf. injection Hf as ->.
    eexists _, _. split; [apply andthen_both; [exact K1|]; right; apply andthen_both; [exact K2|]; right; apply E4|split; reflexivity].
    apply (zip_all _ _ _ _ _ _ _ E3 Hj). replace (S (length (t_gates T)) + S (length (t_params T)) + pens_before k (t_grads T) + j) with (length (t_gates T) + length (t_params T) + 2 + pens_before k (t_grads T) + j) by lia.
    unfold grad_plan. destruct m; [contradiction| |]; rewrite Hd; left; reflexivity.
  - destruct (group_all H (hues T) (KX p g, Bar d (twice_root s)) _ _ _ _ _ _ K3 Hk) as [df' [dv' [E1 [E2 [E3 E4]]]]]. rewrite E1 in Hf. injection Hf as ->. rewrite E2 in Hv. injection Hv as ->.
    eexists _, _. split; [apply andthen_both; [exact K1|]; right; apply andthen_both; [exact K2|]; right; apply E4|split; reflexivity].
    apply (zip_all _ _ _ _ _ _ _ E3 Hj). unfold grad_plan. rewrite Hd, Hs. right. left. reflexivity.
Qed.

(** ** The view *)
Definition look (n : string) (v : view) : option item := match find (fun p => String.eqb n (fst p)) (plots v) with Some p => Some (snd p) | None => None end.
Lemma find_keys (l : list (string * item)) n it : NoDup (map fst l) -> (In (n, it) l <-> match find (fun p => String.eqb n (fst p)) l with Some p => Some (snd p) | None => None end = Some it).
Proof.
  induction l as [|[m i] l IH]; intros Hd; cbn; [split; [intros []|discriminate]|]. inversion Hd as [|x y Hm Hd']; subst. destruct (String.eqb_spec n m) as [->|Hn]; cbn.
  - split; [intros [K|K]; [injection K as ->; reflexivity|]|intros K; injection K as ->; left; reflexivity].
    contradiction Hm. apply in_map_iff. exists (m, it). auto.
  - rewrite <- IH by exact Hd'. split; [intros [K|K]; [injection K as -> _; contradiction|exact K]|auto].
Qed.
Lemma has_look n v : has D n v = match look n v with Some _ => true | None => false end.
Proof.
  unfold has, look. induction (plots v) as [|[m i] l IH]; [reflexivity|]. cbn. destruct (String.eqb n m); [reflexivity|exact IH].
Qed.
Lemma no_key n (l : list (string * item)) : existsb (fun p => String.eqb n (fst p)) l = false -> ~ In n (map fst l).
Proof.
  intros H K. apply in_map_iff in K as [p [<- Hp]]. assert (existsb (fun q => String.eqb (fst p) (fst q)) l = true); [|congruence].
  apply existsb_exists. exists p. split; [exact Hp|apply String.eqb_refl].
Qed.
Definition is_curve (it : item) : bool := match it with Curve _ _ => true | Bars _ _ => false end.

(** The state of the view between two refreshes. *)
Record sane (S : list slot) (v : view) : Prop := {
  s_keys : NoDup (map fst (plots v));
  s_slots : forall n it, In (n, it) (plots v) -> exists i k, In (i, k) S /\ text i = n /\ match it, k with Curve pen _, Some pen' => pen = pen' | Bars _ _, None => True | _, _ => False end;
  s_legend : NoDup (legend v) /\ forall n, In n (legend v) <-> exists pen d, In (n, Curve pen d) (plots v) }.
Lemma sane_empty S : sane S empty_view.
Proof.
  constructor; cbn; [constructor|intros n it []|]. split; [constructor|]. intros n. split; [intros []|intros [p [d []]]].
Qed.

Lemma same_slot S i k i' k' : NoDup (map (fun s : slot => text (fst s)) S) -> In (i, k) S -> In (i', k') S -> text i = text i' -> (i, k) = (i', k').
Proof.
  induction S as [|s S IH]; intros Hd H1 H2 E; [destruct H1|]. inversion Hd as [|x y Hn Hd']; subst. destruct H1 as [H1|H1], H2 as [H2|H2]; subst; auto.
  - contradiction Hn. apply in_map_iff. exists (i', k'). cbn. auto.
  - contradiction Hn. apply in_map_iff. exists (i, k). cbn. auto.
Qed.

Lemma map_fst_change n f v : map fst (plots (change D n f v)) = map fst (plots v).
Proof. unfold change. cbn [plots]. rewrite map_map. apply map_ext. intros [m i]. cbn. destruct (String.eqb n m); reflexivity. Qed.
Lemma in_change n f v m it :
  In (m, it) (plots (change D n f v)) <-> (m <> n /\ In (m, it) (plots v)) \/ (m = n /\ exists it0, In (n, it0) (plots v) /\ it = f it0).
Proof.
  unfold change. cbn [plots]. rewrite in_map_iff. split.
  - intros [[a b] [E K]]. cbn in E. destruct (String.eqb_spec n a) as [->|Hn]; injection E as <- <-; [right; split; [reflexivity|exists b; auto]|left; auto].
  - intros [[Hn K]|[-> [it0 [K ->]]]].
    + exists (m, it). cbn. destruct (String.eqb_spec n m); [congruence|]. auto.
    + exists (n, it0). cbn. rewrite String.eqb_refl. auto.
Qed.
Lemma remove_first_in n l m : NoDup l -> (In m (remove_first n l) <-> In m l /\ m <> n).
Proof.
  induction l as [|a l IH]; intros Hd; cbn; [tauto|]. inversion Hd as [|x y Hn Hd']; subst. destruct (String.eqb_spec n a) as [->|Hna].
  - split; [intros K; split; [auto|intros ->; contradiction]|intros [[->|K] Hm]; [contradiction|exact K]].
  - cbn. rewrite IH by exact Hd'. split; [intros [->|[K1 K2]]; [split; [auto|congruence]|auto]|intros [[->|K] Hm]; auto].
Qed.
Lemma remove_first_nodup n l : NoDup l -> NoDup (remove_first n l).
Proof.
  induction l as [|a l IH]; intros Hd; cbn; [constructor|]. inversion Hd as [|x y Hn Hd']; subst. destruct (String.eqb_spec n a); [exact Hd'|].
  constructor; [|apply IH, Hd']. intros K. apply remove_first_in in K; [|exact Hd']. tauto.
Qed.
Lemma nodup_snoc (l : list string) n : NoDup l -> ~ In n l -> NoDup (l ++ [n]).
Proof. intros H K. apply (Permutation_NoDup (l := n :: l)); [apply Permutation_cons_append|]. constructor; assumption. Qed.

(** The entries as a relation. *)
Definition shows (v : view) (n : string) (it : item) : Prop := In (n, it) (plots v).

Lemma apply_sane S v e s : NoDup (map (fun s : slot => text (fst s)) S) -> sane S v -> In s S -> fit e s ->
  exists v', apply e v = (v', Ok tt) /\ sane S v' /\
    (forall it, shows v' (text (fst e)) it <-> result (snd e) = Some it) /\
    (forall n it, n <> text (fst e) -> (shows v' n it <-> shows v n it)).
Proof.
  intros HS [Hk Hs [Hl1 Hl2]] Hin [E F]. destruct e as [i o], s as [i' k]. cbn [fst snd] in *. subst i'. unfold apply, shows. cbn [fst snd].
  assert (Hown : forall it, In (text i, it) (plots v) -> match it, k with Curve pen _, Some pen' => pen = pen' | Bars _ _, None => True | _, _ => False end).
  { intros it K. destruct (Hs _ _ K) as [i' [k' [K1 [K2 K3]]]]. assert (Q := same_slot S i' k' i k HS K1 Hin K2). injection Q as -> ->. exact K3. }
  destruct (existsb (fun p => String.eqb (text i) (fst p)) (plots v)) eqn:EH.
  - (* there is an entry *)
    pose proof (proj1 (existsb_exists _ _) EH) as EX. destruct EX as [[n0 it0] [Hit0 En0]]. cbn in En0. apply String.eqb_eq in En0. subst n0.
    assert (Huniq : forall it, In (text i, it) (plots v) -> it = it0).
    { intros it K. apply (find_keys _ _ _ Hk) in K. apply (find_keys _ _ _ Hk) in Hit0. congruence. }
    destruct o as [pen d|y h|].
    + destruct k as [pen'|]; [|contradiction]. subst pen'. unfold put_curve, has. rewrite EH.
      assert (Hc := Hown _ Hit0). destruct it0 as [pen0 d0|y0 h0]; [|contradiction]. subst pen0.
      match goal with |- context [if existsb ?f (plots v) then (v, Raise TypeError) else _] => destruct (existsb f (plots v)) eqn:EB end.
      * exfalso. apply existsb_exists in EB as [[m b] [Kb Eb]]. apply andb_true_iff in Eb as [Em Eb]. cbn in Em, Eb. apply String.eqb_eq in Em. subst m. apply Huniq in Kb. subst b. discriminate.
      * eexists. split; [reflexivity|]. split; [constructor|split].
        -- rewrite map_fst_change. exact Hk.
        -- intros n it K. apply in_change in K as [[Kn K]|[-> [it1 [K ->]]]]; [apply Hs, K|]. apply Huniq in K. subst it1. exists i, (Some pen). auto.
        -- split; [exact Hl1|]. intros n. rewrite Hl2. split.
           ++ intros [p [d1 K]]. destruct (string_dec n (text i)) as [->|Hn].
              ** exists pen, d. apply in_change. right. split; [reflexivity|]. eexists. split; [exact Hit0|reflexivity].
              ** exists p, d1. apply in_change. left. auto.
           ++ intros [p [d1 K]]. apply in_change in K as [[Kn K]|[-> _]]; eauto.
        -- intros it. rewrite in_change. cbn [result]. split.
           ++ intros [[K _]|[_ [it1 [K ->]]]]; [contradiction|]. apply Huniq in K. subst it1. reflexivity.
           ++ intros K. injection K as <-. right. split; [reflexivity|]. eexists. split; [exact Hit0|reflexivity].
        -- intros n it Hn. rewrite in_change. split; [intros [[_ K]|[K _]]; [exact K|contradiction]|auto].
    + destruct k as [pen'|]; [contradiction|]. unfold put_bars, has. rewrite EH.
      assert (Hc := Hown _ Hit0). destruct it0 as [pen0 d0|y0 h0]; [contradiction|].
      eexists. split; [reflexivity|]. split; [constructor|split].
      * rewrite map_fst_change. exact Hk.
      * intros n it K. apply in_change in K as [[Kn K]|[-> [it1 [K ->]]]]; [apply Hs, K|]. apply Huniq in K. subst it1. exists i, None. auto.
      * split; [exact Hl1|]. intros n. rewrite Hl2. split.
        -- intros [p [d1 K]]. exists p, d1. apply in_change. left. split; [|exact K]. intros ->. apply Huniq in K. discriminate.
        -- intros [p [d1 K]]. apply in_change in K as [[Kn K]|[-> [it1 [K Q]]]]; [eauto|]. apply Huniq in K. subst it1. discriminate.
      * intros it. rewrite in_change. cbn [result]. split.
        -- intros [[K _]|[_ [it1 [K ->]]]]; [contradiction|]. apply Huniq in K. subst it1. reflexivity.
        -- intros K. injection K as <-. right. split; [reflexivity|]. eexists. split; [exact Hit0|reflexivity].
      * intros n it Hn. rewrite in_change. split; [intros [[_ K]|[K _]]; [exact K|contradiction]|auto].
    + unfold remove_plot, has. rewrite EH. eexists. split; [reflexivity|]. cbn [plots legend].
      assert (HF : forall n it, In (n, it) (filter (fun p => negb (String.eqb (text i) (fst p))) (plots v)) <-> n <> text i /\ In (n, it) (plots v)).
      { intros n it. rewrite filter_In. cbn [fst]. destruct (String.eqb_spec (text i) n); cbn; intuition congruence. }
      split; [constructor; cbn [plots legend]|split].
      * clear -Hk. induction (plots v) as [|[m b] l IH]; [constructor|]. cbn in *. inversion Hk as [|x z Hm Hk']; subst. destruct (String.eqb (text i) m); cbn; [apply IH, Hk'|].
        constructor; [|apply IH, Hk']. intros K. apply Hm. apply in_map_iff in K as [q [Q K]]. apply filter_In in K as [K _]. apply in_map_iff. exists q. auto.
      * intros n it K. apply HF in K as [_ K]. apply Hs, K.
      * split; [apply remove_first_nodup, Hl1|]. intros n. rewrite remove_first_in by exact Hl1. rewrite Hl2. split.
        -- intros [[p [d1 K]] Hn]. exists p, d1. apply HF. auto.
        -- intros [p [d1 K]]. apply HF in K as [Hn K]. eauto.
      * intros it. rewrite HF. cbn [result]. split; [intros [K _]; contradiction|discriminate].
      * intros n it Hn. rewrite HF. tauto.
  - (* there is none *)
    pose proof (no_key _ _ EH) as Hno.
    destruct o as [pen d|y h|].
    + destruct k as [pen'|]; [|contradiction]. subst pen'. unfold put_curve, has. rewrite EH. eexists. split; [reflexivity|]. cbn [plots legend].
      split; [constructor; cbn [plots legend]|split].
      * rewrite map_app. cbn [map fst]. apply nodup_snoc; assumption.
      * intros n it K. apply in_app_or in K as [K|[K|[]]]; [apply Hs, K|]. injection K as <- <-. exists i, (Some pen). auto.
      * split.
        -- apply nodup_snoc; [exact Hl1|]. intros K. apply Hl2 in K as [p [d1 K]]. apply Hno. apply in_map_iff. exists (text i, Curve p d1). auto.
        -- intros n. rewrite in_app_iff, Hl2. cbn. split.
           ++ intros [[p [d1 K]]|[<-|[]]]; [exists p, d1; apply in_or_app; auto|exists pen, d; apply in_or_app; right; left; reflexivity].
           ++ intros [p [d1 K]]. apply in_app_or in K as [K|[K|[]]]; [left; eauto|injection K as <- _ _; auto].
      * intros it. rewrite in_app_iff. cbn. split.
        -- intros [K|[K|[]]]; [contradiction Hno; apply in_map_iff; exists (text i, it); auto|injection K as <-; reflexivity].
        -- intros K. injection K as <-. auto.
      * intros n it Hn. rewrite in_app_iff. cbn. split; [intros [K|[K|[]]]; [exact K|injection K as K _; congruence]|auto].
    + destruct k as [pen'|]; [contradiction|]. unfold put_bars, has. rewrite EH. eexists. split; [reflexivity|]. cbn [plots legend].
      split; [constructor; cbn [plots legend]|split].
      * rewrite map_app. cbn [map fst]. apply nodup_snoc; assumption.
      * intros n it K. apply in_app_or in K as [K|[K|[]]]; [apply Hs, K|]. injection K as <- <-. exists i, None. auto.
      * split; [exact Hl1|]. intros n. rewrite Hl2. split.
        -- intros [p [d1 K]]. exists p, d1. apply in_or_app; auto.
        -- intros [p [d1 K]]. apply in_app_or in K as [K|[K|[]]]; [eauto|discriminate].
      * intros it. rewrite in_app_iff. cbn. split.
        -- intros [K|[K|[]]]; [contradiction Hno; apply in_map_iff; exists (text i, it); auto|injection K as <-; reflexivity].
        -- intros K. injection K as <-. auto.
      * intros n it Hn. rewrite in_app_iff. cbn. split; [intros [K|[K|[]]]; [exact K|injection K as K _; congruence]|auto].
    + unfold remove_plot, has. rewrite EH. exists v. split; [reflexivity|]. split; [constructor; auto|]. split.
      * intros it. cbn [result]. split; [intros K; contradiction Hno; apply in_map_iff; exists (text i, it); auto|discriminate].
      * intros; tauto.
Qed.

Lemma exec_sane S : NoDup (map (fun s : slot => text (fst s)) S) -> forall done l stop v, sane S v -> incl done S -> NoDup (map (fun s : slot => text (fst s)) done) -> Forall2 fit l done ->
  exists v', exec_ops l stop v = (v', stop) /\ sane S v' /\
    (forall i o it, In (i, o) l -> (shows v' (text i) it <-> result o = Some it)) /\
    (forall n it, ~ In n (map (fun s : slot => text (fst s)) done) -> (shows v' n it <-> shows v n it)).
Proof.
  intros HS. induction done as [|s done IH]; intros l stop v Hv Hi Hd HF; inversion HF as [|e s' l' done' He HF']; subst.
  - exists v. split; [reflexivity|]. split; [exact Hv|]. split; [intros i o it []|tauto].
  - inversion Hd as [|x y Hn Hd']; subst. destruct (apply_sane S v e s HS Hv (Hi s (or_introl eq_refl)) He) as [v1 [E [Hv1 [K1 K2]]]].
    cbn [exec_ops]. rewrite E. destruct (IH l' stop v1 Hv1 (fun a Ha => Hi a (or_intror Ha)) Hd' HF') as [v' [E' [Hv' [K3 K4]]]].
    exists v'. split; [exact E'|]. split; [exact Hv'|]. assert (Hes : text (fst e) = text (fst s)) by (rewrite (proj1 He); reflexivity). split.
    + intros i o it [->|K]; [|apply K3, K]. cbn [fst snd] in *. rewrite K4 by (rewrite Hes; exact Hn). apply K1.
    + intros n it Hm. cbn [map] in Hm. rewrite K4 by (intros K; apply Hm; right; exact K). apply K2. rewrite Hes. intros ->. apply Hm. left. reflexivity.
Qed.
Lemma plan_sane T H v : NoDup (map (fun s : slot => text (fst s)) (slots T)) -> sane (slots T) v ->
  exists v' done rest, refresh D twice twice_root T H v = (v', snd (the_plan T H)) /\ sane (slots T) v' /\
    map (fun s : slot => text (fst s)) (slots T) = done ++ rest /\ (snd (the_plan T H) = None -> rest = []) /\
    done = map (fun e => text (fst e)) (fst (the_plan T H)) /\
    (forall i o it, In (i, o) (fst (the_plan T H)) -> (shows v' (text i) it <-> result o = Some it)) /\
    (forall n it, In n rest -> (shows v' n it <-> shows v n it)).
Proof.
  intros HS Hv. destruct (plan_fills T H) as [d [r [E [HF Hr]]]]. rewrite refresh_plan. unfold exec.
  assert (Hd : NoDup (map (fun s : slot => text (fst s)) d) /\ forall n, In n (map (fun s : slot => text (fst s)) d) -> ~ In n (map (fun s : slot => text (fst s)) r)).
  { rewrite E, map_app in HS. clear -HS. induction (map (fun s : slot => text (fst s)) d) as [|a l IH]; cbn in HS; [split; [constructor|intros n []]|].
    inversion HS as [|x y Hn HS']; subst. destruct (IH HS') as [I1 I2]. split.
    - constructor; [|exact I1]. intros K. apply Hn. apply in_or_app. auto.
    - intros n [<-|K]; [intros K; apply Hn; apply in_or_app; auto|apply I2, K]. }
  destruct (exec_sane (slots T) HS d (fst (the_plan T H)) (snd (the_plan T H)) v Hv) as [v' [E1 [E2 [E3 E4]]]]; [rewrite E; intros a Ha; apply in_or_app; auto|apply Hd|exact HF|].
  exists v', (map (fun s : slot => text (fst s)) d), (map (fun s : slot => text (fst s)) r). split; [exact E1|]. split; [exact E2|]. split; [rewrite E, map_app; reflexivity|].
  split; [intros K; rewrite (Hr K); reflexivity|]. split.
  - clear -HF. induction HF as [|e s l d [He _] HF IH]; [reflexivity|]. cbn. rewrite IH, He. reflexivity.
  - split; [exact E3|]. intros n it Hn. apply E4. intros K. exact (proj2 Hd n K Hn).
Qed.
End Plans.

(** ** The keys are different *)
Definition ids (T : tree) : list id :=
  map KG (gate_names T) ++ flat_map (fun p => [KP p; KE p]) (param_names T) ++
  flat_map (fun e => flat_map (fun g => [KD (fst e) g; KX (fst e) g]) (snd e)) (grad_names T).
Lemma zip_ids {A} h (f : nat -> A -> list slot) (g : A -> list id) : (forall pen a, map fst (f pen a) = g a) -> forall l n, map fst (zip_slots h f n l) = flat_map g l.
Proof. intros Hf. induction l as [|a l IH]; intros n; cbn; [reflexivity|]. rewrite map_app, Hf, IH. reflexivity. Qed.
Lemma flat_map_map {A B C} (f : A -> B) (g : B -> list C) l : flat_map g (map f l) = flat_map (fun a => g (f a)) l.
Proof. induction l as [|a l IH]; cbn; [reflexivity|]. rewrite IH. reflexivity. Qed.
Lemma map_flat {A B C} (f : B -> C) (g : A -> list B) l : map f (flat_map g l) = flat_map (fun a => map f (g a)) l.
Proof. induction l as [|a l IH]; cbn; [reflexivity|]. rewrite map_app, IH. reflexivity. Qed.
Lemma map_as_flat {A B} (f : A -> B) l : map f l = flat_map (fun a => [f a]) l.
Proof. induction l as [|a l IH]; cbn; [reflexivity|]. rewrite IH. reflexivity. Qed.
Lemma slots_ids T : map fst (slots T) = ids T.
Proof.
  unfold slots, ids. rewrite !map_app. f_equal; [|f_equal].
  - rewrite (zip_ids _ _ (fun e => [KG (fst e)])) by reflexivity. unfold gate_names. rewrite map_map, map_as_flat. reflexivity.
  - rewrite (zip_ids _ _ (fun e => [KP (fst e); KE (fst e)])) by reflexivity. unfold param_names. rewrite flat_map_map. reflexivity.
  - unfold grad_names. rewrite flat_map_map. generalize (S (length (t_gates T)) + S (length (t_params T))). induction (t_grads T) as [|[[p pm] gates] l IH]; intros n; [reflexivity|].
    cbn [group_slots flat_map fst snd]. rewrite map_app, IH. f_equal. rewrite (zip_ids _ _ (fun e => [KD p (fst e); KX p (fst e)])) by reflexivity. rewrite flat_map_map. reflexivity.
Qed.
Lemma ids_names T : map text (ids T) = names T.
Proof.
  unfold ids, names. rewrite !map_app, map_map, !map_flat. f_equal; [apply map_id|]. f_equal.
  apply flat_map_ext. intros [p gs]. cbn [fst snd]. rewrite map_flat. reflexivity.
Qed.
Lemma slots_names T : map (fun s : slot => text (fst s)) (slots T) = names T.
Proof. rewrite <- ids_names, <- slots_ids, map_map. reflexivity. Qed.

Lemma nodup_app_of {A} (l l' : list A) : NoDup l -> NoDup l' -> (forall x, In x l -> ~ In x l') -> NoDup (l ++ l').
Proof.
  induction l as [|a l IH]; intros H1 H2 H3; cbn; [exact H2|]. inversion H1 as [|x y Ha Hl]; subst. constructor.
  - intros K. apply in_app_or in K as [K|K]; [exact (Ha K)|]. exact (H3 a (or_introl eq_refl) K).
  - apply IH; [exact Hl|exact H2|]. intros x Hx. apply H3. right. exact Hx.
Qed.
Lemma nodup_flat {A B} (f : A -> list B) l : NoDup l -> (forall a, In a l -> NoDup (f a)) ->
  (forall a b x, In a l -> In b l -> In x (f a) -> In x (f b) -> a = b) -> NoDup (flat_map f l).
Proof.
  induction l as [|a l IH]; intros Hl Hf Hd; cbn; [constructor|]. inversion Hl as [|x y Ha Hl']; subst. apply nodup_app_of; [apply Hf; left; reflexivity| |].
  - apply IH; [exact Hl'|intros b Hb; apply Hf; right; exact Hb|]. intros b c x Hb Hc. apply Hd; right; assumption.
  - intros x Hx K. apply in_flat_map in K as [b [Hb K]]. apply Ha. rewrite (Hd a b x (or_introl eq_refl) (or_intror Hb) Hx K). exact Hb.
Qed.
Lemma nodup_map_on {A B} (f : A -> B) l : NoDup l -> (forall a b, In a l -> In b l -> f a = f b -> a = b) -> NoDup (map f l).
Proof.
  induction l as [|a l IH]; intros Hl Hi; cbn; [constructor|]. inversion Hl as [|x y Ha Hl']; subst. constructor.
  - intros K. apply in_map_iff in K as [b [E Hb]]. apply Ha. rewrite (Hi a b (or_introl eq_refl) (or_intror Hb) (eq_sym E)). exact Hb.
  - apply IH; [exact Hl'|]. intros b c Hb Hc. apply Hi; right; assumption.
Qed.
Lemma nodup_fst {A B} (l : list (A * B)) : NoDup (map fst l) -> NoDup l.
Proof. apply NoDup_map_inv. Qed.

Lemma in_ids T i : In i (ids T) ->
  match i with
  | KG g => In g (gate_names T)
  | KP p | KE p => In p (param_names T)
  | KD p g | KX p g => exists gs, In (p, gs) (grad_names T) /\ In g gs
  end.
Proof.
  unfold ids. intros H. apply in_app_or in H as [H|H]; [|apply in_app_or in H as [H|H]].
  - apply in_map_iff in H as [g [<- H]]. exact H.
  - apply in_flat_map in H as [p [Hp H]]. destruct H as [<-|[<-|[]]]; exact Hp.
  - apply in_flat_map in H as [[p gs] [Hp H]]. apply in_flat_map in H as [g [Hg H]]. destruct H as [<-|[<-|[]]]; exists gs; auto.
Qed.
Lemma ids_nodup T : well_named T -> NoDup (ids T).
Proof.
  intros [[G1 G2] [P1 P2] A [Q1 Q2] QG]. unfold ids. apply nodup_app_of; [|apply nodup_app_of|].
  - apply nodup_map_on; [exact G1|]. intros a b _ _ E. injection E as ->. reflexivity.
  - apply nodup_flat; [exact P1| |].
    + intros p _. constructor; [intros [K|[]]; discriminate|]. constructor; [intros []|constructor].
    + intros a b x _ _ [<-|[<-|[]]] [K|[K|[]]]; congruence.
  - apply nodup_flat; [apply nodup_fst, Q1| |].
    + intros [p gs] Hp. cbn [fst snd]. destruct (QG p gs Hp) as [H1 _]. apply nodup_flat; [exact H1| |].
      * intros g _. constructor; [intros [K|[]]; discriminate|]. constructor; [intros []|constructor].
      * intros a b x _ _ [<-|[<-|[]]] [K|[K|[]]]; congruence.
    + intros [p gs] [p' gs'] x Hp Hp' K K'. cbn [fst snd] in *. apply in_flat_map in K as [g [_ K]]. apply in_flat_map in K' as [g' [_ K']].
      assert (E : p = p') by (destruct K as [<-|[<-|[]]]; destruct K' as [K'|[K'|[]]]; congruence). subst p'. f_equal.
      clear -Q1 Hp Hp'. induction (grad_names T) as [|[q qs] l IH]; [destruct Hp|]. cbn in Q1. inversion Q1 as [|x y Hn Q1']; subst.
      destruct Hp as [Hp|Hp], Hp' as [Hp'|Hp']; [congruence| | |apply IH; assumption]; exfalso; apply Hn; apply in_map_iff; [exists (p, gs')|exists (p, gs)]; split; cbn; congruence || assumption.
  - intros x K1 K2. apply in_flat_map in K1 as [p [_ K1]]. apply in_flat_map in K2 as [e [_ K2]]. apply in_flat_map in K2 as [g [_ K2]].
    destruct K1 as [<-|[<-|[]]]; destruct K2 as [K2|[K2|[]]]; discriminate.
  - intros x K1 K2. apply in_map_iff in K1 as [g [<- _]]. apply in_app_or in K2 as [K2|K2].
    + apply in_flat_map in K2 as [p [_ [K|[K|[]]]]]; discriminate.
    + apply in_flat_map in K2 as [e [_ K2]]. apply in_flat_map in K2 as [g' [_ [K2|[K2|[]]]]]; discriminate.
Qed.
Lemma names_nodup T : well_named T -> NoDup (names T).
Proof.
  intros W. rewrite <- ids_names. apply nodup_map_on; [apply ids_nodup, W|]. destruct W as [[G1 G2] [P1 P2] A [Q1 Q2] QG]. rewrite Forall_forall in G2, P2, Q2.
  assert (HG : forall i, In i (ids T) -> good i).
  { intros i Hi. apply in_ids in Hi. destruct i as [g|p|p|p g|p g]; cbn [good]; [apply G2, Hi|apply P2, Hi|apply P2, Hi| |];
      destruct Hi as [gs [Hp Hg]]; destruct (QG p gs Hp) as [_ [F N]]; rewrite Forall_forall in F;
      (split; [apply Q2, in_map_iff; exists (p, gs); auto|]); (split; [apply F, Hg|intros ->; contradiction]). }
  intros i j Hi Hj E. apply text_inj; [apply HG, Hi|apply HG, Hj| |exact E]. apply in_ids in Hi. apply in_ids in Hj.
  destruct i, j; cbn [apart]; auto; intros ->; eapply A; eassumption.
Qed.

(** ** Same names, same slots *)
Lemma zip_slots_ext {A} h (f : nat -> A -> list slot) (key : A -> string) : (forall pen a b, key a = key b -> f pen a = f pen b) ->
  forall l l' n, map key l = map key l' -> zip_slots h f n l = zip_slots h f n l'.
Proof.
  intros Hf. induction l as [|a l IH]; intros [|b l'] n E; cbn in E; try discriminate; [reflexivity|]. injection E as E1 E2. cbn [zip_slots]. rewrite (Hf _ a b E1), (IH l' (S n) E2). reflexivity.
Qed.
Lemma same_slots T T' : same_names T T' -> slots T = slots T'.
Proof.
  intros [G [P Q]]. unfold slots.
  assert (LG : length (t_gates T) = length (t_gates T')) by (apply (f_equal (@length _)) in G; unfold gate_names in G; rewrite !map_length in G; exact G).
  assert (LP : length (t_params T) = length (t_params T')) by (apply (f_equal (@length _)) in P; unfold param_names in P; rewrite !map_length in P; exact P).
  assert (HH : hues T = hues T') by (unfold hues; rewrite LG, LP; reflexivity). rewrite HH, LG, LP.
  rewrite (zip_slots_ext _ gate_slots fst) with (l' := t_gates T'); [|unfold gate_slots; intros pen a b ->; reflexivity|exact G].
  rewrite (zip_slots_ext _ param_slots fst) with (l' := t_params T'); [|unfold param_slots; intros pen a b ->; reflexivity|exact P].
  do 2 f_equal. unfold grad_names in Q. revert Q. generalize (t_grads T) (t_grads T') (S (length (t_gates T')) + S (length (t_params T'))).
  induction l as [|[[p pm] gs] l IH]; intros [|[[p' pm'] gs'] l'] n E; cbn in E; try discriminate; [reflexivity|]. injection E as -> E2 E3. cbn [group_slots].
  assert (L : length gs = length gs') by (apply (f_equal (@length _)) in E2; rewrite !map_length in E2; exact E2). rewrite L, (IH l' _ E3).
  rewrite (zip_slots_ext _ (grad_slots p') fst) with (l' := gs'); [reflexivity|unfold grad_slots; intros pen a b ->; reflexivity|exact E2].
Qed.
Lemma same_names_trans T1 T2 T3 : same_names T1 T2 -> same_names T2 T3 -> same_names T1 T3.
Proof. intros [A [B C]] [A' [B' C']]. repeat split; congruence. Qed.
Lemma same_names_sym T1 T2 : same_names T1 T2 -> same_names T2 T1.
Proof. intros [A [B C]]. repeat split; congruence. Qed.
Lemma same_well T T' : same_names T T' -> well_named T -> well_named T'.
Proof. intros [A [B C]] [W1 W2 W3 W4 W5]. rewrite A in *. rewrite B in *. rewrite C in *. constructor; assumption. Qed.

(** ** Actions *)
Lemma change_nth_same {A B} (g : A -> B) k f l : (forall a, g (f a) = g a) -> map g (change_nth k f l) = map g l.
Proof. intros Hf. revert k. induction l as [|a l IH]; intros [|k]; cbn; try reflexivity; [rewrite Hf; reflexivity|rewrite IH; reflexivity]. Qed.
Lemma change_nth_get {A} k f (l : list A) j : nth_error (change_nth k f l) j = if Nat.eqb j k then option_map f (nth_error l j) else nth_error l j.
Proof.
  revert k j. induction l as [|a l IH]; intros [|k] [|j]; cbn; try reflexivity; [destruct (Nat.eqb j k); reflexivity|apply IH].
Qed.
Lemma change_nth_id {A} k f (l : list A) a : nth_error l k = Some a -> f a = a -> change_nth k f l = l.
Proof. revert k. induction l as [|b l IH]; intros [|k] E F; try discriminate E; cbn in *; [injection E as ->; rewrite F; reflexivity|rewrite IH; auto]. Qed.

Section Acts.
Variable D : Type.
Variable twice twice_root : D -> D.
Notation refresh := (refresh D twice twice_root). Notation refreshed := (refreshed D twice twice_root).
Notation choose_grad := (choose_grad D twice twice_root). Notation act := (act D twice twice_root).

Lemma set_grad_names k j m T : same_names (set_grad k j m T) T.
Proof.
  unfold same_names, set_grad, gate_names, param_names, grad_names. cbn [t_gates t_params t_grads]. repeat split. apply change_nth_same.
  intros [[p pm] gs]. cbn [fst snd]. f_equal. apply change_nth_same. reflexivity.
Qed.
Lemma refreshed_keep H T v : well_named T -> sane D (slots T) v -> same_names (fst (refreshed H (T, v))) T /\ sane D (slots T) (snd (refreshed H (T, v))).
Proof.
  intros W S. unfold OrganizerModel.refreshed. cbn [fst snd]. split; [repeat split|].
  destruct (plan_sane D twice twice_root T H v) as [v' [d [r [E [S' _]]]]]; [rewrite slots_names; apply names_nodup, W|exact S|]. rewrite E. exact S'.
Qed.
Lemma choose_grad_keep H k m s j T0 : well_named T0 -> same_names (fst s) T0 -> sane D (slots T0) (snd s) ->
  same_names (fst (choose_grad H k m s j)) T0 /\ sane D (slots T0) (snd (choose_grad H k m s j)).
Proof.
  intros W N S. unfold OrganizerModel.choose_grad. destruct (nth_error (t_grads (fst s)) k) as [[e gates]|]; [|auto]. destruct (nth_error gates j) as [[g m0]|]; [|auto]. destruct (mode_eqb m m0); [auto|].
  assert (N' : same_names (set_grad k j m (fst s)) T0) by (eapply same_names_trans; [apply set_grad_names|exact N]).
  destruct (refreshed_keep H (set_grad k j m (fst s)) (snd s)) as [K1 K2]; [apply (same_well T0); [apply same_names_sym, N'|exact W]|rewrite (same_slots _ _ N'); exact S|].
  split; [eapply same_names_trans; [exact K1|exact N']|]. rewrite <- (same_slots _ _ N'). exact K2.
Qed.
Lemma act_keep H a T0 s : well_named T0 -> same_names (fst s) T0 -> sane D (slots T0) (snd s) -> same_names (fst (act H s a)) T0 /\ sane D (slots T0) (snd (act H s a)).
Proof.
  intros W N S. destruct s as [T v]. cbn [fst snd] in *.
  assert (R : forall T1 v1, same_names T1 T0 -> sane D (slots T0) v1 -> same_names (fst (refreshed H (T1, v1))) T0 /\ sane D (slots T0) (snd (refreshed H (T1, v1)))).
  { intros T1 v1 N1 S1. destruct (refreshed_keep H T1 v1) as [K1 K2]; [apply (same_well T0); [apply same_names_sym, N1|exact W]|rewrite (same_slots _ _ N1); exact S1|].
    split; [eapply same_names_trans; [exact K1|exact N1]|]. rewrite <- (same_slots _ _ N1). exact K2. }
  destruct a as [k b|k m|k m|k j m|]; cbn [OrganizerModel.act].
  - destruct (nth_error (t_gates T) k) as [[g b0]|]; [|auto]. destruct (Bool.eqb b b0); [auto|]. apply R; [|exact S]. eapply same_names_trans; [|exact N].
    unfold same_names, gate_names, param_names, grad_names. cbn. repeat split. apply change_nth_same. reflexivity.
  - destruct (nth_error (t_params T) k) as [[p m0]|]; [|auto]. destruct (mode_eqb m m0); [auto|]. apply R; [|exact S]. eapply same_names_trans; [|exact N].
    unfold same_names, gate_names, param_names, grad_names. cbn. repeat split. apply change_nth_same. reflexivity.
  - destruct (nth_error (t_grads T) k) as [[[p m0] gates]|]; [|auto]. destruct (mode_eqb m m0); [auto|].
    assert (F : forall l s, same_names (fst s) T0 -> sane D (slots T0) (snd s) -> same_names (fst (fold_left (choose_grad H k m) l s)) T0 /\ sane D (slots T0) (snd (fold_left (choose_grad H k m) l s))).
    { induction l as [|j l IH]; intros s N1 S1; [auto|]. cbn [fold_left]. destruct (choose_grad_keep H k m s j T0 W N1 S1). apply IH; assumption. }
    match goal with |- context [fold_left _ _ ?s0] => destruct (F (seq 0 (length gates)) s0) as [F1 F2] end; [|exact S|].
    + cbn [fst]. eapply same_names_trans; [|exact N]. unfold same_names, gate_names, param_names, grad_names. cbn. repeat split. apply change_nth_same. reflexivity.
    + destruct (fold_left _ _ _) as [T1 v1]. apply R; assumption.
  - apply choose_grad_keep; assumption.
  - apply R; assumption.
Qed.
(** Nothing happens, or the last thing is a refresh. *)
Lemma act_last H a s : act H s a = s \/ exists v0, act H s a = refreshed H (fst (act H s a), v0) /\
  forall T0, well_named T0 -> same_names (fst s) T0 -> sane D (slots T0) (snd s) -> sane D (slots T0) v0.
Proof.
  destruct s as [T v]. destruct a as [k b|k m|k m|k j m|]; cbn [OrganizerModel.act].
  - destruct (nth_error (t_gates T) k) as [[g b0]|]; [|auto]. destruct (Bool.eqb b b0); [auto|]. right. exists v. split; [reflexivity|auto].
  - destruct (nth_error (t_params T) k) as [[p m0]|]; [|auto]. destruct (mode_eqb m m0); [auto|]. right. exists v. split; [reflexivity|auto].
  - destruct (nth_error (t_grads T) k) as [[[p m0] gates]|]; [|auto]. destruct (mode_eqb m m0); [auto|]. right.
    match goal with |- context [fold_left ?f ?l ?s0] => set (s1 := fold_left f l s0) end. exists (snd s1). split; [destruct s1; reflexivity|].
    intros T0 W N S. unfold s1.
    assert (F : forall l s, same_names (fst s) T0 -> sane D (slots T0) (snd s) -> same_names (fst (fold_left (choose_grad H k m) l s)) T0 /\ sane D (slots T0) (snd (fold_left (choose_grad H k m) l s))).
    { induction l as [|j l IH]; intros s N1 S1; [auto|]. cbn [fold_left]. destruct (choose_grad_keep H k m s j T0 W N1 S1). apply IH; assumption. }
    apply F; [|exact S]. cbn [fst]. eapply same_names_trans; [|exact N]. unfold same_names, gate_names, param_names, grad_names. cbn. repeat split. apply change_nth_same. reflexivity.
  - unfold OrganizerModel.choose_grad. cbn [fst snd]. destruct (nth_error (t_grads T) k) as [[e gates]|]; [|auto]. destruct (nth_error gates j) as [[g m0]|]; [|auto]. destruct (mode_eqb m m0); [auto|].
    right. exists v. split; [reflexivity|auto].
  - right. exists v. split; [reflexivity|auto].
Qed.

(** ** No exception if the history answers *)
Lemma zip_complete {A} h (f : nat -> A -> plan D) : forall l n, (forall pen a, In a l -> snd (f pen a) = None) -> snd (zip_plan D h f n l) = None.
Proof.
  induction l as [|a l IH]; intros n Hf; cbn [zip_plan]; [reflexivity|]. unfold andthen. pose proof (Hf (n mod h) a (or_introl eq_refl)) as K. destruct (f (n mod h) a) as [x [e|]]; [discriminate K|].
  cbn [snd]. apply IH. intros pen b Hb. apply Hf. right. exact Hb.
Qed.
Lemma plan_complete T H : answers D T H -> snd (the_plan D twice twice_root T H) = None.
Proof.
  intros [A1 [A2 [A3 A4]]]. unfold the_plan, andthen.
  rewrite zip_complete; [cbn [snd]; rewrite zip_complete; [cbn [snd]|]|].
  - generalize (S (length (t_gates T)) + S (length (t_params T))). revert A4. generalize (t_grads T). induction l as [|[[p pm] gates] l IH]; intros A4 n; cbn [group_plan]; [reflexivity|].
    destruct (A4 p pm gates (or_introl eq_refl)) as [df [dv [E1 [E2 E3]]]]. rewrite E1, E2. unfold andthen. rewrite zip_complete.
    + cbn [snd]. apply IH. intros q qm qs K. apply (A4 q qm qs). right. exact K.
    + intros pen [g m] K. unfold grad_plan. destruct m; [reflexivity| |]; destruct (E3 g _ K) as [d Hd]; try discriminate; rewrite Hd; reflexivity.
  - intros pen [p m] K. unfold param_plan. destruct m; [reflexivity| |]; destruct (A2 p _ K) as [d Hd]; try discriminate; rewrite Hd; [reflexivity|]. destruct (A3 p K) as [s Hs]. rewrite Hs. reflexivity.
  - intros pen [g b] K. unfold gate_plan. destruct b; [|reflexivity]. destruct (A1 g K) as [d Hd]. rewrite Hd. reflexivity.
Qed.

(** ** Choosing all gradients of a parameter *)
Lemma choose_grad_get H k m s j p pm gates : nth_error (t_grads (fst s)) k = Some (p, pm, gates) ->
  nth_error (t_grads (fst (choose_grad H k m s j))) k = Some (p, pm, change_nth j (fun g => (fst g, m)) gates) /\
  t_gates (fst (choose_grad H k m s j)) = t_gates (fst s) /\ t_params (fst (choose_grad H k m s j)) = t_params (fst s) /\
  forall k', k' <> k -> nth_error (t_grads (fst (choose_grad H k m s j))) k' = nth_error (t_grads (fst s)) k'.
Proof.
  intros E. unfold OrganizerModel.choose_grad. rewrite E. destruct (nth_error gates j) as [[g m0]|] eqn:Ej.
  - destruct (mode_eqb m m0) eqn:Em.
    + split; [|auto]. rewrite E. do 2 f_equal. symmetry. apply (change_nth_id _ _ _ _ Ej). cbn. destruct m, m0; discriminate || reflexivity.
    + unfold OrganizerModel.refreshed. cbn [fst snd set_grad t_grads t_gates t_params]. rewrite change_nth_get, Nat.eqb_refl, E. cbn. repeat split.
      intros k' Hk. rewrite change_nth_get. rewrite (proj2 (Nat.eqb_neq _ _) Hk). reflexivity.
  - split; [|auto]. rewrite E. do 2 f_equal. clear -Ej. revert j Ej. induction gates as [|g' gates IH]; intros [|j] Ej; try discriminate Ej; cbn in *; try reflexivity. f_equal. apply IH, Ej.
Qed.
End Acts.
