From Coq Require Import String Ascii List Bool Arith Lia.
From Verif Require Import ColumnsModel ColumnsSpec.
Import ListNotations.
Local Open Scope string_scope.
Local Open Scope list_scope.

Lemma app_assoc_s a b c : ((a ++ b) ++ c)%string = (a ++ (b ++ c))%string.
Proof. induction a as [|x a IH]; cbn; [reflexivity|rewrite IH; reflexivity]. Qed.
Lemma app_nil_s a : (a ++ "")%string = a.
Proof. induction a as [|x a IH]; cbn; [reflexivity|rewrite IH; reflexivity]. Qed.

(** *** Parts between the separators *)
Fixpoint parts (s : string) : list string :=
  match s with
  | EmptyString => [EmptyString]
  | String a s' =>
      if Ascii.eqb a hash then EmptyString :: parts s'
      else match parts s' with [] => [String a EmptyString] | x :: l => String a x :: l end
  end.
Lemma parts_cons s : exists x l, parts s = x :: l.
Proof. destruct s as [|a s]; cbn; [eauto|]. destruct (Ascii.eqb a hash); [eauto|]. destruct (parts s); eauto. Qed.
Lemma parts_hash a b : parts (a ++ String hash b)%string = parts a ++ parts b.
Proof.
  induction a as [|x a IH]; cbn [String.append parts].
  - rewrite Ascii.eqb_refl. reflexivity.
  - destruct (Ascii.eqb x hash); rewrite IH; [reflexivity|].
    destruct (parts_cons a) as [y [l ->]]. reflexivity.
Qed.
Lemma plain_cons a s : plain (String a s) -> a <> hash /\ plain s.
Proof. unfold plain; cbn. intros H. split; intros H'; apply H; [left; assumption|right; assumption]. Qed.
Lemma parts_plain s : plain s -> parts s = [s].
Proof.
  induction s as [|a s IH]; intros H; [reflexivity|]. apply plain_cons in H. destruct H as [Ha Hs]. cbn.
  destruct (Ascii.eqb_spec a hash); [contradiction|]. rewrite (IH Hs). reflexivity.
Qed.
(** A text in front of the last part, a text behind the first part. *)
Lemma parts_before u p : plain p -> exists us ul, parts (u ++ p)%string = us ++ [(ul ++ p)%string].
Proof.
  intros Hp. induction u as [|x u IH]; [exists [], ""; cbn; apply parts_plain; exact Hp|].
  destruct IH as [us [ul IH]]. cbn. rewrite IH. destruct (Ascii.eqb x hash).
  - exists ("" :: us), ul. reflexivity.
  - destruct us as [|y us]; [exists [], (String x ul); reflexivity|exists (String x y :: us), ul; reflexivity].
Qed.
Lemma parts_behind p r : plain p -> exists r0 rs, parts (p ++ r)%string = (p ++ r0)%string :: rs.
Proof.
  induction p as [|a p IH]; intros H; [destruct (parts_cons r) as [x [l E]]; exists x, l; exact E|].
  apply plain_cons in H. destruct H as [Ha Hp]. destruct (IH Hp) as [r0 [rs E]]. cbn. rewrite E.
  destruct (Ascii.eqb_spec a hash); [contradiction|]. exists r0, rs. reflexivity.
Qed.

Lemma parts_column c : plain_column c -> parts (col_name c) =
  match c with
  | CGate x | CPar x => [x]
  | CVar p => [p; "var"]
  | CGrad p g => [p; g; "grad"]
  | CCov p g1 g2 => [p; g1; g2; "cov"]
  | CIndex => ["tuner_index"]
  end.
Proof.
  destruct c as [g|p|p|p g|p g1 g2|]; cbn [plain_column col_name]; intros H.
  - apply parts_plain; exact H.
  - apply parts_plain; exact H.
  - change (p ++ "#var")%string with (p ++ String hash "var")%string. rewrite parts_hash, (parts_plain p H). reflexivity.
  - destruct H as [Hp Hg].
    change (p ++ "#" ++ g ++ "#grad")%string with (p ++ String hash (g ++ String hash "grad"))%string.
    rewrite !parts_hash, (parts_plain p Hp), (parts_plain g Hg). reflexivity.
  - destruct H as [Hp [H1 H2]].
    change (p ++ "#" ++ g1 ++ "#" ++ g2 ++ "#cov")%string
      with (p ++ String hash (g1 ++ String hash (g2 ++ String hash "cov")))%string.
    rewrite !parts_hash, (parts_plain p Hp), (parts_plain g1 H1), (parts_plain g2 H2). reflexivity.
  - reflexivity.
Qed.

Lemma col_name_injective c c' : plain_column c -> plain_column c' -> col_name c = col_name c' -> c = c' \/ (bare c /\ bare c').
Proof.
  intros H H' E. apply (f_equal parts) in E. rewrite (parts_column c H), (parts_column c' H') in E.
  destruct c, c'; cbn; try (right; split; exact I); left; try discriminate; inversion E; reflexivity.
Qed.

(** *** The regular expressions *)
Lemma literal_some p : forall s r, literal p s = Some r <-> s = (p ++ r)%string.
Proof.
  induction p as [|a p IH]; intros s r; cbn.
  - split; intros H; [inversion H; reflexivity|subst; reflexivity].
  - destruct s as [|b s]; [split; discriminate|]. destruct (Ascii.eqb_spec a b) as [->|Hn].
    + rewrite IH. split; intros H; [subst; reflexivity|inversion H; reflexivity].
    + split; [discriminate|]. intros H; inversion H; congruence.
Qed.

Definition blocked (r : string) : Prop := match r with EmptyString => True | String a _ => word_char a = false end.
Lemma run_spec s : forall w r, run s = (w, r) ->
  s = (w ++ r)%string /\ Forall (fun c => word_char c = true) (chars_of w) /\ blocked r.
Proof.
  induction s as [|a s IH]; cbn; intros w r H; [inversion H; subst; repeat split; constructor|].
  destruct (word_char a) eqn:Ha.
  - destruct (run s) as [w' r'] eqn:E. inversion H; subst. destruct (IH _ _ eq_refl) as [-> [Hw Hr]].
    repeat split; [constructor; assumption|exact Hr].
  - inversion H; subst. repeat split; [constructor|exact Ha].
Qed.
Lemma run_all w r : Forall (fun c => word_char c = true) (chars_of w) -> blocked r -> run (w ++ r)%string = (w, r).
Proof.
  induction w as [|a w IH]; cbn; intros Hw Hr.
  - destruct r as [|b r]; [reflexivity|]. cbn in Hr |- *. rewrite Hr. reflexivity.
  - inversion Hw; subst. rewrite H1, (IH H2 Hr). reflexivity.
Qed.
Lemma word_run_some s w r : word_run s = Some (w, r) -> s = (w ++ r)%string /\ wordlike w.
Proof.
  unfold word_run. destruct (run s) as [[|a w'] r'] eqn:E; [discriminate|]. intros H; inversion H; subst.
  destruct (run_spec _ _ _ E) as [-> [Hw _]]. split; [reflexivity|]. split; [discriminate|exact Hw].
Qed.
Lemma word_run_all w r : wordlike w -> blocked r -> word_run (w ++ r)%string = Some (w, r).
Proof.
  intros [Hn Hw] Hr. unfold word_run. rewrite (run_all w r Hw Hr). destruct w; [contradiction|reflexivity].
Qed.
Lemma wordlike_plain w : wordlike w -> plain w.
Proof.
  intros [_ H] Hin. rewrite Forall_forall in H. apply H in Hin. discriminate.
Qed.

Lemma grad_regex_some p s w : grad_regex p s = Some w <->
  wordlike w /\ exists r, s = (p ++ "#" ++ w ++ "#grad" ++ r)%string.
Proof.
  unfold grad_regex. split.
  - destruct (literal (p ++ "#") s) as [r|] eqn:E1; [|discriminate].
    destruct (word_run r) as [[g r']|] eqn:E2; [|discriminate].
    destruct (literal "#grad" r') as [r''|] eqn:E3; [|discriminate]. intros H; inversion H; subst.
    apply literal_some in E1, E3. apply word_run_some in E2. destruct E2 as [-> Hw]. split; [exact Hw|].
    exists r''. subst. rewrite app_assoc_s. reflexivity.
  - intros [Hw [r ->]].
    replace (p ++ "#" ++ w ++ "#grad" ++ r)%string with ((p ++ "#") ++ (w ++ "#grad" ++ r))%string by (rewrite app_assoc_s; reflexivity).
    rewrite (proj2 (literal_some _ _ _) eq_refl), (word_run_all w); [|exact Hw|reflexivity]. reflexivity.
Qed.
Lemma var_regex_some p s w : var_regex p s = Some w <->
  wordlike w /\ exists r, s = (p ++ "#" ++ w ++ "#" ++ w ++ "#cov" ++ r)%string.
Proof.
  unfold var_regex. split.
  - destruct (literal (p ++ "#") s) as [r|] eqn:E1; [|discriminate].
    destruct (word_run r) as [[g r']|] eqn:E2; [|discriminate].
    destruct (literal _ r') as [r''|] eqn:E3; [|discriminate]. intros H; inversion H; subst.
    apply literal_some in E1, E3. apply word_run_some in E2. destruct E2 as [-> Hw]. split; [exact Hw|].
    exists r''. subst. rewrite !app_assoc_s. reflexivity.
  - intros [Hw [r ->]].
    replace (p ++ "#" ++ w ++ "#" ++ w ++ "#cov" ++ r)%string with ((p ++ "#") ++ (w ++ ("#" ++ w ++ "#cov" ++ r)))%string by (rewrite app_assoc_s; reflexivity).
    rewrite (proj2 (literal_some _ _ _) eq_refl), (word_run_all w); [|exact Hw|reflexivity].
    replace ("#" ++ w ++ "#cov" ++ r)%string with (("#" ++ w ++ "#cov") ++ r)%string by (rewrite !app_assoc_s; reflexivity).
    rewrite (proj2 (literal_some _ _ _) eq_refl). reflexivity.
Qed.
Lemma cov_regex_some p s w w' : cov_regex p s = Some (w, w') <->
  wordlike w /\ wordlike w' /\ exists r, s = (p ++ "#" ++ w ++ "#" ++ w' ++ "#cov" ++ r)%string.
Proof.
  unfold cov_regex. split.
  - destruct (literal (p ++ "#") s) as [r|] eqn:E1; [|discriminate].
    destruct (word_run r) as [[g r']|] eqn:E2; [|discriminate].
    destruct (literal "#" r') as [r2|] eqn:E3; [|discriminate].
    destruct (word_run r2) as [[g' r3]|] eqn:E4; [|discriminate].
    destruct (literal "#cov" r3) as [r4|] eqn:E5; [|discriminate]. intros H; inversion H; subst.
    apply literal_some in E1, E3, E5. apply word_run_some in E2, E4. destruct E2 as [-> Hw]. destruct E4 as [-> Hw'].
    split; [exact Hw|]. split; [exact Hw'|].
    exists r4. subst. rewrite !app_assoc_s. reflexivity.
  - intros [Hw [Hw' [r ->]]].
    replace (p ++ "#" ++ w ++ "#" ++ w' ++ "#cov" ++ r)%string with ((p ++ "#") ++ (w ++ ("#" ++ (w' ++ ("#cov" ++ r)))))%string by (rewrite app_assoc_s; reflexivity).
    rewrite (proj2 (literal_some _ _ _) eq_refl), (word_run_all w); [|exact Hw|reflexivity].
    rewrite (proj2 (literal_some _ _ _) eq_refl), (word_run_all w'); [|exact Hw'|reflexivity].
    rewrite (proj2 (literal_some _ _ _) eq_refl). reflexivity.
Qed.

Lemma search_some {A} (m : string -> option A) s : forall a, search m s = Some a -> exists u v, s = (u ++ v)%string /\ m v = Some a.
Proof.
  induction s as [|c s IH]; intros a; cbn.
  - destruct (m "") as [b|] eqn:E; [|discriminate]. intros H; inversion H; subst. exists "", "". split; [reflexivity|exact E].
  - destruct (m (String c s)) as [b|] eqn:E.
    + intros H; inversion H; subst. exists "", (String c s). split; [reflexivity|exact E].
    + intros H. destruct (IH a H) as [u [v [-> Hv]]]. exists (String c u), v. split; [reflexivity|exact Hv].
Qed.
Lemma search_any {A} (m : string -> option A) u v a : m v = Some a -> exists b, search m (u ++ v)%string = Some b.
Proof.
  intros H. induction u as [|c u IH]; cbn.
  - destruct v; cbn; rewrite H; eauto.
  - destruct (m (String c (u ++ v))) as [b|]; [eauto|exact IH].
Qed.
Lemma search_unique {A} (m : string -> option A) s a :
  (forall u v b, s = (u ++ v)%string -> m v = Some b -> b = a) ->
  (exists u v, s = (u ++ v)%string /\ m v = Some a) -> search m s = Some a.
Proof.
  intros HU [u [v [-> H]]]. destruct (search_any m u v a H) as [b Hb]. rewrite Hb.
  destruct (search_some m _ _ Hb) as [u' [v' [E Hv]]]. rewrite (HU _ _ _ E Hv). reflexivity.
Qed.

(** *** Where they match *)
Lemma list_split3 {A} (us rs : list A) a b c l : us ++ a :: b :: c :: rs = l -> (length l >= 3)%nat.
Proof. intros <-. rewrite app_length. cbn. lia. Qed.

Lemma grad_decompose p c u w r : plain p -> wordlike w -> plain_column c ->
  col_name c = (u ++ p ++ "#" ++ w ++ "#grad" ++ r)%string ->
  (exists q, c = CGrad q w /\ ends_with p q) \/
  (exists q g2, c = CCov q w g2 /\ ends_with p q /\ starts_with "grad" g2).
Proof.
  intros Hp Hw Hc E. apply (f_equal parts) in E. rewrite (parts_column c Hc) in E.
  replace (u ++ p ++ "#" ++ w ++ "#grad" ++ r)%string with ((u ++ p) ++ String hash (w ++ String hash ("grad" ++ r)))%string in E
    by (rewrite app_assoc_s; reflexivity).
  rewrite !parts_hash, (parts_plain w (wordlike_plain w Hw)) in E.
  destruct (parts_before u p Hp) as [us [ul Eu]]. rewrite Eu in E.
  destruct (parts_behind "grad" r) as [r0 [rs Er]]; [unfold plain; cbn; intuition discriminate|]. rewrite Er in E.
  rewrite <- app_assoc in E. cbn [app] in E. symmetry in E.
  pose proof (list_split3 _ _ _ _ _ _ E) as HL.
  destruct c as [g|q|q|q g|q g1 g2|]; cbn in HL; try lia.
  - left. destruct us as [|x us]; cbn in E.
    + inversion E; subst. exists (ul ++ p)%string. split; [reflexivity|exists ul; reflexivity].
    + exfalso. apply (f_equal (@length string)) in E. cbn in E. rewrite app_length in E. cbn in E. lia.
  - destruct us as [|x us]; cbn in E.
    + right. inversion E; subst. exists (ul ++ p)%string, ("grad" ++ r0)%string. split; [reflexivity|].
      split; [exists ul; reflexivity|exists r0; reflexivity].
    + exfalso. destruct us as [|x' us]; cbn in E.
      * inversion E.
      * apply (f_equal (@length string)) in E. cbn in E. rewrite app_length in E. cbn in E. lia.
Qed.

Lemma cov_decompose p c u w w' r : plain p -> wordlike w -> wordlike w' -> plain_column c ->
  col_name c = (u ++ p ++ "#" ++ w ++ "#" ++ w' ++ "#cov" ++ r)%string -> exists q, c = CCov q w w' /\ ends_with p q.
Proof.
  intros Hp Hw Hw' Hc E. apply (f_equal parts) in E. rewrite (parts_column c Hc) in E.
  replace (u ++ p ++ "#" ++ w ++ "#" ++ w' ++ "#cov" ++ r)%string
    with ((u ++ p) ++ String hash (w ++ String hash (w' ++ String hash ("cov" ++ r))))%string in E
    by (rewrite app_assoc_s; reflexivity).
  rewrite !parts_hash, (parts_plain w (wordlike_plain w Hw)), (parts_plain w' (wordlike_plain w' Hw')) in E.
  destruct (parts_before u p Hp) as [us [ul Eu]]. rewrite Eu in E.
  destruct (parts_behind "cov" r) as [r0 [rs Er]]; [unfold plain; cbn; intuition discriminate|]. rewrite Er in E.
  rewrite <- app_assoc in E. cbn [app] in E. symmetry in E.
  assert (HL := f_equal (@length string) E). rewrite app_length in HL. cbn in HL.
  destruct c as [g|q|q|q g|q g1 g2|]; cbn in HL; try lia.
  destruct us as [|x us]; cbn in HL; [|lia]. cbn in E. inversion E; subst.
  exists (ul ++ p)%string. split; [reflexivity|exists ul; reflexivity].
Qed.

Lemma grad_search p c w : plain p -> plain_column c ->
  (search (grad_regex p) (col_name c) = Some w <->
   wordlike w /\ ((exists q, c = CGrad q w /\ ends_with p q) \/
                  (exists q g2, c = CCov q w g2 /\ ends_with p q /\ starts_with "grad" g2))).
Proof.
  intros Hp Hc. split.
  - intros H. apply search_some in H. destruct H as [u [v [E Hv]]]. apply grad_regex_some in Hv.
    destruct Hv as [Hw [r ->]]. split; [exact Hw|]. apply (grad_decompose p c u w r); assumption.
  - intros [Hw Hk]. apply search_unique.
    + intros u v b E Hv. apply grad_regex_some in Hv. destruct Hv as [Hb [r ->]].
      destruct (grad_decompose p c u b r Hp Hb Hc E) as [[q' [Ec _]]|[q' [g2' [Ec _]]]];
        destruct Hk as [[q [Ek _]]|[q [g2 [Ek _]]]]; congruence.
    + destruct Hk as [[q [-> [a ->]]]|[q [g2 [-> [[a ->] [b ->]]]]]]; cbn [col_name].
      * exists a, (p ++ "#" ++ w ++ "#grad" ++ "")%string. split; [rewrite app_nil_s, app_assoc_s; reflexivity|].
        apply grad_regex_some. split; [exact Hw|]. exists "". reflexivity.
      * exists a, (p ++ "#" ++ w ++ "#grad" ++ b ++ "#cov")%string. split; [rewrite !app_assoc_s; reflexivity|].
        apply grad_regex_some. split; [exact Hw|]. exists (b ++ "#cov")%string. reflexivity.
Qed.

Lemma cov_search p c w w' : plain p -> plain_column c ->
  (search (cov_regex p) (col_name c) = Some (w, w') <->
   wordlike w /\ wordlike w' /\ exists q, c = CCov q w w' /\ ends_with p q).
Proof.
  intros Hp Hc. split.
  - intros H. apply search_some in H. destruct H as [u [v [E Hv]]]. apply cov_regex_some in Hv.
    destruct Hv as [Hw [Hw' [r ->]]]. split; [exact Hw|]. split; [exact Hw'|]. apply (cov_decompose p c u w w' r); assumption.
  - intros [Hw [Hw' [q [-> [a ->]]]]]. apply search_unique.
    + intros u v [b b'] E Hv. apply cov_regex_some in Hv. destruct Hv as [Hb [Hb' [r ->]]].
      destruct (cov_decompose p _ u b b' r Hp Hb Hb' Hc E) as [q' [Ec _]]. congruence.
    + exists a, (p ++ "#" ++ w ++ "#" ++ w' ++ "#cov" ++ "")%string. cbn [col_name].
      split; [rewrite app_nil_s, app_assoc_s; reflexivity|].
      apply cov_regex_some. split; [exact Hw|]. split; [exact Hw'|]. exists "". reflexivity.
Qed.

Lemma var_search p c w : plain p -> plain_column c ->
  (search (var_regex p) (col_name c) = Some w <-> wordlike w /\ exists q, c = CCov q w w /\ ends_with p q).
Proof.
  intros Hp Hc. split.
  - intros H. apply search_some in H. destruct H as [u [v [E Hv]]]. apply var_regex_some in Hv.
    destruct Hv as [Hw [r ->]]. split; [exact Hw|]. apply (cov_decompose p c u w w r); assumption.
  - intros [Hw [q [-> [a ->]]]]. apply search_unique.
    + intros u v b E Hv. apply var_regex_some in Hv. destruct Hv as [Hb [r ->]].
      destruct (cov_decompose p _ u b b r Hp Hb Hb Hc E) as [q' [Ec _]]. congruence.
    + exists a, (p ++ "#" ++ w ++ "#" ++ w ++ "#cov" ++ "")%string. cbn [col_name].
      split; [rewrite app_nil_s, app_assoc_s; reflexivity|].
      apply var_regex_some. split; [exact Hw|]. exists "". reflexivity.
Qed.

Lemma matching_in {A} (m : string -> option A) frame a c : In (a, c) (matching m frame) <-> In c frame /\ search m c = Some a.
Proof.
  unfold matching. rewrite in_flat_map. split.
  - intros [x [Hx H]]. destruct (search m x) as [b|] eqn:E; [|destruct H]. destruct H as [H|[]]. inversion H; subst. split; assumption.
  - intros [Hc E]. exists c. split; [exact Hc|]. rewrite E. left. reflexivity.
Qed.
