(** Proofs about the file names and the loading of a library. *)
From Coq Require Import Reals String Ascii List Bool Arith NArith ZArith Lia Lra.
From Coq Require Import Sorted Permutation.
From Verif Require Import PyExn PyBase HistoryModel HistoryProofs FitStartModel FitStartProofs LibraryModel LibrarySpec.
Import ListNotations.
Local Open Scope N_scope.
Local Open Scope list_scope.

(** *** The calendar *)
Lemma month_days_pos y m : 28 <= month_days y m.
Proof. unfold month_days. destruct m as [|p]; [lia|]. destruct (leap y); repeat (destruct p; try lia). Qed.
Lemma tick_valid t : valid t -> valid (tick t).
Proof.
  destruct t as [y mo d h mi s u]. unfold valid. cbn [year month day hour minute second micro]. intros H. unfold tick.
  destruct (N.ltb_spec (u + 1) 1000000); [cbn [year month day hour minute second micro]; lia|].
  destruct (N.ltb_spec (s + 1) 60); [cbn [year month day hour minute second micro]; lia|].
  destruct (N.ltb_spec (mi + 1) 60); [cbn [year month day hour minute second micro]; lia|].
  destruct (N.ltb_spec (h + 1) 24); [cbn [year month day hour minute second micro]; lia|].
  destruct (N.leb_spec (d + 1) (month_days y mo)); [cbn [year month day hour minute second micro]; lia|].
  pose proof (month_days_pos y (mo + 1)). pose proof (month_days_pos (y + 1) 1).
  destruct (N.leb_spec (mo + 1) 12); cbn [year month day hour minute second micro]; lia.
Qed.
Lemma div_pred y k : 1 <= y -> 0 < k -> y / k = (y - 1) / k + (if y mod k =? 0 then 1 else 0).
Proof.
  intros H Hk. pose proof (N.div_mod y k ltac:(lia)) as E. pose proof (N.mod_lt y k ltac:(lia)) as L. destruct (N.eqb_spec (y mod k) 0) as [Z|Z].
  - assert (y / k <> 0) by (intros Q; rewrite Q, Z in E; lia). rewrite <- (N.div_unique (y - 1) k (y / k - 1) (k - 1)); [lia|lia|].
    rewrite Z in E. rewrite N.mul_sub_distr_l. assert (k * 1 <= k * (y / k)) by (apply N.mul_le_mono_l; lia). lia.
  - rewrite <- (N.div_unique (y - 1) k (y / k) (y mod k - 1)); [lia|lia|].
    revert E L Z. generalize (k * (y / k)), (y mod k). lia.
Qed.
Lemma mod_multiple y j k : j <> 0 -> k <> 0 -> y mod (j * k) = 0 -> y mod j = 0.
Proof. intros Hj Hk H. apply N.mod_divide in H; [|lia]. apply N.mod_divide; [exact Hj|]. destruct H as [q ->]. exists (q * k). lia. Qed.
Lemma next_year y : 1 <= y -> days_before_year (y + 1) = days_before_year y + 365 + (if leap y then 1 else 0).
Proof.
  intros H. unfold days_before_year, leap. replace (y + 1 - 1) with y by lia.
  pose proof (div_pred y 4 H ltac:(lia)) as A. pose proof (div_pred y 100 H ltac:(lia)) as B. pose proof (div_pred y 400 H ltac:(lia)) as C.
  pose proof (mod_multiple y 4 25 ltac:(lia) ltac:(lia)) as M1. pose proof (mod_multiple y 100 4 ltac:(lia) ltac:(lia)) as M2. cbn in M1, M2.
  assert (L : (y - 1) / 100 <= y - 1) by (apply N.div_le_upper_bound; lia).
  assert (L' : y / 100 <= y) by (apply N.div_le_upper_bound; lia).
  destruct (N.eqb_spec (y mod 4) 0) as [E1|E1], (N.eqb_spec (y mod 100) 0) as [E2|E2], (N.eqb_spec (y mod 400) 0) as [E3|E3]; cbn [andb orb negb];
    try (exfalso; tauto); clear M1 M2 E1 E2 E3; revert A B C L L';
    generalize (y / 4), ((y - 1) / 4), (y / 100), ((y - 1) / 100), (y / 400), ((y - 1) / 400); lia.
Qed.
Lemma whole_year y : days_before_month y 12 + month_days y 12 = 365 + (if leap y then 1 else 0).
Proof. unfold days_before_month. cbn. destruct (leap y); reflexivity. Qed.
Lemma next_month y m : 1 <= m <= 11 -> days_before_month y (m + 1) = days_before_month y m + month_days y m.
Proof.
  intros H. assert (K : m = 1 \/ m = 2 \/ m = 3 \/ m = 4 \/ m = 5 \/ m = 6 \/ m = 7 \/ m = 8 \/ m = 9 \/ m = 10 \/ m = 11) by lia.
  unfold days_before_month. repeat (destruct K as [->|K]; [cbn; destruct (leap y); reflexivity|]). subst m. cbn. destruct (leap y); reflexivity.
Qed.
Lemma first_month y : days_before_month y 1 = 0.
Proof. reflexivity. Qed.
Lemma tick_micros t : valid t -> micros (tick t) = micros t + 1.
Proof.
  destruct t as [y mo d h mi s u]. unfold valid, micros. cbn [year month day hour minute second micro]. intros [Hy [Hmo [Hd [Hh [Hmi [Hs Hu]]]]]]. unfold tick.
  destruct (N.ltb_spec (u + 1) 1000000); [cbn [year month day hour minute second micro]; lia|].
  destruct (N.ltb_spec (s + 1) 60); [cbn [year month day hour minute second micro]; lia|].
  destruct (N.ltb_spec (mi + 1) 60); [cbn [year month day hour minute second micro]; lia|].
  destruct (N.ltb_spec (h + 1) 24); [cbn [year month day hour minute second micro]; lia|].
  destruct (N.leb_spec (d + 1) (month_days y mo)); [cbn [year month day hour minute second micro]; lia|].
  destruct (N.leb_spec (mo + 1) 12); cbn [year month day hour minute second micro].
  - rewrite next_month by lia. lia.
  - assert (mo = 12) by lia. subst mo. rewrite next_year, first_month by exact Hy. pose proof (whole_year y). lia.
Qed.
Lemma later_succ n t : later (N.succ n) t = tick (later n t).
Proof. apply N.iter_succ. Qed.
Lemma later_valid n t : valid t -> valid (later n t).
Proof. intros H. induction n as [|n IH] using N.peano_ind; [exact H|]. rewrite later_succ. apply tick_valid, IH. Qed.
Lemma later_micros n t : valid t -> micros (later n t) = micros t + n.
Proof.
  intros H. induction n as [|n IH] using N.peano_ind; [change (later 0 t) with t; lia|].
  rewrite later_succ, tick_micros by (apply later_valid, H). lia.
Qed.
Lemma later_add m n t : later (m + n) t = later m (later n t).
Proof. unfold later. apply N.iter_add. Qed.

(** *** Order of the fields *)
Definition less (a b : moment) : Prop :=
  year a < year b \/ year a = year b /\ (month a < month b \/ month a = month b /\ (day a < day b \/ day a = day b /\
  (hour a < hour b \/ hour a = hour b /\ (minute a < minute b \/ minute a = minute b /\ (second a < second b \/ second a = second b /\ micro a < micro b))))).
Lemma less_trans a b c : less a b -> less b c -> less a c.
Proof. unfold less. lia. Qed.
Lemma tick_less t : less t (tick t).
Proof.
  destruct t as [y mo d h mi s u]. unfold less, tick.
  repeat match goal with |- context [if ?c then _ else _] => destruct c eqn:? end; cbn [year month day hour minute second micro];
  rewrite ?N.ltb_ge, ?N.leb_gt in *; lia.
Qed.
Lemma later_less n n' t : n < n' -> less (later n t) (later n' t).
Proof.
  intros H. replace n' with (N.succ (n' - n - 1) + n) by lia. rewrite later_add. generalize (n' - n - 1). generalize (later n t). clear.
  intros t k. induction k as [|k IH] using N.peano_ind; rewrite later_succ; [apply tick_less|].
  eapply less_trans; [exact IH|apply tick_less].
Qed.

(** *** Order of the strings *)
Definition before (s t : string) : Prop :=
  exists p a b r r', s = (p ++ String a r)%string /\ t = (p ++ String b r')%string /\ N_of_ascii a < N_of_ascii b.
Lemma app_assoc_str a b c : ((a ++ b) ++ c = a ++ b ++ c)%string.
Proof. induction a as [|x a IH]; cbn; [reflexivity|]. rewrite IH. reflexivity. Qed.
Lemma before_app p s t : before s t -> before (p ++ s)%string (p ++ t)%string.
Proof.
  intros [q [a [b [r [r' [-> [-> H]]]]]]]. exists (p ++ q)%string, a, b, r, r'. rewrite !app_assoc_str. auto.
Qed.
Lemma before_end s t u v : before s t -> before (s ++ u)%string (t ++ v)%string.
Proof.
  intros [q [a [b [r [r' [-> [-> H]]]]]]]. exists q, a, b, (r ++ u)%string, (r' ++ v)%string. rewrite !app_assoc_str. cbn. auto.
Qed.
Lemma compare_refl_ascii a : Ascii.compare a a = Eq.
Proof. unfold Ascii.compare. apply N.compare_refl. Qed.
Lemma before_ltb s t : before s t -> String.ltb s t = true.
Proof.
  intros [p [a [b [r [r' [-> [-> H]]]]]]]. unfold String.ltb. induction p as [|x p IH]; cbn.
  - unfold Ascii.compare. apply N.compare_lt_iff in H. rewrite H. reflexivity.
  - rewrite compare_refl_ascii. exact IH.
Qed.
Lemma digit_val d : d < 10 -> N_of_ascii (digit d) = 48 + d.
Proof. intros H. unfold digit. apply N_ascii_embedding. lia. Qed.
Lemma pad_before k : forall n m, n < m -> m < 10 ^ N.of_nat k -> before (pad k n) (pad k m).
Proof.
  induction k as [|k IH]; intros n m H Hm; [cbn in Hm; lia|].
  rewrite Nat2N.inj_succ, N.pow_succ_r' in Hm. cbn [pad].
  assert (D : m / 10 < 10 ^ N.of_nat k) by (apply N.div_lt_upper_bound; lia).
  pose proof (N.div_mod n 10 ltac:(lia)). pose proof (N.mod_lt n 10 ltac:(lia)). pose proof (N.div_mod m 10 ltac:(lia)). pose proof (N.mod_lt m 10 ltac:(lia)).
  destruct (N.lt_trichotomy (n / 10) (m / 10)) as [K|[K|K]]; [apply before_end, IH; assumption| |].
  2: { exfalso. clear IH D Hm. revert dependent n. generalize dependent m. intros m M1 M2 n. revert M1 M2. generalize (m / 10), (m mod 10), (n / 10), (n mod 10). lia. }
  rewrite K. exists (pad k (m / 10)), (digit (n mod 10)), (digit (m mod 10)), EmptyString, EmptyString.
  split; [reflexivity|]. split; [reflexivity|]. rewrite !digit_val by assumption.
  assert (n mod 10 < m mod 10); [|lia]. clear IH D Hm. repeat match goal with X : _ |- _ => revert X end. intros k. intros. 
  match goal with |- ?a < ?b => generalize dependent a; generalize dependent b end. intros. lia.
Qed.
Lemma time_before a b u v : valid a -> valid b -> year b <= 9999 -> less a b -> before (time_string a ++ u)%string (time_string b ++ v)%string.
Proof.
  intros Ha Hb Hy H. unfold valid in *. unfold time_string. rewrite !app_assoc_str.
  assert (Md : month_days (year b) (month b) <= 31) by (unfold month_days; destruct (month b) as [|p]; [lia|]; destruct (leap (year b)); repeat (destruct p; try lia)).
  unfold less in H.
  destruct H as [H|[E H]]; [apply before_end, pad_before; [exact H|cbn; lia]|rewrite E; do 2 apply before_app].
  destruct H as [H|[E' H]]; [apply before_end, pad_before; [exact H|cbn; lia]|rewrite E'; do 2 apply before_app].
  destruct H as [H|[E'' H]]; [apply before_end, pad_before; [exact H|cbn; lia]|rewrite E''; do 2 apply before_app].
  destruct H as [H|[E3 H]]; [apply before_end, pad_before; [exact H|cbn; lia]|rewrite E3; do 2 apply before_app].
  destruct H as [H|[E4 H]]; [apply before_end, pad_before; [exact H|cbn; lia]|rewrite E4; do 2 apply before_app].
  destruct H as [H|[E5 H]]; [apply before_end, pad_before; [exact H|cbn; lia]|rewrite E5; do 2 apply before_app].
  apply before_end, pad_before; [exact H|cbn; lia].
Qed.

(** *** Sorted names *)
Lemma ltb_leb a b : String.ltb a b = true -> String.leb a b = true.
Proof. unfold String.ltb, String.leb. destruct (String.compare a b); congruence. Qed.
Lemma compare_refl a : String.compare a a = Eq.
Proof. induction a as [|x a IH]; [reflexivity|]. cbn. rewrite compare_refl_ascii. exact IH. Qed.
Lemma ltb_irrefl a : String.ltb a a = false.
Proof. unfold String.ltb. rewrite compare_refl. reflexivity. Qed.
Definition increasing := StronglySorted (fun a b => String.ltb a b = true).
Lemma increasing_nodup l : increasing l -> NoDup l.
Proof.
  induction 1 as [|a l H IH F]; constructor; [|exact IH]. intros K. rewrite Forall_forall in F. pose proof (F a K) as Q. rewrite ltb_irrefl in Q. discriminate.
Qed.
Lemma sort_increasing l : increasing l -> sort_labels l = l.
Proof.
  induction 1 as [|a l H IH F]; [reflexivity|]. unfold sort_labels in *. cbn [fold_right]. rewrite IH. destruct l as [|b l]; [reflexivity|]. cbn.
  rewrite ltb_leb; [reflexivity|]. inversion F. assumption.
Qed.
Lemma sort_listing l l' : increasing l -> NoDup l' -> (forall n, In n l' <-> In n l) -> sort_labels l' = l.
Proof. intros H N E. rewrite (sort_labels_ext l' l N (increasing_nodup l H) E). apply sort_increasing, H. Qed.
Lemma names_increasing t (ns : list N) : valid t -> StronglySorted N.lt ns -> Forall (fun n => year (later n t) <= 9999) ns ->
  increasing (map (fun n => file_name (later n t)) ns).
Proof.
  intros Ht H F. induction H as [|n ns H IH G]; [constructor|]. inversion F; subst. cbn. constructor; [apply IH; assumption|].
  apply Forall_forall. intros x Hx. apply in_map_iff in Hx. destruct Hx as [m [<- Hm]]. apply before_ltb. unfold file_name.
  apply time_before; [apply later_valid, Ht|apply later_valid, Ht| |].
  - rewrite Forall_forall in H3. apply H3, Hm.
  - apply later_less. rewrite Forall_forall in G. apply G, Hm.
Qed.

(** *** Paths and files *)
Lemma path_eqb_eq p q : path_eqb p q = true <-> p = q.
Proof.
  revert q. induction p as [|a p IH]; destruct q as [|b q]; cbn; try (split; congruence).
  rewrite andb_true_iff, String.eqb_eq, IH. split; [intros [-> ->]; reflexivity|intros E; injection E; auto].
Qed.
Lemma below_iff d p : below d p = true <-> exists n rest, p = d ++ n :: rest.
Proof.
  revert p. induction d as [|a d IH]; destruct p as [|b p]; cbn; split; intros H; try discriminate; try (destruct H as [n [rest H]]; discriminate).
  - eauto.
  - reflexivity.
  - apply andb_true_iff in H. destruct H as [E H]. apply String.eqb_eq in E. apply IH in H. destruct H as [n [rest ->]]. subst b. eauto.
  - destruct H as [n [rest H]]. injection H as -> ->. rewrite String.eqb_refl. apply IH. eauto.
Qed.
Lemma content_in fs p r : NoDup (map fst fs) -> In (p, r) fs -> content fs p = Some r.
Proof.
  intros N H. unfold content. induction fs as [|[q s] fs IH]; [contradiction|]. cbn [find fst]. inversion N as [|x l N1 N2]; subst.
  destruct (path_eqb q p) eqn:E.
  - apply path_eqb_eq in E. subst q. destruct H as [H|H]; [cbn; congruence|]. exfalso. apply N1. exact (in_map fst _ _ H).
  - destruct H as [H|H]; [injection H as -> ->; rewrite (proj2 (path_eqb_eq p p) eq_refl) in E; discriminate|]. apply IH; assumption.
Qed.
Lemma content_none fs p : (forall r, ~ In (p, r) fs) -> content fs p = None.
Proof.
  intros H. unfold content. destruct (find _ fs) as [[q r]|] eqn:E; [|reflexivity]. apply find_some in E. destruct E as [E K]. cbn in K. apply path_eqb_eq in K. subst q.
  exfalso. exact (H r E).
Qed.

(** *** Loading *)
Lemma load_sorted_all fs d l : forall h, Forall (fun s => read fs (d ++ [fst s]) = Ok (snd s)) l ->
  load_sorted fs d (map fst l) h = hist_run h (map (fun s => (snd s, text (d ++ [fst s]))) l).
Proof.
  induction l as [|[n a] l IH]; intros h H; [reflexivity|]. inversion H as [|x y H1 H2]; subst. cbn [map fst snd load_sorted hist_run]. cbn [fst snd] in H1. rewrite H1.
  destruct (hist_append h a (text (d ++ [n]))) as [h' [u|e]]; [|reflexivity]. apply IH, H2.
Qed.
Lemma load_sorted_until fs d l bad post e : forall h h', Forall (fun s => read fs (d ++ [fst s]) = Ok (snd s)) l -> read fs (d ++ [bad]) = Raise e ->
  hist_run h (map (fun s => (snd s, text (d ++ [fst s]))) l) = (h', Ok tt) -> load_sorted fs d (map fst l ++ bad :: post) h = (h', Raise e).
Proof.
  induction l as [|[n a] l IH]; intros h h' H Hb R.
  - cbn in R |- *. rewrite Hb. congruence.
  - inversion H as [|x y H1 H2]; subst. cbn [map fst snd load_sorted hist_run app] in *. rewrite H1.
    destruct (hist_append h a (text (d ++ [n]))) as [h1 [u|e1]]; [|congruence]. apply IH; assumption.
Qed.
Lemma load_sorted_bad fs d names bad e : read fs (d ++ [bad]) = Raise e -> In bad names -> forall h, exists h' e', load_sorted fs d names h = (h', Raise e').
Proof.
  intros Hb. induction names as [|n names IH]; intros Hin h; [contradiction|]. cbn. destruct (read fs (d ++ [n])) as [a|e1] eqn:E; [|eauto].
  destruct (hist_append h a (text (d ++ [n]))) as [h1 [u|e1]]; [|eauto]. destruct Hin as [->|Hin]; [congruence|]. apply IH, Hin.
Qed.

(** *** Rounding *)
Lemma round_mono x y : (x <= y)%R -> (py_round x <= py_round y)%Z.
Proof.
  intros H. destruct (Z_le_gt_dec (py_round x) (py_round y)) as [K|K]; [exact K|]. exfalso.
  pose proof (round_near x) as A. pose proof (round_near y) as B. assert (L : (py_round y + 1 <= py_round x)%Z) by lia. apply IZR_le in L. rewrite plus_IZR in L.
  assert (x = y) by lra. subst. lia.
Qed.
Lemma time_length t : String.length (time_string t) = 26%nat.
Proof. unfold time_string. cbn [pad]. repeat rewrite ?app_assoc_str. reflexivity. Qed.
Lemma length_app_str a b : String.length (a ++ b) = (String.length a + String.length b)%nat.
Proof. induction a as [|x a IH]; cbn; [reflexivity|]. rewrite IH. reflexivity. Qed.
Lemma file_not_time a b : file_name a <> time_string b.
Proof. intros E. apply (f_equal String.length) in E. unfold file_name in E. rewrite length_app_str, !time_length in E. discriminate. Qed.
