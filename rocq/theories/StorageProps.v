(** Properties C37, C38 and C66 to C68: saving and loading objects. *)
From Coq Require Import String Ascii List Bool Arith Lia Permutation.
From Verif Require Import PyExn StorageModel StorageSpec StorageProofs StorageSave StorageLoad StorageTrip.
Import ListNotations.
Local Open Scope string_scope.
Local Open Scope list_scope.

(** ** C37: what is saved to a new file is loaded as a copy: same structure and
    values, same sharing (objects correspond one to one), reserved objects
    replaced by the supplied ones, all other shareable objects new. *)
Theorem hdf5_round_trip :
  forall (payload : Type) (storable scalar : payload -> bool) (serializables : string -> bool)
         (construct : string -> list (string * pyval payload) -> option exn)
         (reserved : list (string * nat)) (supplied : list (string * pyval payload)) name obj n fuel,
  NoDup (name :: map fst reserved) -> Forall plain (name :: map fst reserved) -> NoDup (map snd reserved) ->
  (forall key, In key (map fst reserved) -> named key supplied <> None) ->
  (forall t, In t ["dict"; "list"; "tuple"; "#reserved"] -> serializables t = false) ->
  let rsv i := In i (map snd reserved) in let R := replacements reserved supplied in
  ids_unique rsv obj ->
  (forall t, reached rsv t obj -> ~ rsv (pid t) -> can_save storable scalar serializables t) ->
  (forall i cls kvs kvs' l loc, reached rsv (PInst i cls kvs) obj -> Permutation l kvs' -> match_fields (copy scalar loc R) kvs l ->
    construct cls kvs' = None) ->
  2 * depth obj + 3 <= fuel ->
  exists file j kvs v loc, to_hdf5 payload storable serializables [] 1 name obj reserved = Ok file /\
    from_hdf5 payload scalar serializables construct fuel file supplied n = Ok (PDict j kvs) /\
    Permutation (map fst kvs) (name :: map fst reserved) /\ named name kvs = Some v /\
    (forall key, In key (map fst reserved) -> named key kvs = named key supplied) /\
    copy scalar loc R obj v /\ one_to_one loc /\ forall a b, loc a b -> n <= b.
Proof. intros. apply round_trip; assumption. Qed.
Print Assumptions hdf5_round_trip.

(** Numbers as payload; those below 100 are scalars, those below 1000 have a
    type in HDF5. *)
Definition case_storable (p : nat) : bool := Nat.ltb p 1000.
Definition case_scalar (p : nat) : bool := Nat.ltb p 100.
Definition case_classes (c : string) : bool := String.eqb c "Tuner" || String.eqb c "Solver".
Definition case_accept (c : string) (kvs : list (string * pyval nat)) : option exn := None.
(** A list of two tuners that share a solver; the tuners know the experiment
    (reserved), the solver has a dict with a Series, a string and None. *)
Definition case_solver : pyval nat := PInst 5 "Solver" [("start", PDict 6 [("v", PTable 7 false 500); ("s", PStr 8 "x"); ("n", PNone 9)])].
Definition case_tuner (i : nat) (p : nat) : pyval nat :=
  PInst i "Tuner" [("solver", case_solver); ("value", PNum (100 + i) false p); ("experiment", POther 99 3)].
Definition case_obj : pyval nat := PSeq 1 true [case_tuner 2 17; case_tuner 3 18].
Definition case_file : h5 nat :=
  match to_hdf5 nat case_storable case_classes [] 1 "autotuner" case_obj [("experiment", 99)] with Ok f => f | Raise _ => HData 0 None CEmpty end.
Definition case_loaded_solver : pyval nat := PInst 24 "Solver" [("start", PDict 23 [("n", PNone 0); ("s", PStr 21 "x"); ("v", PTable 22 false 500)])].
(** The loaded solver is shared again. *)
Example case_trip :
  from_hdf5 nat case_scalar case_classes case_accept 20 case_file [("experiment", POther 7 3)] 21 =
  Ok (PDict 30 [("autotuner", PSeq 29 true
        [PInst 26 "Tuner" [("experiment", POther 7 3); ("solver", case_loaded_solver); ("value", PNum 25 true 17)];
         PInst 28 "Tuner" [("experiment", POther 7 3); ("solver", case_loaded_solver); ("value", PNum 27 true 18)]]);
      ("experiment", POther 7 3)]).
Proof. vm_compute. reflexivity. Qed.

(** The hypotheses hold for this object. *)
Definition walk_list (f : pyval nat -> list (pyval nat)) := fix go xs := match xs with [] => [] | x :: xs' => f x ++ go xs' end.
Definition walk_fields (f : pyval nat -> list (pyval nat)) := fix go (xs : list (string * pyval nat)) := match xs with [] => [] | (_, x) :: xs' => f x ++ go xs' end.
Fixpoint walk (t : pyval nat) : list (pyval nat) :=
  t :: match t with PDict _ kvs | PInst _ _ kvs => walk_fields walk kvs | PSeq _ _ xs => walk_list walk xs | _ => [] end.
Lemma walk_members t c a : In c (members t) -> In a (walk c) -> In a (walk t).
Proof.
  assert (L : forall xs, In c xs -> In a (walk c) -> In a (walk_list walk xs)).
  { induction xs as [|x xs IH]; [contradiction|]. cbn. intros [->|H] Ha; apply in_or_app; auto. }
  assert (M : forall kvs, In c (map snd kvs) -> In a (walk c) -> In a (walk_fields walk kvs)).
  { induction kvs as [|[k x] kvs IH]; [contradiction|]. cbn. intros [->|H] Ha; apply in_or_app; auto. }
  destruct t; cbn; try contradiction; auto.
Qed.
Lemma reached_walk rsv a t : reached rsv a t -> In a (walk t).
Proof. induction 1; [destruct a; left; reflexivity|]. eapply walk_members; eassumption. Qed.
Example case_hypotheses : let rsv i := In i [99] in
  ids_unique rsv case_obj /\
  (forall t, reached rsv t case_obj -> ~ rsv (pid t) -> can_save case_storable case_scalar case_classes t) /\
  2 * depth case_obj + 3 <= 20 /\ forall t, In t ["dict"; "list"; "tuple"; "#reserved"] -> case_classes t = false.
Proof.
  intros rsv. split; [|split; [|split]].
  - intros a b Ha Hb. apply reached_walk in Ha, Hb. unfold case_obj, case_tuner, case_solver in Ha, Hb. cbn in Ha, Hb.
    repeat (destruct Ha as [<-|Ha]; [repeat (destruct Hb as [<-|Hb]; [cbn; intros H; try discriminate; reflexivity|]); contradiction|]). contradiction.
  - intros t Ht Hr. apply reached_walk in Ht. unfold case_obj, case_tuner, case_solver in Ht. cbn in Ht.
    assert (P : forall ls, (forall s, In s ls -> ~ In "/"%char (list_ascii_of_string s) /\ s <> "" /\ s <> ".") -> Forall plain ls).
    { intros ls H. apply Forall_forall. intros s Hs. destruct (H s Hs) as [H1 [H2 H3]]. repeat split; auto. }
    assert (Q : forall (s : string) ls, existsb (String.eqb s) ls = false -> ~ In s ls).
    { intros s ls H Hin. rewrite (proj2 (existsb_exists _ _)) in H; [discriminate|]. exists s. split; [exact Hin|apply String.eqb_refl]. }
    repeat (destruct Ht as [<-|Ht]; [unfold can_save; cbn; try (exfalso; apply Hr; left; reflexivity);
      repeat split; auto; try (apply P; cbn; intros s Hs; repeat (destruct Hs as [<-|Hs]; [repeat split; try discriminate; cbn; intuition discriminate|]); contradiction);
      repeat (constructor; [apply Q; reflexivity|]); constructor|]). contradiction.
  - cbn. lia.
  - cbn. intros t Ht. repeat (destruct Ht as [<-|Ht]; [reflexivity|]). contradiction.
Qed.

(** Arrays are the exception: an array that is shared is loaded as two arrays. *)
Theorem shared_array_refuted :
  forall (payload : Type) (storable scalar : payload -> bool) serializables construct p,
  storable p = true -> scalar p = false ->
  exists file j a b, to_hdf5 payload storable serializables [] 1 "data" (PDict 1 [("a", PArray 2 p); ("b", PArray 2 p)]) [] = Ok file /\
    from_hdf5 payload scalar serializables construct 5 file [] 10 = Ok (PDict j [("data", PDict (S b) [("a", PArray a p); ("b", PArray b p)])]) /\ a <> b.
Proof.
  intros payload storable scalar ser con p H1 H2. unfold to_hdf5, put. cbn. rewrite H1. cbn. do 4 eexists. split; [reflexivity|].
  unfold from_hdf5. cbn. rewrite H2. cbn. split; [reflexivity|]. lia.
Qed.
Print Assumptions shared_array_refuted.
Example case_array : case_storable 500 = true /\ case_scalar 500 = false.
Proof. split; reflexivity. Qed.

(** ** C38: two objects whose to_hdf5() returns temporaries; the second
    temporary has got the id of the first one, which is already gone.  The
    second object is loaded with the value of the first one, whatever its own
    value was. *)
Theorem id_reuse_refuted :
  forall (payload : Type) (storable scalar : payload -> bool) serializables construct p q i,
  storable p = true -> scalar p = false -> serializables "Estimator" = true -> serializables "dict" = false -> serializables "list" = false ->
  (forall kvs, construct "Estimator" kvs = None) -> 3 <= i ->
  exists file j l a b c d, 
    to_hdf5 payload storable serializables [] 1 "data"
      (PSeq 0 true [PInst 1 "Estimator" [("gradient", PTable i false p)]; PInst 2 "Estimator" [("gradient", PTable i false q)]]) [] = Ok file /\
    from_hdf5 payload scalar serializables construct 9 file [] 10 =
      Ok (PDict j [("data", PSeq l true [PInst a "Estimator" [("gradient", PTable b false p)]; PInst c "Estimator" [("gradient", PTable d false p)]])]) /\ b = d.
Proof.
  intros payload storable scalar ser con p q i H1 H2 H3 H4 H5 H6 Hi. unfold to_hdf5, put. cbn. rewrite H3. cbn.
  destruct i as [|[|[|i]]]; try lia. repeat (progress (cbn; rewrite ?H1, ?H3, ?Nat.eqb_refl)).
  do 7 eexists. split; [reflexivity|]. unfold from_hdf5. repeat (progress (cbn; rewrite ?H3, ?H5, ?H6)). split; reflexivity.
Qed.
Print Assumptions id_reuse_refuted.

(** ** C66: a file cannot be written twice. *)
Theorem second_save_refuted :
  forall (payload : Type) (storable : payload -> bool) serializables ls n name obj reserved,
  Forall plain (name :: map fst reserved) -> NoDup (map fst reserved) ->
  (exists key, In key (name :: map fst reserved) /\ In key (map fst ls)) ->
  exists e, to_hdf5 payload storable serializables ls n name obj reserved = Raise e.
Proof.
  intros payload storable ser ls n name obj reserved Hp Hn Hk. unfold to_hdf5.
  inversion Hp as [|? ? P1 P2]; subst.
  assert (Hl : forall key h (l : list (string * h5 payload)) m, plain key -> In key (map fst l) -> link payload key h l m = Raise ValueError).
  { intros key h l m Hpl Hin. unfold link. rewrite path_plain by exact Hpl. cbn.
    destruct (named key l) eqn:E; [reflexivity|]. exfalso. clear - E Hin. induction l as [|[j a] l IH]; [contradiction|]. cbn in *.
    destruct (String.eqb_spec key j) as [->|Hne]; [discriminate|]. destruct Hin as [->|Hin]; [congruence|auto]. }
  assert (G : forall rs l s, Forall plain (map fst rs) -> (exists key, In key (name :: map fst rs) /\ In key (map fst l)) ->
    (exists e, save_reserved payload rs l s = Raise e) \/ exists l' s', save_reserved payload rs l s = Ok (l', s') /\ In name (map fst l')).
  { clear - Hl. induction rs as [|[key i] rs IH]; intros l s Hpl [k [Hk1 Hk2]].
    - right. cbn in *. exists l, s. split; [reflexivity|]. destruct Hk1 as [->|[]]; exact Hk2.
    - cbn [map fst] in *. inversion Hpl as [|? ? Q1 Q2]; subst. cbn [save_reserved fresh put].
      destruct (in_dec string_dec key (map fst l)) as [Hin|Hin].
      + left. rewrite Hl by assumption. eexists; reflexivity.
      + rewrite link_plain by assumption. cbn. apply IH; [exact Q2|]. exists k.
        destruct Hk1 as [->|[->|Hk1]]; [split; [left; reflexivity|]|contradiction|split; [right; exact Hk1|]];
          rewrite map_app; apply in_or_app; left; exact Hk2. }
  destruct (G reserved ls (mk_saving [] n) P2 Hk) as [[e E]|[l' [s' [E Hin]]]]; rewrite E; [eexists; reflexivity|].
  unfold put. destruct (save payload storable ser obj s') as [[h s2]|e]; [|eexists; reflexivity].
  rewrite Hl by assumption. eexists; reflexivity.
Qed.
Print Assumptions second_save_refuted.
(** After a first save the file has these names. *)
Example case_second : match case_file with HGroup _ _ ls => map fst ls = ["experiment"; "autotuner"] /\
  to_hdf5 nat case_storable case_classes ls 50 "autotuner" case_obj [("experiment", 99)] = Raise ValueError | HData _ _ _ => False end.
Proof. vm_compute. split; reflexivity. Qed.

(** ** C67: an instance that refers to itself can be saved but not loaded. *)
Theorem self_reference_refuted :
  forall (payload : Type) (storable scalar : payload -> bool) serializables construct,
  serializables "Node" = true ->
  exists file, to_hdf5 payload storable serializables [] 1 "data" (PInst 1 "Node" [("next", PInst 1 "Node" [])]) [] = Ok file /\
    forall fuel, from_hdf5 payload scalar serializables construct fuel file [] 10 = Raise RecursionError.
Proof.
  intros payload storable scalar ser con Hs. unfold to_hdf5, put. cbn. rewrite Hs. cbn. eexists. split; [reflexivity|].
  intros fuel. unfold from_hdf5. cbn [by_name fold_right insert_link load_reserved String.eqb Ascii.eqb Bool.eqb].
  set (node := HGroup 1 (Some "Node") [("next", HData 2 None (CRef 1))]). set (root := HGroup 0 None [("data", node)]).
  assert (G : forall f s, ld_des payload s = [] -> load payload scalar ser con f root node s = Raise RecursionError /\
              load payload scalar ser con f root (HData 2 None (CRef 1)) s = Raise RecursionError).
  { induction f as [|f IH]; intros s Hd; [split; reflexivity|]. destruct (IH s Hd) as [I1 I2]. split.
    - unfold node at 1. cbn [load hid]. rewrite Hd. cbn [at_id String.eqb Ascii.eqb Bool.eqb]. rewrite Hs.
      cbn [by_name fold_right insert_link load_fields]. rewrite I2. reflexivity.
    - cbn [load hid]. rewrite Hd. cbn [at_id]. cbn [find_h5 find_in root hid Nat.eqb node]. fold node. fold root. rewrite I1. reflexivity. }
  destruct fuel as [|fuel]; [reflexivity|].
  assert (E : load payload scalar ser con (S fuel) root root (mk_loading payload [] 10) = Raise RecursionError).
  { unfold root at 2. cbn [load hid ld_des at_id by_name fold_right insert_link load_fields].
    rewrite (proj1 (G fuel (mk_loading payload [] 10) eq_refl)). reflexivity. }
  rewrite E. reflexivity.
Qed.
Print Assumptions self_reference_refuted.
Example case_node : String.eqb "Node" "Node" = true.
Proof. reflexivity. Qed.

(** ** C68: a key with a slash is loaded as a nested dict. *)
Theorem slash_in_key_refuted :
  forall (payload : Type) (storable scalar : payload -> bool) serializables construct s,
  exists file j k l m, to_hdf5 payload storable serializables [] 1 "data" (PDict 1 [("a/b", PStr 2 s)]) [] = Ok file /\
    from_hdf5 payload scalar serializables construct 9 file [] 10 = Ok (PDict j [("data", PDict k [("a", PDict l [("b", PStr m s)])])]).
Proof. intros. do 5 eexists. split; [reflexivity|]. reflexivity. Qed.
Print Assumptions slash_in_key_refuted.
