(** Property C119: snapshots of the asynchronous writer (SnapshotModel.v). *)
From Coq Require Import String List Bool Arith Lia Permutation.
From Verif Require Import PyExn StorageModel StorageSpec StorageProps SnapshotModel SnapshotSpec SnapshotTrip.
Import ListNotations.
Local Open Scope string_scope.
Local Open Scope list_scope.

(** What [write] takes a snapshot of is loaded from the file as a copy of the
    object at that moment: same structure, values and sharing, and at every
    place of a reserved experiment the one that is supplied on loading, although
    the snapshot has a mere number there. *)
Theorem snapshot_trip :
  forall (payload : Type) (storable scalar : payload -> bool) (serializables : string -> bool)
         (construct : string -> list (string * pyval payload) -> option exn) (address : nat -> payload) (experiment : nat -> bool)
         (reserved supplied : list (string * pyval payload)) name obj n m fuel,
  NoDup (name :: map fst reserved) -> Forall plain (name :: map fst reserved) -> NoDup (map (fun r => pid (snd r)) reserved) ->
  (forall key, In key (map fst reserved) -> named key supplied <> None) ->
  (forall t, In t ["dict"; "list"; "tuple"; "#reserved"] -> serializables t = false) ->
  let ids := map (fun r => (fst r, pid (snd r))) reserved in let rsv i := In i (map snd ids) in let R := replacements ids supplied in
  (forall r, In r (map snd reserved) -> exists i what, r = POther i what /\ experiment what = true) ->
  ids_unique rsv obj -> (forall t r, reached rsv t obj -> In r (map snd reserved) -> pid t = pid r -> t = r) ->
  (forall t, reached rsv t obj \/ In t (map snd reserved) -> pid t < n) ->
  (forall t, reached rsv t obj -> ~ rsv (pid t) -> can_save storable scalar serializables t) ->
  (forall i cls kvs kvs' l loc, reached rsv (PInst i cls kvs) obj -> Permutation l kvs' -> match_fields (copy scalar loc R) kvs l -> construct cls kvs' = None) ->
  2 * depth obj + 3 <= fuel ->
  exists task file j kvs v loc, snapshot address experiment obj reserved n = Ok task /\ written storable serializables name task = Ok file /\
    from_hdf5 payload scalar serializables construct fuel file supplied m = Ok (PDict j kvs) /\
    named name kvs = Some v /\ copy scalar loc R obj v /\ one_to_one loc /\ forall a b, loc a b -> m <= b.
Proof.
  intros payload storable scalar ser con address ex reserved supplied name obj n m fuel H1 H2 H3 H4 H5 ids rsv R H6 H7 H8 H9 H10 H11 H12.
  apply (snapshot_round_trip address storable scalar ser con ex reserved obj n); auto.
  - unfold ids_of. rewrite map_map. exact H3.
  - intros i what Hr. destruct (in_dec Nat.eq_dec i (map snd ids)) as [K|K].
    + assert (K' := K). unfold ids in K'. rewrite map_map in K'. apply in_map_iff in K' as [r [E Kr]]. cbn in E. pose proof (H8 _ (snd r) Hr (in_map snd _ _ Kr) (eq_sym E)) as Q.
      destruct (H6 (snd r) (in_map snd _ _ Kr)) as [i' [w [E' X]]]. rewrite <- Q in E'. injection E' as <- <-. exact X.
    + destruct (H10 _ Hr K) as [_ [_ []]].
Qed.

Print Assumptions snapshot_trip.

(** The two tuners that share a solver (StorageProps.v), with the experiment
    [POther 99 3]: the snapshot has the number of the experiment in both tuners
    and among the reserved objects, and it is one object. *)
Definition case_address (i : nat) : nat := i - 9.
Definition case_experiment (what : nat) : bool := Nat.eqb what 3.
Definition case_task := snapshot case_address case_experiment case_obj [("experiment", POther 99 3)] 200.
Example case_snapshot :
  case_task = let solver := PInst 202 "Solver" [("start", PDict 201 [("v", PTable 200 false 500); ("s", PStr 8 "x"); ("n", PNone 9)])] in
    Ok (PSeq 206 true [PInst 204 "Tuner" [("solver", solver); ("value", PNum 102 false 17); ("experiment", PNum 203 false 90)];
                       PInst 205 "Tuner" [("solver", solver); ("value", PNum 103 false 18); ("experiment", PNum 203 false 90)]],
        [("experiment", PNum 203 false 90)]).
Proof. vm_compute. reflexivity. Qed.
Example case_snapshot_loaded :
  match case_task with
  | Ok task => match written case_storable case_classes "autotuner" task with
               | Ok file => from_hdf5 nat case_scalar case_classes case_accept 20 file [("experiment", POther 7 3)] 21
               | Raise e => Raise e
               end
  | Raise e => Raise e
  end =
  Ok (PDict 30 [("autotuner", PSeq 29 true
        [PInst 26 "Tuner" [("experiment", POther 7 3); ("solver", case_loaded_solver); ("value", PNum 25 true 17)];
         PInst 28 "Tuner" [("experiment", POther 7 3); ("solver", case_loaded_solver); ("value", PNum 27 true 18)]]);
      ("experiment", POther 7 3)]).
Proof. vm_compute. reflexivity. Qed.
(** The remaining hypotheses (the others are those of [case_hypotheses]). *)
Example case_snapshot_hypotheses : let rsv i := In i [99] in
  (forall t r, reached rsv t case_obj -> In r [POther 99 3] -> pid t = pid r -> t = r) /\
  (forall t : pyval nat, reached rsv t case_obj \/ In t [POther 99 3] -> pid t < 200) /\
  (forall r : pyval nat, In r [POther 99 3] -> exists i what, r = POther i what /\ case_experiment what = true) /\
  forall i what, reached rsv (POther i what) case_obj -> case_experiment what = true.
Proof.
  intros rsv. repeat split.
  - intros t r Ht [<-|[]] E. apply reached_walk in Ht. unfold case_obj, case_tuner, case_solver in Ht. cbn in Ht.
    repeat (destruct Ht as [<-|Ht]; [cbn in E; first [discriminate E | reflexivity]|]). contradiction.
  - intros t [Ht|[<-|[]]]; [|cbn; lia]. apply reached_walk in Ht. unfold case_obj, case_tuner, case_solver in Ht. cbn in Ht.
    repeat (destruct Ht as [<-|Ht]; [cbn; lia|]). contradiction.
  - intros r [<-|[]]. exists 99, 3. split; reflexivity.
  - intros i what Ht. apply reached_walk in Ht. unfold case_obj, case_tuner, case_solver in Ht. cbn in Ht.
    repeat (destruct Ht as [E|Ht]; [first [discriminate E | injection E as <- <-; reflexivity]|]). contradiction.
Qed.

(** Later changes of the original do not reach the snapshot: everything in it
    that can change is a new object. *)
Theorem snapshot_new :
  forall (payload : Type) (address : nat -> payload) (experiment : nat -> bool) (reserved : list (string * pyval payload)) obj n obj' reserved',
  let rsv i := In i (map (fun r => pid (snd r)) reserved) in
  NoDup (map (fun r => pid (snd r)) reserved) -> (forall r, In r (map snd reserved) -> exists i what, r = POther i what /\ experiment what = true) ->
  ids_unique rsv obj -> (forall t r, reached rsv t obj -> In r (map snd reserved) -> pid t = pid r -> t = r) ->
  (forall t, reached rsv t obj \/ In t (map snd reserved) -> pid t < n) ->
  (forall i what, reached rsv (POther i what) obj -> experiment what = true) ->
  snapshot address experiment obj reserved n = Ok (obj', reserved') ->
  forall t, within t obj' -> n <= pid t \/ immutable t.
Proof.
  intros payload address ex reserved obj n obj' reserved' rsv H1 H2 H3 H4 H5 H6 H.
  assert (E : map snd (ids_of reserved) = map (fun r => pid (snd r)) reserved) by (unfold ids_of; rewrite map_map; reflexivity).
  apply (snapshot_new_objects address ex reserved obj n) with (reserved' := reserved'); try rewrite E; auto.
Qed.

Print Assumptions snapshot_new.

(** A writer with a worker process (the default of its class; the autotuner asks
    for a thread): the experiment comes back as a number, whatever is supplied. *)
Theorem multiprocess_refuted :
  forall (payload : Type) (storable scalar : payload -> bool) serializables construct (address : nat -> payload) experiment e what n k supplied,
  serializables "Tuner" = true -> serializables "dict" = false -> serializables "list" = false -> (forall kvs, construct "Tuner" kvs = None) ->
  experiment what = true -> e <> 1 -> storable (address e) = true -> scalar (address e) = true -> 1 < n -> named "experiment" supplied <> None ->
  exists task file j kvs a b, snapshot address experiment (PInst 1 "Tuner" [("experiment", POther e what)]) [("experiment", POther e what)] n = Ok task /\
    written storable serializables "autotuner" (pickled task (S (S n) + k)) = Ok file /\
    from_hdf5 payload scalar serializables construct 9 file supplied 10 = Ok (PDict j kvs) /\
    named "autotuner" kvs = Some (PInst a "Tuner" [("experiment", PNum b true (address e))]).
Proof.
  intros payload storable scalar ser con address ex e what n k supplied S1 S2 S3 C X He St Sc Hn Hs. destruct (named "experiment" supplied) as [v|] eqn:Ev; [|congruence]. clear Hs.
  unfold snapshot, pickled, written. cbn [deepcopy copy_fields pid at_id fst snd kept]. rewrite X. cbn [deepcopy copy_fields pid at_id fst snd kept].
  replace (Nat.eqb e 1) with false by (symmetry; apply Nat.eqb_neq; exact He). cbn [at_id]. rewrite Nat.eqb_refl. eexists _, _, _, _, _, _. split; [reflexivity|].
  cbn [fst snd pickled unpickled_num fold_left map app]. unfold to_hdf5, put. cbn [save_reserved fresh sv_next sv_ser register]. cbn -[Nat.eqb Nat.add]. 
  replace (Nat.eqb (S n) (S (S (S n) + k))) with false by (symmetry; apply Nat.eqb_neq; lia). rewrite S1. cbn -[Nat.eqb Nat.add].
  replace (Nat.eqb (S (S n) + k) (S n)) with false by (symmetry; apply Nat.eqb_neq; lia).
  replace (Nat.eqb (S (S n) + k) (S (S (S n) + k))) with false by (symmetry; apply Nat.eqb_neq; lia). rewrite St. cbn -[Nat.eqb Nat.add]. split; [reflexivity|].
  unfold from_hdf5. cbn. rewrite Ev. cbn. rewrite S1. cbn. rewrite Sc. cbn. rewrite C. cbn. split; reflexivity.
Qed.
Print Assumptions multiprocess_refuted.
Example case_pickled :
  match case_task with
  | Ok task => match written case_storable case_classes "autotuner" (pickled task 300) with
               | Ok file => from_hdf5 nat case_scalar case_classes case_accept 20 file [("experiment", POther 7 3)] 21
               | Raise e => Raise e
               end
  | Raise e => Raise e
  end =
  Ok (PDict 32 [("autotuner", PSeq 31 true
        [PInst 27 "Tuner" [("experiment", PNum 21 true 90); ("solver", PInst 25 "Solver" [("start", PDict 24 [("n", PNone 0); ("s", PStr 22 "x"); ("v", PTable 23 false 500)])]);
                           ("value", PNum 26 true 17)];
         PInst 30 "Tuner" [("experiment", PNum 28 true 90); ("solver", PInst 25 "Solver" [("start", PDict 24 [("n", PNone 0); ("s", PStr 22 "x"); ("v", PTable 23 false 500)])]);
                           ("value", PNum 29 true 18)]]);
      ("experiment", POther 7 3)]).
Proof. vm_compute. reflexivity. Qed.
