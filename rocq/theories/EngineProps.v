(** Transfer of Python objects to MATLAB and the registry of engines. *)
From Coq Require Import List Arith Bool String ZArith Lia.
From Verif Require Import PyExn EngineModel EngineSpec EngineProofs.
Import ListNotations.
Local Open Scope string_scope.

(** A matrix arrives with the same entry at the same place, leading dimensions
    of size one are dropped, a vector becomes a row. *)
Theorem array_transfer (V : Type) d k r c n (matrix vector : list V) :
  known_dtype d ->
  List.length matrix = r * c -> List.length vector = n ->
  (exists entries, to_matlab (PArray d (repeat 1 k ++ [r; c]) matrix) = Ok (MArray [r; c] entries) /\
     List.length entries = r * c /\
     forall i j, i < r -> j < c ->
       exists x, ml_entry r entries i j = Some x /\ np_entry c matrix i j = Some x) /\
  to_matlab (PArray d [n] vector) = Ok (MArray [1; n] vector).
Proof.
  intros Hd Hm Hv. split.
  - assert (Hm' : List.length matrix = product (repeat 1 k ++ [r; c])).
    { rewrite product_app, product_repeat, !product_cons. change (product []) with 1. lia. }
    destruct (convert_matrix V d k r c matrix Hd Hm') as (en & E & L & N).
    exists en. split; [exact E|]. split; [exact L|]. intros i j Hi Hj. rewrite (N i j Hi Hj).
    unfold np_entry. destruct (nth_error matrix (i * c + j)) as [x|] eqn:X; eauto.
    apply nth_error_None in X. nia.
  - exact (convert_vector V d n vector Hd Hv).
Qed.
Print Assumptions array_transfer.
Example array_transfer_ex :
  to_matlab (PArray Float64 [2; 3] [11; 12; 13; 21; 22; 23]%Z) = Ok (MArray [2; 3] [11; 21; 12; 22; 13; 23]%Z) /\
  to_matlab (PArray Float64 [1; 1; 2; 3] [11; 12; 13; 21; 22; 23]%Z) = Ok (MArray [2; 3] [11; 21; 12; 22; 13; 23]%Z) /\
  to_matlab (PArray Int32 [3] [1; 2; 3]%Z) = Ok (MArray [1; 3] [1; 2; 3]%Z).
Proof. repeat split; reflexivity. Qed.
Example array_transfer_ex2 :
  exists entries, to_matlab (PArray Float32 [2; 2] [1; 2; 3; 4]%Z) = Ok (MArray [2; 2] entries) /\
    exists x, ml_entry 2 entries 0 1 = Some x /\ np_entry 2 [1; 2; 3; 4]%Z 0 1 = Some x.
Proof.
  assert (K : known_dtype Float32) by discriminate.
  destruct (array_transfer Z Float32 0 2 2 0 [1; 2; 3; 4]%Z [] K eq_refl eq_refl) as [(en & E & _ & N) _].
  exists en. split; [exact E|]. apply N; lia.
Qed.

(** Whatever is transferred: MATLAB finds exactly the numbers of the Python
    object, each at the position and under the keys it has in Python. *)
Theorem transfer_values (V : Type) (v : pyval V) m :
  to_matlab v = Ok m ->
  forall p x, minside p m (MNum x) <-> (inside p v (PNum x) \/ inside p v (PGeneric x)).
Proof. intros H p x. split; [apply (values_only V v m H)|apply (values_there V v m H)]. Qed.
Print Assumptions transfer_values.
Example transfer_values_ex :
  let v := PDict [("gates", PSeries [("BA", 3%Z); ("BB", 4%Z)]); ("list", PList [PNum 1%Z; PGeneric 2%Z])] in
  exists m, to_matlab v = Ok m /\ minside [Key "gates"; Key "BB"] m (MNum 4%Z) /\ minside [Key "list"; At 1] m (MNum 2%Z).
Proof.
  intros v. destruct (to_matlab v) as [m|] eqn:E; [|discriminate]. exists m. split; [reflexivity|].
  split; apply (transfer_values Z v m E); right.
  - econstructor; [left; reflexivity|]. constructor. right. left. reflexivity.
  - econstructor; [right; left; reflexivity|]. econstructor; [reflexivity|]. constructor.
Qed.

(** A transfer is refused exactly if something that MATLAB cannot take is
    inside: another object (a str, a bool, None), an array of another type or
    with too many or no dimensions, a Series with a repeated label. *)
Theorem transfer_refused (V : Type) (v : pyval V) :
  sound v ->
  ((exists e, to_matlab v = Raise e) <-> exists p w, inside p v w /\ unfit w).
Proof.
  intros S. split.
  - intros [e H]. eapply refused_there; eauto.
  - intros (p & w & I & U). destruct (to_matlab v) as [m|e] eqn:E; eauto.
    destruct (ok_inside V p v w I m E) as [m' M]. exfalso. eapply unfit_raise; eauto.
Qed.
Print Assumptions transfer_refused.
Example transfer_refused_ex :
  (exists e, to_matlab (PList [PNum 1%Z; PDict [("gate", POther)]]) = Raise e) /\
  (exists e, to_matlab (PArray (OtherDtype "int64") [2] [1; 2]%Z) = Raise e) /\
  (exists e, to_matlab (PArray Float64 [2; 1; 2] [1; 2; 3; 4]%Z) = Raise e) /\
  (exists e, to_matlab (PArray Float64 [] [1%Z]) = Raise e) /\
  ~ (exists e, to_matlab (PArray Float64 [1; 2; 2] [1; 2; 3; 4]%Z) = Raise e).
Proof.
  split; [|split; [|split; [|split]]].
  - apply transfer_refused; [cbn; tauto|]. exists [At 1; Key "gate"], POther. split; [|exact I].
    econstructor; [reflexivity|]. econstructor; [left; reflexivity|]. constructor.
  - eexists. reflexivity.
  - eexists. reflexivity.
  - eexists. reflexivity.
  - rewrite transfer_refused by reflexivity. intros (p & w & J & U). inversion J; subst. apply U. split.
    + discriminate.
    + right. exists 1, 2, 2. reflexivity.
Qed.

(** The claim "to_matlab refuses what MATLAB cannot take" fails for tuples:
    a tuple becomes a generator over the unconverted objects, whatever they
    are, and nothing inside reaches MATLAB. *)
Theorem tuple_refuted (V : Type) (l : list (pyval V)) :
  to_matlab (PTuple l) = Ok (MGenerator l) /\
  forall p x m, to_matlab (PTuple l) = Ok m -> ~ minside p m (MNum x).
Proof.
  split; [reflexivity|]. intros p x m H I. apply (proj1 (transfer_values V _ m H p x)) in I.
  destruct I as [I|I]; inversion I.
Qed.
Print Assumptions tuple_refuted.
Example tuple_refuted_ex : to_matlab (PTuple [PNum 1%Z; POther]) = Ok (MGenerator [PNum 1%Z; POther]).
Proof. apply tuple_refuted. Qed.

(** The registry: a second connection to a session is attempted only for
    sessions this process has started. *)
Theorem connect_once name qs :
  Forall (proper name) qs ->
  forall p, In p (r_twice (serve_all name qs (mk_registry [] [] []))) -> In (Start p) qs.
Proof.
  intros P p I. pose proof (serve_all_registered name qs [] _ (registered_empty name) P) as (_ & _ & _ & _ & T).
  apply (T p I).
Qed.
Print Assumptions connect_once.
Definition session (p : nat) : string := if Nat.eqb p 7 then "MATLAB_7" else "MATLAB_9".
Example connect_once_ex :
  let qs := [ConnectName "MATLAB_7" 7; ConnectName "MATLAB_9" 9; ConnectName "MATLAB_7" 7; ConnectAny 9; Drop 7; ConnectName "MATLAB_7" 7] in
  Forall (proper session) qs /\ r_twice (serve_all session qs (mk_registry [] [] [])) = [] /\
  r_connected (serve_all session qs (mk_registry [] [] [])) = [7; 9].
Proof.
  cbv zeta. split; [repeat constructor|]. split; reflexivity.
Qed.

(** Asking again gives the same engine without a new connection, as long as
    it lives; [connect=True] gives the first engine of the registry. *)
Theorem connect_again name qs s p :
  Forall (proper name) qs -> s = name p ->
  let r := serve_all name qs (mk_registry [] [] []) in
  forall r' e, serve name (ConnectName s p) r = (r', Ok e) ->
  serve name (ConnectName s p) r' = (r', Ok e) /\ name e = s /\ In e (r_connected r') /\
  exists e', serve name (ConnectAny p) r' = (r', Ok e') /\ In e' (r_connected r').
Proof.
  intros P -> r r' e H. subst r. set (r := serve_all name qs _) in *.
  pose proof (serve_all_registered name qs [] _ (registered_empty name) P) as R. cbn [app] in R. fold r in R.
  pose proof (serve_registered name qs (ConnectName (name p) p) r R eq_refl) as R'.
  rewrite H in R'. cbn [fst] in R'. destruct R' as (_ & _ & C & D & _).
  assert (F : find_key (KName (name p)) (r_engines r') = Some e).
  { cbn [serve] in H. destruct (find_key (KName (name p)) (r_engines r)) as [e0|] eqn:E.
    - injection H as <- <-. exact E.
    - unfold connect_to in H. destruct (existsb (Nat.eqb p) (r_connected r)); [discriminate|].
      injection H as <- <-. apply find_put_key. }
  pose proof (find_key_In _ _ _ F) as I. split; [|split; [|split]].
  - cbn [serve]. rewrite F. reflexivity.
  - symmetry. apply (C _ _ I).
  - apply (D _ _ I).
  - cbn [serve]. destruct (r_engines r') as [|[k e'] l] eqn:E; [destruct I|]. exists e'. split; auto.
    apply (D k e'). left. reflexivity.
Qed.
Print Assumptions connect_again.
Example connect_again_ex :
  let r := serve_all session [ConnectName "MATLAB_9" 9; Start 4] (mk_registry [] [] []) in
  exists r' e, serve session (ConnectName "MATLAB_7" 7) r = (r', Ok e) /\ e = 7 /\
    serve session (ConnectName "MATLAB_7" 7) r' = (r', Ok 7) /\ serve session (ConnectAny 3) r' = (r', Ok 9).
Proof. cbv zeta. do 2 eexists. split; [reflexivity|]. repeat split; reflexivity. Qed.

(** A started engine is registered under its process id only: connecting to it
    by its name tries to connect a second time and fails. *)
Theorem connect_started_refuted name p :
  let r := serve_all name [Start p] (mk_registry [] [] []) in
  r_connected r = [p] /\
  snd (serve name (ConnectName (name p) p) r) = Raise engine_error /\
  In p (r_twice (fst (serve name (ConnectName (name p) p) r))) /\
  serve name (ConnectAny p) r = (r, Ok p).
Proof.
  cbv zeta. cbn. unfold connect_to. cbn. rewrite Nat.eqb_refl. cbn. auto.
Qed.
Print Assumptions connect_started_refuted.
Example connect_started_refuted_ex :
  snd (serve session (ConnectName "MATLAB_7" 7) (serve_all session [Start 7] (mk_registry [] [] []))) = Raise engine_error.
Proof. reflexivity. Qed.
