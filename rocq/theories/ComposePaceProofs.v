(** How long the steps of a tuner are. *)
From Verif Require Import PyBase TunerSpec TargetModel SeriesLemmas NewtonModel EstimatorModel KernelR ComposeSpec ComposeProofs ComposeCoupledSpec ComposeCoupledProofs ComposeCurvedSpec ComposeTowerSpec ComposePaceSpec.
From Coq Require Import Lra.
Local Open Scope R_scope.

Lemma unit_changes lstsq (all : list label) b : lstsq_shortest lstsq -> well_formed all b -> forall l, exists H, forall q0, In q0 l -> changes b (fun q => if label_dec q q0 then 1 else 0) (H q0).
Proof.
  intros Hmin [W1 [W2 [W3 [W4 [W5 [W6 [W7 [W8 W9]]]]]]]].
  assert (W8' : forall q, In q (b_params b) -> b_factor b q <> 0) by (intros q Hq; apply (W8 q Hq)).
  induction l as [|q1 l [H IH]]; [exists (fun _ _ => 0); intros q []|].
  destruct (newton_from_exists lstsq all (b_gates b) (b_params b) (fun q => if label_dec q q1 then 1 else 0) (b_factor b) W1 W2 W6 W8' (fun _ => 0) (b_slope b) W9 Hmin (fun _ => 0)) as [h [_ [Hh _]]].
  exists (fun q0 => if label_dec q0 q1 then h else H q0). intros q0 Hq0. destruct (label_dec q0 q1) as [->|Hne].
  - intros q Hq. unfold gradient. rewrite (Hh q Hq). unfold affine. replace (dot all (b_slope b q) (fun _ => 0)) with 0; [unfold Rdiv; ring|]. symmetry. rewrite dot_comm. apply dot_zero_l. auto.
  - destruct Hq0 as [->|Hq0]; [congruence|]. apply IH, Hq0.
Qed.
Lemma dot_sum_r (gs ps : list label) u (x : label -> label -> R) w : dot gs u (fun l => sum ps (fun q => w q * x q l)) = sum ps (fun q => w q * dot gs u (x q)).
Proof.
  unfold dot. rewrite (sum_ext gs _ (fun l => sum ps (fun q => w q * (u l * x q l)))) by (intros l _; rewrite <- sum_scale; apply sum_ext; intros; ring).
  rewrite sum_swap. apply sum_ext. intros q _. apply sum_scale.
Qed.
Lemma sum_pick (ps : list label) (w : label -> R) q : NoDup ps -> In q ps -> sum ps (fun q' => w q' * (if label_dec q q' then 1 else 0)) = w q.
Proof.
  induction ps as [|p ps IH]; intros Hn Hq; [destruct Hq|]. inversion_clear Hn. destruct Hq as [->|Hq]; cbn.
  - destruct (label_dec q q) as [_|K]; [|congruence]. rewrite sum_zero; [lra|]. intros a Ha. destruct (label_dec q a) as [->|_]; [contradiction|lra].
  - rewrite IH by assumption. destruct (label_dec q p) as [->|_]; [contradiction|lra].
Qed.
Lemma sum_abs (ps : list label) (u w : label -> R) r : (forall q, In q ps -> Rabs (w q) <= r) -> Rabs (sum ps (fun q => w q * u q)) <= r * sum ps (fun q => Rabs (u q)).
Proof.
  induction ps as [|p ps IH]; intros H; cbn.
  - rewrite Rabs_R0. lra.
  - eapply Rle_trans; [apply Rabs_triang|]. pose proof (IH (fun q Hq => H q (or_intror Hq))). rewrite Rabs_mult. pose proof (Rmult_le_compat_r (Rabs (u p)) _ _ (Rabs_pos _) (H p (or_introl eq_refl))). lra.
Qed.
Lemma dot_le (gs : list label) y z : (forall l, In l gs -> Rabs (y l) <= z l) -> dot gs y y <= dot gs z z.
Proof.
  unfold dot. induction gs as [|g gs IH]; intros H; cbn; [lra|]. pose proof (IH (fun l Hl => H l (or_intror Hl))). pose proof (H g (or_introl eq_refl)) as K.
  assert (y g * y g <= z g * z g). { replace (y g * y g) with (Rabs (y g) * Rabs (y g)) by (rewrite <- Rabs_mult; apply Rabs_pos_eq; nra). pose proof (Rabs_pos (y g)). nra. } lra.
Qed.

Lemma reaches_exists lstsq (all : list label) b : lstsq_shortest lstsq -> well_formed all b -> exists G, reaches b G.
Proof.
  intros Hmin Wb. destruct (unit_changes lstsq all b Hmin Wb (b_params b)) as [H HH]. pose proof Wb as [_ [_ [_ [_ [W5 [W6 _]]]]]].
  set (Z := fun l => sum (b_params b) (fun q => Rabs (H q l))). exists (rnorm (b_gates b) Z + 1). split; [pose proof (rnorm_nonneg (b_gates b) Z); lra|].
  intros w h r Hw [Hc Hshort].
  assert (Hr : 0 <= r) by (destruct (b_params b) as [|q qs]; [congruence|]; eapply Rle_trans; [apply Rabs_pos|exact (Hw q (or_introl eq_refl))]).
  set (y := fun l => sum (b_params b) (fun q => w q * H q l)).
  assert (Hy : changes b w y).
  { intros q Hq. unfold y. rewrite dot_sum_r. rewrite (sum_ext _ _ (fun q' => w q' * (if label_dec q q' then 1 else 0))); [apply sum_pick; assumption|].
    intros q' Hq'. rewrite (HH q' Hq' q Hq). reflexivity. }
  assert (K : rnorm (b_gates b) h <= rnorm (b_gates b) (fun l => r * Z l)).
  { rewrite !rnorm_dot. apply sqrt_le_1_alt. eapply Rle_trans; [apply Hshort; exact Hy|]. apply dot_le. intros l _. apply sum_abs, Hw. }
  rewrite rnorm_scale, (Rabs_pos_eq r Hr) in K. lra.
Qed.
