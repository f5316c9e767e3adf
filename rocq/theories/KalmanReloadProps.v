(** Property C42 for the Kalman filter. *)
From mathcomp Require Import all_ssreflect all_algebra.
From Verif Require Import PyExn LinAlgModel KalmanModel KalmanSpec KalmanReloadModel.
Set Implicit Arguments. Unset Strict Implicit. Unset Printing Implicit Defensive.
Import GRing.Theory Num.Theory.
Local Open Scope ring_scope.

Section P.
Variables (F : realFieldType) (m n : nat).
Implicit Type k : filter F (m * n) m.

Lemma reload_alpha k : kg_init (kg_to_hdf5 k) = mk_filter (kf_x k) (kf_P k) (kf_F k) (kf_Q k) (kf_R k) `|kf_alpha k|.
Proof. by rewrite /kg_init /kg_to_hdf5 /= /grad vec_mxK trmxK. Qed.
Lemma do_alpha k c : kf_alpha (run_call k c) = kf_alpha k.
Proof. by case: c => diff dvals R Q p; rewrite /run_call /= /kg_update /correct; case: p => /=; case: ifP. Qed.
Lemma run_alpha cs k : kf_alpha (history k cs) = kf_alpha k.
Proof. by elim: cs k => //= c cs IH k; rewrite IH do_alpha. Qed.
Definition with_alpha a k := mk_filter (kf_x k) (kf_P k) (kf_F k) (kf_Q k) (kf_R k) a.
Lemma do_with_alpha k c a : a ^+ 2 = kf_alpha k ^+ 2 -> run_call (with_alpha a k) c = with_alpha a (run_call k c).
Proof.
  by move=> E; case: c => diff dvals R Q p; rewrite /run_call /= /kg_update /correct /predict; case: p => /=; rewrite ?E; case: ifP.
Qed.
Lemma run_with_alpha cs k a : a ^+ 2 = kf_alpha k ^+ 2 -> history (with_alpha a k) cs = with_alpha a (history k cs).
Proof. by elim: cs k => //= c cs IH k E; rewrite do_with_alpha // IH // do_alpha. Qed.
End P.

(** ** C42 *)
(** A filter built with a non-negative fading memory factor and updated in any
    way is rebuilt exactly. *)
Theorem kalman_gradient_reload (F : realFieldType) m n (a : kg_args F m n) cs :
  0 <= ka_alpha a ->
  let k := history (kg_init a) cs in kg_init (kg_to_hdf5 k) = k.
Proof.
  move=> Ha k; rewrite reload_alpha. have -> : `|kf_alpha k| = kf_alpha k by rewrite ger0_norm // run_alpha.
  by case: k.
Qed.
(** For any factor the rebuilt filter gives the same gradient and covariance
    after the same updates. *)
Theorem kalman_gradient_reload_behaves (F : realFieldType) m n (k : filter F (m * n) m) cs :
  let k1 := history k cs in let k2 := history (kg_init (kg_to_hdf5 k)) cs in
  grad k1 = grad k2 /\ kf_P k1 = kf_P k2 /\ kf_R k1 = kf_R k2.
Proof.
  move=> k1 k2; rewrite /k2 reload_alpha. rewrite -[mk_filter _ _ _ _ _ _]/(with_alpha `|kf_alpha k| k).
  rewrite run_with_alpha; [by []|by rewrite -normrX ger0_norm // sqr_ge0].
Qed.
(** The gradient handed to the constructor is the gradient that is read back. *)
Theorem kalman_gradient_given (F : realFieldType) m n (a : kg_args F m n) g :
  ka_x a = Some g -> grad (kg_init a) = g.
Proof. by move=> E; rewrite /grad /kg_init E /= trmxK mxvecK. Qed.
Definition case_gradient : 'M[rat]_(1, 2) := \row_(j < 2) (j%:R + 1).
Definition case_args : kg_args rat_realFieldType 1 2 := mk_kgargs None (Some case_gradient) None None None 1.
Example case_kalman_reload :
  0 <= ka_alpha case_args /\ grad (kg_init case_args) 0 (lift ord0 ord0) = 2%:R /\
  let k := history (kg_init case_args) [:: mk_call (const_mx 1) (const_mx 3%:R) None None true] in
  kg_init (kg_to_hdf5 k) = k.
Proof.
split; first by []. split; first by rewrite (@kalman_gradient_given _ _ _ case_args case_gradient) // mxE.
exact: (@kalman_gradient_reload _ _ _ case_args).
Qed.

Print Assumptions kalman_gradient_reload.
Print Assumptions kalman_gradient_reload_behaves.
Print Assumptions kalman_gradient_given.
