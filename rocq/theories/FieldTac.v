(** The tactics ring and field for the elements of a realFieldType. *)
From mathcomp Require Import all_ssreflect all_algebra.
From Coq Require Import Ring Field.
Set Implicit Arguments. Unset Strict Implicit. Unset Printing Implicit Defensive.
Import Order.TTheory GRing.Theory Num.Theory.
Local Open Scope ring_scope.

Section Ops.
Variable F : realFieldType.
Definition fadd (a b : F) : F := a + b.
Definition fmul (a b : F) : F := a * b.
Definition fopp (a : F) : F := - a.
Definition finv (a : F) : F := a^-1.
Definition fsub (a b : F) : F := fadd a (fopp b).
Definition fdiv (a b : F) : F := fmul a (finv b).
Definition fzero : F := 0.
Definition fone : F := 1.
Lemma addE a b : a + b = fadd a b. Proof. by []. Qed.
Lemma mulE a b : a * b = fmul a b. Proof. by []. Qed.
Lemma oppE a : - a = fopp a. Proof. by []. Qed.
Lemma invE a : a^-1 = finv a. Proof. by []. Qed.
Lemma zeroE : 0 = fzero. Proof. by []. Qed.
Lemma oneE : 1 = fone. Proof. by []. Qed.
Lemma F_field : @field_theory F fzero fone fadd fmul fsub fopp fdiv finv eq.
Proof.
constructor.
- constructor; rewrite /fadd /fmul /fopp /fsub /fzero /fone; intros.
  + by rewrite add0r.
  + by rewrite addrC.
  + by rewrite addrA.
  + by rewrite mul1r.
  + by rewrite mulrC.
  + by rewrite mulrA.
  + by rewrite mulrDl.
  + by [].
  + by rewrite /fadd /fopp subrr.
- by apply/eqP; rewrite oner_eq0.
- by [].
- by move=> p Hp; rewrite /fmul /finv mulVf //; apply/eqP.
Qed.
End Ops.
(** To be used in a section with [Variable F : realFieldType] after
    [Add Field Ffield : (F_field F)]. *)
Ltac fold_field F :=
  rewrite ?exprS ?expr0 ?mulr2n ?mulr1 ?(@addE _) ?(@mulE _) ?(@oppE _) ?(@invE _) ?(@zeroE _) ?(@oneE _);
  match goal with |- @eq _ ?x ?y => change (@eq (Num.RealField.sort F) x y) end.
