(** The complex numbers (Coquelicot) as a commutative ring of mathcomp. *)
From Coq Require Import Reals ClassicalEpsilon.
From Coquelicot Require Import Coquelicot.
From mathcomp Require Import all_ssreflect all_algebra.
Set Implicit Arguments. Unset Strict Implicit. Unset Printing Implicit Defensive.
Definition Ceqb (a b : C) : bool := if excluded_middle_informative (a = b) then true else false.
Lemma CeqP : Equality.axiom Ceqb.
Proof. move=> a b; rewrite /Ceqb; case: excluded_middle_informative => H; by constructor. Qed.
Definition C_eqMixin := EqMixin CeqP.
Canonical C_eqType := Eval hnf in EqType C C_eqMixin.
Definition C_find (P : pred C) (n : nat) : option C := if excluded_middle_informative (exists x, P x) is left H then Some (proj1_sig (constructive_indefinite_description _ H)) else None.
Lemma C_choiceMixin : choiceMixin C.
Proof.
exists C_find => [P n x|P [x Px]|P Q PQ n].
- rewrite /C_find; case: excluded_middle_informative => // H [<-]. exact: (proj2_sig (constructive_indefinite_description _ H)).
- exists 0%N. rewrite /C_find; case: excluded_middle_informative => // H. by case: H; exists x.
- have -> : P = Q by apply: FunctionalExtensionality.functional_extensionality.
  by [].
Qed.
Canonical C_choiceType := Eval hnf in ChoiceType C C_choiceMixin.
Lemma C_addA : associative Cplus. Proof. move=> a b c; ring. Qed.
Lemma C_addC : commutative Cplus. Proof. move=> a b; ring. Qed.
Lemma C_add0 : left_id (RtoC 0) Cplus. Proof. move=> a; ring. Qed.
Lemma C_addN : left_inverse (RtoC 0) Copp Cplus. Proof. move=> a; ring. Qed.
Definition C_zmodMixin := ZmodMixin C_addA C_addC C_add0 C_addN.
Canonical C_zmodType := Eval hnf in ZmodType C C_zmodMixin.
Lemma C_mulA : associative Cmult. Proof. move=> a b c; ring. Qed.
Lemma C_mulC : commutative Cmult. Proof. move=> a b; ring. Qed.
Lemma C_mul1 : left_id (RtoC 1) Cmult. Proof. move=> a; ring. Qed.
Lemma C_mulD : left_distributive Cmult Cplus. Proof. move=> a b c; ring. Qed.
Lemma C_10 : RtoC 1 != RtoC 0. Proof. apply/eqP => H. injection H. exact: R1_neq_R0. Qed.
Definition C_ringMixin := ComRingMixin C_mulA C_mulC C_mul1 C_mulD C_10.
Canonical C_ringType := Eval hnf in RingType C C_ringMixin.
Canonical C_comRingType := Eval hnf in ComRingType C C_mulC.
