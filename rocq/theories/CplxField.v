(** The complex numbers (Coquelicot) as a coefficient field. *)
From Coq Require Import Reals Lra.
From Verif Require Export FieldBase.
From Coquelicot Require Import Coquelicot.
Definition Ceq_b (a b : C) : bool := if Req_EM_T (fst a) (fst b) then (if Req_EM_T (snd a) (snd b) then true else false) else false.
Lemma Ceq_b_spec a b : Ceq_b a b = true <-> a = b.
Proof.
  unfold Ceq_b. destruct (Req_EM_T (fst a) (fst b)) as [E|N].
  - destruct (Req_EM_T (snd a) (snd b)) as [E'|N']; split; intros H; try discriminate; try reflexivity; [apply injective_projections; assumption|subst; contradiction].
  - split; intros H; [discriminate|subst; contradiction].
Qed.
Definition C_Fld : Fld := mkFld C (RtoC 0) (RtoC 1) Cplus Cmult Cminus Copp Cdiv Cinv C_field_theory Ceq_b Ceq_b_spec.
