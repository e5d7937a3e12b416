(** Proofs about the numerator of Feynman parametrised integrals. *)
From Coq Require Import Reals Lra Lia List ZArith.
From Verif Require Import PolyProofs RealField PolyReal ParamModel ParamSpec.
Import ListNotations.
Local Open Scope nat_scope.

Section Ok.
Variable F : Fld.
Local Open Scope fld_scope.
Add Field Fpp : (f_th F).
Implicit Types p q : PolyModel.poly F.
Definition rok (nv : nat) (e : list Z) : Prop := length e = nv /\ Forall (fun k => (0 <= k)%Z) e.
Lemma rok_zrow nv : rok nv (zrow nv).
Proof. split; [apply zrow_length|]. unfold zrow. apply Forall_forall. intros k Hk. apply repeat_spec in Hk. lia. Qed.
Lemma rok_add nv a b : rok nv a -> rok nv b -> rok nv (row_add a b).
Proof.
  intros [L1 A] [L2 B]. split; [rewrite row_add_length; lia|]. clear L1 L2. revert b B. unfold row_add.
  induction A as [|k a Hk A IH]; intros [|k' b] B; cbn; constructor; inversion B; subst; [cbn; lia|]. apply IH. assumption.
Qed.
Lemma proper_rows nv p : proper nv p <-> pnv p = nv /\ Forall (fun t => rok nv (fst t)) (ptm p).
Proof.
  unfold proper, pwf, pnonneg, rok. split.
  - intros (<- & A & B). split; [reflexivity|]. rewrite Forall_forall in *. intros t Ht. split; auto.
  - intros (<- & A). split; [reflexivity|]. rewrite Forall_forall in A. split; apply Forall_forall; intros t Ht; apply (A t Ht).
Qed.
Lemma proper_def nv p (x : list F) : proper nv p -> length x = nv -> pdef p x.
Proof.
  intros H L. apply proper_rows in H. destruct H as [E H]. split; [congruence|].
  eapply Forall_impl; [|exact H]. cbv beta. intros t [L1 A].
  assert (L' : length (fst t) = length x) by congruence. clear -L' A. revert x L'.
  induction A as [|k e Hk A IH]; intros [|a x] L; cbn in L; try discriminate; constructor; [right; lia|]. apply IH. lia.
Qed.
Lemma proper_simplify nv p : proper nv p -> proper nv (psimplify p).
Proof.
  intros H. apply proper_rows in H. destruct H as [E H]. apply proper_rows. split; [rewrite psimplify_nv; exact E|].
  apply (psimplify_rows F (rok nv)); [exact H|]. rewrite E. apply rok_zrow.
Qed.
Lemma proper_const nv (c : F) : proper nv (pconst nv c).
Proof. apply proper_rows. split; [reflexivity|]. repeat constructor. apply zrow_length. apply rok_zrow. Qed.
Lemma proper_mul_num nv p (c : F) : proper nv p -> proper nv (pmul_num p c).
Proof.
  intros H. unfold pmul_num. destruct (feqb c 1); [exact H|]. destruct (feqb c 0).
  { destruct H as [<- _]. apply proper_const. }
  apply proper_rows in H. destruct H as [E H]. apply proper_rows. split; [exact E|]. cbn [ptm].
  rewrite Forall_map. exact H.
Qed.
Lemma proper_times nv p q : proper nv p -> proper nv q -> proper nv (ptimes p q) /\
  forall x : list F, length x = nv -> peval (ptimes p q) x = peval p x * peval q x.
Proof.
  intros Hp Hq. destruct (pmul_total F p q) as [r Er]. { destruct Hp, Hq. congruence. }
  unfold ptimes. rewrite Er. split.
  2:{ intros x Hx. apply (pmul_eval F p q r x Er); eapply proper_def; eauto. }
  unfold pmul in Er. destruct (Nat.eqb _ _); [|discriminate]. injection Er as <-. apply proper_simplify.
  apply proper_rows in Hp, Hq. destruct Hp as [E1 H1], Hq as [E2 H2]. apply proper_rows. split; [exact E1|]. cbn [ptm].
  rewrite Forall_forall in *. intros t Ht. apply in_flat_map in Ht. destruct Ht as (u & Hu & Ht). apply in_map_iff in Ht.
  destruct Ht as (v & <- & Hv). cbn [fst]. apply rok_add; auto.
Qed.
Lemma proper_plus nv p q : proper nv p -> proper nv q -> proper nv (pplus p q) /\
  forall x : list F, peval (pplus p q) x = peval p x + peval q x.
Proof.
  intros Hp Hq. unfold pplus. destruct (psub_or_add false p q) as [r|] eqn:Er.
  2:{ unfold psub_or_add in Er. destruct Hp as [E1 _], Hq as [E2 _]. rewrite E1, E2, Nat.eqb_refl in Er. discriminate. }
  split.
  2:{ intros x. apply (padd_eval F false p q r x Er). }
  unfold psub_or_add in Er. destruct (Nat.eqb _ _); [|discriminate]. injection Er as <-. apply proper_simplify.
  apply proper_rows in Hp, Hq. destruct Hp as [E1 H1], Hq as [E2 H2]. apply proper_rows. split; [exact E1|]. cbn [ptm].
  apply Forall_app. split; assumption.
Qed.
Lemma Forall_upd {A} (Q : A -> Prop) i v l : Q v -> Forall Q l -> Forall Q (upd i v l).
Proof. intros Hv H. revert i. induction H as [|a l Ha H IH]; intros [|i]; cbn; constructor; auto. Qed.
Lemma getZ_nonneg i e : Forall (fun k => (0 <= k)%Z) e -> (0 <= getZ i e)%Z.
Proof. intros H. unfold getZ. revert i. induction H as [|a e Ha H IH]; intros [|i]; cbn; auto; lia. Qed.
Lemma proper_derive nv p i : proper nv p -> proper nv (pderive p i).
Proof.
  intros H. apply proper_rows in H. destruct H as [E H]. unfold pderive.
  destruct (filter _ (ptm p)) as [|t0 ts] eqn:Ef; [rewrite E; apply proper_const|]. rewrite <- Ef. apply proper_rows. split; [exact E|].
  cbn [ptm]. rewrite Forall_map. cbn [fst]. rewrite Forall_forall in *. intros t Ht. apply filter_In in Ht. destruct Ht as [Ht Hz].
  destruct (H t Ht) as [L A]. split; [rewrite upd_length; exact L|]. apply Forall_upd; [|exact A].
  pose proof (getZ_nonneg i _ A). apply Bool.negb_true_iff, Z.eqb_neq in Hz. lia.
Qed.
Lemma Forall_delete {A} (Q : A -> Prop) i l : Forall Q l -> Forall Q (delete_nth i l).
Proof. intros H. revert i. induction H as [|a l Ha H IH]; intros [|i]; cbn; try constructor; auto. Qed.
Lemma insert_delete (i : nat) (v : F) (y : list F) : (i <= length y)%nat ->
  delete_nth i (firstn i y ++ v :: skipn i y) = y.
Proof. revert y. induction i as [|i IH]; intros [|a y] H; cbn in *; try reflexivity; try lia. f_equal. apply IH. lia. Qed.
Lemma insert_upd (i : nat) (v : F) (y : list F) : (i <= length y)%nat ->
  upd i v (firstn i y ++ v :: skipn i y) = firstn i y ++ v :: skipn i y.
Proof. revert y. induction i as [|i IH]; intros [|a y] H; cbn in *; try reflexivity; try lia. f_equal. apply IH. lia. Qed.
Lemma proper_drop nv p i : proper (S nv) p -> (i < S nv)%nat -> proper nv (drop0 i p) /\
  forall y : list F, length y = nv -> peval (drop0 i p) y = peval p (firstn i y ++ 0 :: skipn i y).
Proof.
  intros H Hi. pose proof H as (E0 & W & _). apply proper_rows in H. destruct H as [E H]. split.
  - apply proper_simplify, proper_rows. unfold preplace. cbn [pnv ptm]. split; [rewrite E; lia|]. rewrite Forall_map. cbn [fst].
    eapply Forall_impl; [|exact H]. cbv beta. intros t [L A]. split; [rewrite delete_nth_length by lia; lia|]. apply Forall_delete, A.
  - intros y Ly. unfold drop0. rewrite psimplify_eval.
    pose proof (preplace_remove_eval F p i 0 (firstn i y ++ 0 :: skipn i y) W) as Q.
    rewrite insert_delete in Q by lia. unfold set_coord in Q. rewrite insert_upd in Q by lia. apply Q.
    + rewrite app_length. cbn. rewrite firstn_length, skipn_length. lia.
    + lia.
    + unfold replace_ok. eapply Forall_impl; [|exact H]. cbv beta. intros t [L A]. right. apply getZ_nonneg, A.
Qed.
Lemma peval_zero_coeffs p (x : list F) : any_coeff p = false -> peval p x = 0.
Proof.
  unfold any_coeff, peval. induction (ptm p) as [|t ts IH]; cbn; [reflexivity|]. intros H. apply Bool.orb_false_iff in H.
  destruct H as [A B]. rewrite (IH B). apply Bool.negb_false_iff, feqb_spec in A. rewrite A. ring.
Qed.
End Ok.
