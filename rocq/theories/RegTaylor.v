(** Remainder of the expansion in the smallness parameter. *)
From Coq Require Import Reals Lra Lia List ZArith QArith Qround.
From Verif Require Import PolyProofs RealField PolyReal ParamModel ParamSpec ParamProofs ParamReal ParamStep ParamMeasure RegModel RegSpec RegCurve RegProofs RegDerive RegExpand.
Import ListNotations.
Local Open Scope nat_scope.
Local Open Scope R_scope.

Definition tpoly (K : nat) (f : nat -> R) (t : R) : R := Rsum (map (fun i => f i * (/ INR (fact i) * t ^ i)) (seq 0 K)).
Lemma tpoly_S K f t : tpoly (S K) f t = tpoly K f t + f K * (/ INR (fact K) * t ^ K).
Proof. unfold tpoly. rewrite seq_S, map_app, Rsum_app. cbn [map Nat.add]. unfold Rsum at 2. cbn [fold_right]. ring. Qed.
Lemma tpoly_0 K f : tpoly (S K) f 0 = f O.
Proof. induction K as [|K IH]; rewrite tpoly_S; [unfold tpoly, Rsum; cbn; lra|]. rewrite IH. cbn [pow]. ring. Qed.
Lemma tpoly_deriv K f t : derivable_pt_lim (tpoly (S K) f) t (tpoly K (fun i => f (S i)) t).
Proof.
  induction K as [|K IH].
  - eapply deriv_ext; [|eapply deriv_val; [apply (derivable_pt_lim_const (f O))|]]; [|reflexivity]. intros s. unfold fct_cte, tpoly, Rsum. cbn. field.
  - eapply deriv_ext; [intros s; symmetry; apply (tpoly_S (S K) f s)|]. rewrite tpoly_S.
    apply derivable_pt_lim_plus; [exact IH|]. apply (derivable_pt_lim_scal (fun s => / INR (fact (S K)) * s ^ S K) (f (S K)) t).
    eapply deriv_val; [apply (derivable_pt_lim_scal (fun s => s ^ S K) (/ INR (fact (S K))) t); apply derivable_pt_lim_pow|].
    rewrite fact_simpl, mult_INR. cbn [pred]. field. split; [apply INR_fact_neq_0|apply not_0_INR; lia].
Qed.
Lemma taylor_bound K : forall (f : nat -> R -> R) M d, 
  (forall i s, (i < K)%nat -> Rabs s <= d -> derivable_pt_lim (f i) s (f (S i) s)) -> (forall s, Rabs s <= d -> Rabs (f K s) <= M) ->
  forall t, Rabs t <= d -> Rabs (f O t - tpoly K (fun i => f i 0) t) <= M * Rabs t ^ K.
Proof.
  induction K as [|K IH]; intros f M d Hd HM t Ht.
  { unfold tpoly, Rsum. cbn. rewrite Rminus_0_r, Rmult_1_r. apply HM, Ht. }
  set (g := fun s => f O s - tpoly (S K) (fun i => f i 0) s).
  set (g' := fun s => f 1%nat s - tpoly K (fun i => f (S i) 0) s).
  assert (Dg : forall s, Rabs s <= d -> derivable_pt_lim g s (g' s)).
  { intros s Hs. apply derivable_pt_lim_minus; [apply Hd; [lia|exact Hs]|apply tpoly_deriv]. }
  assert (Bg : forall s, Rabs s <= d -> Rabs (g' s) <= M * Rabs s ^ K).
  { intros s Hs. apply (IH (fun i => f (S i)) M d); try assumption. intros i r Hi Hr. apply Hd; [lia|exact Hr]. }
  destruct (MVT_abs g g' 0 t) as (c & Hc & Rc).
  { intros c Hc. apply Dg. unfold Rmin, Rmax in Hc. revert Ht. unfold Rabs. destruct (Rle_dec 0 t), (Rcase_abs t), (Rcase_abs c); lra. }
  assert (AC : Rabs c <= Rabs t). { unfold Rmin, Rmax in Rc. destruct (Rle_dec 0 t); [rewrite !Rabs_pos_eq by lra; lra|rewrite !Rabs_left1 by lra; lra]. }
  assert (G0 : g 0 = 0) by (unfold g; rewrite tpoly_0; ring).
  rewrite G0, !Rminus_0_r in Hc. change (Rabs (g t) <= M * Rabs t ^ S K). rewrite Hc. cbn [pow].
  assert (B := Bg c ltac:(lra)). assert (P : 0 <= Rabs t) by apply Rabs_pos.
  assert (M0 : 0 <= M). { eapply Rle_trans; [apply Rabs_pos|apply (HM 0)]. rewrite Rabs_R0. eapply Rle_trans; [apply Rabs_pos|exact Ht]. }
  assert (B2 : Rabs (g' c) <= M * Rabs t ^ K). { eapply Rle_trans; [exact B|]. apply Rmult_le_compat_l; [exact M0|]. apply pow_incr. split; [apply Rabs_pos|exact AC]. }
  rewrite (Rmult_comm (Rabs t)), <- Rmult_assoc. apply Rmult_le_compat_r; assumption.
Qed.

Lemma upd_insert i (v w : R) (y : list R) : (i <= length y)%nat -> upd i v (insert_at i w y) = insert_at i v y.
Proof. unfold insert_at. revert y. induction i as [|i IH]; intros [|a y] H; cbn in *; try reflexivity; try lia. f_equal. apply IH. lia. Qed.

Section Rem.
Variables (n index : nat) (names : list nat) (d : list repoly * rpoly) (y : list R).
Hypothesis Hi : (index < S n)%nat.
Hypothesis Hn : ~ In index names.
Hypothesis OK : product_ok (S n) names d.
Hypothesis Ly : length y = n.
Hypothesis HP : positive_at (S n) (fst d) (insert_at index 0 y).

Lemma positive_near (l : list repoly) : Forall (fun Pa : repoly => proper (S n) (fst Pa)) l -> Forall (fun Pa : repoly => 0 < @peval R_Fld (fst Pa) (insert_at index 0 y)) l ->
  exists del, 0 < del /\ forall t, Rabs t <= del -> Forall (fun Pa : repoly => 0 < @peval R_Fld (fst Pa) (insert_at index t y)) l.
Proof.
  induction 1 as [|Pa l Hp H IH]; intros Hv; [exists 1; split; [lra|intros; constructor]|].
  apply Forall_cons_iff in Hv. destruct Hv as [Hv1 Hv]. destruct (IH Hv) as (d1 & D1 & N1).
  assert (L0 : length (insert_at index 0 y) = S n) by (rewrite insert_length, Ly; reflexivity).
  assert (Dp := pderive_correct (fst Pa) index (insert_at index 0 y) (proj1 (proj2 Hp)) (proper_def R_Fld (S n) (fst Pa) _ Hp L0) ltac:(destruct Hp as [-> _]; exact Hi)).
  unfold set_coord in Dp. rewrite nth_insert in Dp by lia. rewrite Nat.ltb_irrefl, Nat.eqb_refl in Dp.
  assert (C : continuity_pt (fun t => @peval R_Fld (fst Pa) (upd index t (insert_at index 0 y))) 0) by (apply derivable_continuous_pt; eexists; exact Dp).
  destruct (C _ Hv1) as (a & A0 & A1). exists (Rmin d1 (a / 2)). split; [apply Rmin_glb_lt; lra|]. intros t Ht.
  pose proof (Rmin_l d1 (a / 2)). pose proof (Rmin_r d1 (a / 2)). constructor; [|apply N1; lra].
  destruct (Req_dec t 0) as [->|NZ]; [exact Hv1|].
  assert (A2 := A1 t). unfold D_x, no_cond, dist in A2. cbn in A2. unfold R_dist in A2. rewrite Rminus_0_r in A2.
  specialize (A2 ltac:(split; [split; [exact I|lra]|lra])).
  rewrite !upd_insert in A2 by lia. apply Rabs_def2 in A2. change (car R_Fld) with R in *. lra.
Qed.
Lemma remainder_bound K : exists M del, 0 < del /\ forall t, Rabs t <= del -> positive_at (S n) (fst d) (insert_at index t y) /\
  Rabs (product_value names d (insert_at index t y) - tpoly K (fun i => product_value names (deriv_iter index names i d) (insert_at index 0 y)) t) <= M * Rabs t ^ K.
Proof.
  assert (Hpp : Forall (fun Pa : repoly => proper (S n) (fst Pa)) (fst d)).
  { destruct OK as (_ & _ & _ & _ & A). eapply Forall_impl; [|exact A]. cbv beta. intros Pa [B _]. exact B. }
  destruct (positive_near (fst d) Hpp (proj2 HP)) as (d1 & D1 & N1).
  set (f := fun (i : nat) (t : R) => product_value names (deriv_iter index names i d) (insert_at index t y)).
  assert (Hd : forall i s, Rabs s <= d1 -> derivable_pt_lim (f i) s (f (S i) s)).
  { intros i s Hs. assert (Q := iter_deriv n index names Hi Hn i d (insert_at index s y) OK).
    specialize (Q ltac:(split; [rewrite insert_length, Ly; reflexivity|apply N1, Hs])).
    rewrite nth_insert in Q by lia. rewrite Nat.ltb_irrefl, Nat.eqb_refl in Q.
    eapply deriv_ext; [|exact Q]. intros t. cbv beta. rewrite upd_insert by lia. reflexivity. }
  assert (C : continuity_pt (f K) 0). { apply derivable_continuous_pt. exists (f (S K) 0). apply Hd. rewrite Rabs_R0. lra. }
  destruct (C 1 ltac:(lra)) as (a & A0 & A1).
  exists (Rabs (f K 0) + 1), (Rmin d1 (a / 2)). split; [apply Rmin_glb_lt; lra|]. intros t Ht.
  pose proof (Rmin_l d1 (a / 2)) as R1. pose proof (Rmin_r d1 (a / 2)) as R2.
  split; [split; [rewrite insert_length, Ly; reflexivity|apply N1; lra]|].
  apply (taylor_bound K f (Rabs (f K 0) + 1) (Rmin d1 (a / 2))); [intros i s _ Hs; apply Hd; lra| |exact Ht].
  intros s Hs. destruct (Req_dec s 0) as [->|NZ]; [lra|].
  assert (A2 := A1 s). unfold D_x, no_cond, dist in A2. cbn in A2. unfold R_dist in A2. rewrite Rminus_0_r in A2.
  specialize (A2 ltac:(split; [split; [exact I|lra]|lra])).
  assert (T := Rabs_triang (f K s - f K 0) (f K 0)). replace (f K s - f K 0 + f K 0) with (f K s) in T by ring. lra.
Qed.
End Rem.

(** all terms of [expand_region] *)
Lemma expand_nth n index names (d : list repoly * rpoly) order i t : (index < S n)%nat -> ~ In index names -> product_ok (S n) names d ->
  (forall m Pa, In (m, Pa) (combine names (fst d)) -> snd Pa <> 0 \/ free_of [m] (snd d)) ->
  nth_error (@expand_region R_Fld (fst d) (snd d) index order names) i = Some t ->
  forall y, length y = n -> product_value (map (skip index) names) t y = / INR (fact i) * product_value names (deriv_iter index names i d) (insert_at index 0 y).
Proof.
  intros Hi Hn OK Hz E y Ly. unfold expand_region in E. destruct (negb (Qle_bool 0 order)); [destruct i; discriminate|]. destruct i as [|i]; cbn [nth_error] in E.
  - injection E as <-. destruct d as [pl N]. cbn [fst snd deriv_iter] in *. rewrite (zeroth_value n index names Hi Hn pl N y OK Ly Hz). cbn. lra.
  - destruct (higher_terms_nth n index names Hi Hn _ 1 1 _ i t E) as [_ B].
    + destruct d as [pl N]. apply (derive_prod_ok (S n) index names pl N OK Hi).
    + lia.
    + cbn. lra.
    + rewrite (B y Ly). reflexivity.
Qed.
Lemma expand_length pl N index order names : length (@expand_region R_Fld pl N index order names) = Z.to_nat (Qfloor order + 1).
Proof.
  unfold expand_region. destruct (Qle_bool 0 order) eqn:E; cbn [negb].
  - apply Qle_bool_iff in E. cbn [length]. rewrite higher_terms_length.
    assert (0 <= Qfloor order)%Z by (change 0%Z with (Qfloor 0); apply Qfloor_resp_le; exact E). lia.
  - cbn [length]. assert (Qfloor order < 0)%Z.
    { assert (NL : ~ (0 <= order)%Q) by (intros H; apply Qle_bool_iff in H; congruence). apply Qnot_le_lt in NL.
      rewrite Zlt_Qlt. eapply Qle_lt_trans; [apply Qfloor_le|exact NL]. }
    lia.
Qed.
