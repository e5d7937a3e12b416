(** The geometric decompositions produce sectors in standard form. *)
From Verif Require Export GeoProofs3 HullProofs2.
From Verif Require Import DetTrans.
Local Open Scope nat_scope.

Lemma colZ_transpose k (M : list (list Z)) b : Forall (fun r => length r = k) M -> b < length M -> colZ b (transposeZ k M) = nth b M [].
Proof.
  intros Hl Hb. assert (Lb : length (nth b M []) = k) by (rewrite Forall_forall in Hl; apply Hl, nth_In, Hb).
  apply row_eq; rewrite colZ_length; unfold transposeZ; rewrite map_length, seq_length; [congruence|]. intros j Hj.
  rewrite getZ_colZ by (rewrite map_length, seq_length; exact Hj).
  rewrite (nth_indep (map (fun j => colZ j M) (seq 0 k)) [] (colZ 0 M)) by (rewrite map_length, seq_length; exact Hj). rewrite (map_nth (fun j => colZ j M)), seq_nth by exact Hj.
  apply getZ_colZ, Hb.
Qed.
Lemma transpose_matrix k (M : list (list Z)) : is_matrix k (length M) (transposeZ k M).
Proof. unfold transposeZ. split; [rewrite map_length, seq_length; reflexivity|]. apply Forall_map, Forall_forall. intros j _. apply colZ_length. Qed.
Lemma transpose_get k (M : list (list Z)) a b : a < k -> b < length M -> getZ b (nth a (transposeZ k M) []) = getZ a (nth b M []).
Proof.
  intros Ha Hb. unfold transposeZ. rewrite (nth_indep (map (fun j => colZ j M) (seq 0 k)) [] (colZ 0 M)) by (rewrite map_length, seq_length; exact Ha).
  rewrite (map_nth (fun j => colZ j M)), seq_nth by exact Ha. apply getZ_colZ, Hb.
Qed.
(** columns [cidx] of [normals.T] *)
Lemma sub_transpose k (normals : list (list Z)) cidx : Forall (fun c => c < length normals) cidx ->
  map (take_cols cidx) (transposeZ k normals) = transposeZ k (map (fun c => nth c normals []) cidx).
Proof.
  intros Hc. unfold transposeZ. rewrite map_map. apply map_ext. intros a. unfold take_cols, colZ. rewrite map_map. apply map_ext_in. intros c Hi.
  rewrite Forall_forall in Hc. exact (getZ_colZ c a normals (Hc c Hi)).
Qed.
Lemma abs_det_square k (M : list (list Z)) : 0 < k -> is_matrix k k M -> abs_det M = Z.abs (detZ k M).
Proof.
  intros Hk [H1 H2]. unfold abs_det, DetModel.det.
  match goal with |- match (if ?b then _ else _) with _ => _ end = _ => replace b with true end.
  - unfold detZ. rewrite H1. reflexivity.
  - symmetry. apply andb_true_iff. split; [|destruct (Nat.eqb_spec (length M) 0); [lia|reflexivity]]. unfold DetModel.is_square. apply forallb_forall. intros r Hr. rewrite Forall_forall in H2. apply Nat.eqb_eq. rewrite (H2 r Hr). congruence.
Qed.
Lemma abs_det_transpose k (M : list (list Z)) : 0 < k -> is_matrix k k M -> abs_det (transposeZ k M) = abs_det M.
Proof.
  intros Hk H. rewrite !(abs_det_square k); auto.
  - rewrite detZ_transpose by apply H. reflexivity.
  - destruct H as [H1 _]. pose proof (transpose_matrix k M) as HT. rewrite H1 in HT. exact HT.
Qed.

Section Std.
Variable F : Fld.
Local Open Scope fld_scope.
Notation Poly := (poly F).

Lemma refactorize_all_min (m p : Poly) t0 idx : pwf p -> In t0 (ptm p) -> Forall (fun j => (j < pnv p)%nat) idx ->
  Forall (fun j => Forall (fun t => (getZ j (fst t0) <= getZ j (fst t))%Z) (ptm p)) idx ->
  exists t, In t (ptm (snd (refactorize_all (m, p)))) /\ Forall (fun i => getZ i (fst t) = 0%Z) idx.
Proof.
  intros Hp Ht Hr Hmin. cbn [refactorize_all]. cbv zeta. cbn [snd ptm]. set (ks := map (fun i => col_min i p) (seq 0 (pnv p))).
  exists (row_sub (fst t0) ks, snd t0). split; [apply in_map_iff; exists t0; auto|]. cbn [fst]. apply Forall_forall. intros j Hj.
  rewrite Forall_forall in Hr, Hmin. specialize (Hr j Hj). specialize (Hmin j Hj). unfold pwf in Hp. rewrite Forall_forall in Hp.
  assert (Ekj : getZ j ks = col_min j p) by (unfold ks; apply (getZ_map_seq (fun i => col_min i p)), Hr).
  assert (Hk : length ks = pnv p) by (unfold ks; rewrite map_length, seq_length; reflexivity).
  rewrite getZ_row_sub by (rewrite Hp by exact Ht; lia). rewrite Ekj. rewrite (col_min_unique _ p j (getZ j (fst t0))); [lia|exists t0; auto|exact Hmin].
Qed.
Lemma block_row_dot n idx C e b : NoDup idx -> Forall (fun k => (k < n)%nat) idx -> is_matrix (length idx) (length idx) C -> length e = n -> (b < length idx)%nat ->
  getZ (nth b idx 0%nat) (row_mul n e (block_transformation n idx C)) = dotZ (take_cols idx e) (colZ b C).
Proof.
  intros Hn Hr HC He Hb. rewrite block_row_mul; auto; [|rewrite Forall_forall in Hr; apply Hr, nth_In, Hb]. rewrite index_of_nth by assumption.
  rewrite (dotZ_sum _ _ (length idx)); [|apply take_cols_length|rewrite colZ_length; apply HC]. apply sumZ_ext. intros a Ha. apply in_seq in Ha.
  rewrite take_cols_get by lia. rewrite getZ_colZ by (destruct HC; lia). reflexivity.
Qed.
(** a term that minimises every ray's functional becomes the constant term *)
Lemma standard_from_min n idx C (s s' : sector F) : swf n s -> NoDup idx -> Forall (fun k => (k < n)%nat) idx -> is_matrix (length idx) (length idx) C ->
  scast s' = map (fun q => refactorize (transform_variables (fst q) n (block_transformation n idx C), transform_variables (snd q) n (block_transformation n idx C)) []) (scast s) ->
  Forall (fun q => exists t0, In t0 (ptm (snd q)) /\ forall b, (b < length idx)%nat -> forall t, In t (ptm (snd q)) ->
     (dotZ (take_cols idx (fst t0)) (colZ b C) <= dotZ (take_cols idx (fst t)) (colZ b C))%Z) (scast s) ->
  standard_form idx s'.
Proof.
  intros Hs Hn Hr HC E Hmin. unfold standard_form. rewrite E. apply Forall_map. rewrite Forall_forall in *. intros q Hq. destruct (Hmin q Hq) as (t0 & Ht0 & Hle).
  destruct (swf_get F n s Hs) as (H1 & _ & _). destruct (H1 q Hq) as [_ (Hp & Hw & _)]. unfold pwf in Hw. rewrite Forall_forall in Hw.
  cbn [refactorize]. eapply refactorize_all_min; [apply transform_wf| | |].
  - unfold transform_variables. cbn [ptm]. apply in_map_iff. exists t0. split; [reflexivity|exact Ht0].
  - apply Forall_forall. exact Hr.
  - apply Forall_forall. intros j Hj. unfold transform_variables. cbn [ptm]. apply Forall_map, Forall_forall. intros t Ht. cbn [fst].
    apply (In_nth _ _ 0%nat) in Hj as (b & Hb & <-). rewrite !(block_row_dot n) by (auto; try (apply Forall_forall; exact Hr); rewrite Hw by assumption; exact Hp). apply Hle; assumption.
Qed.
End Std.
