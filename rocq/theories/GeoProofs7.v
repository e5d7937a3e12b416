(** Composition of transformations, Cheng_Wu, vertices, regions. *)
From Verif Require Export GeoFan.
From Verif Require Import DetTrans CubeInt.
Local Open Scope nat_scope.

Lemma mat_prod_get k A B a j : a < length A -> j < k -> getZ j (nth a (mat_prod k A B) []) = sumZ (map (fun c => (getZ c (nth a A []) * getZ j (nth c B []))%Z) (seq 0 (length B))).
Proof.
  intros Ha Hj. set (g := fun r : list Z => map (fun j => sumZ (map (fun c => (getZ c r * getZ j (nth c B []))%Z) (seq 0 (length B)))) (seq 0 k)).
  change (mat_prod k A B) with (map g A). rewrite (nth_indep (map g A) [] (g [])) by (rewrite map_length; exact Ha). rewrite (map_nth g). unfold g.
  apply (getZ_map_seq (fun j => sumZ (map (fun c => (getZ c (nth a A []) * getZ j (nth c B []))%Z) (seq 0 (length B))))), Hj.
Qed.
Lemma row_mul_assoc n m k e A B : length e = n -> is_matrix n m A -> is_matrix m k B ->
  row_mul k (row_mul m e A) B = row_mul k e (mat_prod k A B).
Proof.
  intros He [HA1 HA2] [HB1 HB2]. apply row_eq; rewrite !row_mul_length; [reflexivity|]. intros j Hj.
  rewrite row_mul_get by (rewrite ?row_mul_length; lia). rewrite row_mul_get by (try exact Hj; unfold mat_prod; rewrite map_length; lia). rewrite HB1.
  rewrite (sumZ_ext _ (fun b => sumZ (map (fun a => (getZ a e * getZ b (nth a A []) * getZ j (nth b B []))%Z) (seq 0 n))) (seq 0 m)).
  2:{ intros b Hb. apply in_seq in Hb. rewrite row_mul_get by lia. rewrite HA1, Z.mul_comm, <- sumZ_scale. apply sumZ_ext. intros a _. lia. }
  assert (EP : length (mat_prod k A B) = n) by (unfold mat_prod; rewrite map_length; exact HA1). rewrite sumZ_swap, EP. apply sumZ_ext. intros a Ha. apply in_seq in Ha.
  rewrite mat_prod_get by lia. rewrite HB1, <- sumZ_scale. apply sumZ_ext. intros b _. lia.
Qed.
Lemma existsb_eqb_index i l : existsb (Nat.eqb i) l = match index_of i l with Some _ => true | None => false end.
Proof. induction l as [|a l IH]; [reflexivity|]. cbn. rewrite (Nat.eqb_sym i a). destruct (Nat.eqb a i); [reflexivity|]. cbn. rewrite IH. destruct (index_of i l); reflexivity. Qed.
(** [next] runs through the region vector in the order of the sorted indices *)
Lemma embed_row_get is_ : forall ix r, StronglySorted lt is_ -> StronglySorted lt ix -> Forall (fun i => In i is_) ix -> length r = length ix ->
  length (embed_row is_ ix r) = length is_ /\
  forall a, a < length is_ -> getZ a (embed_row is_ ix r) = match index_of (nth a is_ 0) ix with Some b => getZ b r | None => 0%Z end.
Proof.
  induction is_ as [|i is_ IH]; intros ix r Hs Hx Hin HL; [split; [reflexivity|cbn; lia]|]. apply StronglySorted_inv in Hs as [Hs Hlt]. cbn [embed_row]. rewrite existsb_eqb_index. rewrite Forall_forall in Hlt.
  destruct (index_of i ix) as [b|] eqn:Ei.
  - destruct ix as [|x ix]; [discriminate|]. destruct r as [|z r]; [cbn in HL; lia|]. cbn [hd tl].
    apply StronglySorted_inv in Hx as [Hx Hxlt]. rewrite Forall_forall in Hxlt, Hin.
    assert (x = i).
    { cbn in Ei. destruct (Nat.eqb_spec x i) as [|Hne]; [assumption|]. destruct (index_of i ix) as [b'|] eqn:E'; [|discriminate]. destruct (index_of_some _ _ _ E') as [Hb Eb].
      assert (x < i) by (apply Hxlt; rewrite <- Eb; apply nth_In, Hb). destruct (Hin x (or_introl eq_refl)) as [|Hx']; [lia|]. specialize (Hlt x Hx'). lia. }
    subst x.
    assert (Hsub : forall is' (r' : list Z), (forall j, In j is' -> i < j) -> embed_row is' (i :: ix) r' = embed_row is' ix r').
    { induction is' as [|j is' IHs]; intros r' Hj; [reflexivity|]. cbn [embed_row existsb]. pose proof (Hj j (or_introl eq_refl)) as Hij. destruct (Nat.eqb_spec j i); [lia|]. cbn [orb].
      rewrite !IHs by (intros; apply Hj; right; assumption). reflexivity. }
    rewrite Hsub by exact Hlt.
    destruct (IH ix r Hs Hx) as [IH1 IH2]; [|cbn in HL; lia|].
    { apply Forall_forall. intros k Hk. destruct (Hin k (or_intror Hk)) as [<-|]; [|assumption]. specialize (Hxlt i Hk). lia. }
    split; [cbn; lia|]. intros [|a] Ha; cbn [nth length] in *.
    + cbn. rewrite Nat.eqb_refl. reflexivity.
    + change (getZ (S a) (z :: ?l)) with (getZ a l). rewrite IH2 by lia. cbn [index_of]. assert (Hgt : i < nth a is_ 0) by (apply Hlt, nth_In; lia). destruct (Nat.eqb_spec i (nth a is_ 0)); [lia|].
      destruct (index_of (nth a is_ 0) ix); reflexivity.
  - destruct (IH ix r Hs Hx) as [IH1 IH2]; [|exact HL|].
    { rewrite Forall_forall in *. intros k Hk. destruct (Hin k Hk) as [<-|]; [|assumption]. exfalso. exact (index_of_none _ _ Ei Hk). }
    split; [cbn; lia|]. intros [|a] Ha; cbn [nth length] in *; [rewrite Ei; reflexivity|]. change (getZ (S a) (0%Z :: ?l)) with (getZ a l). apply IH2. lia.
Qed.
Lemma seq_sorted a n : StronglySorted lt (seq a n).
Proof. revert a. induction n as [|n IH]; intros a; cbn; constructor; [apply IH|]. apply Forall_forall. intros k Hk. apply in_seq in Hk. lia. Qed.
Lemma sorted_NoDup l : StronglySorted lt l -> NoDup l.
Proof. induction 1 as [|a l _ IH Hf]; constructor; [|exact IH]. intros H. rewrite Forall_forall in Hf. specialize (Hf a H). lia. Qed.
Lemma embed_dot dim ix r e : StronglySorted lt ix -> Forall (fun i => i < dim) ix -> length r = length ix -> length e = dim ->
  dotZ e (embed_row (seq 0 dim) ix r) = dotZ (take_cols ix e) r.
Proof.
  intros Hs Hr HL He. pose proof (sorted_NoDup _ Hs) as Hn. destruct (embed_row_get (seq 0 dim) ix r (seq_sorted 0 dim) Hs) as [H1 H2]; [|exact HL|].
  { eapply Forall_impl; [|exact Hr]. intros i Hi. cbv beta in Hi. apply in_seq. lia. }
  rewrite seq_length in H1, H2. rewrite (dotZ_sum _ _ dim) by auto. rewrite (sumZ_split dim ix) by assumption. rewrite (dotZ_sum _ _ (length ix)) by (rewrite ?take_cols_length; auto).
  rewrite (sumZ_zero _ (others dim ix)).
  - rewrite Z.add_0_r. apply sumZ_ext. intros a Ha. apply in_seq in Ha. assert (Hra : nth a ix 0 < dim) by (rewrite Forall_forall in Hr; apply Hr, nth_In; lia).
    rewrite H2 by exact Hra. rewrite seq_nth by exact Hra. cbn [Nat.add]. rewrite index_of_nth by (assumption || lia). rewrite take_cols_get by lia. reflexivity.
  - intros i Hi. apply in_others in Hi as [Hi Ei]. rewrite H2 by exact Hi. rewrite seq_nth by exact Hi. cbn [Nat.add]. rewrite Ei. lia.
Qed.
Lemma dotZ_opp a b : dotZ a (map Z.opp b) = (- dotZ a b)%Z.
Proof. unfold dotZ. revert b. induction a as [|x a IH]; intros [|y b]; cbn; try reflexivity. rewrite IH. lia. Qed.
(** the selected vectors bound the exponents from below *)
Lemma select_spec fi ei facets equations regs (es : list (list Z)) :
  Forall (fun f => forall e, In e es -> (0 <= dotZ e (removelast f) + last f 0)%Z) facets ->
  Forall (fun q => forall e, In e es -> (dotZ e (removelast q) + last q 0 = 0)%Z) equations ->
  select_regions fi ei facets equations = Some regs ->
  Forall (fun r => (0 < getZ fi r)%Z /\ (exists f, In f (facets ++ equations) /\ length r = length (removelast f)) /\ exists a, forall e, In e es -> (0 <= dotZ e r + a)%Z) regs.
Proof.
  intros Hf Hq H. unfold select_regions in H.
  assert (K : exists fs, regs = filter (fun f => Z.ltb 0 (getZ fi f)) fs /\ Forall (fun r => (exists f, In f (facets ++ equations) /\ length r = length (removelast f)) /\ exists a, forall e, In e es -> (0 <= dotZ e r + a)%Z) fs).
  { destruct equations as [|q [|]]; [| |discriminate].
    - injection H as <-. eexists. split; [reflexivity|]. apply Forall_map. rewrite Forall_forall in *. intros f Hin. split; [exists f; rewrite app_nil_r; auto|]. exists (last f 0%Z). apply Hf, Hin.
    - apply Forall_cons_iff in Hq as [Hq _]. destruct (Z.ltb 0 (getZ ei q)); [|destruct (Z.ltb (getZ ei q) 0); [|discriminate]].
      + injection H as <-. exists [removelast q]. split; [reflexivity|]. repeat constructor; [exists q; split; [apply in_or_app; right; left; reflexivity|reflexivity]|].
        exists (last q 0%Z). intros e He. rewrite (Hq e He). lia.
      + injection H as <-. exists [map Z.opp (removelast q)]. split; [reflexivity|]. repeat constructor; [exists q; split; [apply in_or_app; right; left; reflexivity|apply map_length]|].
        exists (- last q 0)%Z. intros e He. rewrite dotZ_opp. specialize (Hq e He). lia. }
  destruct K as (fs & -> & Hfs). apply Forall_forall. intros r Hr. apply filter_In in Hr as [Hr Hp]. apply Z.ltb_lt in Hp. rewrite Forall_forall in Hfs. split; [exact Hp|apply Hfs, Hr].
Qed.

Section Region.
Variable F : Fld.
Local Open Scope fld_scope.
Add Field Ffield_geo7 : (@f_th F).
Lemma meval_unit_F n j : forall (x : list F), (j < n)%nat -> length x = n -> meval (unit_row n j) x = nth j x 0.
Proof.
  revert j. induction n as [|n IH]; intros j x Hj Hx; [lia|]. destruct x as [|v x]; [discriminate|]. destruct j as [|j].
  - unfold unit_row, zrow. cbn [repeat upd meval nth]. rewrite (meval_zrow F). rewrite zpow_1_r. ring.
  - unfold unit_row, zrow in *. cbn [repeat upd meval nth]. rewrite IH by (cbn in Hx; lia). change (zpow v 0) with (1 : F). ring.
Qed.
Definition region_matrix (n i : nat) (v : list Z) : list (list Z) :=
  map (fun j => upd i (getZ j v) (if Nat.eqb j i then zrow n else unit_row n j)) (seq 0 n).
Lemma region_matrix_ok n i v : is_matrix n n (region_matrix n i v).
Proof. unfold region_matrix. split; [rewrite map_length, seq_length; reflexivity|]. apply Forall_map, Forall_forall. intros j _. rewrite upd_length. destruct (Nat.eqb j i); [apply zrow_length|apply unit_row_length]. Qed.
Lemma region_matrix_get n i v a b : (i < n)%nat -> (a < n)%nat -> (b < n)%nat -> getZ b (nth a (region_matrix n i v) []) = if Nat.eqb b i then getZ a v else if Nat.eqb a b then 1%Z else 0%Z.
Proof.
  intros Hi Ha Hb. unfold region_matrix. rewrite (nth_map_seq (fun j => upd i (getZ j v) (if Nat.eqb j i then zrow n else unit_row n j))) by exact Ha.
  rewrite getZ_upd by (destruct (Nat.eqb a i); [rewrite zrow_length|rewrite unit_row_length]; exact Hi). rewrite (Nat.eqb_sym i b). destruct (Nat.eqb_spec b i) as [|Hbi]; [reflexivity|].
  destruct (Nat.eqb_spec a i) as [->|Hai]; [rewrite getZ_zrow; destruct (Nat.eqb_spec i b); [lia|reflexivity]|]. apply unit_row_get, Ha.
Qed.
Lemma region_row n i v e : (i < n)%nat -> length e = n -> length v = n -> upd i (dotZ e v) e = row_mul n e (region_matrix n i v).
Proof.
  intros Hi He Hv. destruct (region_matrix_ok n i v) as [H1 H2]. apply row_eq; [rewrite upd_length, row_mul_length; exact He|]. rewrite upd_length, He. intros b Hb.
  rewrite row_mul_get by lia. rewrite H1. rewrite getZ_upd by lia. rewrite (Nat.eqb_sym i b). destruct (Nat.eqb_spec b i) as [->|Hbi].
  - rewrite (dotZ_sum _ _ n) by assumption. apply sumZ_ext. intros a Ha. apply in_seq in Ha. rewrite region_matrix_get by lia. rewrite Nat.eqb_refl. reflexivity.
  - rewrite <- (sumZ_delta n b (fun a => getZ a e) Hb). apply sumZ_ext. intros a Ha. apply in_seq in Ha. rewrite region_matrix_get by lia. destruct (Nat.eqb_spec b i); [lia|]. destruct (Nat.eqb a b); lia.
Qed.
Lemma region_mono n i v (x : list F) : (i < n)%nat -> length x = n -> mono_map (region_matrix n i v) x = region_point i v x.
Proof.
  intros Hi Hx. unfold mono_map, region_matrix, region_point. rewrite map_map, Hx. apply map_ext_in. intros j Hj. apply in_seq in Hj.
  rewrite meval_upd_exp by (destruct (Nat.eqb j i); rewrite ?zrow_length, ?unit_row_length; lia). destruct (Nat.eqb_spec j i) as [->|Hji].
  - assert (E : upd i 0%Z (zrow n) = zrow n) by (rewrite <- (upd_getZ i (zrow n)) at 2; rewrite getZ_zrow; reflexivity). rewrite E, (meval_zrow F). ring.
  - assert (E : upd i 0%Z (unit_row n j) = unit_row n j) by (rewrite <- (upd_getZ i (unit_row n j)) at 2; rewrite unit_row_get by lia; destruct (Nat.eqb_spec j i); [lia|reflexivity]).
    rewrite E, meval_unit_F by lia. ring.
Qed.
Lemma apply_region_eval i v (p : poly F) x : pwf p -> (i < pnv p)%nat -> length v = pnv p -> length x = pnv p -> Forall (fun a => a <> 0) x ->
  peval (apply_region i v p) x = peval p (region_point i v x).
Proof.
  intros Hp Hi Hv Hx Hnz. rewrite <- (region_mono (pnv p)) by auto. rewrite <- (transform_eval F p (pnv p) (region_matrix (pnv p) i v) x) by (auto; apply region_matrix_ok).
  f_equal. unfold apply_region, transform_variables. f_equal. apply map_ext_in. intros t Ht. unfold pwf in Hp. rewrite Forall_forall in Hp. rewrite <- region_row by (auto). reflexivity.
Qed.
End Region.
