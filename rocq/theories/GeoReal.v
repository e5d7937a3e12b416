(** The Jacobian determinant of a monomial change of variables. *)
From Verif Require Export RealField PolyReal GeoProofs3.
From Verif Require Import DetTrans.
Local Open Scope nat_scope.

(** the matrix of the partial derivatives of the variables [idx] of [phi] with respect to the variables [idx], at [y] *)
Definition is_jacobian (idx : list nat) (phi : list R -> list R) (y : list R) (J : list (list R)) : Prop :=
  length J = length idx /\ Forall (fun r => length r = length idx) J /\
  forall a b, a < length idx -> b < length idx ->
    derivable_pt_lim (fun t => nth (nth a idx 0) (phi (upd (nth b idx 0) t y)) 0%R) (nth (nth b idx 0) y 0%R) (DetModel.entry 0%R J a b).
Definition detR := DetModel.det 0%R Rplus Rminus Rmult.

Section Scale.
Local Open Scope R_scope.
Notation prodR := (@prodF R_Fld).
Lemma delete_nth_get {A} (d : A) k : forall (l : list A) j, nth j (delete_nth k l) d = nth (if Nat.ltb j k then j else S j) l d.
Proof.
  induction k as [|k IH]; intros [|a l] j.
  - cbn. destruct j; reflexivity.
  - cbn [delete_nth]. destruct j; reflexivity.
  - cbn [delete_nth]. destruct (Nat.ltb j (S k)), j; reflexivity.
  - destruct j as [|j]; cbn [delete_nth nth]; [reflexivity|]. rewrite IH. change (Nat.ltb (S j) (S k)) with (Nat.ltb j k). destruct (Nat.ltb j k); reflexivity.
Qed.
Lemma minor_entry {A} (z : A) k (M : list (list A)) i j : (S i < length M)%nat -> DetModel.entry z (DetModel.minor k M) i j = DetModel.entry z M (S i) (if Nat.ltb j k then j else S j).
Proof.
  intros Hi. destruct M as [|r M]; [cbn in Hi; lia|]. unfold DetModel.entry, DetModel.minor. cbn [tl nth]. rewrite (nth_indep _ [] (delete_nth k [])) by (rewrite map_length; cbn in Hi; lia).
  rewrite (map_nth (delete_nth k)). apply delete_nth_get.
Qed.
Lemma prod_delete (b : list R) k : (k < length b)%nat -> prodR b = nth k b 0 * prodR (delete_nth k b).
Proof.
  revert b. induction k as [|k IH]; intros [|x b] H; cbn in H; try lia; [reflexivity|]. cbn [delete_nth nth]. rewrite !(prodF_cons R_Fld). rewrite (IH b) by lia. cbn. ring.
Qed.
Lemma fold_scale (tR : nat -> R) (tZ : nat -> Z) c l : (forall i, In i l -> tR i = c * IZR (tZ i)) -> forall aR aZ, aR = c * IZR aZ ->
  fold_left (DetModel.add_term Rplus Rminus tR) l aR = c * IZR (fold_left (DetModel.add_term Z.add Z.sub tZ) l aZ).
Proof.
  induction l as [|i l IH]; intros Ht aR aZ E; [exact E|]. cbn [fold_left]. apply IH; [intros; apply Ht; right; assumption|].
  unfold DetModel.add_term. rewrite E, (Ht i) by (left; reflexivity). destruct (Nat.even i); [rewrite plus_IZR|rewrite minus_IZR]; ring.
Qed.
Lemma det_scale D : forall (M : list (list Z)) (J : list (list R)) (u v : list R), length M = D -> length J = D -> length u = D -> length v = D ->
  (forall i j, (i < D)%nat -> (j < D)%nat -> DetModel.entry 0 J i j = nth i u 0 * IZR (DetModel.entry 0%Z M i j) * nth j v 0) ->
  DetModel.det_rec 0 Rplus Rminus Rmult D J = prodR u * prodR v * IZR (detZ D M).
Proof.
  induction D as [|D IH]; intros M J u v HM HJ Hu Hv H; [cbn; ring|].
  destruct D as [|D].
  - destruct u as [|u0 [|]]; cbn in Hu; try lia. destruct v as [|v0 [|]]; cbn in Hv; try lia. cbn [DetModel.det_rec detZ]. rewrite (H 0%nat 0%nat) by lia. unfold detZ. cbn. ring.
  - assert (Ht : forall k, (k < S (S D))%nat -> DetModel.entry 0 J 0 k * DetModel.det_rec 0 Rplus Rminus Rmult (S D) (DetModel.minor k J)
       = prodR u * prodR v * IZR (DetModel.entry 0%Z M 0 k * detZ (S D) (DetModel.minor k M))).
    { intros k Hk. rewrite (H 0%nat k) by lia. rewrite (IH (DetModel.minor k M) (DetModel.minor k J) (tl u) (delete_nth k v)).
      - rewrite (prod_delete v k) by lia. destruct u as [|u0 u]; [cbn in Hu; lia|]. cbn [tl nth]. rewrite (prodF_cons R_Fld), mult_IZR. change (@fmul R_Fld) with Rmult. ring.
      - unfold DetModel.minor. rewrite map_length. destruct M; cbn in *; lia.
      - unfold DetModel.minor. rewrite map_length. destruct J; cbn in *; lia.
      - destruct u; cbn in *; lia.
      - rewrite delete_nth_length; lia.
      - intros i j Hi Hj. rewrite !minor_entry by lia. rewrite H by (destruct (Nat.ltb_spec j k); lia). rewrite delete_nth_get. f_equal. f_equal. destruct u; [cbn in Hu; lia|reflexivity]. }
    change (DetModel.det_rec 0 Rplus Rminus Rmult (S (S D)) J) with
      (fold_left (DetModel.add_term Rplus Rminus (fun i => DetModel.entry 0 J 0 i * DetModel.det_rec 0 Rplus Rminus Rmult (S D) (DetModel.minor i J))) (seq 1 (S D))
        (DetModel.entry 0 J 0 0 * DetModel.det_rec 0 Rplus Rminus Rmult (S D) (DetModel.minor 0 J))).
    change (detZ (S (S D)) M) with
      (fold_left (DetModel.add_term Z.add Z.sub (fun i => (DetModel.entry 0%Z M 0 i * detZ (S D) (DetModel.minor i M))%Z)) (seq 1 (S D))
        (DetModel.entry 0%Z M 0 0 * detZ (S D) (DetModel.minor 0 M))%Z).
    apply fold_scale; [|apply Ht; lia]. intros i Hi. apply in_seq in Hi. apply Ht. lia.
Qed.
Lemma prod_pos (l : list R) : Forall (fun v => 0 < v) l -> 0 < prodR l.
Proof. induction 1 as [|a l Ha _ IH]; [cbn; lra|]. rewrite (prodF_cons R_Fld). apply Rmult_lt_0_compat; assumption. Qed.
Lemma npow_pos (x : R) k : 0 < x -> 0 < @npow R_Fld x k.
Proof. intros H. induction k as [|k IH]; cbn; [lra|]. apply Rmult_lt_0_compat; assumption. Qed.
Lemma zpow_pos (x : R) k : 0 < x -> 0 < @zpow R_Fld x k.
Proof. intros H. destruct k; cbn; [lra|apply npow_pos, H|]. apply Rinv_0_lt_compat, npow_pos, H. Qed.
Lemma meval_pos e : forall (x : list R), Forall (fun v => 0 < v) x -> 0 < @meval R_Fld e x.
Proof. induction e as [|k e IH]; intros [|v x] H; cbn [meval]; try (cbn; lra). inversion H; subst. apply Rmult_lt_0_compat; [apply zpow_pos; assumption|apply IH; assumption]. Qed.

Lemma jacobian_entry n idx C (y : list R) a b : NoDup idx -> Forall (fun k => (k < n)%nat) idx -> is_matrix (length idx) (length idx) C ->
  length y = n -> Forall (fun v => 0 < v) y -> (a < length idx)%nat -> (b < length idx)%nat ->
  derivable_pt_lim (fun t => nth (nth a idx 0%nat) (@mono_map_at R_Fld idx C (upd (nth b idx 0%nat) t y)) 0) (nth (nth b idx 0%nat) y 0)
    (nth (nth a idx 0%nat) (@mono_map_at R_Fld idx C y) 0 * IZR (DetModel.entry 0%Z C a b) * / nth (nth b idx 0%nat) y 0).
Proof.
  intros Hn Hr [HC1 HC2] Hy Hpos Ha Hb.
  assert (Hra : (nth a idx 0%nat < n)%nat) by (rewrite Forall_forall in Hr; apply Hr, nth_In, Ha).
  assert (Hrb : (nth b idx 0%nat < n)%nat) by (rewrite Forall_forall in Hr; apply Hr, nth_In, Hb).
  assert (HCa : length (nth a C []) = length idx) by (rewrite Forall_forall in HC2; apply HC2, nth_In; lia).
  assert (E : forall z : list R, length z = n -> nth (nth a idx 0%nat) (@mono_map_at R_Fld idx C z) 0 = @meval R_Fld (nth a C []) (map (fun j => nth j z 0) idx)).
  { intros z Hz. unfold mono_map_at. change (car R_Fld) with R. rewrite Hz. rewrite (nth_map_seq (fun i => match index_of i idx with Some a => @meval R_Fld (nth a C []) (map (fun j => nth j z 0) idx) | None => nth i z 0 end)) by exact Hra.
    rewrite index_of_nth by assumption. reflexivity. }
  assert (Es : forall t, map (fun j => nth j (upd (nth b idx 0%nat) t y) 0) idx = upd b t (map (fun j => nth j y 0) idx)).
  { intros t. apply (list_eq_nth 0); [rewrite upd_length, !map_length; reflexivity|]. rewrite map_length. intros c Hc.
    rewrite nth_upd, map_length. rewrite (nth_indep (map (fun j => nth j (upd _ t y) 0) idx) 0 ((fun j => nth j (upd (nth b idx 0%nat) t y) 0) 0%nat)) by (rewrite map_length; exact Hc).
    rewrite (map_nth (fun j => nth j (upd (nth b idx 0%nat) t y) 0)). rewrite nth_upd, Hy.
    rewrite (nth_indep (map (fun j => nth j y 0) idx) 0 ((fun j => nth j y 0) 0%nat)) by (rewrite map_length; exact Hc). rewrite (map_nth (fun j => nth j y 0)).
    assert (Hrc : (nth c idx 0%nat < n)%nat) by (rewrite Forall_forall in Hr; apply Hr, nth_In, Hc).
    destruct (Nat.ltb_spec (nth c idx 0%nat) n); [|lia]. destruct (Nat.ltb_spec c (length idx)); [|lia]. rewrite !andb_true_r.
    destruct (Nat.eqb_spec b c) as [->|Hne]; [rewrite Nat.eqb_refl; reflexivity|]. destruct (Nat.eqb_spec (nth b idx 0%nat) (nth c idx 0%nat)) as [E2|]; [|reflexivity].
    exfalso. apply Hne. exact (proj1 (NoDup_nth idx 0%nat) Hn b c Hb Hc E2). }
  apply deriv_ext with (f := fun t => @meval R_Fld (nth a C []) (upd b t (map (fun j => nth j y 0) idx))).
  { intros t. rewrite E by (rewrite upd_length; exact Hy). rewrite Es. reflexivity. }
  set (z := map (fun j => nth j y 0) idx).
  assert (Hzl : length z = length idx) by apply map_length.
  assert (Ezb : nth (nth b idx 0%nat) y 0 = nth b z 0).
  { unfold z. rewrite (nth_indep (map (fun j => nth j y 0) idx) 0 ((fun j => nth j y 0) 0%nat)) by (rewrite map_length; exact Hb). symmetry. exact (map_nth (fun j => nth j y 0) idx 0%nat b). }
  rewrite E by exact Hy. fold z. rewrite Ezb.
  assert (Hzb : 0 < nth b z 0) by (rewrite <- Ezb; rewrite Forall_forall in Hpos; apply Hpos, nth_In; lia).
  assert (Hnz : nth b z 0 <> 0) by lra.
  eapply deriv_val; [apply (meval_deriv b z ltac:(lia) (nth a C [])); [lia|left; exact Hnz]|].
  change (getZ b (nth a C [])) with (DetModel.entry 0%Z C a b).
  assert (HL1 : length (nth a C []) = length z) by lia. assert (HL2 : (b < length z)%nat) by lia.
  rewrite (@meval_upd_exp R_Fld b (DetModel.entry 0%Z C a b - 1)%Z z (nth a C []) HL1 HL2). rewrite (@meval_split R_Fld b z (nth a C []) HL1 HL2).
  change (getZ b (nth a C [])) with (DetModel.entry 0%Z C a b). change (@f0 R_Fld) with 0.
  rewrite (@zpow_pred R_Fld (nth b z 0) _ Hnz). change (@fmul R_Fld) with Rmult. change (@finv R_Fld) with Rinv. change (car R_Fld) with R. ring.
Qed.
(** |det J| = |det C| prod x / prod y *)
Lemma jacobian_det n idx C (y : list R) J d : idx <> [] -> NoDup idx -> Forall (fun k => (k < n)%nat) idx -> is_matrix (length idx) (length idx) C ->
  length y = n -> Forall (fun v => 0 < v) y -> is_jacobian idx (@mono_map_at R_Fld idx C) y J -> detR J = Some d ->
  Rabs d * prodR (map (fun i => nth i y 0) idx) = IZR (Z.abs (detZ (length idx) C)) * prodR (map (fun i => nth i (@mono_map_at R_Fld idx C y) 0) idx).
Proof.
  intros Hne Hn Hr HC Hy Hpos (HJ1 & HJ2 & HJ) Hd. unfold detR, DetModel.det in Hd. destruct (_ && _); [|discriminate]. injection Hd as Hd. rewrite HJ1 in Hd.
  set (u := map (fun i => nth i (@mono_map_at R_Fld idx C y) 0) idx). set (w := map (fun i => nth i y 0) idx).
  assert (Hwpos : Forall (fun v => 0 < v) w).
  { unfold w. apply Forall_map, Forall_forall. intros i Hi. rewrite Forall_forall in Hpos, Hr. apply Hpos, nth_In. rewrite Hy. apply Hr, Hi. }
  assert (Hupos : Forall (fun v => 0 < v) u).
  { unfold u. apply Forall_map, Forall_forall. intros i Hi. rewrite Forall_forall in Hr. unfold mono_map_at. change (car R_Fld) with R. rewrite Hy.
    rewrite (nth_map_seq (fun i => match index_of i idx with Some a => @meval R_Fld (nth a C []) (map (fun j => nth j y 0) idx) | None => nth i y 0 end)) by (apply Hr, Hi).
    destruct (index_of i idx); [apply meval_pos, Hwpos|]. rewrite Forall_forall in Hpos. apply Hpos, nth_In. rewrite Hy. apply Hr, Hi. }
  assert (Hget : forall (f : nat -> R) a, (a < length idx)%nat -> nth a (map f idx) 0 = f (nth a idx 0%nat)).
  { intros f a Ha. rewrite (nth_indep (map f idx) 0 (f 0%nat)) by (rewrite map_length; exact Ha). apply map_nth. }
  rewrite (det_scale (length idx) C J u (map Rinv w)) in Hd.
  - assert (Hinv : prodR (map Rinv w) * prodR w = 1).
    { clear - Hwpos. induction Hwpos as [|v w Hv _ IH]; [cbn; ring|]. cbn [map]. rewrite !(prodF_cons R_Fld). change (@fmul R_Fld) with Rmult.
      transitivity (/ v * v * (prodR (map Rinv w) * prodR w)); [ring|]. rewrite IH. field. lra. }
    rewrite <- Hd. rewrite !Rabs_mult. rewrite (Rabs_pos_eq (prodR u)) by (apply Rlt_le, prod_pos, Hupos).
    assert (Hwi : 0 < prodR (map Rinv w)) by (apply prod_pos, Forall_map; eapply Forall_impl; [|exact Hwpos]; intros v Hv; apply Rinv_0_lt_compat, Hv).
    rewrite (Rabs_pos_eq (prodR (map Rinv w))) by (apply Rlt_le, Hwi). rewrite abs_IZR. fold u w.
    transitivity (prodR u * Rabs (IZR (detZ (length idx) C)) * (prodR (map Rinv w) * prodR w)); [change (car R_Fld) with R; ring|]. rewrite Hinv. ring.
  - apply HC.
  - exact HJ1.
  - unfold u. apply map_length.
  - rewrite map_length. unfold w. apply map_length.
  - intros a b Ha Hb. pose proof (HJ a b Ha Hb) as H1. pose proof (jacobian_entry n idx C y a b Hn Hr HC Hy Hpos Ha Hb) as H2.
    rewrite (uniqueness_limite _ _ _ _ H1 H2). unfold u. rewrite (Hget (fun i => nth i (@mono_map_at R_Fld idx C y) 0)) by exact Ha.
    rewrite (nth_indep (map Rinv w) 0 (/ 0)) by (rewrite map_length; unfold w; rewrite map_length; exact Hb). rewrite (map_nth Rinv). unfold w. rewrite (Hget (fun i => nth i y 0)) by exact Hb. reflexivity.
Qed.
End Scale.
