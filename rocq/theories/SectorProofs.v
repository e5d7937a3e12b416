From Verif Require Export SectorSpec PolyProofs MiscProofs.
Local Open Scope nat_scope.

Section SP.
Variable F : Fld.
Add Field Ffield_sec : (@f_th F).
Local Open Scope fld_scope.
Notation Poly := (@poly F).

Lemma pow_ok_get (x : list F) (e : list Z) i : Forall (fun v => v <> 0) x \/ Forall (fun k => (0 <= k)%Z) e ->
  (i < length x)%nat -> pow_ok (nth i x 0) (getZ i e).
Proof.
  intros [H|H] Hi.
  - left. rewrite Forall_forall in H. apply H, nth_In, Hi.
  - right. unfold getZ. destruct (Nat.lt_ge_cases i (length e)) as [Hl|Hl].
    + rewrite Forall_forall in H. apply H, nth_In, Hl.
    + rewrite nth_overflow by exact Hl. lia.
Qed.

(** * one polynomial *)
Lemma add_col_row a b (x : list F) e : length e = length x -> (a < length x)%nat -> (b < length x)%nat ->
  Forall (fun v => v <> 0) x \/ Forall (fun k => (0 <= k)%Z) e -> a <> b ->
  meval (upd a (getZ a e + getZ b e)%Z e) x = meval e (upd b (nth a x 0 * nth b x 0) x).
Proof.
  intros HL Ha Hb Hok Hab. rewrite meval_upd_exp, meval_set_coord by assumption.
  pose proof (pow_ok_get x e a Hok Ha) as Pa. pose proof (pow_ok_get x e b Hok Hb) as Pb.
  assert (Pab : pow_ok (nth a x 0) (getZ b e)).
  { destruct Hok as [H|H]; [left; rewrite Forall_forall in H; apply H, nth_In, Ha|].
    right. unfold getZ. rewrite Forall_forall in H. apply H, nth_In. lia. }
  rewrite zpow_add by assumption. rewrite zpow_mul_base.
  2:{ destruct Hok as [H|H]; [left; rewrite Forall_forall in H; split; apply H, nth_In; assumption|].
      right. unfold getZ. rewrite Forall_forall in H. apply H, nth_In. lia. }
  assert (E1 : meval e x = zpow (nth a x 0) (getZ a e) * meval (upd a 0%Z e) x) by (apply meval_split; assumption).
  assert (E2 : meval e x = zpow (nth b x 0) (getZ b e) * meval (upd b 0%Z e) x) by (apply meval_split; assumption).
  transitivity (zpow (nth a x 0) (getZ b e) * meval e x); [rewrite E1; ring|rewrite E2; ring].
Qed.

Lemma upd_nonneg a k e : (0 <= k)%Z -> Forall (fun z => (0 <= z)%Z) e -> Forall (fun z => (0 <= z)%Z) (upd a k e).
Proof.
  intros Hk. revert a. induction e as [|c e IH]; intros [|a] H; cbn; auto; inversion H; subst; constructor; auto.
Qed.
Lemma getZ_nonneg i e : Forall (fun z => (0 <= z)%Z) e -> (0 <= getZ i e)%Z.
Proof.
  intros H. unfold getZ. destruct (Nat.lt_ge_cases i (length e)) as [Hl|Hl].
  - rewrite Forall_forall in H. apply H, nth_In, Hl.
  - rewrite nth_overflow by exact Hl. lia.
Qed.
Lemma add_col_wf a b (p : Poly) : pwf p -> pwf (add_col a b p).
Proof.
  unfold pwf. cbn [add_col ptm pnv]. intros H. apply Forall_map. eapply Forall_impl; [|exact H].
  intros t Ht. cbn [fst]. rewrite upd_length. exact Ht.
Qed.
Lemma add_col_nonneg a b (p : Poly) : pnonneg p -> pnonneg (add_col a b p).
Proof.
  unfold pnonneg. cbn [add_col ptm]. intros H. apply Forall_map. eapply Forall_impl; [|exact H].
  intros t Ht. cbn [fst]. apply upd_nonneg; [|exact Ht].
  pose proof (getZ_nonneg a _ Ht). pose proof (getZ_nonneg b _ Ht). lia.
Qed.
Lemma peval_map_rows (f : list Z -> list Z) (p : Poly) n (x y : list F) :
  (forall t, In t (ptm p) -> meval (f (fst t)) y = meval (fst t) x) ->
  peval (mkPoly n (map (fun t => (f (fst t), snd t)) (ptm p))) y = peval p x.
Proof.
  intros H. unfold peval. cbn [ptm]. rewrite map_map. apply sumF_map_ext. intros t Ht. cbn [fst snd]. rewrite H by exact Ht. reflexivity.
Qed.
Lemma eval_ok_row (p : Poly) x t : eval_ok p x -> In t (ptm p) -> Forall (fun v => v <> 0) x \/ Forall (fun k => (0 <= k)%Z) (fst t).
Proof. intros [H|H] Ht; [left; exact H|right]. unfold pnonneg in H. rewrite Forall_forall in H. exact (H t Ht). Qed.
Lemma add_col_eval a b (p : Poly) x : pwf p -> length x = pnv p -> (a < pnv p)%nat -> (b < pnv p)%nat -> a <> b -> eval_ok p x ->
  peval (add_col a b p) x = peval p (upd b (nth a x 0 * nth b x 0) x).
Proof.
  intros Hp HL Ha Hb Hab Hok. unfold add_col.
  apply (peval_map_rows (fun e => upd a (getZ a e + getZ b e)%Z e)). intros t Ht.
  unfold pwf in Hp. rewrite Forall_forall in Hp. specialize (Hp t Ht).
  apply add_col_row; try lia. eapply eval_ok_row; eassumption.
Qed.

Lemma sector_subst_length sp (x : list F) : length (sector_subst sp x) = length x.
Proof. destruct sp as [|a bs]; [reflexivity|]. cbn. rewrite map_length, seq_length. reflexivity. Qed.
Lemma nth_map_seq {A} (f : nat -> A) n j d : (j < n)%nat -> nth j (map f (seq 0 n)) d = f j.
Proof.
  intros H. rewrite (nth_indep _ d (f 0%nat)) by (rewrite map_length, seq_length; exact H).
  rewrite map_nth, seq_nth by exact H. reflexivity.
Qed.
Lemma sector_subst_nth a bs (x : list F) j : (j < length x)%nat ->
  nth j (sector_subst (a :: bs) x) 0 = if existsb (Nat.eqb j) bs then nth a x 0 * nth j x 0 else nth j x 0.
Proof.
  intros H. unfold sector_subst.
  exact (nth_map_seq (fun j => if existsb (Nat.eqb j) bs then nth a x 0 * nth j x 0 else nth j x 0) (length x) j 0 H).
Qed.
Lemma existsb_eqb_false j bs : ~ In j bs -> existsb (Nat.eqb j) bs = false.
Proof.
  intros H. destruct (existsb (Nat.eqb j) bs) eqn:E; [|reflexivity]. apply existsb_exists in E as (k & Hk & E).
  apply Nat.eqb_eq in E. subst. contradiction.
Qed.
Lemma existsb_eqb_true j bs : In j bs -> existsb (Nat.eqb j) bs = true.
Proof. intros H. apply existsb_exists. exists j. split; [exact H|apply Nat.eqb_refl]. Qed.
Lemma list_eq_nth {A} (d : A) l l' : length l = length l' -> (forall j, (j < length l)%nat -> nth j l d = nth j l' d) -> l = l'.
Proof. intros H1 H2. apply (nth_ext _ _ d d H1 H2). Qed.
Lemma sector_subst_cons a b bs (x : list F) : (a < length x)%nat -> (b < length x)%nat -> ~ In a (b :: bs) -> ~ In b bs ->
  upd b (nth a (sector_subst (a :: bs) x) 0 * nth b (sector_subst (a :: bs) x) 0) (sector_subst (a :: bs) x)
  = sector_subst (a :: b :: bs) x.
Proof.
  intros Ha Hb Hna Hnb. apply (list_eq_nth 0).
  { rewrite upd_length, !sector_subst_length. reflexivity. }
  intros j Hj. rewrite upd_length, sector_subst_length in Hj. rewrite nth_upd, sector_subst_length.
  rewrite (sector_subst_nth a (b :: bs)) by exact Hj. cbn [existsb].
  rewrite (sector_subst_nth a bs x a) by exact Ha. rewrite (existsb_eqb_false a bs) by (intros H; apply Hna; right; exact H).
  rewrite (sector_subst_nth a bs x b) by exact Hb. rewrite (existsb_eqb_false b bs) by exact Hnb.
  rewrite (Nat.eqb_sym j b). destruct (Nat.eqb_spec b j) as [->|Hbj]; cbn [andb orb].
  - destruct (Nat.ltb_spec j (length x)); [reflexivity|lia].
  - apply sector_subst_nth. exact Hj.
Qed.
Lemma sector_subst_nz sp (x : list F) : Forall (fun v => v <> 0) x -> Forall (fun i => (i < length x)%nat) sp ->
  Forall (fun v => v <> 0) (sector_subst sp x).
Proof.
  intros H Hsp. destruct sp as [|a bs]; [exact H|]. cbn. apply Forall_map, Forall_forall. intros j Hj. apply in_seq in Hj.
  rewrite Forall_forall in H, Hsp. specialize (Hsp a (or_introl eq_refl)).
  destruct (existsb _ _); [apply Fmul_neq0|]; apply H, nth_In; lia.
Qed.
Lemma remap_poly_inv sp (p : Poly) : pnv (remap_poly sp p) = pnv p /\ (pwf p -> pwf (remap_poly sp p)) /\ (pnonneg p -> pnonneg (remap_poly sp p))
  /\ (ptm p <> [] -> ptm (remap_poly sp p) <> []).
Proof.
  destruct sp as [|a bs]; [repeat split; auto|]. cbn [remap_poly]. revert p.
  induction bs as [|b bs IH]; intros p; cbn [fold_left]; [repeat split; auto|].
  destruct (IH (add_col a b p)) as (H1 & H2 & H3 & H4). split; [exact H1|]. split; [intros H; apply H2, add_col_wf, H|].
  split; [intros H; apply H3, add_col_nonneg, H|]. intros H. apply H4. cbn. intros E. apply map_eq_nil in E. congruence.
Qed.
Lemma eval_ok_subst sp (p : Poly) x : eval_ok p x -> Forall (fun i => (i < length x)%nat) sp -> eval_ok p (sector_subst sp x).
Proof. intros [H|H] Hsp; [left; apply sector_subst_nz; assumption|right; exact H]. Qed.
Lemma remap_poly_eval sp : forall (p : Poly) x, pwf p -> length x = pnv p -> NoDup sp -> Forall (fun i => (i < pnv p)%nat) sp -> eval_ok p x ->
  peval (remap_poly sp p) x = peval p (sector_subst sp x).
Proof.
  destruct sp as [|a bs]; [reflexivity|].
  induction bs as [|b bs IH]; intros p x Hp HL Hn Hr Hok.
  - cbn [remap_poly fold_left]. f_equal. apply (list_eq_nth 0); [rewrite sector_subst_length; reflexivity|].
    intros j Hj. rewrite sector_subst_nth by exact Hj. reflexivity.
  - cbn [remap_poly fold_left]. inversion Hr as [|? ? Ha Hr']; subst. inversion Hr' as [|? ? Hb Hr'']; subst.
    inversion Hn as [|? ? Hna Hn']; subst. inversion Hn' as [|? ? Hnb Hn'']; subst.
    assert (Hok1 : eval_ok (add_col a b p) x) by (destruct Hok as [H|H]; [left; exact H|right; apply add_col_nonneg, H]).
    assert (Hnd : NoDup (a :: bs)) by (constructor; [intros H; apply Hna; right; exact H|exact Hn'']).
    change (fold_left (fun q b0 => add_col a b0 q) bs (add_col a b p)) with (remap_poly (a :: bs) (add_col a b p)).
    rewrite (IH (add_col a b p) x); [|apply add_col_wf, Hp|exact HL|exact Hnd|constructor; assumption|exact Hok1].
    assert (Hok2 : eval_ok p (sector_subst (a :: bs) x)).
    { apply eval_ok_subst; [exact Hok|]. rewrite HL. constructor; assumption. }
    rewrite add_col_eval; [|exact Hp|rewrite sector_subst_length; exact HL|exact Ha|exact Hb|intros ->; apply Hna; left; reflexivity|exact Hok2].
    f_equal. apply sector_subst_cons; [lia|lia|exact Hna|exact Hnb].
Qed.
Lemma shift_col_eval_ok (p : Poly) i k x : pwf p -> length x = pnv p -> (i < pnv p)%nat -> eval_ok p x -> pow_ok (nth i x 0) k ->
  peval (shift_col i k p) x = zpow (nth i x 0) k * peval p x.
Proof.
  intros Hp HL Hi Hok Hk. unfold peval, shift_col. cbn [ptm]. rewrite map_map, <- sumF_scale, map_map.
  apply sumF_map_ext. intros t Ht. cbn [fst snd]. unfold pwf in Hp. rewrite Forall_forall in Hp. specialize (Hp t Ht).
  rewrite meval_upd_exp by lia. rewrite (meval_split F i x (fst t)) by lia.
  rewrite zpow_add; [ring| |exact Hk]. apply pow_ok_get; [eapply eval_ok_row; eassumption|lia].
Qed.
Lemma remap_jac_eval sp (j : Poly) x : pwf j -> length x = pnv j -> sp <> [] -> Forall (fun i => (i < pnv j)%nat) sp -> eval_ok j x ->
  peval (remap_jac sp j) x = peval j x * subst_jac sp x.
Proof.
  intros Hj HL Hne Hr Hok. destruct sp as [|a bs]; [congruence|]. cbn [remap_jac subst_jac]. inversion Hr as [|? ? Ha _]; subst.
  replace (Z.of_nat (length (a :: bs)) - 1)%Z with (Z.of_nat (length bs)) by (cbn [length]; lia).
  rewrite shift_col_eval_ok; [|assumption..|right; lia]. rewrite zpow_of_nat. ring.
Qed.
Lemma remap_jac_inv sp (p : Poly) : pnv (remap_jac sp p) = pnv p /\ (pwf p -> pwf (remap_jac sp p)) /\ (ptm p <> [] -> ptm (remap_jac sp p) <> []).
Proof.
  destruct sp as [|a bs]; [repeat split; auto|]. cbn [remap_jac]. split; [reflexivity|]. split; [apply shift_col_wf|apply shift_col_ne].
Qed.
End SP.
