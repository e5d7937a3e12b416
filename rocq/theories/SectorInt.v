(** Integrals over the unit cube are preserved by the decomposition (for polynomial integrands). *)
From Verif Require Export SectorProofs3.
Local Open Scope nat_scope.

Section Int.
Variable F : Fld.
Add Field Ffield_int : (@f_th F).
Hypothesis char0 : forall n, natF (F := F) (S n) <> f0.
Notation Poly := (@poly F).
Local Open Scope fld_scope.

(** int_0^1 ... int_0^1 x^e dx = prod 1/(e_i+1) *)
Definition cube_moment (e : list Z) : F := prodF (map (fun k => finv (zF (k + 1))) e).
Definition cube_int (p : Poly) : F := sumF (map (fun t => snd t * cube_moment (fst t)) (ptm p)).

Definition nonneg_row (e : list Z) : Prop := Forall (fun k => (0 <= k)%Z) e.
Lemma zF_pos k : (0 < k)%Z -> zF (F := F) k <> 0.
Proof. intros H. replace k with (Z.of_nat (S (Z.to_nat (k - 1)))) by lia. rewrite zF_of_nat. apply char0. Qed.

(* rows *)
Definition rrow (sp : list nat) (e : list Z) : list Z :=
  match sp with [] => e | a :: bs => fold_left (fun r b => upd a (getZ a r + getZ b r)%Z r) bs e end.
Definition jrow (sp : list nat) (e : list Z) : list Z :=
  match sp with [] => e | a :: bs => upd a (getZ a e + (Z.of_nat (length sp) - 1))%Z e end.
Lemma remap_poly_rows sp (p : Poly) : ptm (remap_poly sp p) = map (fun t => (rrow sp (fst t), snd t)) (ptm p).
Proof.
  destruct sp as [|a bs]; [cbn; rewrite <- map_id at 1; apply map_ext; intros []; reflexivity|]. cbn [remap_poly rrow].
  revert p. induction bs as [|b bs IH]; intros p; cbn [fold_left]; [rewrite <- map_id at 1; apply map_ext; intros []; reflexivity|].
  rewrite IH. cbn [add_col ptm]. rewrite map_map. reflexivity.
Qed.
Lemma remap_jac_rows sp (p : Poly) : ptm (remap_jac sp p) = map (fun t => (jrow sp (fst t), snd t)) (ptm p).
Proof. destruct sp as [|a bs]; [cbn; rewrite <- map_id at 1; apply map_ext; intros []; reflexivity|]. reflexivity. Qed.

Definition sumZ_at (l : list nat) (e : list Z) : Z := fold_right (fun b acc => (getZ b e + acc)%Z) 0%Z l.
Lemma rrow_spec a bs : forall e, (a < length e)%nat -> ~ In a bs -> rrow (a :: bs) e = upd a (getZ a e + sumZ_at bs e)%Z e.
Proof.
  cbn [rrow]. induction bs as [|b bs IH]; intros e Ha Hna; cbn [fold_left].
  - cbn. rewrite Z.add_0_r, upd_getZ. reflexivity.
  - rewrite IH; [|rewrite upd_length; exact Ha|intros H; apply Hna; right; exact H].
    assert (E : sumZ_at bs (upd a (getZ a e + getZ b e)%Z e) = sumZ_at bs e).
    { clear IH. assert (Hn : ~ In a bs) by (intros H; apply Hna; right; exact H). clear Hna. induction bs as [|c bs IH]; [reflexivity|]. cbn.
      rewrite getZ_upd by exact Ha. destruct (Nat.eqb_spec a c) as [->|]; [exfalso; apply Hn; left; reflexivity|].
      f_equal. apply IH. intros H; apply Hn; right; exact H. }
    rewrite E. rewrite getZ_upd, Nat.eqb_refl by exact Ha. cbn [sumZ_at fold_right]. fold (sumZ_at bs e).
    apply (nth_ext _ _ 0%Z 0%Z); rewrite !upd_length; [reflexivity|]. intros j Hj. rewrite !nth_upd, !upd_length. destruct (_ && _); [lia|reflexivity].
Qed.
Lemma jrrow_spec a bs e : (a < length e)%nat -> ~ In a bs ->
  jrow (a :: bs) (rrow (a :: bs) e) = upd a (getZ a e + sumZ_at bs e + Z.of_nat (length bs))%Z e.
Proof.
  intros Ha Hna. rewrite rrow_spec by assumption. cbn [jrow]. rewrite getZ_upd, Nat.eqb_refl by exact Ha.
  apply (nth_ext _ _ 0%Z 0%Z); rewrite !upd_length; [reflexivity|]. intros j Hj. rewrite !nth_upd, !upd_length. destruct (_ && _); [cbn [length]; lia|reflexivity].
Qed.
Lemma moment_upd a k e : (a < length e)%nat -> nonneg_row e -> (0 <= k)%Z ->
  cube_moment (upd a k e) = cube_moment e * zF (getZ a e + 1) * finv (zF (k + 1)).
Proof.
  intros Ha He Hk. unfold cube_moment. revert a Ha. induction He as [|c e Hc He IH]; intros [|a] Ha; cbn [length] in Ha; try lia.
  - cbn [upd map prodF]. unfold getZ. cbn [nth]. assert (zF (F:=F) (c + 1) <> 0) by (apply zF_pos; lia). assert (zF (F:=F) (k + 1) <> 0) by (apply zF_pos; lia). field. auto.
  - cbn [upd map prodF]. rewrite IH by lia. unfold getZ. cbn [nth]. ring.
Qed.
Lemma sumZ_at_perm l l' e : Permutation l l' -> sumZ_at l e = sumZ_at l' e.
Proof. induction 1; cbn; try lia; unfold sumZ_at in *; cbn in *; lia. Qed.
Lemma sumZ_at_nonneg l e : nonneg_row e -> (0 <= sumZ_at l e)%Z.
Proof. intros H. induction l as [|a l IH]; cbn; [lia|]. pose proof (getZ_nonneg a e H). unfold sumZ_at in IH. lia. Qed.
Lemma sum_weights l e : sumF (map (fun a => zF (F:=F) (getZ a e + 1)) l) = zF (sumZ_at l e + Z.of_nat (length l)).
Proof.
  induction l as [|a l IH]; [reflexivity|]. cbn [map sumF]. rewrite IH, <- zF_add. f_equal. cbn [sumZ_at fold_right length]. fold (sumZ_at l e). lia.
Qed.
Lemma set_moment n S0 e : NoDup S0 -> S0 <> [] -> Forall (fun i => (i < n)%nat) S0 -> length e = n -> nonneg_row e ->
  sumF (map (fun sp => cube_moment (jrow sp (rrow sp e))) (subsector_sets S0)) = cube_moment e.
Proof.
  intros Hn Hne Hr HL He.
  set (K := zF (F:=F) (sumZ_at S0 e + Z.of_nat (length S0))).
  assert (HK : K <> 0). { apply zF_pos. pose proof (sumZ_at_nonneg S0 e He). destruct S0; [congruence|]. cbn [length]. lia. }
  transitivity (sumF (map (fun sp => cube_moment e * finv K * zF (getZ (hd 0%nat sp) e + 1)) (subsector_sets S0))).
  - apply sumF_map_ext. intros sp Hsp. pose proof (good_sets_of n S0 Hn Hr sp Hsp) as (G1 & _ & G3).
    destruct (subsector_sets_perm S0 sp Hsp) as [Hp (a & bs & ->)]. inversion G1 as [|? ? Hna _]; subst. inversion G3 as [|? ? Ha _]; subst.
    rewrite jrrow_spec by assumption. rewrite moment_upd; [|exact Ha|exact He|].
    + cbn [hd]. replace (getZ a e + sumZ_at bs e + Z.of_nat (length bs) + 1)%Z with (sumZ_at S0 e + Z.of_nat (length S0))%Z; [fold K; ring|].
      rewrite <- (sumZ_at_perm _ _ e Hp), <- (Permutation_length Hp). cbn [sumZ_at fold_right length]. fold (sumZ_at bs e). lia.
    + pose proof (getZ_nonneg a e He). pose proof (sumZ_at_nonneg bs e He). lia.
  - rewrite <- (map_map (fun sp => zF (getZ (hd 0%nat sp) e + 1)) (fun w => cube_moment e * finv K * w)), sumF_scale.
    rewrite <- (map_map (hd 0%nat) (fun a => zF (getZ a e + 1))), subsector_sets_heads, sum_weights. fold K. field. exact HK.
Qed.

(** naive products of term lists *)
Definition tmul (p q : list (term F)) : list (term F) := flat_map (fun t => map (fun u => (row_add (fst t) (fst u), snd t * snd u)) q) p.
Definition tone (n : nat) : list (term F) := [(zrow n, 1)].
Fixpoint tpow n (p : list (term F)) (k : nat) : list (term F) := match k with O => tone n | S k => tmul p (tpow n p k) end.
Definition tprod n (l : list (list (term F))) : list (term F) := fold_right tmul (tone n) l.
Definition svalue n (ks ls : list nat) (s : sector F) : list (term F) :=
  tmul (tmul (tprod n (map (fun q => tpow n (tmul (ptm (fst (fst q))) (ptm (snd (fst q)))) (snd q)) (combine (scast s) ks)))
             (tprod n (map (fun q => tpow n (ptm (fst q)) (snd q)) (combine (sother s) ls)))) (ptm (sjac s)).
Definition tint (ts : list (term F)) : F := sumF (map (fun t => snd t * cube_moment (fst t)) ts).
Definition teval (ts : list (term F)) (x : list F) : F := sumF (map (fun t => snd t * meval (fst t) x) ts).

Definition twf n (ts : list (term F)) := Forall (fun t => length (fst t) = n /\ nonneg_row (fst t)) ts.
Lemma nonneg_def x e : length x = length e -> nonneg_row e -> Forall2 (pow_ok (F:=F)) x e.
Proof. intros HL He. revert x HL. induction He as [|k e Hk He IH]; intros [|v x] HL; cbn in HL; try discriminate; constructor; [right; exact Hk|apply IH; lia]. Qed.
Lemma nonneg_row_add a b : nonneg_row a -> nonneg_row b -> nonneg_row (row_add a b).
Proof. intros Ha. revert b. induction Ha as [|k a Hk Ha IH]; intros b Hb; [constructor|]. destruct Hb as [|l b Hl Hb]; [constructor|constructor; [cbn [fst snd]; lia|apply IH, Hb]]. Qed.
Lemma tmul_wf n p q : twf n p -> twf n q -> twf n (tmul p q).
Proof.
  intros Hp Hq. unfold tmul, twf in *. rewrite Forall_forall in *. intros t Ht. apply in_flat_map in Ht as (u & Hu & Ht). apply in_map_iff in Ht as (v & <- & Hv).
  cbn [fst]. destruct (Hp u Hu), (Hq v Hv). split; [rewrite row_add_length; congruence|apply nonneg_row_add; assumption].
Qed.
Lemma tone_wf n : twf n (tone n).
Proof. repeat constructor; cbn [fst]; [apply zrow_length|]. unfold zrow. apply Forall_forall. intros z Hz. apply repeat_spec in Hz. lia. Qed.
Lemma tpow_wf n p k : twf n p -> twf n (tpow n p k).
Proof. intros Hp. induction k as [|k IH]; [apply tone_wf|apply tmul_wf; assumption]. Qed.
Lemma tprod_wf n l : Forall (twf n) l -> twf n (tprod n l).
Proof. induction 1; [apply tone_wf|apply tmul_wf; assumption]. Qed.
Lemma teval_mul n p q x : twf n p -> twf n q -> length x = n -> teval (tmul p q) x = teval p x * teval q x.
Proof.
  intros Hp Hq HL. unfold teval, tmul. induction Hp as [|t p [Ht1 Ht2] Hp IH]; [cbn [flat_map map sumF]; ring|].
  cbn [flat_map]. rewrite map_app, sumF_app, IH. cbn [map sumF]. rewrite map_map.
  assert (E : sumF (map (fun u => snd (row_add (fst t) (fst u), snd t * snd u) * meval (fst (row_add (fst t) (fst u), snd t * snd u)) x) q)
     = snd t * meval (fst t) x * sumF (map (fun u => snd u * meval (fst u) x) q)).
  { rewrite <- sumF_scale, map_map. apply sumF_map_ext. intros u Hu. cbn [fst snd]. unfold twf in Hq. rewrite Forall_forall in Hq. destruct (Hq u Hu).
    rewrite meval_row_add by (apply nonneg_def; congruence). ring. }
  rewrite E. ring.
Qed.
Lemma teval_one n x : teval (tone n) x = 1.
Proof. unfold teval, tone. cbn [map sumF fst snd]. rewrite meval_zrow. ring. Qed.
Lemma teval_pow n p k x : twf n p -> length x = n -> teval (tpow n p k) x = npow (teval p x) k.
Proof. intros Hp HL. induction k as [|k IH]; [apply teval_one|]. cbn [tpow npow]. rewrite (teval_mul n) by (try assumption; apply tpow_wf, Hp). rewrite IH. reflexivity. Qed.
Lemma teval_prod n l x : Forall (twf n) l -> length x = n -> teval (tprod n l) x = prodF (map (fun p => teval p x) l).
Proof.
  intros Hl HL. induction Hl as [|p l Hp Hl IH]; [apply teval_one|]. cbn [tprod fold_right map prodF].
  rewrite (teval_mul n); [|exact Hp|apply tprod_wf, Hl|exact HL]. fold (tprod n l). rewrite IH. reflexivity.
Qed.

(* remapping is linear on rows *)
Lemma getZ_row_add' j a b : length a = length b -> getZ j (row_add a b) = (getZ j a + getZ j b)%Z.
Proof.
  intros H. destruct (Nat.lt_ge_cases j (length a)) as [Hj|Hj]; [apply getZ_row_add; assumption|].
  unfold getZ. rewrite !nth_overflow; [lia|lia|lia|]. rewrite row_add_length; lia.
Qed.
Lemma upd_row_add a u v : forall e f, length e = length f -> upd a (u + v)%Z (row_add e f) = row_add (upd a u e) (upd a v f).
Proof.
  induction a as [|a IH]; intros [|c e] [|d f] H; cbn in *; try discriminate; try reflexivity. f_equal. apply IH. lia.
Qed.
Lemma rrow_length sp e : length (rrow sp e) = length e.
Proof. destruct sp as [|a bs]; [reflexivity|]. cbn [rrow]. revert e. induction bs as [|b bs IH]; intros e; [reflexivity|]. cbn [fold_left]. rewrite IH, upd_length. reflexivity. Qed.
Lemma rrow_add sp e f : length e = length f -> rrow sp (row_add e f) = row_add (rrow sp e) (rrow sp f).
Proof.
  destruct sp as [|a bs]; [reflexivity|]. cbn [rrow]. revert e f. induction bs as [|b bs IH]; intros e f H; [reflexivity|]. cbn [fold_left].
  rewrite <- IH by (rewrite !upd_length; exact H). f_equal. rewrite <- upd_row_add by exact H. f_equal. rewrite !getZ_row_add' by exact H. lia.
Qed.
Lemma jrow_add sp e f : length e = length f -> jrow sp (row_add e f) = row_add e (jrow sp f).
Proof.
  intros H. destruct sp as [|a bs]; [reflexivity|]. cbn [jrow]. rewrite getZ_row_add' by exact H. rewrite <- Z.add_assoc, upd_row_add by exact H.
  rewrite upd_getZ. reflexivity.
Qed.
Definition tmap (f : list Z -> list Z) (ts : list (term F)) := map (fun t => (f (fst t), snd t)) ts.
Lemma tmap_mul n sp p q : twf n p -> twf n q -> tmap (rrow sp) (tmul p q) = tmul (tmap (rrow sp) p) (tmap (rrow sp) q).
Proof.
  intros Hp Hq. unfold tmap, tmul. induction Hp as [|t p [Ht _] Hp IH]; [reflexivity|]. cbn [flat_map map]. rewrite map_app, IH. f_equal.
  rewrite !map_map. apply map_ext_in. intros u Hu. cbn [fst snd]. unfold twf in Hq. rewrite Forall_forall in Hq. destruct (Hq u Hu). rewrite rrow_add by congruence. reflexivity.
Qed.
Lemma tmap_jmul n sp p q : twf n p -> twf n q -> tmap (jrow sp) (tmul p q) = tmul p (tmap (jrow sp) q).
Proof.
  intros Hp Hq. unfold tmap, tmul. induction Hp as [|t p [Ht _] Hp IH]; [reflexivity|]. cbn [flat_map map]. rewrite map_app, IH. f_equal.
  rewrite !map_map. apply map_ext_in. intros u Hu. cbn [fst snd]. unfold twf in Hq. rewrite Forall_forall in Hq. destruct (Hq u Hu). rewrite jrow_add by congruence. reflexivity.
Qed.
Lemma rrow_zrow sp n : rrow sp (zrow n) = zrow n.
Proof.
  destruct sp as [|a bs]; [reflexivity|]. cbn [rrow]. induction bs as [|b bs IH]; [reflexivity|]. cbn [fold_left].
  replace (upd a (getZ a (zrow n) + getZ b (zrow n))%Z (zrow n)) with (zrow n); [exact IH|]. apply (nth_ext _ _ 0%Z 0%Z); [rewrite upd_length; reflexivity|].
  intros j Hj. rewrite nth_upd. unfold getZ, zrow. rewrite !nth_repeat. destruct (_ && _); reflexivity.
Qed.
Lemma rrow_nonneg sp e : nonneg_row e -> nonneg_row (rrow sp e).
Proof.
  destruct sp as [|a bs]; [auto|]. cbn [rrow]. revert e. induction bs as [|b bs IH]; intros e He; [exact He|]. cbn [fold_left]. apply IH, upd_nonneg; [|exact He].
  pose proof (getZ_nonneg a e He). pose proof (getZ_nonneg b e He). lia.
Qed.
Lemma tmap_wf n sp p : twf n p -> twf n (tmap (rrow sp) p).
Proof.
  unfold twf, tmap. intros H. apply Forall_map. eapply Forall_impl; [|exact H]. intros t [H1 H2]. cbn [fst]. rewrite rrow_length. split; [exact H1|apply rrow_nonneg, H2].
Qed.
Lemma tmap_pow n sp p k : twf n p -> tmap (rrow sp) (tpow n p k) = tpow n (tmap (rrow sp) p) k.
Proof.
  intros Hp. induction k as [|k IH]; [unfold tone, tmap; cbn; unfold tone; rewrite rrow_zrow; reflexivity|]. cbn [tpow]. rewrite (tmap_mul n), IH; [reflexivity|exact Hp|apply tpow_wf, Hp].
Qed.
Lemma tmap_prod n sp l : Forall (twf n) l -> tmap (rrow sp) (tprod n l) = tprod n (map (tmap (rrow sp)) l).
Proof.
  induction 1 as [|p l Hp Hl IH]; [unfold tone, tmap; cbn; unfold tone; rewrite rrow_zrow; reflexivity|]. cbn [tprod fold_right map]. fold (tprod n l). rewrite (tmap_mul n), IH; [reflexivity|exact Hp|apply tprod_wf, Hl].
Qed.
(* shifting one factor up and the other down does not change the product *)
Lemma tmul_shift n a k (m p : list (term F)) : twf n m -> twf n p ->
  tmul (tmap (fun e => upd a (getZ a e + k)%Z e) m) (tmap (fun e => upd a (getZ a e + - k)%Z e) p) = tmul m p.
Proof.
  intros Hm Hp. unfold tmul, tmap. induction Hm as [|t m [Ht _] Hm IH]; [reflexivity|]. cbn [flat_map map]. rewrite IH. f_equal.
  rewrite map_map. apply map_ext_in. intros u Hu. cbn [fst snd]. f_equal. unfold twf in Hp. rewrite Forall_forall in Hp. destruct (Hp u Hu) as [Hu1 _].
  rewrite <- upd_row_add by congruence. rewrite <- (upd_getZ a (row_add (fst t) (fst u))) at 2. f_equal. rewrite getZ_row_add' by congruence. lia.
Qed.

Definition pok n (p : Poly) := pnv p = n /\ pwf p /\ ptm p <> [] /\ pnonneg p.
Lemma pok_twf n p : pok n p -> twf n (ptm p).
Proof.
  intros (H1 & H2 & _ & H3). unfold twf. unfold pwf in H2. unfold pnonneg in H3. rewrite Forall_forall in *. intros t Ht. split; [rewrite <- H1; apply H2, Ht|apply H3, Ht].
Qed.
Lemma sok_get n (s : sector F) : swf n s -> snonneg s ->
  (forall c, In c (scast s) -> pok n (fst c) /\ pok n (snd c)) /\ (forall p, In p (sother s) -> pok n p) /\ pok n (sjac s).
Proof.
  intros H1 H2. assert (G : forall p, In p (map fst (scast s) ++ map snd (scast s) ++ sother s ++ [sjac s]) -> pok n p).
  { unfold swf, snonneg in *. rewrite Forall_forall in *. intros p Hp. specialize (H1 p Hp). specialize (H2 p Hp). unfold pok. tauto. }
  repeat split; intros; apply G; rewrite !in_app_iff.
  all: try (left; apply in_map; assumption). all: try (right; left; apply in_map; assumption).
  all: try (right; right; left; assumption). all: right; right; right; left; reflexivity.
Qed.
Lemma in_combine_map {A B C} (f : A -> B) (l : list A) (m : list C) : combine (map f l) m = map (fun q => (f (fst q), snd q)) (combine l m).
Proof. revert m. induction l as [|a l IH]; intros [|c m]; cbn; congruence. Qed.

Lemma shift_cast n a (m p : list (term F)) sp mm pp : twf n m -> twf n p ->
  ptm mm = tmap (rrow sp) m -> ptm pp = tmap (rrow sp) p ->
  tmul (ptm (fst (refactorize (mm, pp) [a]))) (ptm (snd (refactorize (mm, pp) [a]))) = tmap (rrow sp) (tmul m p).
Proof.
  intros Hm Hp Em Ep. cbn [refactorize refactorize_params fold_left refactorize1 fst snd]. cbn [shift_col ptm]. rewrite Em, Ep.
  rewrite (tmap_mul n) by assumption. apply (tmul_shift n a (col_min a pp)); apply tmap_wf; assumption.
Qed.
Definition factors_wf n ks ls (s : sector F) : swf n s -> snonneg s ->
  Forall (twf n) (map (fun q => tpow n (tmul (ptm (fst (fst q))) (ptm (snd (fst q)))) (snd q)) (combine (scast s) ks)) /\
  Forall (twf n) (map (fun q => tpow n (ptm (fst q)) (snd q)) (combine (sother s) ls)) /\ twf n (ptm (sjac s)).
Proof.
  intros H1 H2. destruct (sok_get n s H1 H2) as (G1 & G2 & G3). split; [|split; [|apply pok_twf, G3]]; apply Forall_map, Forall_forall; intros (c, k) Hq; cbn [fst snd]; apply tpow_wf.
  - apply in_combine_l in Hq. apply tmul_wf; apply pok_twf, G1, Hq.
  - apply in_combine_l in Hq. apply pok_twf, G2, Hq.
Qed.
Lemma subsector_svalue n ks ls (s : sector F) sp : swf n s -> snonneg s -> good_set n sp ->
  svalue n ks ls (subsector s sp) = tmap (fun e => jrow sp (rrow sp e)) (svalue n ks ls s).
Proof.
  intros H1 H2 (Hnd & Hne & Hr). destruct (factors_wf n ks ls s H1 H2) as (W1 & W2 & W3). destruct (sok_get n s H1 H2) as (G1 & G2 & G3).
  destruct sp as [|a bs]; [congruence|]. set (sp := a :: bs) in *.
  unfold svalue. set (A := tprod n (map _ (combine (scast s) ks))). set (B := tprod n (map _ (combine (sother s) ls))).
  set (A' := tprod n (map _ (combine (scast (subsector s sp)) ks))). set (B' := tprod n (map _ (combine (sother (subsector s sp)) ls))).
  assert (EA : A' = tmap (rrow sp) A).
  { unfold A, A'. rewrite tmap_prod by exact W1. rewrite map_map. cbn [subsector scast]. rewrite in_combine_map, map_map. f_equal. apply map_ext_in.
    intros (c, k) Hq. cbn [fst snd]. apply in_combine_l in Hq. destruct (G1 c Hq) as [P1 P2]. apply pok_twf in P1, P2.
    rewrite tmap_pow by (apply tmul_wf; assumption). f_equal. apply (shift_cast n a); try assumption; apply remap_poly_rows. }
  assert (EB : B' = tmap (rrow sp) B).
  { unfold B, B'. rewrite tmap_prod by exact W2. rewrite map_map. cbn [subsector sother]. rewrite in_combine_map, map_map. f_equal. apply map_ext_in.
    intros (c, k) Hq. cbn [fst snd]. apply in_combine_l in Hq. rewrite tmap_pow by apply pok_twf, G2, Hq. rewrite remap_poly_rows. reflexivity. }
  cbn [subsector sjac]. rewrite EA, EB, remap_jac_rows, remap_poly_rows.
  assert (WA : twf n A) by (apply tprod_wf, W1). assert (WB : twf n B) by (apply tprod_wf, W2).
  change (map (fun t => (jrow sp (fst t), snd t)) (map (fun t => (rrow sp (fst t), snd t)) (ptm (sjac s)))) with (tmap (jrow sp) (tmap (rrow sp) (ptm (sjac s)))).
  rewrite <- (tmap_mul n) by assumption. rewrite <- (tmap_jmul n); [|apply tmap_wf, tmul_wf; assumption|apply tmap_wf; assumption].
  rewrite <- (tmap_mul n); [|apply tmul_wf; assumption|assumption]. unfold tmap. rewrite map_map. reflexivity.
Qed.
Lemma tint_subsectors n S0 (ts : list (term F)) : NoDup S0 -> S0 <> [] -> Forall (fun i => (i < n)%nat) S0 -> twf n ts ->
  sumF (map (fun sp => tint (tmap (fun e => jrow sp (rrow sp e)) ts)) (subsector_sets S0)) = tint ts.
Proof.
  intros Hn Hne Hr Ht. induction Ht as [|t ts [H1 H2] Ht IH].
  - unfold tint, tmap. cbn [map sumF]. induction (subsector_sets S0) as [|sp l IHl]; [reflexivity|]. cbn [map sumF]. rewrite IHl. ring.
  - unfold tint at 2. cbn [map sumF]. fold (tint ts). rewrite <- IH. rewrite <- (set_moment n S0 (fst t)) by assumption. clear IH.
    unfold tint, tmap. cbn [map sumF fst snd]. induction (subsector_sets S0) as [|sp l IHl]; cbn [map sumF]; [ring|]. rewrite IHl. ring.
Qed.
Lemma svalue_wf n ks ls (s : sector F) : swf n s -> snonneg s -> twf n (svalue n ks ls s).
Proof. intros H1 H2. destruct (factors_wf n ks ls s H1 H2) as (W1 & W2 & W3). apply tmul_wf; [apply tmul_wf; apply tprod_wf; assumption|exact W3]. Qed.
Lemma shift_nonneg a (m p : Poly) : pwf m -> pwf p -> ptm p <> [] -> (a < pnv p)%nat -> pnv m = pnv p -> pnonneg m -> pnonneg p ->
  pnonneg (fst (refactorize (m, p) [a])) /\ pnonneg (snd (refactorize (m, p) [a])).
Proof.
  intros Wm Wp Np Ha En Hm Hp. cbn [refactorize refactorize_params fold_left refactorize1 fst snd].
  destruct (col_min_spec F p a Np) as [(t0 & Ht0 & E0) Hmin]. rewrite Forall_forall in Hmin.
  unfold pnonneg in *. split; cbn [shift_col ptm]; apply Forall_map, Forall_forall; intros t Ht; rewrite Forall_forall in Hm, Hp; cbn [fst].
  - apply upd_nonneg; [|apply Hm, Ht]. pose proof (getZ_nonneg a _ (Hm t Ht)). pose proof (getZ_nonneg a _ (Hp t0 Ht0)). lia.
  - apply upd_nonneg; [|apply Hp, Ht]. specialize (Hmin t Ht). cbv beta in Hmin. lia.
Qed.
Lemma subsector_nonneg n (s : sector F) sp : swf n s -> snonneg s -> good_set n sp -> snonneg (subsector s sp).
Proof.
  intros H1 H2 (Hnd & Hne & Hr). destruct (sok_get n s H1 H2) as (G1 & G2 & G3). destruct sp as [|a bs]; [congruence|]. inversion Hr as [|? ? Ha _]; subst.
  assert (R : forall p : Poly, pok n p -> pok n (remap_poly (a :: bs) p)).
  { intros p (E1 & E2 & E3 & E4). destruct (remap_poly_inv F (a :: bs) p) as (R1 & R2 & R3 & R4). unfold pok. rewrite R1. auto. }
  unfold snonneg. apply Forall_forall. intros p Hp. rewrite !in_app_iff in Hp. cbn [subsector scast sother sjac] in Hp. rewrite !map_map in Hp.
  assert (C : forall c, In c (scast s) -> let r := refactorize (remap_poly (a :: bs) (fst c), remap_poly (a :: bs) (snd c)) [a] in pnonneg (fst r) /\ pnonneg (snd r)).
  { intros c Hc. destruct (G1 c Hc) as [P1 P2]. apply R in P1 as (A1 & A2 & A3 & A4). apply R in P2 as (B1 & B2 & B3 & B4). apply shift_nonneg; try assumption; congruence. }
  destruct Hp as [Hp|[Hp|[Hp|[<-|[]]]]].
  - apply in_map_iff in Hp as (c & <- & Hc). apply C, Hc.
  - apply in_map_iff in Hp as (c & <- & Hc). apply C, Hc.
  - apply in_map_iff in Hp as (p0 & <- & Hp0). apply R, G2, Hp0.
  - unfold pnonneg. rewrite remap_jac_rows. apply Forall_map. apply R in G3 as (_ & _ & _ & N). eapply Forall_impl; [|exact N]. intros t Ht. cbn [fst jrow].
    apply upd_nonneg; [|exact Ht]. pose proof (getZ_nonneg a _ Ht). cbn [length]. lia.
Qed.
Lemma step_integral n ks ls (s : sector F) S0 : swf n s -> snonneg s -> NoDup S0 -> S0 <> [] -> Forall (fun i => (i < n)%nat) S0 ->
  sumF (map (fun sp => tint (svalue n ks ls (subsector s sp))) (subsector_sets S0)) = tint (svalue n ks ls s).
Proof.
  intros H1 H2 Hn Hne Hr. rewrite <- (tint_subsectors n S0 (svalue n ks ls s)); [|assumption..|apply svalue_wf; assumption].
  apply sumF_map_ext. intros sp Hsp. f_equal. apply subsector_svalue; [exact H1|exact H2|]. apply (good_sets_of n S0); assumption.
Qed.
Lemma decomposition_integral n ix ks ls fuel (s : sector F) l : good_ix n ix -> swf n s -> srefactorized ix s -> snonneg s ->
  iterative_decomposition fuel s ix = Some l ->
  sumF (map (fun s' => tint (svalue n ks ls s')) l) = tint (svalue n ks ls s) /\ Forall (fun s' => swf n s' /\ snonneg s') l.
Proof.
  intros Hix Hwf Href Hnn H. revert Hnn.
  refine (decomposition_ind F n ix (fun s l => snonneg s -> sumF (map (fun s' => tint (svalue n ks ls s')) l) = tint (svalue n ks ls s) /\ Forall (fun s' => swf n s' /\ snonneg s') l) Hix _ _ fuel s l Hwf Href H).
  - clear. intros s Hwf _ _ Hnn. cbn [map sumF]. split; [ring|]. repeat constructor; assumption.
  - clear -char0. intros s S0 rs Hwf _ _ Hn Hl Hr _ Hf Hnn. assert (Hne : S0 <> []) by (intros ->; cbn in Hl; lia).
    rewrite <- (step_integral n ks ls s S0) by assumption.
    assert (Hg : forall sp, In sp (subsector_sets S0) -> good_set n sp) by (apply good_sets_of; assumption).
    revert Hf Hg. generalize (subsector_sets S0). clear -Hwf Hnn. intros sps Hf. induction Hf as [|sp r sps rs (H1 & _ & H3) Hf IH]; intros Hg; [split; [reflexivity|constructor]|].
    cbn [concat map]. rewrite map_app, sumF_app. cbn [sumF].
    destruct IH as [IH1 IH2]; [intros; apply Hg; right; assumption|]. destruct H3 as [E1 E2]; [apply (subsector_nonneg n); [exact Hwf|exact Hnn|apply Hg; left; reflexivity]|].
    rewrite IH1, E1. split; [reflexivity|]. apply Forall_app. split; assumption.
Qed.
Lemma svalue_eval n ks ls (s : sector F) x : swf n s -> snonneg s -> length x = n -> teval (svalue n ks ls s) x = sector_value ks ls s x.
Proof.
  intros H1 H2 HL. destruct (factors_wf n ks ls s H1 H2) as (W1 & W2 & W3). destruct (sok_get n s H1 H2) as (G1 & G2 & G3). unfold svalue, sector_value.
  rewrite (teval_mul n); [|apply tmul_wf; apply tprod_wf; assumption|exact W3|exact HL].
  rewrite (teval_mul n); [|apply tprod_wf; assumption..|exact HL]. rewrite !(teval_prod n) by assumption. rewrite !map_map.
  f_equal. f_equal.
  - apply prodF_map_ext. intros (c, k) Hq. cbn [fst snd]. apply in_combine_l in Hq. destruct (G1 c Hq) as [P1 P2]. apply pok_twf in P1, P2.
    rewrite (teval_pow n) by (try exact HL; apply tmul_wf; assumption). rewrite (teval_mul n) by assumption. reflexivity.
  - apply prodF_map_ext. intros (c, k) Hq. cbn [fst snd]. apply in_combine_l in Hq. rewrite (teval_pow n) by (try exact HL; apply pok_twf, G2, Hq). reflexivity.
Qed.
End Int.
