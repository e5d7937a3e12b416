(** The subsectors of the geometric decompositions. *)
From Verif Require Export GeoProofs SectorProofs3.
Local Open Scope nat_scope.

Section Sub.
Variable F : Fld.
Local Open Scope fld_scope.
Add Field Ffield_geo2 : (@f_th F).

Lemma nth_repeat_lt {A} (a d : A) n : forall i, (i < n)%nat -> nth i (repeat a n) d = a.
Proof. induction n as [|n IH]; intros [|i] H; cbn; try lia; [reflexivity|apply IH; lia]. Qed.
Lemma map_pred_row (l : list Z) : map (fun k => (k - 1)%Z) l = row_sub l (repeat 1%Z (length l)).
Proof. unfold row_sub. induction l as [|k l IH]; [reflexivity|]. cbn [map length repeat combine fst snd]. rewrite IH. reflexivity. Qed.
Lemma dotZ_ones l : dotZ (repeat 1%Z (length l)) l = fold_right Z.add 0%Z l.
Proof. unfold dotZ. induction l as [|k l IH]; [reflexivity|]. cbn [length repeat combine map fold_right fst snd]. rewrite IH. lia. Qed.
Lemma col_sums_row_mul m T : col_sums m T = row_mul m (repeat 1%Z (length T)) T.
Proof. unfold col_sums, row_mul. apply map_ext. intros j. rewrite <- (dotZ_ones (colZ j T)), colZ_length. reflexivity. Qed.
Lemma col_sums_length m T : length (col_sums m T) = m.
Proof. unfold col_sums. rewrite map_length, seq_length. reflexivity. Qed.
Lemma meval_ones (x : list F) : meval (repeat 1%Z (length x)) x = prodF x.
Proof. induction x as [|v x IH]; [reflexivity|]. cbn [length repeat meval]. rewrite IH, zpow_1_r. reflexivity. Qed.
Lemma mono_map_length T (y : list F) : length (mono_map T y) = length T. Proof. apply map_length. Qed.
(** the monomial factor of the Jacobian: prod x_i / prod y_i *)
Lemma jac_monomial n T (y : list F) : is_matrix n n T -> length y = n -> Forall (fun v => v <> 0) y ->
  meval (map (fun k => (k - 1)%Z) (col_sums n T)) y * prodF y = prodF (mono_map T y).
Proof.
  intros [HT1 HT2] Hy Hnz. rewrite map_pred_row, col_sums_length. rewrite <- Hy at 2. rewrite <- meval_ones.
  assert (E : forall a : F, meval (row_sub (col_sums n T) (repeat 1%Z n)) y * a = meval (row_sub (col_sums n T) (repeat 1%Z n)) y * a) by reflexivity.
  rewrite <- (meval_ones (mono_map T y)), mono_map_length, <- (meval_row_mul F n) by (auto; rewrite ?repeat_length; auto).
  rewrite <- col_sums_row_mul. rewrite Hy.
  rewrite <- (meval_row_sub F y (col_sums n T) (repeat 1%Z n)); [|rewrite col_sums_length; auto|rewrite repeat_length; auto|exact Hnz]. ring.
Qed.
(** only the transformed variables contribute *)
Lemma prod_others n idx C (y : list F) : NoDup idx -> Forall (fun k => (k < n)%nat) idx -> length y = n ->
  prodF (mono_map_at idx C y) = prodF (map (fun i => nth i (mono_map_at idx C y) 0) idx) * prodF (map (fun i => nth i y 0) (others n idx)) /\
  prodF y = prodF (map (fun i => nth i y 0) idx) * prodF (map (fun i => nth i y 0) (others n idx)).
Proof.
  intros Hn Hr Hy. assert (E : forall x : list F, length x = n -> prodF x = prodF (map (fun i => nth i x 0) idx) * prodF (map (fun i => nth i x 0) (others n idx))).
  { intros x Hx. rewrite <- prodF_app, <- map_app. rewrite <- (prodF_perm _ _ _ (Permutation_map (fun i => nth i x 0) (split_perm n idx Hn Hr))).
    f_equal. apply (list_eq_nth 0); [rewrite map_length, seq_length; exact Hx|]. intros j Hj. symmetry. rewrite Hx in Hj. apply (nth_map_seq (fun i => nth i x 0)), Hj. }
  split; [|apply E, Hy].
  rewrite E at 1 by (unfold mono_map_at; rewrite map_length, seq_length; exact Hy). f_equal. apply prodF_map_ext. intros i Hi. apply in_others in Hi as [Hi Ei].
  unfold mono_map_at. rewrite Hy. rewrite (nth_map_seq (fun i => match index_of i idx with Some a => meval (nth a C []) (map (fun j => nth j y 0) idx) | None => nth i y 0 end)) by exact Hi.
  rewrite Ei. reflexivity.
Qed.
Lemma jac_monomial_at n idx C (y : list F) : NoDup idx -> Forall (fun k => (k < n)%nat) idx -> is_matrix (length idx) (length idx) C ->
  length y = n -> Forall (fun v => v <> 0) y ->
  meval (map (fun k => (k - 1)%Z) (col_sums n (block_transformation n idx C))) y * prodF (map (fun i => nth i y 0) idx)
  = prodF (map (fun i => nth i (mono_map_at idx C y) 0) idx).
Proof.
  intros Hn Hr HC Hy Hnz. pose proof (jac_monomial n (block_transformation n idx C) y (conj (block_length _ _ _) (block_rows _ _ _)) Hy Hnz) as H.
  rewrite mono_block in H by assumption. destruct (prod_others n idx C y Hn Hr Hy) as [E1 E2]. rewrite E1, E2 in H.
  assert (Hne : prodF (map (fun i => nth i y 0) (others n idx)) <> 0).
  { apply prodF_neq0, Forall_map, Forall_forall. intros i Hi. apply in_others in Hi as [Hi _]. rewrite Forall_forall in Hnz. apply Hnz, nth_In. lia. }
  match type of H with ?a * (?b * ?c) = ?d * _ => assert (E : (a * b - d) * c = 0) by (transitivity (a * (b * c) - d * c); [ring|rewrite H; ring]) end.
  apply Fintegral in E as [E|E]; [|contradiction]. match type of E with ?a - ?b = 0 => transitivity ((a - b) + b); [ring|rewrite E; ring] end.
Qed.

Lemma transform_wf (p : poly F) m T : pwf (transform_variables p m T).
Proof. unfold pwf, transform_variables. cbn [ptm pnv]. apply Forall_map, Forall_forall. intros t _. apply row_mul_length. Qed.
Lemma Forall2_map_r {A B} (R : A -> B -> Prop) (f : A -> B) l : (forall a, In a l -> R a (f a)) -> Forall2 R l (map f l).
Proof. induction l as [|a l IH]; cbn; intros H; constructor; [apply H; left; reflexivity|apply IH; intros; apply H; right; assumption]. Qed.
Lemma nz_pdef (p : poly F) y : pwf p -> length y = pnv p -> Forall (fun v => v <> 0) y -> pdef p y.
Proof.
  intros Hp Hy Hnz. split; [exact Hy|]. eapply Forall_impl; [|exact Hp]. intros t Ht. cbn in Ht. rewrite <- Ht in Hy. clear - Hy Hnz.
  revert Hy. generalize (fst t) as e. induction Hnz as [|v y Hv Hnz IH]; intros [|k e] HL; cbn in HL; try lia; constructor; [left; exact Hv|apply IH; lia].
Qed.
Lemma make_sector_ku_correct n (s : sector F) idx C : scast s <> [] -> swf n s -> NoDup idx -> Forall (fun k => (k < n)%nat) idx ->
  is_matrix (length idx) (length idx) C -> geo_transformed F n idx C (zF (abs_det C)) s (make_sector_ku s idx C).
Proof.
  intros Hne Hs Hn Hr HC y Hy Hnz. destruct (swf_get F n s Hs) as (H1 & H2 & H3).
  assert (Hnv : sector_nv s = n).
  { unfold sector_nv. destruct (scast s) as [|c l] eqn:E; [congruence|]. apply (H1 c). left; reflexivity. }
  assert (Etr : forall p : poly F, pnv p = n -> pwf p -> peval (transform_variables p n (block_transformation n idx C)) y = peval p (mono_map_at idx C y)).
  { intros p Hp Hw. rewrite transform_eval; auto; [rewrite mono_block by assumption; reflexivity|]. rewrite Hp. split; [apply block_length|apply block_rows]. }
  unfold make_sector_ku. rewrite Hnv. cbv zeta. cbn [scast sother sjac]. split; [|split].
  - apply Forall2_map_r. intros c Hc. destruct (H1 c Hc) as [(Ha & Hb & _) (Ha' & Hb' & _)].
    unfold refactorize. pose proof (refactorize_all_eval F (transform_variables (fst c) n (block_transformation n idx C)) (transform_variables (snd c) n (block_transformation n idx C)) y
      (transform_wf _ _ _) (transform_wf _ _ _) eq_refl Hy Hnz) as E. cbv zeta in E. rewrite E, !Etr by assumption. reflexivity.
  - apply Forall2_map_r. intros p Hp. destruct (H2 p Hp) as (Ha & Hb & _). apply Etr; assumption.
  - destruct H3 as (Ha & Hb & _). set (jac := pmul_num _ _). set (mono := mkPoly n _).
    assert (Enj : pnv jac = n) by (unfold jac, pmul_num; destruct (feqb _ _); [reflexivity|destruct (feqb _ _); reflexivity]).
    destruct (pmul_total F jac mono) as [r Er]; [rewrite Enj; reflexivity|]. rewrite Er.
    assert (Hwj : pwf jac).
    { unfold jac, pmul_num. destruct (feqb _ _); [apply transform_wf|destruct (feqb _ _)].
      - unfold pwf. cbn. constructor; [apply zrow_length|constructor].
      - unfold pwf. cbn [ptm pnv]. apply Forall_map. eapply Forall_impl; [|apply (transform_wf (sjac s) n (block_transformation n idx C))]. intros t Ht. exact Ht. }
    rewrite (pmul_eval F jac mono r y Er); [|apply nz_pdef; [exact Hwj|lia|exact Hnz]|apply nz_pdef; [unfold pwf, mono; cbn [ptm pnv]; constructor; [cbn [fst]; rewrite map_length; apply col_sums_length|constructor]|exact Hy|exact Hnz]].
    unfold jac. rewrite pmul_num_eval, Etr by assumption.
    unfold mono. unfold peval at 2. cbn [ptm map sumF fold_right fst snd].
    rewrite <- (jac_monomial_at n idx C y) by assumption. ring.
Qed.

Lemma combine_map_r {A B C} (f : A -> B) (g : A * B -> C) l : map g (combine l (map f l)) = map (fun a => g (a, f a)) l.
Proof. induction l as [|a l IH]; cbn; [reflexivity|rewrite IH; reflexivity]. Qed.
Lemma assign_cols_transform n idx m T cidx (p : poly F) : NoDup idx -> Forall (fun k => (k < n)%nat) idx -> is_matrix (length idx) m T ->
  length cidx = length idx -> Forall (fun k => (k < m)%nat) cidx -> pnv p = n -> pwf p ->
  assign_cols idx cidx p (transform_variables (restrict_poly idx p) m T) = Some (transform_variables p n (block_transformation n idx (map (take_cols cidx) T))).
Proof.
  intros Hn Hr HT HcL Hc Hp Hw. unfold assign_cols, transform_variables, restrict_poly. cbn [ptm pnv]. rewrite !map_map. cbn [fst snd].
  rewrite map_length, Nat.eqb_refl. f_equal. f_equal; [exact Hp|]. rewrite combine_map_r. apply map_ext_in. intros t Ht. cbn [fst snd]. f_equal.
  unfold pwf in Hw. rewrite Forall_forall in Hw. apply geo_row; auto. rewrite (Hw t Ht). exact Hp.
Qed.
Lemma all_some_map {A B} (f : A -> option B) (g : A -> B) l : (forall a, In a l -> f a = Some (g a)) -> all_some (map f l) = Some (map g l).
Proof.
  induction l as [|a l IH]; cbn [map all_some]; intros H; [reflexivity|]. rewrite H by (left; reflexivity). rewrite IH by (intros; apply H; right; assumption). reflexivity.
Qed.
Lemma psimplify_single n e (c : F) : psimplify (mkPoly n [(e, c)]) = if feqb c 0 then pconst n 0 else mkPoly n [(e, c)].
Proof.
  unfold psimplify. cbn [ptm pnv map]. change (gather [(e, c)] (argsort_2D [fst (e, c)])) with [(e, c)]. cbn [merge_terms merge_loop rev app filter snd].
  destruct (feqb c 0); reflexivity.
Qed.
Lemma row_add_comm_put n idx C m T cidx e : NoDup idx -> Forall (fun k => (k < n)%nat) idx -> is_matrix (length idx) m T -> length cidx = length idx ->
  Forall (fun k => (k < m)%nat) cidx -> length e = n -> C = map (take_cols cidx) T ->
  put_cols idx (take_cols cidx (row_add (map (fun k => (k - 1)%Z) (col_sums m T)) (row_mul m (take_cols idx e) T))) e
  = row_add (row_mul n e (block_transformation n idx C)) (map (fun k => (k - 1)%Z) (col_sums n (block_transformation n idx C))).
Proof.
  intros Hn Hr HT HcL Hc He ->. pose proof HT as [HT1 HT2]. pose proof (sub_matrix _ _ _ _ HT HcL) as HC.
  assert (HLm : length (map (fun k => (k - 1)%Z) (col_sums m T)) = m) by (rewrite map_length; apply col_sums_length).
  assert (HLn : length (map (fun k => (k - 1)%Z) (col_sums n (block_transformation n idx (map (take_cols cidx) T)))) = n) by (rewrite map_length; apply col_sums_length).
  apply row_eq; [rewrite put_cols_length, row_add_length; rewrite row_mul_length; lia|].
  rewrite put_cols_length, He. intros j Hj.
  rewrite (getZ_row_add j (row_mul n e _)) by (rewrite row_mul_length; lia).
  rewrite put_cols_get; [|exact Hn|rewrite take_cols_length; exact HcL|rewrite He; exact Hr].
  rewrite block_row_mul by assumption.
  assert (Epred : forall (l : list Z) k, (k < length l)%nat -> getZ k (map (fun z => (z - 1)%Z) l) = (getZ k l - 1)%Z).
  { intros l k Hk. unfold getZ. rewrite (nth_indep _ 0%Z (0 - 1)%Z) by (rewrite map_length; exact Hk). exact (map_nth (fun z => (z - 1)%Z) l 0%Z k). }
  rewrite Epred by (rewrite col_sums_length; exact Hj). rewrite (col_sums_row_mul n), block_length, block_row_mul by (auto; apply repeat_length).
  destruct (index_of j idx) as [b|] eqn:Ej.
  - destruct (index_of_some _ _ _ Ej) as [Hb _]. assert (Hcb : (nth b cidx 0%nat < m)%nat) by (rewrite Forall_forall in Hc; apply Hc, nth_In; lia).
    rewrite take_cols_get by lia. rewrite getZ_row_add by (rewrite ?row_mul_length; lia). rewrite Epred by (rewrite col_sums_length; exact Hcb).
    rewrite (col_sums_row_mul m). rewrite !row_mul_get by (rewrite ?take_cols_length, ?repeat_length; lia). rewrite HT1.
    rewrite Z.add_comm. f_equal; [|f_equal].
    + apply sumZ_ext. intros a Ha. apply in_seq in Ha. rewrite take_cols_get, sub_get, take_cols_get by lia. reflexivity.
    + apply sumZ_ext. intros a Ha. apply in_seq in Ha. rewrite sub_get, take_cols_get by lia. unfold getZ. rewrite !nth_repeat_lt by (try lia; rewrite Forall_forall in Hr; apply Hr, nth_In; lia). reflexivity.
  - unfold getZ at 3. rewrite nth_repeat_lt by exact Hj. lia.
Qed.
End Sub.
