(** Monomial substitutions. *)
From Verif Require Export GeoSpec PolyProofs SectorProofs.
Local Open Scope nat_scope.

Section Basics.
Definition sumZ (l : list Z) : Z := fold_right Z.add 0%Z l.
Lemma sumZ_cons a l : sumZ (a :: l) = (a + sumZ l)%Z. Proof. reflexivity. Qed.
Lemma sumZ_app l l' : sumZ (l ++ l') = (sumZ l + sumZ l')%Z.
Proof. induction l as [|a l IH]; cbn [app]; [reflexivity|rewrite !sumZ_cons, IH; lia]. Qed.
Lemma sumZ_perm l l' : Permutation l l' -> sumZ l = sumZ l'.
Proof. induction 1; rewrite ?sumZ_cons; lia. Qed.
Lemma sumZ_ext {A} (f g : A -> Z) l : (forall a, In a l -> f a = g a) -> sumZ (map f l) = sumZ (map g l).
Proof. intros H. f_equal. apply map_ext_in. exact H. Qed.
Lemma sumZ_zero {A} (f : A -> Z) l : (forall a, In a l -> f a = 0%Z) -> sumZ (map f l) = 0%Z.
Proof. induction l as [|a l IH]; cbn [map]; intros H; [reflexivity|]. rewrite sumZ_cons, H by (left; reflexivity). rewrite IH; [reflexivity|]. intros; apply H; right; assumption. Qed.
Lemma sumZ_plus {A} (f g : A -> Z) l : sumZ (map (fun a => (f a + g a)%Z) l) = (sumZ (map f l) + sumZ (map g l))%Z.
Proof. induction l as [|a l IH]; cbn [map]; [reflexivity|rewrite !sumZ_cons, IH; lia]. Qed.
Lemma sumZ_scale {A} (f : A -> Z) c l : sumZ (map (fun a => (c * f a)%Z) l) = (c * sumZ (map f l))%Z.
Proof. induction l as [|a l IH]; cbn [map]; [cbn; lia|rewrite !sumZ_cons, IH; lia]. Qed.
Lemma sumZ_swap {A B} (f : A -> B -> Z) l l' : sumZ (map (fun a => sumZ (map (f a) l')) l) = sumZ (map (fun b => sumZ (map (fun a => f a b) l)) l').
Proof.
  induction l as [|a l IH]; cbn [map]; [cbn; symmetry; apply sumZ_zero; reflexivity|].
  change (sumZ (?u :: ?v)) with (u + sumZ v)%Z. rewrite IH. rewrite <- sumZ_plus. reflexivity.
Qed.
Lemma sumZ_delta n j (f : nat -> Z) : j < n -> sumZ (map (fun i => if Nat.eqb i j then f i else 0%Z) (seq 0 n)) = f j.
Proof.
  intros Hj. replace n with (j + (1 + (n - j - 1))) by lia. rewrite !seq_app, !map_app, !sumZ_app. cbn [seq map]. rewrite Nat.add_0_l, Nat.eqb_refl.
  rewrite sumZ_zero, (sumZ_zero (fun i => if i =? j then f i else 0%Z) (seq (j + 1) _)); [cbn; lia| |]; intros i Hi; apply in_seq in Hi; (destruct (Nat.eqb_spec i j); [lia|reflexivity]).
Qed.
Lemma dotZ_sum a : forall b n, length a = n -> length b = n -> dotZ a b = sumZ (map (fun i => (getZ i a * getZ i b)%Z) (seq 0 n)).
Proof.
  unfold dotZ, getZ. induction a as [|x a IH]; intros [|y b] n Ha Hb; cbn in *; subst; try lia; [reflexivity|].
  cbn [seq map]. change (sumZ (?u :: ?v)) with (u + sumZ v)%Z. cbn [nth]. rewrite <- seq_shift, map_map. cbn [nth]. rewrite (IH b (length a)) by lia. reflexivity.
Qed.
Lemma dotZ_nil_l b : dotZ [] b = 0%Z. Proof. reflexivity. Qed.
Lemma dotZ_cons x a y b : dotZ (x :: a) (y :: b) = (x * y + dotZ a b)%Z. Proof. reflexivity. Qed.
Lemma getZ_map_seq (f : nat -> Z) n j : j < n -> getZ j (map f (seq 0 n)) = f j.
Proof. apply nth_map_seq. Qed.
Lemma row_mul_length m e T : length (row_mul m e T) = m.
Proof. unfold row_mul. rewrite map_length, seq_length. reflexivity. Qed.
Lemma getZ_colZ i j T : i < length T -> getZ i (colZ j T) = getZ j (nth i T []).
Proof. intros Hi. unfold colZ, getZ. rewrite (nth_indep _ 0%Z (nth j [] 0%Z)) by (rewrite map_length; exact Hi). exact (map_nth (fun l => nth j l 0%Z) T [] i). Qed.
Lemma colZ_length j T : length (colZ j T) = length T. Proof. apply map_length. Qed.
Lemma row_mul_get m e T j : length e = length T -> j < m ->
  getZ j (row_mul m e T) = sumZ (map (fun i => (getZ i e * getZ j (nth i T []))%Z) (seq 0 (length T))).
Proof.
  intros HL Hj. unfold row_mul. rewrite getZ_map_seq by exact Hj. rewrite (dotZ_sum e _ (length T)) by (rewrite ?colZ_length; auto).
  apply sumZ_ext. intros i Hi. apply in_seq in Hi. rewrite getZ_colZ by lia. reflexivity.
Qed.
Lemma row_eq a b : length a = length b -> (forall j, j < length a -> getZ j a = getZ j b) -> a = b.
Proof. intros HL H. apply (list_eq_nth 0%Z); assumption. Qed.
Lemma row_mul_cons m k e r T : length r = m -> row_mul m (k :: e) (r :: T) = row_add (map (Z.mul k) r) (row_mul m e T).
Proof.
  intros Hr. apply row_eq; [rewrite row_add_length; rewrite ?map_length, ?row_mul_length; auto|].
  intros j Hj. rewrite row_mul_length in Hj. rewrite getZ_row_add by (rewrite ?map_length, ?row_mul_length; lia).
  unfold row_mul. rewrite !getZ_map_seq by exact Hj. cbn [colZ map]. rewrite dotZ_cons. f_equal.
  unfold getZ. rewrite (nth_indep (map (Z.mul k) r) 0%Z (k * 0)%Z) by (rewrite map_length; lia). rewrite map_nth. reflexivity.
Qed.
Lemma index_of_some l : forall i a, index_of i l = Some a -> a < length l /\ nth a l 0 = i.
Proof.
  induction l as [|x l IH]; cbn; intros i a H; [discriminate|]. destruct (Nat.eqb_spec x i) as [->|Hn]; [injection H as <-; split; [lia|reflexivity]|].
  destruct (index_of i l) as [b|] eqn:E; [|discriminate]. injection H as <-. destruct (IH i b E). split; [lia|assumption].
Qed.
Lemma index_of_none l : forall i, index_of i l = None -> ~ In i l.
Proof.
  induction l as [|x l IH]; cbn; intros i H; [tauto|]. destruct (Nat.eqb_spec x i) as [->|Hn]; [discriminate|].
  destruct (index_of i l) eqn:E; [discriminate|]. intros [?|?]; [congruence|apply (IH i E); assumption].
Qed.
Lemma index_of_nth l a : NoDup l -> a < length l -> index_of (nth a l 0) l = Some a.
Proof.
  intros Hn Ha. destruct (index_of (nth a l 0) l) as [b|] eqn:E.
  - destruct (index_of_some _ _ _ E) as [Hb Eb]. f_equal. apply (proj1 (NoDup_nth l 0) Hn b a Hb Ha Eb).
  - exfalso. apply (index_of_none _ _ E), nth_In, Ha.
Qed.
Lemma put_cols_length idx vals : forall r, length (put_cols idx vals r) = length r.
Proof. unfold put_cols. induction (combine idx vals) as [|q l IH]; intros r; [reflexivity|]. cbn [fold_left]. rewrite IH. apply upd_length. Qed.
Lemma put_cols_get idx : forall vals r j, NoDup idx -> length vals = length idx -> Forall (fun i => i < length r) idx ->
  getZ j (put_cols idx vals r) = match index_of j idx with Some a => getZ a vals | None => getZ j r end.
Proof.
  induction idx as [|i idx IH]; intros [|v vals] r j Hn HL Hr; cbn in HL; try lia; [reflexivity|].
  inversion Hn as [|? ? Hi Hn']; subst. inversion Hr as [|? ? Hir Hr']; subst.
  unfold put_cols. cbn [combine fold_left fst snd]. change (fold_left _ (combine idx vals) ?x) with (put_cols idx vals x).
  rewrite IH; [|exact Hn'|lia|rewrite upd_length; exact Hr'].
  cbn [index_of]. destruct (Nat.eqb_spec i j) as [->|Hne].
  - destruct (index_of j idx) eqn:E; [destruct (index_of_some _ _ _ E) as [H1 H2]; exfalso; apply Hi; rewrite <- H2; apply nth_In, H1|].
    rewrite getZ_upd_same by exact Hir. reflexivity.
  - destruct (index_of j idx); cbn; [reflexivity|]. rewrite getZ_upd by exact Hir. destruct (Nat.eqb_spec i j); [congruence|reflexivity].
Qed.
Lemma unit_row_length n i : length (unit_row n i) = n.
Proof. unfold unit_row. rewrite upd_length. apply zrow_length. Qed.
Lemma getZ_zrow n i : getZ i (zrow n) = 0%Z.
Proof. unfold getZ, zrow. apply nth_repeat. Qed.
Lemma unit_row_get n i j : i < n -> getZ j (unit_row n i) = if Nat.eqb i j then 1%Z else 0%Z.
Proof. intros Hi. unfold unit_row. rewrite getZ_upd by (rewrite zrow_length; exact Hi). rewrite getZ_zrow. reflexivity. Qed.
Lemma block_length n idx C : length (block_transformation n idx C) = n.
Proof. unfold block_transformation. rewrite map_length, seq_length. reflexivity. Qed.
Lemma block_rows n idx C : Forall (fun r => length r = n) (block_transformation n idx C).
Proof.
  unfold block_transformation. apply Forall_map, Forall_forall. intros i _. destruct (index_of i idx); rewrite ?put_cols_length; apply unit_row_length.
Qed.
Lemma block_get n idx C i j : NoDup idx -> Forall (fun k => k < n) idx -> is_matrix (length idx) (length idx) C -> i < n -> j < n ->
  getZ j (nth i (block_transformation n idx C) []) =
  match index_of i idx with
  | Some a => match index_of j idx with Some b => getZ b (nth a C []) | None => 0%Z end
  | None => if Nat.eqb i j then 1%Z else 0%Z
  end.
Proof.
  intros Hn Hr [HC1 HC2] Hi Hj. unfold block_transformation. rewrite (nth_map_seq (fun i => match index_of i idx with Some a => put_cols idx (nth a C []) (unit_row n i) | None => unit_row n i end)) by exact Hi.
  destruct (index_of i idx) as [a|] eqn:E; [|apply unit_row_get, Hi]. destruct (index_of_some _ _ _ E) as [Ha Ea].
  rewrite put_cols_get; [|exact Hn| |rewrite unit_row_length; exact Hr].
  2:{ rewrite Forall_forall in HC2. apply HC2, nth_In. lia. }
  destruct (index_of j idx) as [b|] eqn:Ej; [reflexivity|]. rewrite unit_row_get by exact Hi. destruct (Nat.eqb_spec i j) as [->|]; [congruence|reflexivity].
Qed.
(** the positions split at the index set *)
Definition others (n : nat) (idx : list nat) := filter (fun i => match index_of i idx with None => true | Some _ => false end) (seq 0 n).
Lemma in_others n idx i : In i (others n idx) <-> i < n /\ index_of i idx = None.
Proof. unfold others. rewrite filter_In, in_seq. destruct (index_of i idx); intuition (try lia; try discriminate). Qed.
Lemma split_perm n idx : NoDup idx -> Forall (fun k => k < n) idx -> Permutation (seq 0 n) (idx ++ others n idx).
Proof.
  intros Hn Hr. rewrite Forall_forall in Hr. apply NoDup_Permutation; [apply seq_NoDup| |].
  - apply NoDup_app_intro; [exact Hn|apply NoDup_filter, seq_NoDup|]. intros i Hi Hi'. apply in_others in Hi' as [_ Hi']. exact (index_of_none _ _ Hi' Hi).
  - intros i. rewrite in_app_iff, in_others, in_seq. split.
    + intros [_ Hi]. cbn in Hi. destruct (index_of i idx) as [a|] eqn:E; [left|right; split; [exact Hi|reflexivity]].
      destruct (index_of_some _ _ _ E) as [H1 <-]. apply nth_In, H1.
    + intros [H|[H _]]; [specialize (Hr _ H)|]; lia.
Qed.
Lemma map_idx {A} (f : nat -> A) idx : map f idx = map (fun a => f (nth a idx 0)) (seq 0 (length idx)).
Proof.
  induction idx as [|i idx IH]; [reflexivity|]. cbn [length seq map nth]. f_equal. rewrite <- seq_shift, map_map. exact IH.
Qed.
Lemma sumZ_split n idx (f : nat -> Z) : NoDup idx -> Forall (fun k => k < n) idx ->
  sumZ (map f (seq 0 n)) = (sumZ (map (fun a => f (nth a idx 0%nat)) (seq 0 (length idx))) + sumZ (map f (others n idx)))%Z.
Proof.
  intros Hn Hr. rewrite (sumZ_perm _ _ (Permutation_map f (split_perm n idx Hn Hr))), map_app, sumZ_app, (map_idx f idx). reflexivity.
Qed.
Lemma others_head n idx j : j < n -> index_of j idx = None ->
  Permutation (others n idx) (j :: filter (fun i => negb (Nat.eqb i j)) (others n idx)).
Proof.
  intros Hj Ej. apply NoDup_Permutation; [apply NoDup_filter, seq_NoDup| |].
  - constructor; [rewrite filter_In; intros [_ H]; rewrite Nat.eqb_refl in H; discriminate|]. apply NoDup_filter, NoDup_filter, seq_NoDup.
  - intros i. cbn [In]. rewrite filter_In. destruct (Nat.eqb_spec i j) as [->|Hne]; cbn [negb].
    + split; [intros _; left; reflexivity|intros _; apply in_others; split; assumption].
    + split; [intros H; right; split; [exact H|reflexivity]|intros [H|[H _]]; [congruence|exact H]].
Qed.
Lemma block_row_mul n idx C e j : NoDup idx -> Forall (fun k => k < n) idx -> is_matrix (length idx) (length idx) C -> length e = n -> j < n ->
  getZ j (row_mul n e (block_transformation n idx C)) =
  match index_of j idx with
  | Some b => sumZ (map (fun a => (getZ (nth a idx 0%nat) e * getZ b (nth a C []))%Z) (seq 0 (length idx)))
  | None => getZ j e
  end.
Proof.
  intros Hn Hr HC He Hj. rewrite row_mul_get by (rewrite ?block_length; auto). rewrite block_length, (sumZ_split n idx) by assumption.
  rewrite (sumZ_ext _ (fun a => (getZ (nth a idx 0%nat) e * match index_of j idx with Some b => getZ b (nth a C []) | None => 0 end)%Z) (seq 0 (length idx))).
  2:{ intros a Ha. apply in_seq in Ha. rewrite block_get; try assumption. 2:{ rewrite Forall_forall in Hr. apply Hr, nth_In. lia. } rewrite index_of_nth by (assumption || lia). reflexivity. }
  rewrite (sumZ_ext _ (fun i => (getZ i e * if Nat.eqb i j then 1 else 0)%Z) (others n idx)).
  2:{ intros i Hi. apply in_others in Hi as [Hi Ei]. rewrite block_get by assumption. rewrite Ei. reflexivity. }
  destruct (index_of j idx) as [b|] eqn:Ej.
  - rewrite (sumZ_zero (fun i => (getZ i e * if Nat.eqb i j then 1 else 0)%Z)); [lia|]. intros i Hi. apply in_others in Hi as [Hi Ei]. destruct (Nat.eqb_spec i j) as [->|]; [congruence|lia].
  - rewrite sumZ_zero by (intros; lia). rewrite Z.add_0_l.
    rewrite (sumZ_perm _ _ (Permutation_map _ (others_head n idx j Hj Ej))). cbn [map]. rewrite Nat.eqb_refl, sumZ_cons.
    rewrite sumZ_zero; [lia|]. intros i Hi. apply filter_In in Hi as [_ Hi]. destruct (Nat.eqb i j); [discriminate|lia].
Qed.
Lemma take_cols_get idx r a : a < length idx -> getZ a (take_cols idx r) = getZ (nth a idx 0) r.
Proof. intros H. unfold take_cols, getZ. rewrite (nth_indep _ 0%Z (nth 0 r 0%Z)) by (rewrite map_length; lia). exact (map_nth (fun i => nth i r 0%Z) idx 0 a). Qed.
Lemma take_cols_length idx r : length (take_cols idx r) = length idx.
Proof. apply map_length. Qed.
Lemma sub_matrix k m T cidx : is_matrix k m T -> length cidx = k -> is_matrix k k (map (take_cols cidx) T).
Proof. intros [H1 H2] Hc. split; [rewrite map_length; exact H1|]. apply Forall_map, Forall_forall. intros r _. rewrite take_cols_length. exact Hc. Qed.
Lemma sub_get T cidx a : a < length T -> nth a (map (take_cols cidx) T) [] = take_cols cidx (nth a T []).
Proof. intros H. rewrite (nth_indep (map _ T) [] (take_cols cidx [])) by (rewrite map_length; exact H). apply map_nth. Qed.
(** make_sector and make_sector_ku transform the exponents in the same way *)
Lemma geo_row n idx m T cidx e : NoDup idx -> Forall (fun k => k < n) idx -> is_matrix (length idx) m T -> length cidx = length idx ->
  Forall (fun k => k < m) cidx -> length e = n ->
  put_cols idx (take_cols cidx (row_mul m (take_cols idx e) T)) e = row_mul n e (block_transformation n idx (map (take_cols cidx) T)).
Proof.
  intros Hn Hr HT HcL Hc He. pose proof HT as [HT1 HT2]. apply row_eq; [rewrite put_cols_length, row_mul_length; exact He|].
  rewrite put_cols_length, He. intros j Hj. pose proof (sub_matrix _ _ _ _ HT HcL) as HC.
  rewrite block_row_mul by assumption. rewrite put_cols_get; [|exact Hn|rewrite take_cols_length; exact HcL|rewrite He; exact Hr].
  destruct (index_of j idx) as [b|] eqn:Ej; [|reflexivity]. destruct (index_of_some _ _ _ Ej) as [Hb _].
  assert (Hcb : nth b cidx 0 < m) by (rewrite Forall_forall in Hc; apply Hc, nth_In; lia).
  rewrite take_cols_get by lia. rewrite row_mul_get by (rewrite ?take_cols_length; lia). rewrite HT1. apply sumZ_ext. intros a Ha. apply in_seq in Ha.
  rewrite take_cols_get by lia. f_equal. rewrite sub_get by lia. rewrite take_cols_get by lia. reflexivity.
Qed.
End Basics.

Section Value.
Variable F : Fld.
Local Open Scope fld_scope.
Add Field Ffield_geo : (@f_th F).
Lemma meval_prod (e : list Z) : forall (x : list F) n, length e = n -> length x = n ->
  meval e x = prodF (map (fun i => zpow (nth i x 0) (getZ i e)) (seq 0 n)).
Proof.
  unfold getZ. induction e as [|k e IH]; intros [|v x] n He Hx; cbn in *; subst; try lia; [reflexivity|]. cbn [seq map]. rewrite <- seq_shift, map_map. cbn [nth].
  rewrite (IH x (length e)) by lia. reflexivity.
Qed.
Lemma meval_nz (e : list Z) : forall (x : list F), Forall (fun v => v <> 0) x -> meval e x <> 0.
Proof.
  induction e as [|k e IH]; intros [|v x] H; cbn [meval]; try apply F1_neq_0. inversion H; subst.
  apply Fmul_neq0; [apply zpow_neq0; assumption|apply IH; assumption].
Qed.
Lemma meval_scale k (r : list Z) : forall (x : list F), Forall (fun v => v <> 0) x -> length r = length x -> meval (map (Z.mul k) r) x = zpow (meval r x) k.
Proof.
  induction r as [|a r IH]; intros [|v x] H HL; cbn in HL; try lia; cbn [map meval]; [symmetry; apply zpow_1|]. inversion H; subst.
  rewrite IH by (assumption || lia). rewrite zpow_mul_base by (left; split; [apply zpow_neq0; assumption|apply meval_nz; assumption]).
  f_equal. rewrite Z.mul_comm. apply zpow_zmul. assumption.
Qed.
Lemma meval_row_mul m e : forall T (y : list F), Forall (fun r => length r = m) T -> length e = length T -> length y = m -> Forall (fun v => v <> 0) y ->
  meval (row_mul m e T) y = meval e (mono_map T y).
Proof.
  induction e as [|k e IH]; intros [|r T] y HT HL Hy Hnz; cbn in HL; try lia.
  - replace (row_mul m [] []) with (zrow m); [apply meval_zrow|]. apply row_eq; [rewrite zrow_length, row_mul_length; reflexivity|].
    intros j Hj. rewrite zrow_length in Hj. unfold row_mul. rewrite getZ_map_seq by exact Hj. apply getZ_zrow.
  - inversion HT as [|? ? Hr HT']; subst. rewrite row_mul_cons by exact Hr.
    rewrite meval_row_add_nz; [|rewrite map_length; lia|rewrite row_mul_length; reflexivity|exact Hnz].
    cbn [mono_map map meval]. rewrite meval_scale by assumption. rewrite (IH T y) by (assumption || lia || reflexivity). reflexivity.
Qed.
Lemma transform_eval (p : poly F) m T y : pwf p -> is_matrix (pnv p) m T -> length y = m -> Forall (fun v => v <> 0) y ->
  peval (transform_variables p m T) y = peval p (mono_map T y).
Proof.
  intros Hp [HT1 HT2] Hy Hnz. unfold transform_variables. apply (peval_map_rows F (fun e => row_mul m e T)). intros t Ht.
  apply meval_row_mul; auto. unfold pwf in Hp. rewrite Forall_forall in Hp. rewrite (Hp t Ht). symmetry; exact HT1.
Qed.
Lemma mono_map_nz T (y : list F) : Forall (fun v => v <> 0) y -> Forall (fun v => v <> 0) (mono_map T y).
Proof. intros H. apply Forall_map, Forall_forall. intros r _. apply meval_nz, H. Qed.
Lemma prodF_cons (a : F) l : prodF (a :: l) = a * prodF l. Proof. reflexivity. Qed.
Lemma prodF_one {A} (f : A -> F) l : (forall a, In a l -> f a = 1) -> prodF (map f l) = 1.
Proof.
  induction l as [|a l IH]; cbn [map]; intros H; [reflexivity|]. rewrite prodF_cons.
  rewrite H by (left; reflexivity). rewrite IH by (intros; apply H; right; assumption). ring.
Qed.
Lemma mono_block n idx C (y : list F) : NoDup idx -> Forall (fun k => (k < n)%nat) idx -> is_matrix (length idx) (length idx) C -> length y = n ->
  mono_map (block_transformation n idx C) y = mono_map_at idx C y.
Proof.
  intros Hn Hr HC Hy. unfold mono_map, mono_map_at. rewrite Hy.
  apply (list_eq_nth 0); [rewrite !map_length, block_length, seq_length; reflexivity|].
  rewrite map_length, block_length. intros i Hi.
  rewrite (nth_indep _ 0 (meval [] y)) by (rewrite map_length, block_length; exact Hi). rewrite (map_nth (fun r => meval r y)).
  rewrite (nth_map_seq (fun i => match index_of i idx with Some a => meval (nth a C []) (map (fun j => nth j y 0) idx) | None => nth i y 0 end)) by exact Hi.
  assert (HL : length (nth i (block_transformation n idx C) []) = n).
  { pose proof (block_rows n idx C) as H. rewrite Forall_forall in H. apply H, nth_In. rewrite block_length. exact Hi. }
  rewrite (meval_prod _ y n) by assumption.
  rewrite (prodF_perm _ _ _ (Permutation_map _ (split_perm n idx Hn Hr))), map_app, prodF_app.
  destruct (index_of i idx) as [a|] eqn:Ei.
  - rewrite (prodF_one _ (others n idx)).
    2:{ intros j Hj. apply in_others in Hj as [Hj Ej]. rewrite block_get by assumption. rewrite Ei, Ej. reflexivity. }
    destruct (index_of_some _ _ _ Ei) as [Ha Ea]. pose proof HC as [HC1 HC2].
    rewrite (meval_prod (nth a C []) _ (length idx)); [|rewrite Forall_forall in HC2; apply HC2, nth_In; lia|apply map_length].
    rewrite (map_idx (fun j => zpow (nth j y 0) _) idx). rewrite (prodF_map_ext _ _ (fun b => zpow (nth b (map (fun j => nth j y 0) idx) 0) (getZ b (nth a C [])))); [ring|].
    intros b Hb. apply in_seq in Hb. assert (Hbn : (nth b idx 0%nat < n)%nat) by (rewrite Forall_forall in Hr; apply Hr, nth_In; lia).
    rewrite block_get by assumption. rewrite Ei, index_of_nth by (assumption || lia). f_equal.
    rewrite (nth_indep (map _ idx) 0 (nth 0 y 0)) by (rewrite map_length; lia). symmetry. exact (map_nth (fun j => nth j y 0) idx 0%nat b).
  - rewrite (prodF_one _ idx).
    2:{ intros j Hj. rewrite block_get; try assumption. 2:{ rewrite Forall_forall in Hr. apply Hr, Hj. } rewrite Ei. destruct (Nat.eqb_spec i j) as [->|]; [|reflexivity]. exfalso. exact (index_of_none _ _ Ei Hj). }
    rewrite (prodF_perm _ _ _ (Permutation_map _ (others_head n idx i Hi Ei))). cbn [map]. rewrite prodF_cons.
    rewrite (prodF_one _ (filter _ _)).
    2:{ intros k Hk. apply filter_In in Hk as [Hk Hne]. apply in_others in Hk as [Hk _]. rewrite block_get by assumption. rewrite Ei. rewrite (Nat.eqb_sym i k). destruct (Nat.eqb k i); [discriminate|reflexivity]. }
    rewrite block_get by assumption. rewrite Ei, Nat.eqb_refl, zpow_1_r. ring.
Qed.
End Value.
