(** Proofs about matrix sorting: permutations of rows and columns, the lexicographic order by columns. *)
From Coq Require Import Sorted.
From Verif Require Import SortProofs PolyProofs.
From Verif Require Export MatSortModel MatSortSpec.
Local Open Scope nat_scope.

Lemma sort_rows_sort m : sort_rows m = sort_by (fun r => r) m.
Proof. unfold sort_rows. rewrite <- (map_id m) at 2. apply (gather_argsort (fun r => r)). Qed.
Lemma sort_rows_perm m : Permutation (sort_rows m) m.
Proof. rewrite sort_rows_sort. apply sort_by_perm. Qed.
Lemma sort_rows_sorted m : StronglySorted lexle (sort_rows m).
Proof. rewrite sort_rows_sort. apply (sort_by_sorted (fun r => r)). Qed.

Lemma sorted_perm_eq l1 : forall l2, StronglySorted lexle l1 -> StronglySorted lexle l2 -> Permutation l1 l2 -> l1 = l2.
Proof.
  induction l1 as [|x l1 IH]; intros l2 H1 H2 Hp.
  - apply Permutation_nil in Hp. congruence.
  - destruct l2 as [|y l2]; [apply Permutation_sym, Permutation_nil in Hp; discriminate|].
    assert (x = y) as ->.
    { inversion H1 as [|? ? _ F1]; subst. inversion H2 as [|? ? _ F2]; subst. rewrite Forall_forall in F1, F2.
      assert (Hx : In x (y :: l2)) by (eapply Permutation_in; [exact Hp|left; reflexivity]).
      assert (Hy : In y (x :: l1)) by (eapply Permutation_in; [symmetry; exact Hp|left; reflexivity]).
      destruct Hx as [|Hx]; [congruence|]. destruct Hy as [|Hy]; [congruence|]. apply lexle_antisym; auto. }
    f_equal. inversion H1; inversion H2; subst. apply IH; auto. eapply Permutation_cons_inv; exact Hp.
Qed.
Lemma sort_rows_eq m1 m2 : Permutation m1 m2 -> sort_rows m1 = sort_rows m2.
Proof. intros H. apply sorted_perm_eq; try apply sort_rows_sorted. rewrite !sort_rows_perm. exact H. Qed.
Lemma sort_rows_id m : StronglySorted lexle m -> sort_rows m = m.
Proof. intros H. apply sorted_perm_eq; [apply sort_rows_sorted|exact H|apply sort_rows_perm]. Qed.
Lemma sort_rows_length m : length (sort_rows m) = length m.
Proof. apply Permutation_length, sort_rows_perm. Qed.

(** prefixes *)
Lemma lexle_firstn k : forall a b, lexle a b -> lexle (firstn k a) (firstn k b).
Proof.
  induction k as [|k IH]; intros [|x a] [|y b]; cbn [firstn]; intros H; try reflexivity; try (exfalso; discriminate H).
  unfold lexle, lexleb in *. cbn [lexcmp] in *. destruct (Z.compare_spec x y); try reflexivity; [|discriminate].
  specialize (IH a b). unfold lexle, lexleb in IH. auto.
Qed.
Lemma sorted_firstn k m : StronglySorted lexle m -> StronglySorted lexle (map (firstn k) m).
Proof.
  induction 1 as [|r m Hm IH Hr]; cbn [map]; constructor; auto. rewrite Forall_map. eapply Forall_impl; [|exact Hr].
  intros a. apply lexle_firstn.
Qed.
Lemma sort_rows_firstn k m : map (firstn k) (sort_rows m) = sort_rows (map (firstn k) m).
Proof.
  apply sorted_perm_eq; [apply sorted_firstn, sort_rows_sorted|apply sort_rows_sorted|]. rewrite !sort_rows_perm. reflexivity.
Qed.

(** rectangular matrices *)
Lemma rect_perm w m m' : Permutation m m' -> rect w m -> rect w m'.
Proof. intros H. apply Permutation_Forall, H. Qed.
Lemma rect_sort w m : rect w m -> rect w (sort_rows m).
Proof. apply rect_perm. symmetry. apply sort_rows_perm. Qed.
Lemma rect_rearrange sigma m : rect (length sigma) (rearrange_cols sigma m).
Proof. unfold rect, rearrange_cols. rewrite Forall_map. apply Forall_forall. intros r _. apply map_length. Qed.

Lemma nth_mapseq {A} (f : nat -> A) n j d : j < n -> nth j (map f (seq 0 n)) d = f j.
Proof. intros H. rewrite (nth_indep _ d (f 0)) by (rewrite map_length, seq_length; exact H). rewrite map_nth, seq_nth; [reflexivity|exact H]. Qed.
Lemma list_mapseq {A} (d : A) (l : list A) w : length l = w -> l = map (fun k => nth k l d) (seq 0 w).
Proof. intros <-. apply (nth_ext _ _ d d); [rewrite map_length, seq_length; reflexivity|]. intros j Hj. rewrite nth_mapseq by exact Hj. reflexivity. Qed.

Lemma perm_seq_bound sigma w : Permutation sigma (seq 0 w) -> forall k, k < w -> nth k sigma 0 < w.
Proof.
  intros H k Hk. assert (Hl := Permutation_length H). rewrite seq_length in Hl.
  assert (Hi : In (nth k sigma 0) sigma) by (apply nth_In; lia). apply (Permutation_in _ H) in Hi. apply in_seq in Hi. lia.
Qed.
Lemma perm_seq_length (sigma : list nat) w : Permutation sigma (seq 0 w) -> length sigma = w.
Proof. intros H. apply Permutation_length in H. rewrite seq_length in H. exact H. Qed.

Lemma rearrange_id w m : rect w m -> rearrange_cols (seq 0 w) m = m.
Proof.
  intros H. unfold rearrange_cols. rewrite <- (map_id m) at 2. apply map_ext_in. intros r Hr. unfold rect in H. rewrite Forall_forall in H.
  symmetry. apply list_mapseq, H, Hr.
Qed.
Definition compose (sigma tau : list nat) : list nat := map (fun k => nth k sigma 0) tau.
Lemma rearrange_compose sigma tau m : (forall k, In k tau -> k < length sigma) ->
  rearrange_cols tau (rearrange_cols sigma m) = rearrange_cols (compose sigma tau) m.
Proof.
  intros H. unfold rearrange_cols, compose. rewrite map_map. apply map_ext. intros r. rewrite map_map. apply map_ext_in. intros k Hk.
  rewrite (nth_indep _ 0%Z (nth 0 r 0%Z)) by (rewrite map_length; apply H, Hk). rewrite (map_nth (fun j => nth j r 0%Z)). reflexivity.
Qed.
Lemma compose_perm w sigma tau : Permutation sigma (seq 0 w) -> Permutation tau (seq 0 w) -> Permutation (compose sigma tau) (seq 0 w).
Proof.
  intros Hs Ht. unfold compose. rewrite Ht. rewrite <- (list_mapseq 0 sigma w (perm_seq_length _ _ Hs)). exact Hs.
Qed.
Lemma nth_compose sigma tau k w : Permutation tau (seq 0 w) -> k < w -> nth k (compose sigma tau) 0 = nth (nth k tau 0) sigma 0.
Proof.
  intros Ht Hk. unfold compose. rewrite (nth_indep _ 0 (nth 0 sigma 0)) by (rewrite map_length, (perm_seq_length _ _ Ht); exact Hk).
  rewrite (map_nth (fun k => nth k sigma 0)). reflexivity.
Qed.
Lemma rearrange_perm sigma m m' : Permutation m m' -> Permutation (rearrange_cols sigma m) (rearrange_cols sigma m').
Proof. apply Permutation_map. Qed.

(** inverse permutation *)
Fixpoint find_idx (k : nat) (l : list nat) : nat := match l with [] => 0 | a :: r => if Nat.eqb a k then 0 else S (find_idx k r) end.
Lemma find_idx_spec k l : In k l -> find_idx k l < length l /\ nth (find_idx k l) l 0 = k.
Proof.
  induction l as [|a l IH]; intros H; [destruct H|]. cbn [find_idx length nth]. destruct (Nat.eqb_spec a k) as [E|E].
  - split; [lia|exact E].
  - destruct H as [H|H]; [contradiction|]. destruct (IH H) as [H1 H2]. split; [lia|]. cbn [nth]. exact H2.
Qed.
Definition inverse (w : nat) (sigma : list nat) : list nat := map (fun k => find_idx k sigma) (seq 0 w).
Lemma inverse_right w sigma : Permutation sigma (seq 0 w) -> compose sigma (inverse w sigma) = seq 0 w.
Proof.
  intros H. unfold compose, inverse. rewrite map_map. rewrite <- (map_id (seq 0 w)) at 2. apply map_ext_in. intros k Hk.
  apply find_idx_spec. eapply Permutation_in; [symmetry; exact H|exact Hk].
Qed.
Lemma inverse_perm w sigma : Permutation sigma (seq 0 w) -> Permutation (inverse w sigma) (seq 0 w).
Proof.
  intros H. assert (Hl := perm_seq_length _ _ H). apply NoDup_Permutation_bis.
  - apply (NoDup_map_inv (fun k => nth k sigma 0)). change (NoDup (compose sigma (inverse w sigma))). rewrite inverse_right by exact H. apply seq_NoDup.
  - unfold inverse. rewrite map_length. lia.
  - intros k Hk. unfold inverse in Hk. apply in_map_iff in Hk. destruct Hk as [a [<- Ha]].
    apply in_seq. destruct (find_idx_spec a sigma) as [H1 _]; [eapply Permutation_in; [symmetry; exact H|exact Ha]|]. lia.
Qed.

(** [equivalent] is an equivalence relation *)
Lemma equivalent_refl E w m : equivalence E -> rect w m -> equivalent E w m m.
Proof.
  intros [Er _] Hm. exists (seq 0 w). split; [reflexivity|]. split.
  - intros k Hk. rewrite seq_nth by exact Hk. apply Er.
  - rewrite rearrange_id by exact Hm. reflexivity.
Qed.
Lemma equivalent_trans E w m1 m2 m3 : equivalence E -> equivalent E w m1 m2 -> equivalent E w m2 m3 -> equivalent E w m1 m3.
Proof.
  intros [_ [_ Et]] [s [Hs [Es Ps]]] [t [Ht [Ett Pt]]]. exists (compose s t). split; [apply compose_perm; assumption|]. split.
  - intros k Hk. rewrite (nth_compose s t k w Ht Hk). apply (Et _ (nth k t 0)); [apply Ett, Hk|]. apply Es. apply (perm_seq_bound t w Ht k Hk).
  - rewrite <- rearrange_compose.
    + rewrite Pt. apply rearrange_perm, Ps.
    + intros k Hk. apply (Permutation_in _ Ht) in Hk. apply in_seq in Hk. rewrite (perm_seq_length s w Hs). lia.
Qed.
Lemma equivalent_sym E w m m' : equivalence E -> rect w m -> equivalent E w m m' -> equivalent E w m' m.
Proof.
  intros [_ [Es _]] Hm [s [Hs [Hrel Hp]]]. assert (Hi := inverse_perm w s Hs). exists (inverse w s). split; [exact Hi|]. split.
  - intros k Hk. apply Es. assert (H := Hrel (nth k (inverse w s) 0) (perm_seq_bound _ w Hi k Hk)).
    rewrite <- (nth_compose s (inverse w s) k w Hi Hk), inverse_right, seq_nth in H by assumption. exact H.
  - rewrite (rearrange_perm _ _ _ Hp). rewrite rearrange_compose.
    + rewrite inverse_right, rearrange_id by assumption. reflexivity.
    + intros k Hk. apply (Permutation_in _ Hi) in Hk. apply in_seq in Hk. rewrite (perm_seq_length s w Hs). lia.
Qed.
Lemma equivalent_rect E w m m' : equivalent E w m m' -> rect w m'.
Proof. intros [s [Hs [_ Hp]]]. eapply rect_perm; [symmetry; exact Hp|]. rewrite <- (perm_seq_length s w Hs). apply rect_rearrange. Qed.
Lemma equivalent_rows E w m m' : equivalent E w m m' -> length m' = length m.
Proof. intros [s [_ [_ Hp]]]. apply Permutation_length in Hp. unfold rearrange_cols in Hp. rewrite map_length in Hp. exact Hp. Qed.
Lemma equivalent_weaken (E E' : nat -> nat -> Prop) w m m' : (forall a b, E a b -> E' a b) -> equivalent E w m m' -> equivalent E' w m m'.
Proof. intros H [s [Hs [Hr Hp]]]. exists s. repeat split; auto. Qed.
Lemma equivalent_perm_r E w m m' m'' : Permutation m' m'' -> equivalent E w m m' -> equivalent E w m m''.
Proof. intros H [s [Hs [Hr Hp]]]. exists s. repeat split; auto. rewrite <- H. exact Hp. Qed.

(** exchange of two columns *)
Definition tr (i j k : nat) : nat := if Nat.eqb k i then j else if Nat.eqb k j then i else k.
Lemma tr_invol i j k : tr i j (tr i j k) = k.
Proof.
  unfold tr. destruct (Nat.eqb_spec k i) as [->|H1]; [|destruct (Nat.eqb_spec k j) as [->|H2]].
  - destruct (Nat.eqb_spec j i); [congruence|]. rewrite Nat.eqb_refl. reflexivity.
  - rewrite Nat.eqb_refl. reflexivity.
  - destruct (Nat.eqb_spec k i); [contradiction|]. destruct (Nat.eqb_spec k j); [contradiction|]. reflexivity.
Qed.
Lemma tr_lt i j w k : i < w -> j < w -> k < w -> tr i j k < w.
Proof. unfold tr. intros. destruct (k =? i); [|destruct (k =? j)]; assumption. Qed.
Lemma tr_perm i j w : i < w -> j < w -> Permutation (map (tr i j) (seq 0 w)) (seq 0 w).
Proof.
  intros Hi Hj. apply NoDup_Permutation_bis.
  - apply (NoDup_map_inv (tr i j)). rewrite map_map. rewrite (map_ext _ (fun k => k)) by (intros; apply tr_invol). rewrite map_id. apply seq_NoDup.
  - rewrite map_length. lia.
  - intros k Hk. apply in_map_iff in Hk. destruct Hk as [a [<- Ha]]. apply in_seq in Ha. apply in_seq. assert (H := tr_lt i j w a Hi Hj). lia.
Qed.
Lemma swap_cols_rearrange w i j m : rect w m -> i < w -> j < w -> swap_cols i j m = rearrange_cols (map (tr i j) (seq 0 w)) m.
Proof.
  intros Hm Hi Hj. unfold swap_cols, rearrange_cols. apply map_ext_in. intros r Hr. unfold rect in Hm. rewrite Forall_forall in Hm. specialize (Hm r Hr).
  apply (nth_ext _ _ 0%Z 0%Z); [rewrite !upd_length, !map_length, seq_length; exact Hm|]. intros k Hk. rewrite !upd_length, Hm in Hk.
  rewrite map_map, nth_mapseq by exact Hk. rewrite !nth_upd, !upd_length, Hm. unfold getZ, tr.
  replace (k <? w) with true by (symmetry; apply Nat.ltb_lt; exact Hk). rewrite !andb_true_r, (Nat.eqb_sym j k), (Nat.eqb_sym i k).
  destruct (Nat.eqb_spec k i) as [->|E1]; [destruct (Nat.eqb_spec i j) as [->|E2]|destruct (k =? j)]; reflexivity.
Qed.
Lemma swap_sort_equivalent E w i j m : equivalence E -> rect w m -> i < w -> j < w -> E i j -> equivalent E w m (swap_sort i j m).
Proof.
  intros [Er [Es Et]] Hm Hi Hj Hij. exists (map (tr i j) (seq 0 w)). split; [apply tr_perm; assumption|]. split.
  - intros k Hk. rewrite nth_mapseq by exact Hk. unfold tr. destruct (Nat.eqb_spec k i) as [->|]; [exact Hij|].
    destruct (Nat.eqb_spec k j) as [->|]; [apply Es, Hij|apply Er].
  - unfold swap_sort. rewrite sort_rows_perm, (swap_cols_rearrange w i j m Hm Hi Hj). reflexivity.
Qed.

(** the order by columns *)
Lemma column_nth j m : column j m = map (fun r => nth j r 0%Z) m.
Proof. reflexivity. Qed.
Lemma by_columns_concat w m : concat (transpose w m) = by_columns w m.
Proof. unfold by_columns, transpose. rewrite flat_map_concat_map. reflexivity. Qed.
Lemma by_columns_S w m : by_columns (S w) m = by_columns w m ++ column w m.
Proof. unfold by_columns. rewrite seq_S, flat_map_app. cbn [flat_map plus]. rewrite app_nil_r. reflexivity. Qed.
Lemma by_columns_length w m : length (by_columns w m) = w * length m.
Proof. induction w as [|w IH]; [reflexivity|]. rewrite by_columns_S, app_length, IH. unfold column. rewrite map_length. lia. Qed.
Lemma column_length j m : length (column j m) = length m.
Proof. apply map_length. Qed.
Lemma nth_firstn j k (r : list Z) : j < k -> nth j (firstn k r) 0%Z = nth j r 0%Z.
Proof. revert k r. induction j as [|j IH]; intros [|k] [|x r] H; cbn [firstn nth]; try lia; try reflexivity. apply IH. lia. Qed.
Lemma column_firstn j k m : j < k -> column j (map (firstn k) m) = column j m.
Proof. intros H. unfold column, getZ. rewrite map_map. apply map_ext. intros r. apply nth_firstn, H. Qed.
Lemma by_columns_firstn w k m : w <= k -> by_columns w (map (firstn k) m) = by_columns w m.
Proof. induction w as [|w IH]; intros H; [reflexivity|]. rewrite !by_columns_S, IH, column_firstn by lia. reflexivity. Qed.

Lemma lexcmp_app a : forall a' b b', length a = length a' ->
  lexcmp (a ++ b) (a' ++ b') = match lexcmp a a' with Eq => lexcmp b b' | c => c end.
Proof.
  induction a as [|x a IH]; intros [|x' a'] b b' H; try discriminate H; [reflexivity|]. cbn [app lexcmp]. destruct (Z.compare x x'); try reflexivity.
  apply IH. cbn [length] in H. lia.
Qed.
Lemma lexle_app a a' b b' : length a = length a' -> lexle (a ++ b) (a' ++ b') <-> lexlt a a' \/ (a = a' /\ lexle b b').
Proof.
  intros H. unfold lexle, lexlt, lexleb, lexltb. rewrite lexcmp_app by exact H. rewrite <- lexcmp_eq. destruct (lexcmp a a'); intuition congruence.
Qed.
Lemma lexlt_app a a' b b' : length a = length a' -> lexlt (a ++ b) (a' ++ b') <-> lexlt a a' \/ (a = a' /\ lexlt b b').
Proof.
  intros H. unfold lexle, lexlt, lexleb, lexltb. rewrite lexcmp_app by exact H. rewrite <- lexcmp_eq. destruct (lexcmp a a'); intuition congruence.
Qed.

Lemma app_inj_len {A} (a : list A) : forall a' b b', length a = length a' -> a ++ b = a' ++ b' -> a = a' /\ b = b'.
Proof.
  induction a as [|x a IH]; intros [|x' a'] b b' Hl H; try discriminate Hl; [split; auto|]. cbn [app] in H. inversion H; subst.
  destruct (IH a' b b') as [-> ->]; auto.
Qed.
Lemma firstn_S_nth j (r : list Z) : j < length r -> firstn (S j) r = firstn j r ++ [nth j r 0%Z].
Proof. revert j. induction r as [|x r IH]; intros [|j] H; cbn [length] in H; try lia; [reflexivity|]. cbn [firstn nth app]. rewrite <- IH by lia. reflexivity. Qed.
(** the first [i+1] columns are determined by the first [i] and column [i] *)
Lemma firstn_S_columns i m1 m2 : Forall (fun r => i < length r) m1 -> Forall (fun r => i < length r) m2 ->
  map (firstn i) m1 = map (firstn i) m2 -> column i m1 = column i m2 -> map (firstn (S i)) m1 = map (firstn (S i)) m2.
Proof.
  intros H1. revert m2. induction H1 as [|r1 m1 Hr1 H1 IH]; intros [|r2 m2] H2 Hf Hc; try discriminate Hf; [reflexivity|].
  inversion H2 as [|? ? Hr2 H2']; subst. cbn [map column] in *. unfold getZ in Hc. inversion Hf. inversion Hc. rewrite (firstn_S_nth i r1 Hr1), (firstn_S_nth i r2 Hr2).
  f_equal; [congruence|]. apply IH; assumption.
Qed.
Lemma by_columns_inj w m1 : forall m2, rect w m1 -> rect w m2 -> length m1 = length m2 -> by_columns w m1 = by_columns w m2 -> m1 = m2.
Proof.
  intros m2 H1 H2 Hl H.
  assert (K : forall k, k <= w -> map (firstn k) m1 = map (firstn k) m2).
  { assert (Hc : forall k, k <= w -> by_columns k m1 = by_columns k m2).
    { intros k Hk. remember (w - k) as d eqn:Ed. revert k Hk Ed. induction d as [|d IH]; intros k Hk Ed; [replace k with w by lia; exact H|].
      assert (IH' := IH (S k) ltac:(lia) ltac:(lia)). rewrite !by_columns_S in IH'. apply app_inj_len in IH'; [tauto|]. rewrite !by_columns_length, Hl. reflexivity. }
    induction k as [|k IH]; intros Hk.
    - clear -Hl. revert m2 Hl. induction m1 as [|r m1 IHm]; intros [|r2 m2] Hl; try discriminate Hl; [reflexivity|]. cbn [map firstn]. f_equal. apply IHm. cbn [length] in Hl. lia.
    - apply firstn_S_columns.
      + eapply Forall_impl; [|exact H1]. cbn. intros; lia.
      + eapply Forall_impl; [|exact H2]. cbn. intros; lia.
      + apply IH. lia.
      + assert (Hs := Hc (S k) Hk). rewrite !by_columns_S in Hs. apply app_inj_len in Hs; [tauto|]. rewrite !by_columns_length, Hl. reflexivity. }
  specialize (K w (Nat.le_refl w)). assert (F : forall m, rect w m -> map (firstn w) m = m).
  { intros m Hm. rewrite <- (map_id m) at 2. apply map_ext_in. intros r Hr. unfold rect in Hm. rewrite Forall_forall in Hm. rewrite <- (Hm r Hr). apply firstn_all. }
  rewrite !F in K by assumption. exact K.
Qed.

(** exchanging two neighbouring rows in the wrong order makes the matrix smaller *)
Lemma lexle_nth k : forall a b, length a = length b -> lexle b a -> firstn k a = firstn k b -> (nth k b 0 <= nth k a 0)%Z.
Proof.
  induction k as [|k IH]; intros [|x a] [|y b] Hl H Hf; cbn [nth length] in *; try lia; unfold lexle, lexleb in H; cbn [lexcmp] in H.
  - destruct (Z.compare_spec y x); try discriminate; lia.
  - cbn [firstn] in Hf. inversion Hf; subst. rewrite Z.compare_refl in H. apply IH; [lia|exact H|assumption].
Qed.
Lemma adj_swap_le w pre a b post : length a = length b -> lexle b a ->
  lexle (by_columns w (pre ++ b :: a :: post)) (by_columns w (pre ++ a :: b :: post)).
Proof.
  intros Hl Hba.
  assert (K : (firstn w a = firstn w b /\ by_columns w (pre ++ b :: a :: post) = by_columns w (pre ++ a :: b :: post))
              \/ lexlt (by_columns w (pre ++ b :: a :: post)) (by_columns w (pre ++ a :: b :: post))).
  { induction w as [|w IH]; [left; split; reflexivity|]. rewrite !by_columns_S.
    assert (HL : length (by_columns w (pre ++ b :: a :: post)) = length (by_columns w (pre ++ a :: b :: post))).
    { rewrite !by_columns_length, !app_length. cbn [length]. reflexivity. }
    destruct IH as [[Hf He]|Hlt]; [|right; apply lexlt_app; [exact HL|left; exact Hlt]].
    assert (Hn := lexle_nth w a b Hl Hba Hf). unfold column. rewrite !map_app. cbn [map].
    change (getZ w b) with (nth w b 0%Z). change (getZ w a) with (nth w a 0%Z).
    destruct (Z.eq_dec (nth w b 0%Z) (nth w a 0%Z)) as [E|E].
    - left. split; [|rewrite He, E; reflexivity]. destruct (Nat.lt_ge_cases w (length a)) as [Hw|Hw].
      + rewrite !firstn_S_nth by lia. rewrite Hf, E. reflexivity.
      + rewrite !firstn_all2 in Hf |- * by lia. exact Hf.
    - right. apply lexlt_app; [exact HL|]. right. split; [exact He|]. apply lexlt_app; [reflexivity|]. right. split; [reflexivity|].
      unfold lexlt, lexltb. cbn [lexcmp]. destruct (Z.compare_spec (nth w b 0%Z) (nth w a 0%Z)); try reflexivity; lia. }
  apply lexle_lt_eq. tauto.
Qed.
Lemma insert_le w key_row pre : forall l, Forall (fun r => length r = length key_row) l ->
  lexle (by_columns w (pre ++ insert_by (fun r => r) key_row l)) (by_columns w (pre ++ key_row :: l)).
Proof.
  intros l. revert pre. induction l as [|y l IH]; intros pre Hl; cbn [insert_by]; [apply lexle_refl|].
  destruct (lexleb key_row y) eqn:E; [apply lexle_refl|]. apply Forall_cons_iff in Hl. destruct Hl as [Hy Hl].
  apply (lexle_trans _ (by_columns w (pre ++ y :: key_row :: l))).
  - specialize (IH (pre ++ [y]) Hl). rewrite <- !app_assoc in IH. exact IH.
  - apply adj_swap_le; [congruence|]. apply lexle_lt_eq. left. apply lexleb_false, E.
Qed.
Lemma sort_le_pre w' w pre m : rect w' m -> lexle (by_columns w (pre ++ sort_rows m)) (by_columns w (pre ++ m)).
Proof.
  rewrite sort_rows_sort. intros Hm. revert pre.
  induction Hm as [|r m Hr Hm IH]; intros pre; cbn [sort_by]; [apply lexle_refl|].
  apply (lexle_trans _ (by_columns w (pre ++ r :: sort_by (fun r => r) m))).
    - apply insert_le. eapply Permutation_Forall; [symmetry; apply sort_by_perm|]. eapply Forall_impl; [|exact Hm]. cbn. congruence.
    - specialize (IH (pre ++ [r])). rewrite <- !app_assoc in IH. exact IH.
Qed.
Lemma sort_le w' w m : rect w' m -> lexle (by_columns w (sort_rows m)) (by_columns w m).
Proof. intros H. apply (sort_le_pre w' w [] m H). Qed.
