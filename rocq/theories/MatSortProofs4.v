(** The iterative sort: termination and result. *)
From Coq Require Import Sorted.
From Verif Require Import SortProofs PolyProofs.
From Verif Require Export MatSortProofs2.
Local Open Scope nat_scope.

(** order by rows *)
Lemma sort_le_rows pre m : lexle (concat (pre ++ sort_rows m)) (concat (pre ++ m)) \/ ~ exists w, rect w m.
Proof.
  rewrite sort_rows_sort. destruct m as [|r0 m0]; [left; apply lexle_refl|]. remember (r0 :: m0) as m eqn:Em.
  destruct (Forall_dec (fun r => length r = length r0) (fun r => Nat.eq_dec _ _) m) as [Hm|Hn].
  2:{ right. intros [w Hw]. apply Hn. assert (Hw0 := Hw). rewrite Em in Hw0. apply Forall_inv in Hw0. eapply Forall_impl; [|exact Hw]. cbn. congruence. }
  left. clear Em m0. generalize (length r0) Hm. clear Hm. intros w Hm. revert pre.
  induction Hm as [|r m Hr Hm IH]; intros pre; cbn [sort_by]; [apply lexle_refl|].
  apply (lexle_trans _ (concat (pre ++ r :: sort_by (fun r => r) m))).
  - assert (Hs : Forall (fun x => length x = w) (sort_by (fun r => r) m)) by (eapply Permutation_Forall; [symmetry; apply sort_by_perm|exact Hm]).
    revert Hs. generalize (sort_by (fun r : list Z => r) m) as l. clear IH m Hm. intros l Hl. revert pre.
    induction Hl as [|y l Hy Hl IH]; intros pre; cbn [insert_by]; [apply lexle_refl|]. destruct (lexleb r y) eqn:E; [apply lexle_refl|].
    apply (lexle_trans _ (concat (pre ++ y :: r :: l))).
    + specialize (IH (pre ++ [y])). rewrite <- !app_assoc in IH. exact IH.
    + rewrite !concat_app. apply lexle_app; [reflexivity|]. right. split; [reflexivity|]. cbn [concat]. apply lexle_app; [congruence|]. left. apply lexleb_false, E.
  - specialize (IH (pre ++ [r])). rewrite <- !app_assoc in IH. exact IH.
Qed.
Lemma sort_le_rows' w m : rect w m -> lexle (concat (sort_rows m)) (concat m).
Proof. intros H. destruct (sort_le_rows [] m) as [K|K]; [exact K|]. exfalso. apply K. eauto. Qed.

Lemma mapseq_nth {A} (d : A) l : map (fun j => nth j l d) (seq 0 (length l)) = l.
Proof. symmetry. apply list_mapseq. reflexivity. Qed.
Lemma nth_column j k m : j < length m -> nth j (column k m) 0%Z = nth k (nth j m []) 0%Z.
Proof. intros H. unfold column, getZ. rewrite (nth_indep _ 0%Z (nth k [] 0%Z)) by (rewrite map_length; exact H). rewrite (map_nth (fun r => nth k r 0%Z)). reflexivity. Qed.
Lemma concat_by_columns w m : rect w m -> concat m = by_columns (length m) (transpose w m).
Proof.
  intros H. unfold by_columns. rewrite flat_map_concat_map. f_equal. rewrite <- (mapseq_nth [] m) at 1. apply map_ext_in. intros j Hj. apply in_seq in Hj.
  unfold transpose. rewrite map_map. unfold rect in H. rewrite Forall_forall in H.
  rewrite (list_mapseq 0%Z (nth j m []) w) at 1 by (apply H, nth_In; lia). apply map_ext. intros k. symmetry. apply nth_column. lia.
Qed.
Lemma concat_inj w m1 : forall m2, 1 <= w -> rect w m1 -> rect w m2 -> concat m1 = concat m2 -> m1 = m2.
Proof.
  intros m2 Hw H1. revert m2. induction H1 as [|r1 m1 Hr1 H1 IH]; intros [|r2 m2] H2 H; cbn [concat] in H.
  - reflexivity.
  - apply Forall_inv in H2. destruct r2; [cbn in H2; lia|discriminate H].
  - destruct r1; [cbn in Hr1; lia|discriminate H].
  - apply Forall_cons_iff in H2. destruct H2 as [Hr2 H2]. apply app_inj_len in H; [|congruence]. destruct H as [-> H]. f_equal. apply IH; assumption.
Qed.

(** one turn *)
Lemma tl_transpose w m : tl (transpose w m) = map (fun j => column j m) (seq 1 (w - 1)).
Proof. unfold transpose. destruct w as [|w]; [reflexivity|]. cbn [seq map tl]. replace (S w - 1) with w by lia. reflexivity. Qed.
Definition key1 (w : nat) (m1 : list (list Z)) : list nat := argsort_2D (tl (transpose w m1)).
Lemma key1_perm w m1 : Permutation (key1 w m1) (seq 0 (w - 1)).
Proof. unfold key1. rewrite argsort_perm, tl_transpose, map_length, seq_length. reflexivity. Qed.
Definition sigma1 (w : nat) (m1 : list (list Z)) : list nat := 0 :: map S (key1 w m1).
Lemma sigma1_perm w m1 : 1 <= w -> Permutation (sigma1 w m1) (seq 0 w).
Proof. intros H. unfold sigma1. rewrite key1_perm. destruct w as [|w]; [lia|]. cbn [seq]. replace (S w - 1) with w by lia. rewrite seq_shift. reflexivity. Qed.
Lemma iter_turn_eq w m : fst (iter_turn w m) = rearrange_cols (sigma1 w (sort_rows m)) (sort_rows m).
Proof.
  unfold iter_turn. cbn [fst]. unfold rearrange_cols. apply map_ext. intros r. unfold sigma1. cbn [map]. rewrite map_map. reflexivity.
Qed.
Lemma fix_first_equiv : equivalence fix_first.
Proof. unfold equivalence, fix_first. repeat split; intros; tauto. Qed.
Lemma iter_turn_equivalent w m : 1 <= w -> rect w m -> equivalent fix_first w m (fst (iter_turn w m)).
Proof.
  intros Hw Hm. rewrite iter_turn_eq. set (s := sigma1 w (sort_rows m)). assert (Hs : Permutation s (seq 0 w)) by (apply sigma1_perm, Hw).
  exists s. split; [exact Hs|]. split.
  - intros k Hk. unfold fix_first. destruct k as [|k]; [unfold s, sigma1; cbn [nth]; tauto|]. assert (Hl := perm_seq_length s w Hs). unfold s, sigma1 in *. cbn [nth length] in *. rewrite map_length in Hl.
    rewrite (nth_indep _ 0 (S 0)) by (rewrite map_length; lia). rewrite map_nth. split; lia.
  - apply rearrange_perm, sort_rows_perm.
Qed.
Lemma gather_map {A} (d : A) l ks : (forall k, In k ks -> k < length l) -> gather l ks = map (fun k => nth k l d) ks.
Proof.
  intros H. unfold gather. induction ks as [|k ks IH]; [reflexivity|]. cbn [flat_map map]. rewrite (nth_error_nth' l d) by (apply H; left; reflexivity).
  cbn [app]. f_equal. apply IH. intros j Hj. apply H. right; exact Hj.
Qed.
Lemma transpose_turn w m1 : 1 <= w -> transpose w (rearrange_cols (sigma1 w m1) m1) = [column 0 m1] ++ sort_rows (tl (transpose w m1)).
Proof.
  intros Hw. destruct w as [|w]; [lia|]. unfold transpose at 1. cbn [seq map]. cbn [app]. f_equal.
  - unfold column, rearrange_cols, getZ. rewrite map_map. apply map_ext. intros r. reflexivity.
  - unfold sort_rows. fold (key1 (S w) m1). assert (Hk := key1_perm (S w) m1). replace (S w - 1) with w in Hk by lia.
    rewrite (gather_map []).
    + rewrite <- seq_shift, map_map. rewrite (list_mapseq 0 (key1 (S w) m1) w (perm_seq_length _ _ Hk)). rewrite map_map. apply map_ext_in. intros j Hj. apply in_seq in Hj.
      rewrite tl_transpose. rewrite (nth_indep _ [] (column 0 m1)) by (rewrite map_length, seq_length; assert (Hb := perm_seq_bound _ _ Hk j ltac:(lia)); lia).
      rewrite (map_nth (fun j => column j m1)), seq_nth by (assert (Hb := perm_seq_bound _ _ Hk j ltac:(lia)); lia).
      unfold column, rearrange_cols. rewrite map_map. apply map_ext. intros r. unfold getZ, sigma1. cbn [map nth]. rewrite map_map.
      rewrite (nth_indep _ 0%Z (nth (S 0) r 0%Z)) by (rewrite map_length, (perm_seq_length _ _ Hk); lia). rewrite (map_nth (fun x => nth (S x) r 0%Z)). reflexivity.
    + intros k Hin. apply (Permutation_in _ Hk) in Hin. apply in_seq in Hin. rewrite tl_transpose, map_length, seq_length. lia.
Qed.
Lemma transpose_split w m : 1 <= w -> transpose w m = [column 0 m] ++ tl (transpose w m).
Proof. intros H. destruct w; [lia|]. reflexivity. Qed.
Lemma turn_le w m : 1 <= w -> rect w m ->
  lexle (concat (fst (iter_turn w m))) (concat (sort_rows m)) /\ lexle (concat (sort_rows m)) (concat m).
Proof.
  intros Hw Hm. split; [|apply (sort_le_rows' w), Hm]. assert (Hr := equivalent_rect _ _ _ _ (iter_turn_equivalent w m Hw Hm)). assert (Hs := rect_sort w m Hm).
  rewrite (concat_by_columns w _ Hr), (concat_by_columns w _ Hs). rewrite iter_turn_eq, (transpose_turn w _ Hw). rewrite (transpose_split w (sort_rows m) Hw).
  unfold rearrange_cols. rewrite map_length. cbn [app tl]. apply (sort_le_pre (length (sort_rows m)) _ [column 0 (sort_rows m)]).
  rewrite tl_transpose. unfold rect. rewrite Forall_map. apply Forall_forall. intros j _. apply column_length.
Qed.

(** identity keys *)
Lemma gather_all {A} (l : list A) : gather l (seq 0 (length l)) = l.
Proof. apply (gather_seq l []). Qed.
Lemma argsort_sorted_id rows : StronglySorted lexle rows -> argsort_2D rows = seq 0 (length rows).
Proof. intros H. symmetry. apply argsort_unique; [reflexivity|rewrite gather_all; exact H|reflexivity]. Qed.
Lemma is_arange_seq n : is_arange (seq 0 n) n = true.
Proof.
  unfold is_arange. rewrite seq_length, Nat.eqb_refl, andb_true_r. apply forallb_forall. intros [a b] H. cbn [fst snd].
  assert (K : forall l, In (a, b) (combine l l) -> a = b). { induction l as [|x l IH]; [intros []|]. cbn [combine]. intros [H'|H']; [congruence|auto]. }
  apply Nat.eqb_eq, (K _ H).
Qed.
Lemma is_arange_spec k n : is_arange k n = true -> k = seq 0 n.
Proof.
  unfold is_arange. intros H. apply andb_true_iff in H. destruct H as [H Hl]. apply Nat.eqb_eq in Hl. revert H. generalize 0. revert n Hl.
  induction k as [|a k IH]; intros n Hl s H; cbn [length] in Hl; subst n; [reflexivity|]. cbn [seq combine forallb fst snd] in *. apply andb_true_iff in H. destruct H as [H1 H2].
  apply Nat.eqb_eq in H1. subst. f_equal. apply IH; [reflexivity|exact H2].
Qed.
(** a turn without effect has identity keys *)
Lemma turn_stop w m : 1 <= w -> rect w m -> sort_rows m = m -> fst (iter_turn w m) = m ->
  is_arange (fst (snd (iter_turn w m))) (length m) && is_arange (snd (snd (iter_turn w m))) (w - 1) = true.
Proof.
  intros Hw Hm Hs Ht. cbn [iter_turn fst snd]. fold (sort_rows m). rewrite Hs. fold (key1 w m).
  rewrite argsort_sorted_id by (rewrite <- Hs; apply sort_rows_sorted). rewrite is_arange_seq. cbn [andb].
  rewrite iter_turn_eq, Hs in Ht. assert (Htr := transpose_turn w m Hw). rewrite Ht, (transpose_split w m Hw) in Htr. cbn [app tl] in Htr. inversion Htr as [Htl].
  unfold key1. rewrite argsort_sorted_id by (rewrite Htl; apply sort_rows_sorted). rewrite tl_transpose, map_length, seq_length. apply is_arange_seq.
Qed.
(** identity keys mean that the matrix is sorted and unchanged *)
Lemma turn_stopped w m : 1 <= w -> rect w m ->
  is_arange (fst (snd (iter_turn w m))) (length m) && is_arange (snd (snd (iter_turn w m))) (w - 1) = true ->
  fst (iter_turn w m) = m /\ StronglySorted lexle m /\ StronglySorted lexle (tl (transpose w m)).
Proof.
  intros Hw Hm H. cbn [iter_turn fst snd] in H. fold (sort_rows m) in H. fold (key1 w (sort_rows m)) in H. apply andb_true_iff in H. destruct H as [H1 H2].
  apply is_arange_spec in H1. apply is_arange_spec in H2.
  assert (Hs : sort_rows m = m) by (unfold sort_rows; rewrite H1; apply gather_all). rewrite Hs in H2.
  split; [|split].
  - rewrite iter_turn_eq, Hs. unfold sigma1. rewrite H2. replace (0 :: map S (seq 0 (w - 1))) with (seq 0 w); [apply rearrange_id, Hm|].
    destruct w; [lia|]. cbn [seq]. rewrite <- seq_shift. replace (S w - 1) with w by lia. reflexivity.
  - rewrite <- Hs. apply sort_rows_sorted.
  - unfold key1 in H2. assert (K := argsort_sorted (tl (transpose w m))). rewrite H2 in K. rewrite <- (gather_all (tl (transpose w m))).
    rewrite tl_transpose, map_length, seq_length in *. exact K.
Qed.

(** the order by rows as a number *)
Fixpoint val (B off : Z) (l : list Z) : Z := match l with [] => 0 | z :: r => ((z - off) * B ^ Z.of_nat (length r) + val B off r)%Z end.
Definition digits (B off : Z) (l : list Z) : Prop := Forall (fun z => (0 <= z - off < B)%Z) l.
Lemma val_bound B off l : (0 < B)%Z -> digits B off l -> (0 <= val B off l < B ^ Z.of_nat (length l))%Z.
Proof.
  intros HB. induction 1 as [|z l Hz Hl IH]; cbn [val length]; [rewrite Z.pow_0_r; lia|]. rewrite Nat2Z.inj_succ, Z.pow_succ_r by lia. nia.
Qed.
Lemma val_lt B off : (0 < B)%Z -> forall a b, length a = length b -> digits B off a -> digits B off b -> lexlt a b -> (val B off a < val B off b)%Z.
Proof.
  intros HB. induction a as [|x a IH]; intros [|y b] Hl Ha Hb H; try discriminate Hl; [discriminate H|]. cbn [val length] in *.
  apply Forall_cons_iff in Ha. apply Forall_cons_iff in Hb. destruct Ha as [Hx Ha], Hb as [Hy Hb]. injection Hl as Hl. rewrite Hl.
  assert (Va := val_bound B off a HB Ha). assert (Vb := val_bound B off b HB Hb). rewrite Hl in Va.
  unfold lexlt, lexltb in H. cbn [lexcmp] in H. destruct (Z.compare_spec x y) as [E|E|E]; [|nia|discriminate].
  subst y. assert (val B off a < val B off b)%Z by (apply IH; auto). lia.
Qed.
Lemma digits_exist l : exists B off, (0 < B)%Z /\ digits B off l.
Proof.
  induction l as [|z l [B [off [HB H]]]]; [exists 1%Z, 0%Z; split; [lia|constructor]|].
  exists (B + Z.abs (z - off) + Z.abs (z - off) + 1)%Z, (off - Z.abs (z - off))%Z. split; [lia|]. constructor; [lia|]. eapply Forall_impl; [|exact H]. cbn. intros; lia.
Qed.
Lemma digits_equivalent B off E w m m' : rect w m -> digits B off (concat m) -> equivalent E w m m' -> digits B off (concat m').
Proof.
  intros Hm Hd [s [Hs [_ Hp]]]. unfold digits in *. rewrite Forall_forall in *. intros z Hz. apply in_concat in Hz. destruct Hz as [r [Hr Hz]].
  apply (Permutation_in _ Hp) in Hr. unfold rearrange_cols in Hr. apply in_map_iff in Hr. destruct Hr as [r0 [<- Hr0]]. apply in_map_iff in Hz. destruct Hz as [k [<- Hk]].
  apply (Permutation_in _ Hs) in Hk. apply in_seq in Hk. apply Hd. apply in_concat. exists r0. split; [exact Hr0|]. apply nth_In. unfold rect in Hm. rewrite Forall_forall in Hm. rewrite (Hm r0 Hr0). lia.
Qed.
Lemma concat_length w m : rect w m -> length (concat m) = w * length m.
Proof. induction 1 as [|r m Hr Hm IH]; cbn [concat length]; [lia|]. rewrite app_length, IH, Hr. lia. Qed.

Lemma iterative_terminates w m : 1 <= w -> rect w m -> exists fuel r, iterative_sort fuel w m = Some r.
Proof.
  intros Hw Hm. destruct (digits_exist (concat m)) as [B [off [HB Hd]]].
  remember (Z.to_nat (val B off (concat m))) as n eqn:En. revert m Hm Hd En. induction n as [n IH] using lt_wf_ind. intros m Hm Hd En.
  destruct (iter_turn w m) as [m' [k0 k1]] eqn:Et. assert (Hm' : m' = fst (iter_turn w m)) by (rewrite Et; reflexivity).
  assert (Heq := iter_turn_equivalent w m Hw Hm). assert (Hle := turn_le w m Hw Hm). rewrite <- Hm' in Heq, Hle.
  assert (Hr' := equivalent_rect _ _ _ _ Heq).
  destruct (is_arange k0 (length m) && is_arange k1 (w - 1)) eqn:Estop.
  { exists 1, m'. cbn [iterative_sort]. rewrite Et, Estop. reflexivity. }
  assert (Hlt : lexlt (concat m') (concat m)).
  { destruct Hle as [H1 H2]. assert (Hle := lexle_trans _ _ _ H1 H2). apply lexle_lt_eq in Hle. destruct Hle as [H|H]; [exact H|]. exfalso.
    assert (Hc : concat (sort_rows m) = concat m) by (apply lexle_antisym; [exact H2|rewrite <- H; exact H1]).
    apply (concat_inj w) in H; try assumption. apply (concat_inj w) in Hc; try assumption; [|apply rect_sort, Hm].
    assert (Hstop := turn_stop w m Hw Hm Hc). rewrite Et in Hstop. cbn [fst snd] in Hstop. rewrite (Hstop H) in Estop. discriminate. }
  assert (Hd' := digits_equivalent B off _ w m m' Hm Hd Heq).
  assert (HL : length (concat m') = length (concat m)) by (rewrite (concat_length w m' Hr'), (concat_length w m Hm), (equivalent_rows _ _ _ _ Heq); reflexivity).
  assert (Hv := val_lt B off HB _ _ HL Hd' Hd Hlt).
  assert (Hb := val_bound B off _ HB Hd'). destruct (IH (Z.to_nat (val B off (concat m'))) ltac:(lia) m' Hr' Hd' eq_refl) as [f [r Hf]].
  exists (S f), r. cbn [iterative_sort]. rewrite Et, Estop. exact Hf.
Qed.
Lemma iterative_spec w : 1 <= w -> forall fuel m r, rect w m -> iterative_sort fuel w m = Some r ->
  equivalent fix_first w m r /\ StronglySorted lexle r /\ StronglySorted lexle (tl (transpose w r)).
Proof.
  intros Hw. induction fuel as [|f IH]; intros m r Hm H; [discriminate H|]. cbn [iterative_sort] in H.
  destruct (iter_turn w m) as [m' [k0 k1]] eqn:Et. assert (Hm' : m' = fst (iter_turn w m)) by (rewrite Et; reflexivity).
  assert (Heq := iter_turn_equivalent w m Hw Hm). rewrite <- Hm' in Heq.
  destruct (is_arange k0 (length m) && is_arange k1 (w - 1)) eqn:Estop.
  - injection H as <-. assert (K := turn_stopped w m Hw Hm). rewrite Et in K. cbn [fst snd] in K. destruct (K Estop) as [K1 [K2 K3]]. rewrite K1 in *. auto.
  - apply IH in H; [|eapply equivalent_rect; exact Heq]. destruct H as [H1 H2]. split; [|exact H2]. eapply equivalent_trans; [apply fix_first_equiv|exact Heq|exact H1].
Qed.
