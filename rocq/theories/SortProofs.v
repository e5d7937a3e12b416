(** Proofs about the row order, the stable sort, argsort and gather. *)
From Coq Require Import Sorted.
From Verif Require Export SortModel.

Lemma lexcmp_eq a : forall b, lexcmp a b = Eq <-> a = b.
Proof.
  induction a as [|x a IH]; intros [|y b]; cbn [lexcmp]; try (split; congruence).
  destruct (Z.compare_spec x y) as [E|E|E].
  - subst. rewrite IH. split; congruence.
  - split; [discriminate|]. intros H; inversion H; lia.
  - split; [discriminate|]. intros H; inversion H; lia.
Qed.

Lemma lexcmp_refl a : lexcmp a a = Eq.
Proof. apply lexcmp_eq; reflexivity. Qed.

Lemma lexcmp_antisym a : forall b, lexcmp b a = CompOpp (lexcmp a b).
Proof.
  induction a as [|x a IH]; intros [|y b]; cbn [lexcmp]; try reflexivity.
  rewrite (Z.compare_antisym x y). destruct (Z.compare x y); cbn [CompOpp]; auto.
Qed.

Lemma lexcmp_trans_lt a : forall b c, lexcmp a b = Lt -> lexcmp b c = Lt -> lexcmp a c = Lt.
Proof.
  induction a as [|x a IH]; intros [|y b] [|z c]; cbn [lexcmp]; try congruence.
  destruct (Z.compare_spec x y); destruct (Z.compare_spec y z); destruct (Z.compare_spec x z);
    try congruence; try lia; intros; subst; eauto.
Qed.

Lemma roweqb_spec a b : roweqb a b = true <-> a = b.
Proof. unfold roweqb. rewrite <- lexcmp_eq. destruct (lexcmp a b); split; congruence. Qed.

Lemma roweqb_refl a : roweqb a a = true.
Proof. apply roweqb_spec; reflexivity. Qed.

Lemma roweqb_sym a b : roweqb a b = roweqb b a.
Proof. unfold roweqb. rewrite (lexcmp_antisym b a). destruct (lexcmp b a); reflexivity. Qed.


Lemma lexle_refl a : lexle a a.
Proof. unfold lexle, lexleb. rewrite lexcmp_refl. reflexivity. Qed.

Lemma lexle_lt_eq a b : lexle a b <-> lexlt a b \/ a = b.
Proof.
  unfold lexle, lexlt, lexleb, lexltb. rewrite <- lexcmp_eq. destruct (lexcmp a b); intuition congruence.
Qed.

Lemma lexlt_trans a b c : lexlt a b -> lexlt b c -> lexlt a c.
Proof.
  unfold lexlt, lexltb. intros H1 H2.
  destruct (lexcmp a b) eqn:E1; try discriminate. destruct (lexcmp b c) eqn:E2; try discriminate.
  rewrite (lexcmp_trans_lt a b c); auto.
Qed.

Lemma lexlt_irrefl a : ~ lexlt a a.
Proof. unfold lexlt, lexltb. rewrite lexcmp_refl. discriminate. Qed.

Lemma lexle_trans a b c : lexle a b -> lexle b c -> lexle a c.
Proof.
  rewrite !lexle_lt_eq. intros [H1|H1] [H2|H2]; subst; auto. left; eapply lexlt_trans; eauto.
Qed.

Lemma lexlt_le_trans a b c : lexlt a b -> lexle b c -> lexlt a c.
Proof. rewrite lexle_lt_eq. intros H1 [H2|H2]; subst; auto. eapply lexlt_trans; eauto. Qed.

Lemma lexle_lt_trans a b c : lexle a b -> lexlt b c -> lexlt a c.
Proof. rewrite lexle_lt_eq. intros [H1|H1] H2; subst; auto. eapply lexlt_trans; eauto. Qed.

Lemma lexle_total a b : lexle a b \/ lexlt b a.
Proof.
  unfold lexle, lexlt, lexleb, lexltb. rewrite (lexcmp_antisym a b). destruct (lexcmp a b); cbn; auto.
Qed.

Lemma lexleb_false a b : lexleb a b = false -> lexlt b a.
Proof.
  intros H. destruct (lexle_total a b) as [H1|H1]; [unfold lexle in H1; congruence|exact H1].
Qed.

Lemma lexle_antisym a b : lexle a b -> lexle b a -> a = b.
Proof.
  rewrite !lexle_lt_eq. intros [H1|H1] [H2|H2]; subst; auto.
  exfalso. eapply lexlt_irrefl, lexlt_trans; eauto.
Qed.

Section SortBy.
Context {A : Type}.
Variable key : A -> list Z.

Lemma insert_by_perm x l : Permutation (insert_by key x l) (x :: l).
Proof.
  induction l as [|y l IH]; cbn [insert_by]; [reflexivity|].
  destruct (lexleb (key x) (key y)); [reflexivity|].
  rewrite IH. apply perm_swap.
Qed.

Lemma sort_by_perm l : Permutation (sort_by key l) l.
Proof.
  induction l as [|x l IH]; cbn [sort_by]; [reflexivity|].
  rewrite insert_by_perm, IH. reflexivity.
Qed.

Definition kle (a b : A) : Prop := lexle (key a) (key b).

Lemma insert_by_sorted x l : StronglySorted kle l -> StronglySorted kle (insert_by key x l).
Proof.
  induction 1 as [|y l Hl IH Hy]; cbn [insert_by].
  - constructor; constructor.
  - destruct (lexleb (key x) (key y)) eqn:E.
    + constructor; [constructor; assumption|].
      constructor; [exact E|]. eapply Forall_impl; [|exact Hy].
      intros a Ha. eapply lexle_trans; eauto.
    + constructor; [exact IH|].
      eapply Permutation_Forall; [symmetry; apply insert_by_perm|].
      constructor; [|exact Hy]. apply lexle_lt_eq. left. apply lexleb_false; exact E.
Qed.

Lemma sort_by_sorted l : StronglySorted kle (sort_by key l).
Proof.
  induction l as [|x l IH]; cbn [sort_by]; [constructor|apply insert_by_sorted; exact IH].
Qed.

(** stability: the elements with a given key appear in their original order *)
Lemma insert_by_stable k x l :
  StronglySorted kle l ->
  filter (fun a => roweqb (key a) k) (insert_by key x l) = filter (fun a => roweqb (key a) k) (x :: l).
Proof.
  induction 1 as [|y l Hl IH Hy]; cbn [insert_by]; [reflexivity|].
  destruct (lexleb (key x) (key y)) eqn:E; [reflexivity|].
  cbn [filter] in *. rewrite IH.
  destruct (roweqb (key x) k) eqn:E1; destruct (roweqb (key y) k) eqn:E2; try reflexivity.
  apply roweqb_spec in E1. apply roweqb_spec in E2. rewrite E1, E2 in E.
  assert (R := lexle_refl k). unfold lexle in R. congruence.
Qed.

Lemma sort_by_stable k l :
  filter (fun a => roweqb (key a) k) (sort_by key l) = filter (fun a => roweqb (key a) k) l.
Proof.
  induction l as [|x l IH]; cbn [sort_by]; [reflexivity|].
  rewrite insert_by_stable by apply sort_by_sorted. cbn [filter]. rewrite IH. reflexivity.
Qed.

(** a list is determined by sortedness and its classes *)
Lemma sorted_unique l1 : forall l2, StronglySorted kle l1 -> StronglySorted kle l2 ->
  (forall k, filter (fun a => roweqb (key a) k) l1 = filter (fun a => roweqb (key a) k) l2) -> l1 = l2.
Proof.
  induction l1 as [|x l1 IH]; intros [|y l2] H1 H2 H.
  - reflexivity.
  - specialize (H (key y)). cbn [filter] in H. rewrite roweqb_refl in H. discriminate.
  - specialize (H (key x)). cbn [filter] in H. rewrite roweqb_refl in H. discriminate.
  - assert (E : key x = key y).
    { inversion H1 as [|? ? _ F1]; subst. inversion H2 as [|? ? _ F2]; subst.
      assert (Hx : In x (y :: l2)).
      { assert (In x (filter (fun a => roweqb (key a) (key x)) (y :: l2))) as Hi.
        { rewrite <- H. cbn [filter]. rewrite roweqb_refl. left; reflexivity. }
        apply filter_In in Hi. tauto. }
      assert (Hy : In y (x :: l1)).
      { assert (In y (filter (fun a => roweqb (key a) (key y)) (x :: l1))) as Hi.
        { rewrite H. cbn [filter]. rewrite roweqb_refl. left; reflexivity. }
        apply filter_In in Hi. tauto. }
      rewrite Forall_forall in F1, F2.
      destruct Hx as [Hx|Hx]; [congruence|]. destruct Hy as [Hy|Hy]; [congruence|].
      apply lexle_antisym; [apply F1|apply F2]; assumption. }
    assert (Exy : x = y).
    { assert (Hk := H (key x)). cbn [filter] in Hk. rewrite <- E, roweqb_refl in Hk. congruence. }
    subst y. f_equal. inversion H1; inversion H2; subst. apply IH; auto.
    intros k. assert (Hk := H k). cbn [filter] in Hk. destruct (roweqb (key x) k); congruence.
Qed.
End SortBy.

Lemma sort_by_map {A B} (f : A -> B) (key : B -> list Z) (l : list A) :
  sort_by key (map f l) = map f (sort_by (fun a => key (f a)) l).
Proof.
  assert (Hins : forall x m, insert_by key (f x) (map f m) = map f (insert_by (fun a => key (f a)) x m)).
  { intros x m. induction m as [|y m IH]; cbn [insert_by map]; [reflexivity|].
    destruct (lexleb _ _); cbn [map]; [reflexivity|]. rewrite IH. reflexivity. }
  induction l as [|x l IH]; cbn [sort_by map]; [reflexivity|]. rewrite IH, Hins. reflexivity.
Qed.

Lemma gather_seq {A} (l : list A) : forall pre, gather (pre ++ l) (seq (length pre) (length l)) = l.
Proof.
  induction l as [|x l IH]; intros pre; cbn [length seq gather flat_map]; [reflexivity|].
  rewrite nth_error_app2, Nat.sub_diag by lia. cbn [nth_error app]. f_equal.
  specialize (IH (pre ++ [x])). rewrite app_length in IH. cbn [length] in IH.
  rewrite <- app_assoc in IH. cbn [app] in IH. rewrite Nat.add_1_r in IH. exact IH.
Qed.

(** indexed view of a list *)
Lemma combine_seq_nth {A} (l : list A) : forall s,
  Forall (fun p => nth_error l (snd p - s) = Some (fst p) /\ s <= snd p) (combine l (seq s (length l))).
Proof.
  induction l as [|x l IH]; intros s; cbn [length seq combine]; constructor.
  - cbn [fst snd]. rewrite Nat.sub_diag. split; [reflexivity|lia].
  - eapply Forall_impl; [|apply IH]. intros [a i]. cbn [fst snd]. intros [H Hi].
    split; [|lia]. replace (i - s) with (S (i - S s)) by lia. exact H.
Qed.

Lemma gather_map_snd {A} (l : list A) (ps : list (A * nat)) :
  Forall (fun p => nth_error l (snd p) = Some (fst p)) ps -> gather l (map snd ps) = map fst ps.
Proof.
  induction 1 as [|[a i] ps H _ IH]; cbn [map gather flat_map fst snd] in *; [reflexivity|].
  rewrite H. cbn [app]. f_equal. exact IH.
Qed.

Lemma map_fst_combine_seq {A} (l : list A) s : map fst (combine l (seq s (length l))) = l.
Proof. revert s; induction l as [|x l IH]; intros s; cbn [length seq combine map fst]; [reflexivity|]. f_equal; apply IH. Qed.
Lemma map_snd_combine_seq {A} (l : list A) s : map snd (combine l (seq s (length l))) = seq s (length l).
Proof. revert s; induction l as [|x l IH]; intros s; cbn [length seq combine map snd]; [reflexivity|]. f_equal; apply IH. Qed.

Lemma combine_map_l {A B C} (f : A -> B) (l : list A) : forall (m : list C),
  combine (map f l) m = map (fun p => (f (fst p), snd p)) (combine l m).
Proof.
  induction l as [|x l IH]; intros [|y m]; cbn [map combine fst snd]; try reflexivity. f_equal; apply IH.
Qed.

(** Applying the argsort key of the keys is the stable sort by key. *)
Lemma gather_argsort {A} (key : A -> list Z) (l : list A) :
  gather l (argsort_2D (map key l)) = sort_by key l.
Proof.
  unfold argsort_2D. rewrite map_length, combine_map_l, sort_by_map, map_map.
  cbn [fst snd].
  set (ps := combine l (seq 0 (length l))).
  set (s := sort_by (fun a : A * nat => key (fst a)) ps).
  change (gather l (map snd s) = sort_by key l).
  rewrite (gather_map_snd l s).
  - unfold s. transitivity (sort_by key (map fst ps)).
    + rewrite (sort_by_map fst key). reflexivity.
    + unfold ps. rewrite map_fst_combine_seq. reflexivity.
  - eapply Permutation_Forall; [symmetry; apply sort_by_perm|].
    eapply Forall_impl; [|apply (combine_seq_nth l 0)].
    intros [a i]; cbn [fst snd]. rewrite Nat.sub_0_r. tauto.
Qed.

Lemma argsort_perm rows : Permutation (argsort_2D rows) (seq 0 (length rows)).
Proof.
  unfold argsort_2D. rewrite <- (map_snd_combine_seq rows 0) at 2.
  apply Permutation_map, sort_by_perm.
Qed.

Lemma argsort_sorted rows : StronglySorted lexle (gather rows (argsort_2D rows)).
Proof.
  assert (H := gather_argsort (fun r : list Z => r) rows). rewrite map_id in H. rewrite H.
  apply (sort_by_sorted (fun r => r)).
Qed.

(** positions of equal rows keep their order *)
Definition row_is (rows : list (list Z)) (r : list Z) (i : nat) : bool :=
  match nth_error rows i with Some r' => roweqb r' r | None => false end.

Lemma argsort_stable rows r :
  filter (row_is rows r) (argsort_2D rows) = filter (row_is rows r) (seq 0 (length rows)).
Proof.
  unfold argsort_2D. rewrite <- (map_snd_combine_seq rows 0) at 2.
  set (ps := combine rows (seq 0 (length rows))).
  assert (Hf : forall qs, Forall (fun p => nth_error rows (snd p) = Some (fst p)) qs ->
     filter (row_is rows r) (map snd qs) = map snd (filter (fun p => roweqb (fst p) r) qs)).
  { induction 1 as [|[a i] qs H _ IH]; cbn [map filter snd fst] in *; [reflexivity|].
    unfold row_is at 1. rewrite H. destruct (roweqb a r); cbn [map snd]; rewrite IH; reflexivity. }
  assert (Hps : Forall (fun p => nth_error rows (snd p) = Some (fst p)) ps).
  { eapply Forall_impl; [|apply (combine_seq_nth rows 0)].
    intros [a i]; cbn [fst snd]. rewrite Nat.sub_0_r. tauto. }
  rewrite !Hf; auto.
  - rewrite (sort_by_stable fst). reflexivity.
  - eapply Permutation_Forall; [symmetry; apply sort_by_perm|exact Hps].
Qed.

(** Uniqueness: any permutation of the indices that sorts the rows and keeps the order of equal rows
    is the result of [argsort_2D]. *)
Lemma argsort_unique rows ks :
  Permutation ks (seq 0 (length rows)) ->
  StronglySorted lexle (gather rows ks) ->
  (forall r, filter (row_is rows r) ks = filter (row_is rows r) (seq 0 (length rows))) ->
  ks = argsort_2D rows.
Proof.
  intros Hp Hs Hst.
  set (kf := fun i => match nth_error rows i with Some r => r | None => [] end).
  assert (Hin : forall l, Permutation l (seq 0 (length rows)) -> Forall (fun i => exists r, nth_error rows i = Some r) l).
  { intros l Hl. apply Forall_forall. intros i Hi.
    assert (Hi' := Permutation_in _ Hl Hi). apply in_seq in Hi'.
    destruct (nth_error rows i) eqn:E; [eauto|]. apply nth_error_None in E. lia. }
  assert (Hg : forall l, Permutation l (seq 0 (length rows)) -> gather rows l = map kf l).
  { intros l Hl. specialize (Hin l Hl). clear Hl. induction Hin as [|i l [r Hr] _ IH]; cbn [gather flat_map map]; [reflexivity|].
    unfold kf at 1. rewrite Hr. cbn [app]. f_equal. exact IH. }
  assert (HS : forall l, StronglySorted lexle (map kf l) -> StronglySorted (kle kf) l).
  { induction l as [|i l IH]; cbn [map]; intros H; inversion H as [|? ? H1 H2]; subst; constructor; auto.
    rewrite Forall_map in H2. exact H2. }
  apply (sorted_unique kf).
  - apply HS. rewrite <- Hg by exact Hp. exact Hs.
  - apply HS. rewrite <- Hg by apply argsort_perm. apply argsort_sorted.
  - intros k.
    assert (Hfe : forall l, Permutation l (seq 0 (length rows)) ->
              filter (fun a => roweqb (kf a) k) l = filter (row_is rows k) l).
    { intros l Hl. specialize (Hin l Hl). clear Hl. induction Hin as [|i l [r Hr] _ IH]; cbn [filter]; [reflexivity|].
      unfold kf, row_is in *. rewrite Hr. rewrite IH. reflexivity. }
    rewrite !Hfe; auto using argsort_perm. rewrite Hst, argsort_stable. reflexivity.
Qed.
