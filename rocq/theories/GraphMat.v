(** The matrix power decides connectedness. *)
From Coq Require Import List Lia ZArith Bool Arith Permutation.
From Verif Require Import GraphSpec GraphConn GraphModel.
Import ListNotations.
Local Open Scope Z_scope.

Definition square (n : nat) (M : matrix) : Prop := length M = n /\ Forall (fun r => length r = n) M.

Lemma upd_length' : forall {A} i (v : A) l, length (upd i v l) = length l.
Proof. intros A. induction i as [|i IH]; intros v [|x l]; cbn [upd length]; try reflexivity. rewrite IH. reflexivity. Qed.
Lemma nth_upd' : forall {A} i (v : A) l j d, (i < length l)%nat -> nth j (upd i v l) d = if Nat.eqb j i then v else nth j l d.
Proof.
  intros A. induction i as [|i IH]; intros v [|x l] j d H; cbn [length] in H; try lia; destruct j as [|j]; cbn [upd nth Nat.eqb]; try reflexivity.
  apply IH. lia.
Qed.
Lemma square_row : forall n M i, square n M -> (i < n)%nat -> length (nth i M []) = n.
Proof. intros n M i [HL HF] Hi. rewrite Forall_forall in HF. apply HF, nth_In. lia. Qed.
Lemma tab_square : forall n f, square n (tabulate n f).
Proof.
  intros n f. unfold tabulate. split; [rewrite map_length, seq_length; reflexivity|]. apply Forall_forall. intros r H. apply in_map_iff in H.
  destruct H as (i & <- & _). rewrite map_length, seq_length. reflexivity.
Qed.
Lemma nth_map_seq : forall {A} (f : nat -> A) n i d, (i < n)%nat -> nth i (map f (seq 0 n)) d = f i.
Proof. intros A f n i d H. rewrite (nth_indep _ d (f 0%nat)) by (rewrite map_length, seq_length; exact H). rewrite map_nth, seq_nth by exact H. reflexivity. Qed.
Lemma mget_tab : forall n f i j, (i < n)%nat -> (j < n)%nat -> mget (tabulate n f) i j = f i j.
Proof. intros n f i j Hi Hj. unfold mget, tabulate. rewrite (nth_map_seq _ n i) by exact Hi. apply nth_map_seq, Hj. Qed.
Lemma madd_square : forall n M i j c, square n M -> (i < n)%nat -> square n (madd M i j c).
Proof.
  intros n M i j c H Hi. pose proof (square_row n M i H Hi) as HR. destruct H as [HL HF]. unfold madd. split; [rewrite upd_length'; exact HL|].
  rewrite Forall_forall in *. intros r Hr. apply (In_nth _ _ []) in Hr. destruct Hr as (k & Hk & <-). rewrite upd_length' in Hk.
  rewrite nth_upd' by lia. destruct (Nat.eqb k i); [rewrite upd_length'; exact HR|apply HF, nth_In, Hk].
Qed.
Lemma mget_madd : forall n M i j c a b, square n M -> (i < n)%nat -> (j < n)%nat ->
  mget (madd M i j c) a b = mget M a b + (if Nat.eqb a i && Nat.eqb b j then c else 0).
Proof.
  intros n M i j c a b H Hi Hj. pose proof (square_row n M i H Hi) as HR. destruct H as [HL HF]. unfold mget at 1, madd.
  rewrite nth_upd' by lia. destruct (Nat.eqb_spec a i) as [->|D]; [|cbn [andb]; unfold mget; lia].
  rewrite nth_upd' by lia. cbn [andb]. destruct (Nat.eqb_spec b j) as [->|D]; unfold mget; lia.
Qed.

(** number of lines of [E] that contribute to entry (a,b), a line [(a,a)] twice *)
Definition occ (a b : nat) (e : nat * nat) : Z :=
  (if Nat.eqb a (fst e) && Nat.eqb b (snd e) then 1 else 0) + (if Nat.eqb a (snd e) && Nat.eqb b (fst e) then 1 else 0).
Definition occs (E : list (nat * nat)) (a b : nat) : Z := sumZ (map (occ a b) E).
Definition below (n : nat) (E : list (nat * nat)) : Prop := Forall (fun e => (fst e < n /\ snd e < n)%nat) E.
Lemma add_lines : forall c n E M, square n M -> below n E ->
  square n (fold_left (add_line c) E M) /\ forall a b, mget (fold_left (add_line c) E M) a b = mget M a b + c * occs E a b.
Proof.
  intros c n E. induction E as [|e E IH]; intros M HM HE.
  - split; [exact HM|]. intros a b. unfold occs. cbn [fold_left map sumZ fold_right]. lia.
  - apply Forall_cons_iff in HE. destruct HE as [[H1 H2] HE]. cbn [fold_left].
    assert (S1 : square n (madd M (fst e) (snd e) c)) by (apply madd_square; assumption).
    assert (S2 : square n (add_line c M e)) by (apply madd_square; assumption).
    destruct (IH _ S2 HE) as [S3 K]. split; [exact S3|]. intros a b. rewrite K. unfold add_line.
    rewrite (mget_madd n) by assumption. rewrite (mget_madd n) by assumption. unfold occs. cbn [map sumZ fold_right].
    fold (sumZ (map (occ a b) E)). unfold occ at 2. generalize (sumZ (map (occ a b) E)). intros z. destruct (Nat.eqb a (fst e) && Nat.eqb b (snd e)); destruct (Nat.eqb a (snd e) && Nat.eqb b (fst e)); lia.
Qed.
Lemma sumZ_app : forall l k, sumZ (l ++ k) = sumZ l + sumZ k.
Proof. induction l as [|x l IH]; intros k; [reflexivity|]. cbn [app sumZ fold_right]. unfold sumZ in *. rewrite IH. lia. Qed.
Lemma sumZ_perm : forall l k, Permutation l k -> sumZ l = sumZ k.
Proof. intros l k H. unfold sumZ. induction H; cbn; lia. Qed.
Lemma occs_app : forall E K a b, occs (E ++ K) a b = occs E a b + occs K a b.
Proof. intros. unfold occs. rewrite map_app, sumZ_app. reflexivity. Qed.
Lemma occs_perm : forall E K a b, Permutation E K -> occs E a b = occs K a b.
Proof. intros E K a b H. unfold occs. apply sumZ_perm, Permutation_map, H. Qed.
Lemma occ_nonneg : forall a b e, 0 <= occ a b e.
Proof. intros a b e. unfold occ. destruct (_ && _); destruct (_ && _); lia. Qed.
Lemma occs_nonneg : forall E a b, 0 <= occs E a b.
Proof.
  intros E a b. unfold occs, sumZ. induction E as [|e E IH]; cbn; [lia|]. pose proof (occ_nonneg a b e). lia.
Qed.
Lemma occs_pos : forall E a b, occs E a b <> 0 <-> In (a, b) E \/ In (b, a) E.
Proof.
  intros E a b. induction E as [|e E IH]; [cbn; tauto|].
  unfold occs in *. cbn [map sumZ fold_right In]. fold (sumZ (map (occ a b) E)). 
  pose proof (occ_nonneg a b e) as H0. pose proof (occs_nonneg E a b) as H1. unfold occs in H1.
  assert (Q : occ a b e <> 0 <-> e = (a, b) \/ e = (b, a)).
  { unfold occ. destruct e as [x y]. cbn [fst snd].
    destruct (Nat.eqb_spec a x) as [->|D1]; destruct (Nat.eqb_spec b y) as [->|D2]; cbn [andb];
    destruct (Nat.eqb_spec x y) as [E1|E1]; try subst;
    repeat match goal with |- context [Nat.eqb ?p ?q] => destruct (Nat.eqb_spec p q) as [?E|?E]; try subst end; cbn [andb]; 
    (split; [intros; try lia; auto|intros [K|K]; try lia; try congruence]). 
    all: try (injection K; intros; subst; congruence). }
  split; intros H.
  - assert (K : occ a b e <> 0 \/ sumZ (map (occ a b) E) <> 0) by lia. destruct K as [K|K]; [apply Q in K|apply IH in K]; tauto.
  - assert (K : occ a b e <> 0 \/ sumZ (map (occ a b) E) <> 0); [|lia]. rewrite Q, IH. tauto.
Qed.

(** reachability in at most / exactly [k] steps through non-zero entries *)
Section Power.
Variable n : nat. Variable M : matrix.
Hypothesis Mpos : forall i j, (i < n)%nat -> (j < n)%nat -> 0 <= mget M i j.
Hypothesis Mdiag : forall i, (i < n)%nat -> mget M i i <> 0.

Lemma sum_pos : forall (f : nat -> Z) l, (forall k, In k l -> 0 <= f k) -> 0 <= sumZ (map f l) /\ (sumZ (map f l) <> 0 <-> exists k, In k l /\ f k <> 0).
Proof.
  intros f l. unfold sumZ. induction l as [|a l IH]; intros H.
  - cbn. split; [lia|]. split; [lia|intros (k & [] & _)].
  - destruct (IH (fun k I => H k (or_intror I))) as [H1 H2]. pose proof (H a (or_introl eq_refl)). cbn [map fold_right].
    split; [lia|]. split.
    + intros K. destruct (Z.eq_dec (f a) 0) as [D|D]; [|exists a; split; [left; reflexivity|exact D]].
      destruct H2 as [H2 _]. destruct H2 as (k & I & N); [lia|]. exists k. split; [right; exact I|exact N].
    + intros (k & [<-|I] & N); [lia|]. assert (fold_right Z.add 0 (map f l) <> 0) by (apply H2; exists k; auto). lia.
Qed.

Lemma power_pos : forall e i j, (i < n)%nat -> (j < n)%nat -> 0 <= mget (matrix_power n M e) i j.
Proof.
  induction e as [|e IH]; intros i j Hi Hj; cbn [matrix_power].
  - unfold identity. rewrite mget_tab by assumption. destruct (Nat.eqb i j); lia.
  - unfold mmul. rewrite mget_tab by assumption. apply sum_pos. intros k Hk. apply in_seq in Hk. apply Z.mul_nonneg_nonneg; [apply Mpos; lia|apply IH; lia].
Qed.
(** from [j] one gets to [i] in exactly [e] steps *)
Lemma power_step : forall e i j, (i < n)%nat -> (j < n)%nat ->
  (mget (matrix_power n M (S e)) i j <> 0 <-> exists k, (k < n)%nat /\ mget M i k <> 0 /\ mget (matrix_power n M e) k j <> 0).
Proof.
  intros e i j Hi Hj. cbn [matrix_power]. unfold mmul. rewrite mget_tab by assumption.
  rewrite (proj2 (sum_pos (fun k => mget M i k * mget (matrix_power n M e) k j) (seq 0 n) ltac:(intros k Hk; apply in_seq in Hk; apply Z.mul_nonneg_nonneg; [apply Mpos|apply power_pos]; lia))).
  split; intros (k & H1 & H2).
  - apply in_seq in H1. exists k. split; [lia|]. split; intros Q; apply H2; rewrite Q; lia.
  - exists k. split; [apply in_seq; lia|]. destruct H2 as [H2 H3]. intros Q. apply Z.mul_eq_0 in Q. tauto.
Qed.

Inductive reach : nat -> nat -> Prop :=
| reach_refl : forall i, (i < n)%nat -> reach i i
| reach_step : forall i k j, (i < n)%nat -> mget M i k <> 0 -> reach k j -> reach i j.

Variable j : nat.
Hypothesis Hj : (j < n)%nat.
Definition lev (e : nat) : list nat := filter (fun i => negb (Z.eqb (mget (matrix_power n M e) i j) 0)) (seq 0 n).
Lemma lev_in : forall e i, In i (lev e) <-> (i < n)%nat /\ mget (matrix_power n M e) i j <> 0.
Proof.
  intros e i. unfold lev. rewrite filter_In, in_seq, negb_true_iff, Z.eqb_neq. lia.
Qed.
Lemma lev_mono : forall e i, In i (lev e) -> In i (lev (S e)).
Proof. intros e i. rewrite !lev_in. intros [H1 H2]. split; [exact H1|]. apply power_step; [exact H1|exact Hj|]. exists i. auto. Qed.
Lemma lev_stable : forall e, (forall i, In i (lev (S e)) -> In i (lev e)) -> forall i, In i (lev (S (S e))) -> In i (lev (S e)).
Proof.
  intros e H i. rewrite !lev_in. intros [H1 H2]. split; [exact H1|]. apply power_step in H2; [|exact H1|exact Hj]. destruct H2 as (k & K1 & K2 & K3).
  apply power_step; [exact H1|exact Hj|]. exists k. split; [exact K1|]. split; [exact K2|]. apply (lev_in e k), H, lev_in. auto.
Qed.
Lemma lev_nodup : forall e, NoDup (lev e).
Proof. intros e. apply NoDup_filter, seq_NoDup. Qed.
Lemma lev_grow : forall e, (forall i, In i (lev (S e)) -> In i (lev e)) \/ (e < length (lev e))%nat /\ (length (lev e) < length (lev (S e)))%nat.
Proof.
  assert (D : forall e, (forall i, In i (lev (S e)) -> In i (lev e)) \/ exists i, In i (lev (S e)) /\ ~ In i (lev e)).
  { intros e. destruct (forallb (fun i => if in_dec Nat.eq_dec i (lev e) then true else false) (lev (S e))) eqn:Q.
    - left. rewrite forallb_forall in Q. intros i I. specialize (Q i I). destruct (in_dec Nat.eq_dec i (lev e)); [assumption|discriminate].
    - right. assert (K : existsb (fun i => negb (if in_dec Nat.eq_dec i (lev e) then true else false)) (lev (S e)) = true).
      { clear -Q. induction (lev (S e)) as [|a l IH]; [discriminate|]. cbn [forallb existsb] in *. destruct (in_dec Nat.eq_dec a (lev e)); cbn in *; [apply IH, Q|reflexivity]. }
      apply existsb_exists in K. destruct K as (i & I & N). exists i. split; [exact I|]. destruct (in_dec Nat.eq_dec i (lev e)); [discriminate|assumption]. }
  assert (G : forall e, (exists i, In i (lev (S e)) /\ ~ In i (lev e)) -> (length (lev e) < length (lev (S e)))%nat).
  { intros e (i & I & N). change (S (length (lev e)) <= length (lev (S e)))%nat. change (length (i :: lev e) <= length (lev (S e)))%nat.
    apply NoDup_incl_length; [constructor; [exact N|apply lev_nodup]|]. intros x [<-|X]; [exact I|apply lev_mono, X]. }
  induction e as [|e IH].
  - destruct (D 0%nat) as [H|H]; [left; exact H|right]. split; [|apply G, H].
    assert (I : In j (lev 0)). { apply lev_in. split; [exact Hj|]. cbn [matrix_power]. unfold identity. rewrite mget_tab by exact Hj. rewrite Nat.eqb_refl. lia. }
    destruct (lev 0); [destruct I|cbn; lia].
  - destruct IH as [IH|[IH1 IH2]]; [left; apply lev_stable, IH|]. destruct (D (S e)) as [H|H]; [left; exact H|right]. split; [lia|apply G, H].
Qed.
Lemma lev_n : forall i, In i (lev (S n)) -> In i (lev n).
Proof.
  intros i H. destruct (lev_grow n) as [K|[K _]]; [apply K, H|]. exfalso.
  assert (Q : (length (lev n) <= length (seq 0 n))%nat). { apply NoDup_incl_length; [apply lev_nodup|]. intros x X. apply lev_in in X. apply in_seq. lia. }
  rewrite seq_length in Q. lia.
Qed.
Lemma power_reach : forall i, (i < n)%nat -> (mget (matrix_power n M n) i j <> 0 <-> reach i j).
Proof.
  intros i Hi. split.
  - assert (K : forall e i, (i < n)%nat -> mget (matrix_power n M e) i j <> 0 -> reach i j).
    { induction e as [|e IH]; intros i' Hi' H.
      - cbn [matrix_power] in H. unfold identity in H. rewrite mget_tab in H by assumption. destruct (Nat.eqb_spec i' j) as [->|]; [apply reach_refl, Hj|lia].
      - apply power_step in H; [|exact Hi'|exact Hj]. destruct H as (k & K1 & K2 & K3). apply (reach_step i' k j); [exact Hi'|exact K2|apply IH; assumption]. }
    apply K, Hi.
  - intros H. revert Hi. clear -H Mpos Mdiag Hj. 
    assert (K : forall i j', reach i j' -> j' = j -> (i < n)%nat -> In i (lev n)).
    { intros i0 j' R. induction R as [i0 H0|i0 k j' H0 H1 R IH]; intros Q Hi.
      - subst i0. assert (X : forall e, In j (lev e)).
        { induction e as [|e IHe]; [|apply lev_mono, IHe]. apply lev_in. split; [exact Hj|]. cbn [matrix_power]. unfold identity. rewrite mget_tab by exact Hj. rewrite Nat.eqb_refl. lia. }
        apply X.
      - assert (Hk : (k < n)%nat) by (destruct R; assumption). specialize (IH Q Hk). apply lev_n. apply lev_in. split; [exact Hi|].
        apply power_step; [exact Hi|exact Hj|]. exists k. split; [exact Hk|]. split; [exact H1|]. apply lev_in, IH. }
    intros Hi. apply (lev_in n i). apply (K i j H eq_refl Hi).
Qed.
End Power.

(** a matrix whose entries are those of the identity plus one entry for every line of [E] *)
Definition adj_matrix (n : nat) (E : list (nat * nat)) (M : matrix) : Prop :=
  below n E /\ forall i j, (i < n)%nat -> (j < n)%nat -> mget M i j = (if Nat.eqb i j then 1 else 0) + occs E i j.
Lemma adj_power : forall n E M, adj_matrix n E M -> forall i j, (i < n)%nat -> (j < n)%nat ->
  (mget (matrix_power n M n) i j <> 0 <-> conn E i j).
Proof.
  intros n E M [HE HM] i j Hi Hj. rewrite power_reach.
  - split.
    + intros H. induction H as [i Hi'|i k j Hi' H R IH]; [apply conn_refl|].
      assert (Hk : (k < n)%nat) by (destruct R; assumption). apply (conn_trans E i k j); [|exact (IH Hk Hj)].
      rewrite HM in H by assumption. destruct (Nat.eqb_spec i k) as [->|D]; [apply conn_refl|].
      apply (conn_step E i i k); [apply conn_refl|]. apply occs_pos. lia.
    + intros H. apply conn_sym in H. induction H as [i|j v w H IH Hs]; [apply reach_refl, Hi|].
      assert (Hv : (v < n)%nat). { unfold below in HE. rewrite Forall_forall in HE. destruct Hs as [Hs|Hs]; apply HE in Hs; cbn in Hs; lia. }
      apply (reach_step n M w v j); [exact Hi| |apply IH; assumption]. rewrite HM by assumption.
      assert (Q : occs E w v <> 0) by (apply occs_pos; tauto). pose proof (occs_nonneg E w v). destruct (Nat.eqb w v); lia.
  - intros a b Ha Hb. rewrite HM by assumption. pose proof (occs_nonneg E a b). destruct (Nat.eqb a b); lia.
  - intros a Ha. rewrite HM by assumption. pose proof (occs_nonneg E a a). rewrite Nat.eqb_refl. lia.
  - exact Hj.
  - exact Hi.
Qed.
