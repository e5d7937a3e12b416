(** Invariants of the message layer. *)
From Verif Require Export RpcModel.

Section D. Context {V : Type}.
Implicit Types d : list (nat * V).
Lemma dget_del k j d : dget k (ddel j d) = if Nat.eqb k j then None else dget k d.
Proof.
  unfold dget, ddel. induction d as [|[a v] d IH]; cbn [filter find fst option_map]; [destruct (Nat.eqb k j); reflexivity|].
  destruct (Nat.eqb_spec a j) as [->|Haj]; cbn [negb find fst].
  - rewrite IH. destruct (Nat.eqb_spec k j) as [->|Hkj]; [reflexivity|]. destruct (Nat.eqb_spec j k); [congruence|reflexivity].
  - destruct (Nat.eqb_spec a k) as [->|Hak]; [|exact IH]. destruct (Nat.eqb_spec k j); [congruence|reflexivity].
Qed.
Lemma dget_set k j v d : dget k (dset j v d) = if Nat.eqb k j then Some v else dget k d.
Proof.
  unfold dset. unfold dget at 1. cbn [find fst]. rewrite (Nat.eqb_sym k j). destruct (Nat.eqb_spec j k) as [->|H]; [reflexivity|].
  change (dget k (ddel j d) = dget k d). rewrite dget_del. destruct (Nat.eqb_spec k j); [congruence|reflexivity].
Qed.
Lemma dget_in k d : dget k d <> None <-> In k (map fst d).
Proof.
  unfold dget. induction d as [|[a v] d IH]; cbn [find fst map In]; [cbn; tauto|]. destruct (Nat.eqb_spec a k) as [->|H]; [cbn; split; [auto|intros _; discriminate]|]. rewrite IH. tauto.
Qed.
Lemma del_keys j d : NoDup (map fst d) -> NoDup (map fst (ddel j d)).
Proof.
  unfold ddel. induction d as [|[a v] d IH]; cbn [filter map fst]; intros H; [constructor|]. inversion H as [|? ? Ha Hd]; subst. destruct (Nat.eqb_spec a j); cbn [negb]; [apply IH, Hd|]. cbn [map fst]. constructor; [|apply IH, Hd].
  intros Hin. apply Ha. apply in_map_iff in Hin as (q & <- & Hq). apply in_map. apply filter_In in Hq. apply Hq.
Qed.
Lemma set_keys j v d : NoDup (map fst d) -> NoDup (map fst (dset j v d)).
Proof.
  intros H. unfold dset. cbn [map fst]. constructor; [|apply del_keys, H]. intros Hin. apply dget_in in Hin. rewrite dget_del, Nat.eqb_refl in Hin. congruence.
Qed.
End D.
Section W. Context {C : Type}.
Implicit Types w : worker C.
Record winv w : Prop := {
  i_alive : reader_dead w = false;
  i_keys : NoDup (map fst (callbacks w));
  i_toks : NoDup (map fst (wire w));
  i_bound : Forall (fun p => fst p <= serial w) (wire w);
  i_same : forall t, In t (map fst (wire w)) <-> In t (map fst (callbacks w));
  i_entry : forall t r, In (t, r) (wire w) -> exists c, nth_error (issued w) r = Some c /\ ((~ In r (cancelled w) /\ dget t (callbacks w) = Some (Some c)) \/ (In r (cancelled w) /\ dget t (callbacks w) = Some None));
  i_part : Permutation (seq 0 (length (issued w))) (map snd (wire w) ++ map snd (log w) ++ dropped w);
  i_log : forall c r, In (c, r) (log w) -> nth_error (issued w) r = Some c /\ ~ In r (cancelled w);
  i_drop : forall r, In r (dropped w) -> In r (cancelled w);
  i_canc : forall r, In r (cancelled w) -> In r (map snd (wire w)) \/ In r (dropped w) }.
Lemma winv0 : winv worker0.
Proof. constructor; cbn; try constructor; try tauto. Qed.
Lemma canc_old w r : winv w -> In r (cancelled w) -> r < length (issued w).
Proof.
  intros I H. assert (In r (seq 0 (length (issued w)))) as Hs; [|apply in_seq in Hs; lia]. eapply Permutation_in; [symmetry; apply (i_part w I)|]. apply in_or_app.
  destruct (i_canc w I r H); [left; assumption|right; apply in_or_app; right; assumption].
Qed.
(** issuing one request with a token that is not in use *)
Definition issue w (t : nat) (c : C) : worker C :=
  mkW (Nat.max (serial w) t) (dset t (Some c) (callbacks w)) (wire w ++ [(t, length (issued w))]) (issued w ++ [c]) (log w) (cancelled w) (dropped w) (reader_dead w).
Lemma NoDup_snoc {A} (l : list A) x : NoDup l -> ~ In x l -> NoDup (l ++ [x]).
Proof. intros H Hx. apply NoDup_rev in H. rewrite <- (rev_involutive (l ++ [x])), rev_app_distr. apply NoDup_rev. cbn. constructor; [rewrite <- in_rev; exact Hx|exact H]. Qed.
Lemma issue_inv w t c : winv w -> ~ In t (map fst (wire w)) -> winv (issue w t c).
Proof.
  intros I Ht. pose proof (canc_old w) as Hco. destruct I as [I1 I2 I3 I4 I5 I6 I7 I8 I9 I10]. constructor; cbn [issue reader_dead callbacks wire serial issued log cancelled dropped].
  - exact I1.
  - apply set_keys, I2.
  - rewrite map_app. apply NoDup_snoc; assumption.
  - apply Forall_app. split; [eapply Forall_impl; [|exact I4]; intros p Hp; cbv beta in *; lia|repeat constructor; cbn; lia].
  - intros j. rewrite <- (dget_in j (dset _ _ _)), dget_set, map_app, in_app_iff. cbn [map fst In]. destruct (Nat.eqb_spec j t) as [->|H]; [split; [discriminate|tauto]|]. rewrite dget_in, I5. split; [intros [?|[?|[]]]; [assumption|congruence]|auto].
  - intros j r Hin. apply in_app_iff in Hin as [Hin|[[= <- <-]|[]]].
    + destruct (I6 _ _ Hin) as (c' & Hc' & H). exists c'. rewrite nth_error_app1 by (apply nth_error_Some; congruence). split; [exact Hc'|]. rewrite dget_set. destruct (Nat.eqb_spec j t) as [->|]; [|exact H]. exfalso. apply Ht. apply in_map_iff. exists (t, r). auto.
    + exists c. rewrite nth_error_app2 by lia. rewrite Nat.sub_diag. split; [reflexivity|]. left. split; [|rewrite dget_set, Nat.eqb_refl; reflexivity]. intros Hc. apply Hco in Hc; [lia|constructor; assumption].
  - rewrite app_length. cbn [length]. rewrite Nat.add_1_r, seq_S. cbn [plus]. rewrite map_app. cbn [map snd]. rewrite <- app_assoc. cbn [app]. rewrite Permutation_app_comm. cbn [app]. apply Permutation_cons_app. exact I7.
  - intros c' r Hin. destruct (I8 _ _ Hin) as [H1 H2]. split; [|exact H2]. rewrite nth_error_app1 by (apply nth_error_Some; congruence). exact H1.
  - exact I9.
  - intros r Hr. rewrite map_app, in_app_iff. destruct (I10 r Hr); auto.
Qed.
Lemma call_issue w c : fst (call_cb w c) = issue w (S (serial w)) c.
Proof. unfold call_cb, issue. cbn [fst]. rewrite Nat.max_r by lia. reflexivity. Qed.
Lemma fresh w t : winv w -> serial w < t -> ~ In t (map fst (wire w)).
Proof. intros I H Hin. apply in_map_iff in Hin as (p & <- & Hp). pose proof (proj1 (Forall_forall _ _) (i_bound w I) p Hp) as Hb. cbv beta in Hb. lia. Qed.
Lemma call_inv w c : winv w -> winv (fst (call_cb w c)).
Proof. intros I. rewrite call_issue. apply issue_inv; [exact I|]. apply fresh; [exact I|lia]. Qed.
(** multicall issues its requests one after the other; the serial number may lag by one, which does not matter *)
Definition set_serial w n : worker C := mkW n (callbacks w) (wire w) (issued w) (log w) (cancelled w) (dropped w) (reader_dead w).
Lemma set_serial_inv w n : winv w -> serial w <= n -> winv (set_serial w n).
Proof. intros [I1 I2 I3 I4 I5 I6 I7 I8 I9 I10] H. constructor; cbn; try assumption. eapply Forall_impl; [|exact I4]. intros p Hp. cbv beta in *. lia. Qed.
Lemma multi_eq cs : forall w s, set_serial (fold_left (fun v q => issue v (fst q) (snd q)) (combine (seq s (length cs)) cs) w) (s + length cs)
  = mkW (s + length cs) (fold_left (fun d q => dset (fst q) (Some (snd q)) d) (combine (seq s (length cs)) cs) (callbacks w))
      (wire w ++ combine (seq s (length cs)) (seq (length (issued w)) (length cs))) (issued w ++ cs) (log w) (cancelled w) (dropped w) (reader_dead w).
Proof.
  induction cs as [|c cs IH]; intros w s; cbn [length seq combine fold_left].
  - rewrite !app_nil_r. reflexivity.
  - rewrite <- Nat.add_succ_comm, IH. cbn [fst snd issue callbacks wire issued log cancelled dropped reader_dead]. rewrite app_length, <- !app_assoc, Nat.add_1_r. reflexivity.
Qed.
Lemma multi_fold cs : forall w s, winv w -> ~ In s (map fst (wire w)) -> serial w <= s -> 
  winv (fold_left (fun v q => issue v (fst q) (snd q)) (combine (seq s (length cs)) cs) w) /\ serial (fold_left (fun v q => issue v (fst q) (snd q)) (combine (seq s (length cs)) cs) w) <= s + length cs.
Proof.
  induction cs as [|c cs IH]; intros w s I Hs Hle; cbn [length seq combine fold_left fst snd]; [split; [exact I|lia]|].
  assert (I' : winv (issue w s c)) by (apply issue_inv; assumption). rewrite <- Nat.add_succ_comm. apply IH; [exact I'| |cbn; lia]. apply fresh; [exact I'|cbn; lia].
Qed.
Lemma multicall_inv w cs : winv w -> ~ In (serial w) (map fst (wire w)) -> winv (multicall w cs).
Proof.
  intros I Hs. unfold multicall. rewrite <- (multi_eq cs w (serial w)). destruct (multi_fold cs w (serial w) I Hs (le_n _)). apply set_serial_inv; assumption.
Qed.
Lemma tok_unique w t r r' : winv w -> In (t, r) (wire w) -> In (t, r') (wire w) -> r = r'.
Proof.
  intros I. generalize (i_toks w I). generalize (wire w). intros l. induction l as [|[a b] l IH]; intros Hn H1 H2; [destruct H1|]. cbn in Hn. inversion Hn as [|? ? Ha Hl]; subst. destruct H1 as [[= -> ->]|H1], H2 as [[= ->]|H2]; try congruence.
  - exfalso. apply Ha. apply in_map_iff. exists (t, r'). auto.
  - subst. exfalso. apply Ha. apply in_map_iff. exists (t, r). auto.
  - apply IH; assumption.
Qed.
Lemma wire_snd_nodup w : winv w -> NoDup (map snd (wire w)).
Proof. intros I. pose proof (Permutation_NoDup (i_part w I) (seq_NoDup _ _)) as H. clear I. induction (map snd (wire w)) as [|a l IH]; [constructor|]. cbn in H. inversion H; subst. constructor; [rewrite in_app_iff in *; tauto|apply IH; assumption]. Qed.
Lemma req_unique w t t' r : winv w -> In (t, r) (wire w) -> In (t', r) (wire w) -> t = t'.
Proof.
  intros I. generalize (wire_snd_nodup w I). generalize (wire w). intros l. induction l as [|[a b] l IH]; intros Hn H1 H2; [destruct H1|]. cbn in Hn. inversion Hn as [|? ? Ha Hl]; subst. destruct H1 as [[= -> ->]|H1], H2 as [[= ->]|H2]; try congruence.
  - exfalso. apply Ha. apply in_map_iff. exists (t', r). auto.
  - subst. exfalso. apply Ha. apply in_map_iff. exists (t, r). auto.
  - apply IH; assumption.
Qed.
Lemma cancel_inv w t : winv w -> winv (fst (cancel_cb w t)).
Proof.
  intros I. unfold cancel_cb. destruct (dget t (callbacks w)) as [o|] eqn:E; [|exact I]. pose proof (tok_unique w) as TU. pose proof (req_unique w) as RU. pose proof I as I0. destruct I as [I1 I2 I3 I4 I5 I6 I7 I8 I9 I10].
  assert (Hm : forall r, In r (map snd (filter (fun p => Nat.eqb (fst p) t) (wire w))) <-> In (t, r) (wire w)).
  { intros r. rewrite in_map_iff. split; [intros ([a b] & <- & H); apply filter_In in H as [H H']; apply Nat.eqb_eq in H'; cbn in *; subst; exact H|]. intros H. exists (t, r). split; [reflexivity|]. apply filter_In. split; [exact H|apply Nat.eqb_refl]. }
  constructor; cbn [fst reader_dead callbacks wire serial issued log cancelled dropped]; try assumption.
  - apply set_keys, I2.
  - intros j. rewrite I5, <- !dget_in, dget_set. destruct (Nat.eqb_spec j t) as [->|]; [split; congruence|tauto].
  - intros j r Hin. destruct (I6 _ _ Hin) as (c & Hc & H). exists c. split; [exact Hc|]. rewrite dget_set, in_app_iff, Hm. destruct (Nat.eqb_spec j t) as [->|Hj]; [right; split; [left; exact Hin|reflexivity]|].
    assert (~ In (t, r) (wire w)) by (intros Hw; apply Hj; exact (RU _ _ _ I0 Hin Hw)). destruct H as [[H1 H2]|[H1 H2]]; [left; tauto|right; tauto].
  - intros c r Hin. destruct (I8 _ _ Hin) as [H1 H2]. split; [exact H1|]. rewrite in_app_iff, Hm. intros [H|H]; [|contradiction].
    pose proof (Permutation_NoDup I7 (seq_NoDup _ _)) as Hn. apply in_map with (f := snd) in H. cbn in H. apply in_map with (f := snd) in Hin. cbn in Hin. clear - H Hin Hn. induction (map snd (wire w)) as [|a l IH]; [destruct H|]. cbn in Hn. inversion Hn; subst. destruct H as [->|H]; [|apply IH; assumption]. rewrite !in_app_iff in *. tauto.
  - intros r Hr. rewrite in_app_iff. right. apply I9, Hr.
  - intros r Hr. rewrite in_app_iff, Hm in Hr. destruct Hr as [Hr|Hr]; [|apply I10, Hr]. left. apply in_map_iff. exists (t, r). auto.
Qed.
Lemma nth_split' {A} (l : list A) i x : nth_error l i = Some x -> l = firstn i l ++ x :: skipn (S i) l.
Proof. revert i. induction l as [|a l IH]; intros [|i] H; cbn in *; try discriminate; [injection H as ->; reflexivity|]. f_equal. apply IH, H. Qed.
Lemma reply_inv w i : winv w -> winv (reply w i).
Proof.
  intros I. unfold reply. destruct (nth_error (wire w) i) as [[t r]|] eqn:E; [|exact I]. rewrite (i_alive w I). apply nth_split' in E. set (l1 := firstn i (wire w)) in *. set (l2 := skipn (S i) (wire w)) in *. clearbody l1 l2.
  pose proof (tok_unique w) as TU. pose proof (req_unique w) as RU. pose proof I as I0. destruct I as [I1 I2 I3 I4 I5 I6 I7 I8 I9 I10].
  assert (Hin : In (t, r) (wire w)) by (rewrite E; apply in_elt).
  assert (Hsub : forall p, In p (l1 ++ l2) -> In p (wire w)) by (intros p Hp; rewrite E; rewrite in_app_iff in *; cbn; tauto).
  assert (Hnt : ~ In t (map fst (l1 ++ l2))) by (rewrite E, map_app in I3; cbn in I3; apply NoDup_remove_2 in I3; rewrite map_app; exact I3).
  assert (Htok : forall j, In j (map fst (l1 ++ l2)) <-> j <> t /\ In j (map fst (wire w))).
  { intros j. rewrite E, !map_app, !in_app_iff in *. cbn [map fst In]. split; [|intros [H1 [H|[H|H]]]; auto; congruence]. intros H. split; [|tauto]. intros ->. apply Hnt. tauto. }
  assert (Hnr : ~ In r (map snd (l1 ++ l2))).
  { pose proof (wire_snd_nodup w I0) as Hn. rewrite E, map_app in Hn. cbn in Hn. apply NoDup_remove_2 in Hn. rewrite map_app. exact Hn. }
  assert (P7 : Permutation (seq 0 (length (issued w))) (r :: map snd (l1 ++ l2) ++ map snd (log w) ++ dropped w)).
  { rewrite I7, E, !map_app. cbn [map snd]. rewrite <- !app_assoc. symmetry. cbn [app]. apply Permutation_middle. }
  assert (Hkeys : forall o, dget t (callbacks w) = Some o -> forall j, In j (map fst (l1 ++ l2)) <-> In j (map fst (ddel t (callbacks w)))).
  { intros o Ho j. rewrite Htok, I5, <- !dget_in, dget_del. destruct (Nat.eqb_spec j t) as [->|]; [split; [intros []; congruence|congruence]|tauto]. }
  assert (Hent : forall j r', In (j, r') (l1 ++ l2) -> exists c, nth_error (issued w) r' = Some c /\ ((~ In r' (cancelled w) /\ dget j (ddel t (callbacks w)) = Some (Some c)) \/ (In r' (cancelled w) /\ dget j (ddel t (callbacks w)) = Some None))).
  { intros j r' H. rewrite dget_del. destruct (Nat.eqb_spec j t) as [->|]; [exfalso; apply Hnt; apply in_map_iff; exists (t, r'); auto|]. apply I6, Hsub, H. }
  assert (I4' : Forall (fun p => fst p <= serial w) (l1 ++ l2)) by (apply Forall_forall; intros p Hp; rewrite Forall_forall in I4; apply I4, Hsub, Hp).
  assert (I3' : NoDup (map fst (l1 ++ l2))) by (rewrite E, map_app in I3; cbn in I3; apply NoDup_remove_1 in I3; rewrite map_app; exact I3).
  destruct (I6 _ _ Hin) as (c & Hc & [[Hnc Hd]|[Hnc Hd]]); rewrite Hd; constructor; cbn [fst reader_dead callbacks wire serial issued log cancelled dropped]; try assumption; try reflexivity.
  - apply del_keys, I2.
  - eapply Hkeys, Hd.
  - rewrite P7. cbn [map snd]. apply Permutation_cons_app. reflexivity.
  - intros c' r' [[= <- <-]|H]; [auto|apply I8, H].
  - intros r' Hr'. destruct (I10 r' Hr') as [H|H]; [|auto]. left. rewrite E in H. rewrite !map_app, !in_app_iff in *. cbn [map snd In] in H. destruct H as [H|[->|H]]; try tauto.
  - apply del_keys, I2.
  - eapply Hkeys, Hd.
  - rewrite P7. rewrite !app_assoc. apply Permutation_cons_app. reflexivity.
  - intros r' [->|H]; [exact Hnc|apply I9, H].
  - intros r' Hr'. cbn [In]. destruct (I10 r' Hr') as [H|H]; [|auto]. rewrite E in H. rewrite !map_app, !in_app_iff in *. cbn [map snd In] in H. tauto.
Qed.
End W.
