(** Lemmas about AmpModel. *)
From Coq Require Export Sorted.
From Verif Require Export AmpModel.

Lemma get_next_spec keys median n : StronglySorted lt keys ->
  (exists k, get_next_n keys median n = k /\ In k keys /\ n <= k /\ forall k', In k' keys -> n <= k' -> k <= k') \/
  ((forall k, In k keys -> k < n) /\ (median = true -> get_next_n keys median n = n) /\ (median = false -> keys <> [] -> In (get_next_n keys median n) keys /\ forall k, In k keys -> k <= get_next_n keys median n)).
Proof.
  intros S. unfold get_next_n. destruct (find _ keys) as [k|] eqn:E.
  - left. exists k. split; [reflexivity|]. revert E S. induction keys as [|a l IH]; intros E S; [discriminate|]. cbn [find] in E. inversion S as [|? ? S1 S2]; subst. destruct (Nat.leb_spec n a).
    + injection E as ->. split; [left; reflexivity|]. split; [assumption|]. intros k' [->|H'] _; [lia|]. rewrite Forall_forall in S2. specialize (S2 k' H'). lia.
    + destruct (IH E S1) as (H1 & H2 & H3). split; [right; assumption|]. split; [assumption|]. intros k' [->|H'] L; [lia|]. apply H3; assumption.
  - right. pose proof (find_none _ _ E) as H. split; [intros k Hk; specialize (H k Hk); apply Nat.leb_gt in H; exact H|]. split; [intros ->; reflexivity|]. intros -> N. clear E H.
    induction keys as [|a l IH]; [congruence|]. inversion S as [|? ? S1 S2]; subst. destruct l as [|b l].
    + cbn. split; [left; reflexivity|]. intros k [->|[]]. lia.
    + destruct (IH S1 ltac:(discriminate)) as [H1 H2]. change (last (a :: b :: l) 0) with (last (b :: l) 0). split; [right; exact H1|]. intros k [->|Hk]; [|apply H2, Hk]. rewrite Forall_forall in S2. specialize (S2 _ H1). lia.
Qed.
Section One.
Context {A : Type} (err : A -> option R).
Notation integral := (integral A).
Implicit Types (s : integral) (out : option (A * nat)).
Definition ok (s : integral) : Prop := num s <= next s.
Lemma set_next_facts s n b : num (set_next s n b) = num s /\ refine (set_next s n b) = refine s /\ res (set_next s n b) = res s /\ how (set_next s n b) = how s /\ ok (set_next s n b) /\ n <= next (set_next s n b).
Proof. unfold set_next, ok. cbn. destruct b; repeat split; lia. Qed.
Lemma compute_idle s out : refine s && (num s <? next s) = false -> compute err s out = (s, true, None).
Proof. intros H. unfold compute. rewrite H. reflexivity. Qed.
Lemma compute_busy s out : refine s = true -> num s < next s -> exists s' n, compute err s out = (s', match out with Some _ => true | None => false end, Some n) /\
  num s <= num s' /\ num s' <= next s' /\ how s' = how s /\
  (out = None -> num s' = num s /\ res s' = res s) /\
  (forall r m, out = Some (r, m) -> num s' = next s').
Proof.
  intros H1 H2. unfold compute. rewrite H1. apply Nat.ltb_lt in H2. rewrite H2. apply Nat.ltb_lt in H2. cbn [andb]. unfold compute_impl. destruct (how s) as [keys med|dv|] eqn:K.
  - set (n := get_next_n keys med (next s)). set (s1 := if n <? next s then _ else s). assert (S1 : num s1 = num s /\ res s1 = res s /\ how s1 = how s) . { unfold s1. destruct (n <? next s); cbn; repeat split; congruence. }
    destruct S1 as (S1 & S2 & S3). destruct (set_next_facts s1 n true) as (F1 & F2 & F3 & F4 & F5 & F6). destruct out as [[r m]|].
    + eexists _, n. split; [reflexivity|]. destruct (get_result (set_next s1 n true)) as [old|]; [destruct (gt (err old) (err r))|]; cbn [num next refine res how]; unfold ok in F5; repeat split; try congruence; try lia; try discriminate.
    + eexists _, n. split; [reflexivity|]. unfold ok in F5. repeat split; try congruence; try lia.
  - set (s1 := if dv then _ else s). assert (S1 : num s1 = num s /\ next s1 = next s /\ res s1 = res s /\ how s1 = how s) by (unfold s1; destruct dv; cbn; repeat split; congruence). destruct S1 as (S1 & S2 & S3 & S4). destruct out as [[r m]|].
    + eexists _, (next s). split; [reflexivity|]. cbn [num next refine res how set_next]. repeat split; try congruence; try lia; try discriminate.
    + eexists _, (next s). split; [reflexivity|]. repeat split; try congruence; try lia.
  - destruct out as [[r m]|].
    + eexists _, (next s). split; [reflexivity|]. cbn. repeat split; try congruence; try lia; try discriminate.
    + eexists _, (next s). split; [reflexivity|]. cbn. repeat split; try congruence; try lia.
Qed.
Lemma compute_facts s out : ok s -> let s' := fst (fst (compute err s out)) in num s <= num s' /\ ok s' /\ how s' = how s.
Proof.
  intros O. cbv zeta. destruct (refine s && (num s <? next s)) eqn:E.
  - apply andb_true_iff in E as [E1 E2]. apply Nat.ltb_lt in E2. destruct (compute_busy s out E1 E2) as (s' & n & -> & H1 & H2 & H3 & _). cbn. unfold ok. auto.
  - rewrite compute_idle by exact E. cbn. auto.
Qed.
(** the lattice used by the QMC, the result kept and the flag *)
Lemma compute_qmc s out keys med : how s = Qmc keys med -> refine s = true -> num s < next s -> exists s' , let n := get_next_n keys med (next s) in
  compute err s out = (s', match out with Some _ => true | None => false end, Some n) /\
  next s' = max n (num s) /\ (refine s' = true <-> next s <= n) /\
  (forall r m, out = Some (r, m) -> num s' = max n (num s) /\
     (num s <= 0 -> res s' = r) /\ (0 < num s -> res s' = if gt (err (res s)) (err r) then r else res s)).
Proof.
  intros K H1 H2. unfold compute. rewrite H1. apply Nat.ltb_lt in H2. rewrite H2. cbn [andb]. unfold compute_impl. rewrite K. cbv zeta. set (n := get_next_n keys med (next s)).
  set (s1 := if n <? next s then _ else s). assert (S1 : num s1 = num s /\ res s1 = res s /\ (refine s1 = true <-> next s <= n)).
  { unfold s1. destruct (Nat.ltb_spec n (next s)); cbn; repeat split; try congruence; try lia; try discriminate. }
  destruct S1 as (S1 & S2 & S3). destruct out as [[r m]|].
  - eexists. split; [reflexivity|]. unfold get_result. cbn [set_next num res]. rewrite S1, S2. destruct (Nat.leb_spec (num s) 0); cbn [num next refine res].
    + cbn [set_next num next refine]. rewrite S1. split; [reflexivity|]. split; [tauto|]. intros r' m' [= -> ->]. split; [reflexivity|]. split; [reflexivity|]. lia.
    + destruct (gt (err (res s)) (err r)) eqn:G; cbn [num next refine res set_next]; rewrite ?S1, ?S2; (split; [reflexivity|]; split; [tauto|]; intros r' m' [= -> ->]; split; [reflexivity|]; split; [lia|]; rewrite G; reflexivity).
  - eexists. split; [reflexivity|]. cbn [set_next num next refine]. rewrite S1. split; [reflexivity|]. split; [tauto|]. discriminate.
Qed.
End One.
