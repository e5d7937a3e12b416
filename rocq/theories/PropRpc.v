(** C48, C49: the message layer of disteval. *)
From Verif Require Import RpcProofs.

(** * C48 *)
(** what may happen to a worker, in any order: calls of its methods and answers of its process (the [i]-th outstanding
    message is answered: the process may answer in any order) *)
Inductive op (C : Type) := Call (c : C) | Cancel (token : nat) | Multi (cs : list C) | Reply (i : nat).
Arguments Call {C}. Arguments Cancel {C}. Arguments Multi {C}. Arguments Reply {C}.
Definition step {C} (w : worker C) (o : op C) : worker C :=
  match o with Call c => fst (call_cb w c) | Cancel t => fst (cancel_cb w t) | Multi cs => multicall w cs | Reply i => reply w i end.
Definition run {C} (ops : list (op C)) : worker C := fold_left step ops worker0.
(** [multicall] is only used while the last token given out has been answered *)
Definition safe {C} (ops : list (op C)) : Prop := forall before cs after, ops = before ++ Multi cs :: after -> ~ In (serial (run before)) (map fst (wire (run before))).
Lemma run_inv {C} (ops : list (op C)) : safe ops -> winv (run ops).
Proof.
  induction ops as [|o ops IH] using rev_ind; intros Hs; [apply winv0|].
  assert (Ho : safe ops) by (intros b cs a E; apply (Hs b cs (a ++ [o])); rewrite E, <- app_assoc; reflexivity).
  specialize (IH Ho). unfold run. rewrite fold_left_app. fold (run ops). cbn [fold_left]. destruct o; cbn [step]; [apply call_inv, IH|apply cancel_inv, IH| |apply reply_inv, IH].
  apply multicall_inv; [exact IH|]. apply (Hs ops cs []). reflexivity.
Qed.
(** [log]: which callback was run with the answer to which request; [issued]: the callback registered with each request.
    Requests [r < length issued] are the ones made so far. *)
Theorem C48_answers_reach_their_callers : forall C (ops : list (op C)), safe ops -> let w := run ops in
  reader_dead w = false
  /\ (forall c r, In (c, r) (log w) -> nth_error (issued w) r = Some c)
  /\ NoDup (map snd (log w))
  /\ (forall r, In r (cancelled w) -> ~ In r (map snd (log w))).
Proof.
  intros C ops Hs w. assert (I : winv w) by (apply run_inv, Hs). split; [apply I|]. split; [intros c r H; apply I, H|]. split.
  - pose proof (Permutation_NoDup (i_part w I) (seq_NoDup _ _)) as Hn. clear - Hn. induction (map snd (wire w)) as [|a l IH]; [|inversion Hn; auto]. cbn in Hn. induction (map snd (log w)) as [|a l IH]; [constructor|]. cbn in Hn. inversion Hn as [|? ? H1 H2]; subst. constructor; [|apply IH, H2]. intros H. apply H1, in_or_app. auto.
  - intros r Hr Hin. apply in_map_iff in Hin as ([c r'] & <- & Hin). apply (i_log w I) in Hin. apply Hin, Hr.
Qed.
Print Assumptions C48_answers_reach_their_callers.
(** no request is lost: it waits for its answer, has been handed over, or was cancelled *)
Theorem C48_nothing_lost : forall C (ops : list (op C)), safe ops -> let w := run ops in
  forall r c, nth_error (issued w) r = Some c -> In r (map snd (wire w)) \/ In (c, r) (log w) \/ In r (cancelled w).
Proof.
  intros C ops Hs w r c Hr. assert (I : winv w) by (apply run_inv, Hs). assert (Hl : r < length (issued w)) by (apply nth_error_Some; congruence).
  assert (In r (map snd (wire w) ++ map snd (log w) ++ dropped w)) as H by (eapply Permutation_in; [apply (i_part w I)|apply in_seq; lia]). apply in_app_iff in H as [H|H]; [auto|]. apply in_app_iff in H as [H|H]; [|right; right; apply I, H].
  right. left. apply in_map_iff in H as ([c' r'] & E & H). cbn in E. subst r'. destruct (i_log w I _ _ H) as [H1 _]. congruence.
Qed.
Print Assumptions C48_nothing_lost.
(** so when all answers have come, each request that was not cancelled has been answered to its own callback, exactly once *)
Corollary C48_exactly_once : forall C (ops : list (op C)), safe ops -> wire (run ops) = [] ->
  forall r c, nth_error (issued (run ops)) r = Some c -> ~ In r (cancelled (run ops)) ->
  In (c, r) (log (run ops)) /\ NoDup (map snd (log (run ops))).
Proof.
  intros C ops Hs Hw r c Hr Hc. split; [|apply C48_answers_reach_their_callers, Hs]. destruct (C48_nothing_lost C ops Hs r c Hr) as [H|[H|H]]; [rewrite Hw in H; destruct H|exact H|contradiction].
Qed.
(** outstanding requests have different tokens, and [queue_size] is their number *)
Theorem C48_tokens : forall C (ops : list (op C)), safe ops -> NoDup (map fst (wire (run ops))) /\ length (callbacks (run ops)) = length (wire (run ops)).
Proof.
  intros C ops Hs. pose proof (run_inv ops Hs) as I. split; [apply I|]. rewrite <- (map_length fst (callbacks _)), <- (map_length fst (wire _)). apply Permutation_length, NoDup_Permutation; [apply I|apply I|]. intros x. symmetry. apply I.
Qed.
(** without multicall, or with multicall only on an idle worker, the condition holds *)
Theorem C48_calls_are_safe : forall C (ops : list (op C)), (forall cs, ~ In (Multi cs) ops) -> safe ops.
Proof. intros C ops H b cs a E. exfalso. apply (H cs). rewrite E. apply in_elt. Qed.
Theorem C48_idle_multicall_is_safe : forall C (ops : list (op C)), (forall before cs after, ops = before ++ Multi cs :: after -> wire (run before) = []) -> safe ops.
Proof. intros C ops H b cs a E. rewrite (H b cs a E). intros []. Qed.
Example C48_ex : let ops := [Multi [10; 11; 12]; Reply 2; Reply 0; Reply 0; Call 13; Call 14; Cancel 4; Reply 1; Reply 0; Multi [15; 16]] in
  log (run ops) = [(14, 4); (10, 0); (11, 1); (12, 2)] \/ log (run ops) = [(14, 4); (11, 1); (10, 0); (12, 2)].
Proof. vm_compute. auto. Qed.
Example C48_ex_safe : safe [Multi [10; 11; 12]; Reply 2; Reply 0; Reply 0; Call 13; Call 14].
Proof.
  apply C48_idle_multicall_is_safe. intros b cs a E. destruct b as [|o b]; [reflexivity|]. exfalso. injection E as _ E.
  assert (H : In (Multi cs) [Reply 2; Reply 0; Reply 0; Call 13; Call 14]) by (rewrite E; apply in_elt). cbn in H. intuition discriminate.
Qed.
(** a multicall while the latest call is unanswered reuses its token: the answer of the call goes to the multicall, and the
    reader then dies at the second answer, so that the caller of the call waits for ever *)
Theorem C48_multicall_token_reuse_refuted : let w := run [Call 100; Multi [200]; Reply 0] in
  log w = [(200, 0)] /\ nth_error (issued w) 0 = Some 100 /\ reader_dead (reply w 0) = true /\ forall i, log (reply (reply w 0) i) = [(200, 0)].
Proof. split; [reflexivity|]. split; [reflexivity|]. split; [reflexivity|]. intros i. destruct i as [|[|i]]; reflexivity. Qed.

(** the future of a multicall: answers in any order *)
Definition feed {A E} (answers : list (nat * (A + E))) (n : nat) : option (mstate A E) :=
  fold_left (fun m q => match m with Some m => multicall_return m (snd q) (fst q) | None => None end) answers (Some (multicall_start n)).
Lemma set_nth_length {A} (v : A) l : forall i, length (set_nth i v l) = length l.
Proof. induction l as [|x l IH]; intros [|i]; cbn; auto. Qed.
Lemma nth_set {A} (v : A) l : forall i j, nth_error (set_nth i v l) j = if Nat.eqb j i then (if Nat.ltb i (length l) then Some v else None) else nth_error l j.
Proof.
  induction l as [|x l IH]; intros i j; [replace (set_nth i v []) with (@nil A) by (destruct i; reflexivity); destruct (Nat.eqb j i), j; reflexivity|]. destruct i as [|i], j as [|j]; cbn [set_nth nth_error Nat.eqb length]; try reflexivity. rewrite IH. destruct (Nat.eqb j i); [|reflexivity]. change (S i <? S (length l)) with (i <? length l). reflexivity.
Qed.
Lemma nth_error_ext {A} (l l' : list A) : (forall i, nth_error l i = nth_error l' i) -> l = l'.
Proof. revert l'. induction l as [|x l IH]; intros [|y l'] H; [reflexivity|specialize (H 0); discriminate|specialize (H 0); discriminate|]. pose proof (H 0) as H0. injection H0 as ->. f_equal. apply IH. intros i. apply (H (S i)). Qed.
Lemma feed_state {A E} (answer : nat -> A) n order : NoDup order -> Forall (fun i => i < n) order ->
  feed (E := E) (map (fun i => (i, inl (answer i))) order) n =
  let rs := map (fun j => if existsb (Nat.eqb j) order then Some (answer j) else None) (seq 0 n) in
  Some (mkM rs (Z.of_nat (n - length order)) (if Nat.eqb (length order) n && negb (Nat.eqb n 0) then Done rs else Pending)).
Proof.
  induction order as [|i order IH] using rev_ind; intros Hn Hb.
  - cbn. f_equal. unfold multicall_start. f_equal; [|f_equal; lia|destruct n; reflexivity]. clear. generalize 0. induction n as [|n IH]; intros s; cbn; [reflexivity|]. f_equal. apply IH.
  - apply Forall_app in Hb as [Hb Hi]. apply Forall_cons_iff in Hi as [Hi _]. assert (Hn' : NoDup order) by (apply NoDup_remove_1 in Hn; rewrite app_nil_r in Hn; exact Hn). assert (Hni : ~ In i order) by (apply NoDup_remove_2 in Hn; rewrite app_nil_r in Hn; exact Hn).
    assert (Hlen : length order < n).
    { assert (length (order ++ [i]) <= n); [|rewrite app_length in *; cbn in *; lia]. rewrite <- (seq_length n 0). apply NoDup_incl_length; [exact Hn|]. intros x Hx. apply in_seq. apply in_app_iff in Hx as [Hx|[<-|[]]]; [|lia]. rewrite Forall_forall in Hb. specialize (Hb x Hx). lia. }
    unfold feed in *. rewrite map_app, fold_left_app, IH by assumption. cbn [map fold_left fst snd]. unfold multicall_return. cbn [results ntodo fut].
    replace (set_nth i (Some (answer i)) (map (fun j => if existsb (Nat.eqb j) order then Some (answer j) else None) (seq 0 n))) with (map (fun j => if existsb (Nat.eqb j) (order ++ [i]) then Some (answer j) else None) (seq 0 n)).
    2: { apply nth_error_ext. intros j. rewrite nth_set, map_length, seq_length, nth_error_map. destruct (Nat.eqb_spec j i) as [->|Hj].
         - replace (i <? n) with true by (symmetry; apply Nat.ltb_lt; exact Hi). rewrite (nth_error_nth' _ 0) by (rewrite seq_length; exact Hi). rewrite seq_nth by exact Hi. cbn [option_map plus]. rewrite existsb_app. cbn. rewrite Nat.eqb_refl, orb_true_r. reflexivity.
         - rewrite nth_error_map. destruct (nth_error (seq 0 n) j) as [x|] eqn:Ex; [|reflexivity]. cbn [option_map]. assert (x = j) as ->. { assert (Hj' : j < n) by (rewrite <- (seq_length n 0); apply nth_error_Some; congruence). rewrite (nth_error_nth' _ 0) in Ex by (rewrite seq_length; exact Hj'). rewrite seq_nth in Ex by exact Hj'. injection Ex as <-. reflexivity. }
           rewrite existsb_app. cbn. replace (j =? i) with false by (symmetry; apply Nat.eqb_neq; exact Hj). rewrite !orb_false_r. reflexivity. }
    rewrite app_length. cbn [length]. replace (length order =? n) with false by (symmetry; apply Nat.eqb_neq; lia). cbn [andb].
    destruct (Z.eqb_spec (Z.of_nat (n - length order) - 1) 0) as [Hz|Hz].
    + replace (length order + 1 =? n) with true by (symmetry; apply Nat.eqb_eq; lia). replace (n =? 0) with false by (symmetry; apply Nat.eqb_neq; lia). cbn. do 2 f_equal. lia.
    + replace (length order + 1 =? n) with false by (symmetry; apply Nat.eqb_neq; lia). cbn. do 2 f_equal. lia.
Qed.
(** the future completes with the answers in the order of the calls, exactly when the last of them arrives *)
Theorem C48_multicall_result : forall A E n (answer : nat -> A) order, 0 < n -> Permutation order (seq 0 n) ->
  option_map fut (feed (E := E) (map (fun i => (i, inl (answer i))) order) n) = Some (Done (map (fun i => Some (answer i)) (seq 0 n)))
  /\ forall l1 l2, order = l1 ++ l2 -> l2 <> [] -> option_map fut (feed (E := E) (map (fun i => (i, inl (answer i))) l1) n) = Some Pending.
Proof.
  intros A E n answer order Hn Hp. assert (Hd : NoDup order) by (apply (Permutation_NoDup (Permutation_sym Hp)), seq_NoDup). assert (Hb : Forall (fun i => i < n) order) by (apply Forall_forall; intros x Hx; apply (Permutation_in _ Hp) in Hx; apply in_seq in Hx; lia).
  assert (Hl : length order = n) by (rewrite (Permutation_length Hp); apply seq_length). split.
  - rewrite feed_state by assumption. cbn [option_map fut]. rewrite Hl, Nat.eqb_refl. replace (n =? 0) with false by (symmetry; apply Nat.eqb_neq; lia). cbn. do 2 f_equal. apply map_ext_in. intros j Hj. replace (existsb (Nat.eqb j) order) with true; [reflexivity|]. symmetry. apply existsb_exists. exists j. split; [eapply Permutation_in; [symmetry; exact Hp|exact Hj]|apply Nat.eqb_refl].
  - intros l1 l2 -> Hne. apply Forall_app in Hb as [Hb _]. assert (Hd' : NoDup l1) by (clear - Hd; induction l1; [constructor|]; inversion Hd; subst; constructor; [rewrite in_app_iff in *; tauto|auto]). rewrite feed_state by assumption. cbn [option_map fut]. rewrite app_length in Hl. destruct l2; [congruence|]. cbn in Hl. replace (length l1 =? n) with false by (symmetry; apply Nat.eqb_neq; lia). reflexivity.
Qed.
Print Assumptions C48_multicall_result.
(** an empty multicall never completes (there will be no answer), and a second error ends the reader *)
Theorem C48_empty_multicall_refuted : forall A E, fut (multicall_start (A := A) (E := E) 0) = Pending /\ forall (w : worker nat), wire (multicall w []) = wire w.
Proof. intros A E. split; [reflexivity|]. intros w. cbn. apply app_nil_r. Qed.
Theorem C48_two_errors_refuted : forall A E (e1 e2 : E), feed (A := A) [(0, inr e1); (1, inr e2)] 2 = None.
Proof. reflexivity. Qed.

(** * C49 *)
Inductive sop (C : Type) := SAdd | SCall (k : nat) (c : C) | SDirect (k : nat) (c : C) | SMulti (k : nat) (cs : list C) | SReply (k i : nat) | SCancel (k token : nat) | SDrain.
Arguments SAdd {C}. Arguments SCall {C}. Arguments SDirect {C}. Arguments SMulti {C}. Arguments SReply {C}. Arguments SCancel {C}. Arguments SDrain {C}.
Definition sstep {C} (s : sched C) (o : sop C) : sched C :=
  match o with SAdd => s_add_worker s | SCall k c => s_call_cb s k c | SDirect k c => s_direct s k c | SMulti k cs => s_multicall s k cs
  | SReply k i => s_reply s k i | SCancel k t => s_cancel s k t | SDrain => fst (drain_check s) end.
Definition sched0 {C} : sched C := mkS [] 0 true false.
Definition srun {C} (ops : list (sop C)) : sched C := fold_left sstep ops sched0.
(** the requests made through the scheduler that are neither answered nor cancelled *)
Definition is_pending {C} (w : worker (bool * C)) (r : nat) : bool :=
  match nth_error (issued w) r with Some (true, _) => negb (existsb (Nat.eqb r) (cancelled w)) | _ => false end.
Definition pending_of {C} (w : worker (bool * C)) : nat := length (filter (fun p => is_pending w (snd p)) (wire w)).
Definition pending {C} (s : sched C) : nat := list_sum (map pending_of (workers s)).
(** what a user may do: cancel only requests made with the scheduler's [call_cb], each at most once while it is outstanding;
    multicall on a worker whose last token is answered *)
Definition allowed {C} (s : sched C) (o : sop C) : Prop :=
  match o with
  | SCancel k t => forall w r, nth_error (workers s) k = Some w -> In (t, r) (wire w) -> is_pending w r = true
  | SMulti k _ => forall w, nth_error (workers s) k = Some w -> ~ In (serial w) (map fst (wire w))
  | _ => True
  end.
Definition legal {C} (ops : list (sop C)) : Prop := forall b o a, ops = b ++ o :: a -> allowed (srun b) o.

Lemma list_sum_set (l : list nat) : forall k x y, nth_error l k = Some x -> list_sum (set_nth k y l) + x = list_sum l + y.
Proof. induction l as [|a l IH]; intros [|k] x y H; cbn in *; try discriminate; [injection H as ->; lia|]. specialize (IH k x y H). unfold list_sum in IH. lia. Qed.
Lemma map_set {A B} (f : A -> B) l : forall k x, map f (set_nth k x l) = set_nth k (f x) (map f l).
Proof. induction l as [|a l IH]; intros [|k] x; cbn; [reflexivity..|]. rewrite IH. reflexivity. Qed.
Lemma forall_set {A} (P : A -> Prop) l : forall k x, Forall P l -> P x -> Forall P (set_nth k x l).
Proof. induction l as [|a l IH]; intros [|k] x H Hx; cbn; [constructor|constructor|inversion H; constructor; assumption|inversion H; constructor; auto]. Qed.
Section S. Context {C : Type}.
Implicit Types (w : worker (bool * C)) (s : sched C).
Lemma is_pending_issue w t c r : winv w -> r < length (issued w) -> is_pending (issue w t c) r = is_pending w r.
Proof. intros I H. unfold is_pending. cbn [issue issued cancelled]. rewrite nth_error_app1 by exact H. reflexivity. Qed.
Lemma wire_old w p : winv w -> In p (wire w) -> snd p < length (issued w).
Proof. intros I H. destruct p as [t r]. destruct (i_entry w I t r H) as (c & Hc & _). apply nth_error_Some. cbn. congruence. Qed.
Lemma pending_issue w t b c : winv w -> pending_of (issue w t (b, c)) = pending_of w + (if b then 1 else 0).
Proof.
  intros I. unfold pending_of. cbn [issue wire]. rewrite filter_app, app_length. f_equal.
  - f_equal. apply filter_ext_in. intros p Hp. apply is_pending_issue; [exact I|]. apply wire_old; assumption.
  - cbn [filter snd]. unfold is_pending. cbn [issued cancelled issue]. rewrite nth_error_app2 by lia. rewrite Nat.sub_diag. cbn [nth_error]. destruct b; [|reflexivity].
    replace (existsb (Nat.eqb (length (issued w))) (cancelled w)) with false; [reflexivity|]. symmetry. apply not_true_is_false. intros H. apply existsb_exists in H as (x & Hx & E). apply Nat.eqb_eq in E. subst x. apply (canc_old w _ I) in Hx. lia.
Qed.
Lemma pending_serial w n : pending_of (set_serial w n) = pending_of w.
Proof. reflexivity. Qed.
Lemma pending_multi w cs : winv w -> ~ In (serial w) (map fst (wire w)) -> pending_of (multicall w (map (pair false) cs)) = pending_of w.
Proof.
  intros I Hs. unfold multicall. rewrite <- (multi_eq (map (pair false) cs) w (serial w)), pending_serial.
  enough (forall cs (v : worker (bool * C)) (s : nat), winv v -> ~ In s (map fst (wire v)) -> serial v <= s -> pending_of (fold_left (fun v q => issue v (fst q) (snd q)) (combine (seq s (length cs)) (map (pair false) cs)) v) = pending_of v) as H by (rewrite map_length; apply H; auto).
  clear. induction cs as [|c cs IH]; intros v s I Hs Hle; [reflexivity|]. cbn [length seq map combine fold_left fst snd]. assert (I' : winv (issue v s (false, c))) by (apply issue_inv; assumption). rewrite IH; [rewrite pending_issue by exact I; lia|exact I'| |cbn; lia]. apply fresh; [exact I'|cbn; lia].
Qed.
Lemma filter_split {A} (f : A -> bool) l1 x l2 : length (filter f (l1 ++ x :: l2)) = length (filter f (l1 ++ l2)) + (if f x then 1 else 0).
Proof. rewrite !filter_app, !app_length. cbn [filter]. destruct (f x); cbn; lia. Qed.
(** an answer: one pending request less exactly if the scheduler's callback ran *)
Lemma pending_reply w i : winv w ->
  pending_of (reply w i) + (match log (reply w i) with q :: r => if Nat.eqb (length (log (reply w i))) (S (length (log w))) then (if fst (fst q) then 1 else 0) else 0 | [] => 0 end) = pending_of w.
Proof.
  intros I. unfold reply. destruct (nth_error (wire w) i) as [[t r]|] eqn:E.
  2: { destruct (log w); cbn [length]; [lia|]. replace (S (length l) =? S (S (length l))) with false by (symmetry; apply Nat.eqb_neq; lia). lia. }
  assert (Hin : In (t, r) (wire w)) by (eapply nth_error_In; exact E). apply nth_split' in E. rewrite (i_alive w I). set (l1 := firstn i (wire w)) in *. set (l2 := skipn (S i) (wire w)) in *.
  destruct (i_entry w I t r Hin) as ([b c] & Hc & [[Hnc Hd]|[Hnc Hd]]); rewrite Hd; cbn [log length].
  - rewrite Nat.eqb_refl. cbn [fst]. unfold pending_of at 2. rewrite E, filter_split. unfold pending_of. cbn [wire snd]. unfold is_pending at 3. rewrite Hc.
    replace (existsb (Nat.eqb r) (cancelled w)) with false. 2: { symmetry. apply not_true_is_false. intros H. apply existsb_exists in H as (x & Hx & Ex). apply Nat.eqb_eq in Ex. subst x. contradiction. }
    destruct b; cbn [negb]; reflexivity.
  - unfold pending_of at 2. rewrite E, filter_split. unfold pending_of. cbn [wire snd]. unfold is_pending at 3. rewrite Hc.
    replace (existsb (Nat.eqb r) (cancelled w)) with true by (symmetry; apply existsb_exists; exists r; split; [exact Hnc|apply Nat.eqb_refl]).
    cbn [negb]. replace (if b then false else false) with false by (destruct b; reflexivity). cbv iota.
    destruct (log w) as [|q l]; [reflexivity|]. cbn [length]. replace (S (length l) =? S (S (length l))) with false by (symmetry; apply Nat.eqb_neq; lia). reflexivity.
Qed.
(** a cancellation that returns True *)
Lemma pending_cancel w t w' : winv w -> (forall r, In (t, r) (wire w) -> is_pending w r = true) -> cancel_cb w t = (w', true) -> pending_of w' + 1 = pending_of w.
Proof.
  intros I Hp. unfold cancel_cb. destruct (dget t (callbacks w)) as [o|] eqn:E; [|discriminate]. intros [= <-].
  assert (Ht : In t (map fst (wire w))) by (apply (i_same w I), dget_in; congruence). apply in_map_iff in Ht as ([t' r] & Ht' & Hin). cbn in Ht'. subst t'.
  pose proof (tok_unique w) as TU. pose proof (req_unique w) as RU. destruct (in_split _ _ Hin) as (l1 & l2 & El). unfold pending_of. cbn [wire]. rewrite El, !filter_split. cbn [snd]. rewrite (Hp r Hin).
  assert (Hone : map snd (filter (fun p : nat * nat => fst p =? t) (wire w)) = [r]).
  { rewrite El, filter_app. cbn [filter fst]. rewrite Nat.eqb_refl. pose proof (i_toks w I) as Hn. rewrite El, map_app in Hn. cbn in Hn. apply NoDup_remove_2 in Hn. rewrite in_app_iff in Hn.
    assert (F : forall l, ~ In t (map fst l) -> filter (fun p : nat * nat => fst p =? t) l = []) by (clear; induction l as [|[a b] l IH]; intros H; cbn in *; [reflexivity|]; destruct (Nat.eqb_spec a t) as [->|]; [exfalso; apply H; auto|apply IH; tauto]).
    rewrite !F by tauto. reflexivity. }
  unfold is_pending at 2. cbn [issued cancelled]. rewrite <- El, Hone. cbn [app existsb]. rewrite Nat.eqb_refl. cbn [orb negb].
  replace (match nth_error (issued w) r with Some (true, _) => false | _ => false end) with false by (destruct (nth_error (issued w) r) as [[[|] ?]|]; reflexivity).
  rewrite Nat.add_0_r. f_equal. f_equal. apply filter_ext_in. intros [t2 r2] Hp2. cbn [snd]. unfold is_pending. cbn [issued cancelled app existsb]. destruct (Nat.eqb_spec r2 r) as [->|]; [|reflexivity]. exfalso.
  assert (In (t2, r) (wire w)) as Hw by (rewrite El, in_app_iff in *; cbn; tauto). assert (t2 = t) by (eapply RU; eauto). subst t2.
  pose proof (i_toks w I) as Hn. rewrite El, map_app in Hn. cbn in Hn. apply NoDup_remove_2 in Hn. rewrite <- map_app in Hn. apply Hn. apply in_map_iff. exists (t, r). auto.
Qed.
Definition sinv s : Prop := Forall winv (workers s) /\ npending s = Z.of_nat (pending s) /\ (waiting s = true -> drained s = false -> (0 < npending s)%Z).
Lemma pending_upd s k w w' : nth_error (workers s) k = Some w -> list_sum (map pending_of (upd_worker C s k w')) + pending_of w = pending s + pending_of w'.
Proof. intros H. unfold upd_worker, pending. rewrite map_set. apply list_sum_set. rewrite nth_error_map, H. reflexivity. Qed.
Lemma sstep_inv s o : sinv s -> allowed s o -> sinv (sstep s o).
Proof.
  intros (I1 & I2 & I3) Ho. assert (Iw : forall k w, nth_error (workers s) k = Some w -> winv w) by (intros k w H; rewrite Forall_forall in I1; apply I1; eapply nth_error_In; exact H). destruct o; cbn [sstep].
  - split; [|split]; cbn; [apply Forall_app; split; [exact I1|apply Forall_cons; [apply winv0|apply Forall_nil]]| |exact I3]. rewrite I2. unfold pending. cbn [workers]. rewrite map_app, list_sum_app. cbn. f_equal. lia.
  - unfold s_call_cb. destruct (nth_error (workers s) k) as [w|] eqn:E; [|split; auto]. specialize (Iw _ _ E). split; [|split]; cbn [workers npending drained waiting].
    + apply forall_set; [exact I1|]. apply call_inv, Iw.
    + pose proof (pending_upd s k w (fst (call_cb w (true, c))) E) as H. unfold pending at 1. cbn [workers]. rewrite call_issue, pending_issue in * by exact Iw. lia.
    + intros H1 H2. specialize (I3 H1 H2). lia.
  - unfold s_direct. destruct (nth_error (workers s) k) as [w|] eqn:E; [|split; auto]. specialize (Iw _ _ E). split; [|split]; cbn [workers npending drained waiting]; [|  |exact I3].
    + apply forall_set; [exact I1|]. apply call_inv, Iw.
    + pose proof (pending_upd s k w (fst (call_cb w (false, c))) E) as H. unfold pending at 1. cbn [workers]. rewrite call_issue, pending_issue in * by exact Iw. lia.
  - unfold s_multicall. destruct (nth_error (workers s) k) as [w|] eqn:E; [|split; auto]. specialize (Iw _ _ E). cbn [allowed] in Ho. specialize (Ho w E). split; [|split]; cbn [workers npending drained waiting]; [|  |exact I3].
    + apply forall_set; [exact I1|]. apply multicall_inv; assumption.
    + pose proof (pending_upd s k w (multicall w (map (pair false) cs)) E) as H. unfold pending at 1. cbn [workers]. rewrite pending_multi in * by assumption. lia.
  - unfold s_reply. destruct (nth_error (workers s) k) as [w|] eqn:E; [|split; auto]. specialize (Iw _ _ E). pose proof (pending_upd s k w (reply w i) E) as H. pose proof (pending_reply w i Iw) as Hr.
    destruct (match log (reply w i) with q :: r => if Nat.eqb (length (log (reply w i))) (S (length (log w))) then fst (fst q) else false | [] => false end) eqn:Eran.
    + assert (Hone : pending_of (reply w i) + 1 = pending_of w) by (destruct (log (reply w i)) as [|q r]; [discriminate|]; destruct (length (q :: r) =? S (length (log w))); [|discriminate]; rewrite Eran in Hr; exact Hr).
      split; [|split]; cbn [workers npending drained waiting]; [apply forall_set; [exact I1|apply reply_inv, Iw]|unfold pending at 1; cbn [workers]; lia|].
      intros Hw. destruct (Z.eqb_spec (npending s - 1) 0); [discriminate|]. intros Hd. specialize (I3 Hw Hd). lia.
    + assert (Hone : pending_of (reply w i) = pending_of w) by (destruct (log (reply w i)) as [|q r]; [lia|]; destruct (length (q :: r) =? S (length (log w))); [rewrite Eran in Hr|]; lia).
      split; [|split]; cbn [workers npending drained waiting]; [apply forall_set; [exact I1|apply reply_inv, Iw]|unfold pending at 1; cbn [workers]; lia|exact I3].
  - unfold s_cancel. destruct (nth_error (workers s) k) as [w|] eqn:E; [|split; auto]. specialize (Iw _ _ E). cbn [allowed] in Ho. destruct (cancel_cb w token) as [w' ok] eqn:Ec. destruct ok; [|split; auto].
    assert (Hone : pending_of w' + 1 = pending_of w) by (eapply pending_cancel; [exact Iw|intros r Hr; apply (Ho w r E Hr)|exact Ec]). assert (Hw' : winv w') by (replace w' with (fst (cancel_cb w token)) by (rewrite Ec; reflexivity); apply cancel_inv, Iw).
    pose proof (pending_upd s k w w' E) as H. split; [|split]; cbn [workers npending drained waiting]; [apply forall_set; assumption|unfold pending at 1; cbn [workers]; lia|].
    intros Hw. destruct (Z.eqb_spec (npending s - 1) 0); [discriminate|]. intros Hd. specialize (I3 Hw Hd). lia.
  - unfold drain_check. destruct (Z.ltb_spec 0 (npending s)); cbn [fst]; (split; [|split]; cbn [workers npending drained waiting]); try assumption; intros; try discriminate; assumption.
Qed.
Lemma srun_inv (ops : list (sop C)) : legal ops -> sinv (srun ops).
Proof.
  induction ops as [|o ops IH] using rev_ind; intros Hs; [split; [constructor|split; [reflexivity|discriminate]]|].
  assert (Ho : legal ops) by (intros b x a E; apply (Hs b x (a ++ [o])); rewrite E, <- app_assoc; reflexivity).
  specialize (IH Ho). unfold srun. rewrite fold_left_app. fold (srun ops). cbn [fold_left]. apply sstep_inv; [exact IH|]. apply (Hs ops o []). reflexivity.
Qed.
End S.
(** the counter is the number of pending requests, at every moment of every schedule *)
Theorem C49_npending_exact : forall C (ops : list (sop C)), legal ops -> npending (srun ops) = Z.of_nat (pending (srun ops)).
Proof. intros C ops H. apply srun_inv, H. Qed.
Print Assumptions C49_npending_exact.
(** [drain] returns only when nothing is pending; its assertion holds; while it waits with nothing left pending, it has been
    woken up *)
Theorem C49_drain : forall C (ops : list (sop C)), legal ops -> let s := srun ops in
  (snd (drain_check s) = true -> pending s = 0) /\ (pending s = 0 -> snd (drain_check s) = true)
  /\ drain_assert s = true
  /\ (waiting s = true -> pending s = 0 -> drained s = true).
Proof.
  intros C ops H s. destruct (srun_inv ops H) as (I1 & I2 & I3). fold s in I1, I2, I3. unfold drain_check. split; [|split; [|split]].
  - destruct (Z.ltb_spec 0 (npending s)); [discriminate|]. intros _. lia.
  - intros E. destruct (Z.ltb_spec 0 (npending s)); [lia|reflexivity].
  - unfold drain_assert. apply Z.leb_le. rewrite I2. apply inj_le. unfold pending, s_queue_size. clear - I1. induction (workers s) as [|w l IH]; [cbn; lia|]. apply Forall_cons_iff in I1 as [Iw Il]. specialize (IH Il). unfold list_sum in *. cbn [map fold_right].
    enough (pending_of w <= queue_size w) by lia. unfold pending_of, queue_size. rewrite <- (map_length fst (callbacks w)).
    transitivity (length (map fst (wire w))); [rewrite map_length; clear; induction (wire w) as [|p q IH]; cbn; [lia|]; destruct (is_pending w (snd p)); cbn; lia|]. apply NoDup_incl_length; [apply Iw|]. intros x Hx. apply (i_same w Iw), Hx.
  - intros Hw E. destruct (drained s) eqn:Ed; [reflexivity|]. specialize (I3 Hw eq_refl). lia.
Qed.
Print Assumptions C49_drain.
(** a cancelled request's callback never runs, and every answer goes to its own callback, on every worker *)
Theorem C49_cancelled_never_runs : forall C (ops : list (sop C)), legal ops -> forall w, In w (workers (srun ops)) ->
  (forall r, In r (cancelled w) -> ~ In r (map snd (log w))) /\ (forall c r, In (c, r) (log w) -> nth_error (issued w) r = Some c) /\ reader_dead w = false.
Proof.
  intros C ops H w Hw. destruct (srun_inv ops H) as (I1 & _). rewrite Forall_forall in I1. specialize (I1 w Hw). split; [|split; [intros c r Hin; apply I1, Hin|apply I1]].
  intros r Hr Hin. apply in_map_iff in Hin as ([c r'] & <- & Hin). apply (i_log w I1) in Hin. apply Hin, Hr.
Qed.
(** a request that was cancelled stays cancelled *)
Example C49_ex : let s := srun [SAdd; SAdd; SCall 0 7; SCall 1 8; SDirect 1 9; SCancel 0 1; SDrain; SReply 1 0] in npending s = 0%Z /\ pending s = 0 /\ drained s = true /\ waiting s = true /\ length (wire (nth 0 (workers s) worker0)) = 1.
Proof. vm_compute. auto. Qed.
(** cancelling twice is not noticed: [cancel_cb] returns True again and the counter falls below the number of pending requests,
    so that drain returns while a request is pending *)
Theorem C49_double_cancel_refuted : let s := srun [SAdd; SCall 0 7; SCall 0 8; SCancel 0 1; SCancel 0 1] in
  pending s = 1 /\ npending s = 0%Z /\ snd (drain_check s) = true.
Proof. vm_compute. auto. Qed.
