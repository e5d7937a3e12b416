(** Property C56: histories of one integral of amplitude.hpp. *)
From Coq Require Import Lra.
From Verif Require Import AmpProofs.
Local Open Scope nat_scope.

Section History.
Context {A : Type} (err : A -> option R).
Notation integral := (integral A).
(** what a caller can do with an integral; [out] is what the integrator would answer *)
Inductive op : Type := Request (n : nat) (allow_decrease : bool) | Compute (out : option (A * nat)).
(** the calls of the integrator: number of points and answer *)
Definition logbook : Type := list (nat * option (A * nat)).
Definition step (st : integral * logbook) (o : op) : integral * logbook :=
  match o with
  | Request n b => (set_next (fst st) n b, snd st)
  | Compute out => match compute err (fst st) out with
                   | (s, _, Some n) => (s, snd st ++ [(n, out)])
                   | (s, _, None) => (s, snd st)
                   end
  end.
Definition run (s : integral) (ops : list op) : integral * logbook := fold_left step ops (s, []).
Lemma run_inv (P : integral -> logbook -> Prop) s ops : P s [] -> (forall s log o, P s log -> P (fst (step (s, log) o)) (snd (step (s, log) o))) -> P (fst (run s ops)) (snd (run s ops)).
Proof.
  intros H0 HS. unfold run. generalize (@nil (nat * option (A * nat))) as log, s, H0. induction ops as [|o ops IH]; intros log t Ht; [exact Ht|].
  cbn [fold_left]. pose proof (HS t log o Ht) as H'. rewrite (surjective_pairing (step (t, log) o)). apply IH, H'.
Qed.
(** ** the number of function evaluations never decreases, and the next one is never below it *)
Theorem C56_monotone : forall (s : integral) ops, num s <= next s -> num s <= num (fst (run s ops)) /\ num (fst (run s ops)) <= next (fst (run s ops)).
Proof.
  intros s ops H. apply (run_inv (fun t _ => num s <= num t /\ num t <= next t)); [lia|]. intros t log o [H1 H2]. destruct o as [n b|out]; cbn [step fst snd].
  - destruct (set_next_facts t n b) as (F1 & _ & _ & _ & F5 & _). unfold ok in F5. lia.
  - destruct (compute_facts err t out H2) as (G1 & G2 & _). destruct (compute err t out) as [[t' b] [n|]]; cbn in *; unfold ok in G2; lia.
Qed.
(** ** without a request for more points nothing is recomputed *)
Theorem C56_no_recompute : forall (s : integral) ops, next s = num s ->
  (forall n b, In (Request n b) ops -> n <= num s) -> run s ops = (s, []).
Proof.
  intros s ops H Hr. unfold run. revert Hr. induction ops as [|o ops IH]; intros Hr; [reflexivity|]. cbn [fold_left].
  assert (E : step (s, []) o = (s, [])).
  { destruct o as [n b|out]; cbn [step fst snd].
    - specialize (Hr n b (or_introl eq_refl)). destruct s as [a c f r k]; unfold set_next; cbn in *. subst c. f_equal. f_equal. destruct b; lia.
    - rewrite compute_idle; [reflexivity|]. rewrite H, Nat.ltb_irrefl. apply andb_false_r. }
  rewrite E. apply IH. intros n b Hn. apply (Hr n b). right. exact Hn.
Qed.
(** a request for more points is honoured by the next computation, unless the integral is marked as not refinable *)
Theorem C56_request : forall (s : integral) n b out, num s < n -> refine s = true -> exists s' m, compute err (set_next s n b) out = (s', match out with Some _ => true | None => false end, Some m).
Proof.
  intros s n b out H R. destruct (set_next_facts s n b) as (F1 & F2 & _ & _ & _ & F6). destruct (compute_busy err (set_next s n b) out) as (s' & m & E & _); [congruence|lia|]. exists s', m. exact E.
Qed.
Theorem C56_not_refinable : forall (s : integral) n b out, refine s = false -> compute err (set_next s n b) out = (set_next s n b, true, None).
Proof. intros s n b out H. apply compute_idle. destruct (set_next_facts s n b) as (_ & -> & _). rewrite H. reflexivity. Qed.
(** ** the lattices of the QMC *)
Definition lattice_table (keys : list nat) : Prop := StronglySorted lt keys /\ keys <> [] /\ Forall (fun k => 0 < k) keys.
(** the smallest available lattice with enough points; if there is none, the requested size with the median rule and the
    largest lattice without it *)
Theorem C56_get_next_n : forall keys median n, lattice_table keys ->
  ((exists k, In k keys /\ n <= k) -> In (get_next_n keys median n) keys /\ n <= get_next_n keys median n /\ forall k, In k keys -> n <= k -> get_next_n keys median n <= k) /\
  ((forall k, In k keys -> k < n) -> if median then get_next_n keys median n = n else In (get_next_n keys median n) keys /\ forall k, In k keys -> k <= get_next_n keys median n).
Proof.
  intros keys median n (S & N & P). destruct (get_next_spec keys median n S) as [(k & E & K1 & K2 & K3)|(K1 & K2 & K3)].
  - split; [intros _; rewrite E; auto|]. intros H. specialize (H k K1). lia.
  - split; [intros (k & Hk & L); specialize (K1 k Hk); lia|]. intros _. destruct median; [apply K2; reflexivity|apply K3; [reflexivity|exact N]].
Qed.
(** the numbers of points of the successful calls *)
Definition sizes (log : logbook) : list nat := flat_map (fun c => match snd c with Some _ => [fst c] | None => [] end) log.
Lemma sizes_app l m : sizes (l ++ m) = sizes l ++ sizes m. Proof. apply flat_map_app. Qed.
Lemma sorted_snoc (Rel : nat -> nat -> Prop) l x : StronglySorted Rel l -> Forall (fun y => Rel y x) l -> StronglySorted Rel (l ++ [x]).
Proof.
  induction l as [|y l IH]; intros S F; cbn; [repeat constructor|]. inversion S as [|? ? S1 S2]; subst. apply Forall_cons_iff in F as [F1 F2]. constructor; [apply IH; assumption|]. apply Forall_app. split; [assumption|]. repeat constructor. assumption.
Qed.
Lemma sorted_butlast (Rel : nat -> nat -> Prop) l : StronglySorted Rel l -> StronglySorted Rel (removelast l).
Proof.
  induction l as [|y l IH]; intros S; [constructor|]. inversion S as [|? ? S1 S2]; subst. destruct l as [|z l]; [constructor|]. change (removelast (y :: z :: l)) with (y :: removelast (z :: l)). constructor; [apply IH, S1|].
  apply Forall_forall. intros w Hw. rewrite Forall_forall in S2. apply S2. clear - Hw. revert z Hw. induction l as [|v l IH]; intros z Hw; [destruct Hw|]. change (removelast (z :: v :: l)) with (z :: removelast (v :: l)) in Hw. destruct Hw as [->|Hw]; [left; reflexivity|]. right. apply IH. exact Hw.
Qed.
(** every integration of the QMC uses an available lattice and more points than the ones before; only the last one may
    repeat the size (the largest lattice) *)
Theorem C56_lattices_grow : forall keys n0 a ops, lattice_table keys ->
  let used := sizes (snd (run (fresh (Qmc keys false) n0 a) ops)) in
  StronglySorted le used /\ StronglySorted lt (removelast used) /\ Forall (fun k => In k keys) used /\
  num (fst (run (fresh (Qmc keys false) n0 a) ops)) = last used 0.
Proof.
  intros keys n0 a ops T. pose proof T as (S & N & P). cbv zeta.
  enough (X : forall s ops, (fun (t : integral) log => how t = Qmc keys false /\ num t <= next t /\ StronglySorted le (sizes log) /\ StronglySorted lt (removelast (sizes log)) /\ (refine t = true -> StronglySorted lt (sizes log)) /\
     Forall (fun k => In k keys) (sizes log) /\ Forall (fun k => k <= num t) (sizes log) /\ num t = last (sizes log) 0 /\ (num t = 0 \/ In (num t) keys)) s [] -> 
     (fun (t : integral) log => how t = Qmc keys false /\ num t <= next t /\ StronglySorted le (sizes log) /\ StronglySorted lt (removelast (sizes log)) /\ (refine t = true -> StronglySorted lt (sizes log)) /\
     Forall (fun k => In k keys) (sizes log) /\ Forall (fun k => k <= num t) (sizes log) /\ num t = last (sizes log) 0 /\ (num t = 0 \/ In (num t) keys)) (fst (run s ops)) (snd (run s ops))).
  { destruct (X (fresh (Qmc keys false) n0 a) ops) as (_ & _ & X1 & X2 & _ & X3 & _ & X4 & _); [|auto]. cbn. repeat split; auto; try constructor; lia. }
  clear n0 a ops. intros s ops H0. apply run_inv; [exact H0|]. clear s ops H0. intros t log o (K & O & S1 & S2 & S3 & I1 & I2 & L & Z). destruct o as [n b|out]; cbn [step fst snd].
  - destruct (set_next_facts t n b) as (F1 & F2 & F3 & F4 & F5 & F6). rewrite F1, F2, F4. unfold ok in F5. rewrite F1 in F5. repeat (split; [assumption|]). assumption.
  - destruct (refine t && (num t <? next t)) eqn:E.
    2:{ rewrite compute_idle by exact E. cbn [fst snd]. repeat (split; [assumption|]). assumption. }
    apply andb_true_iff in E as [E1 E2]. apply Nat.ltb_lt in E2. destruct (compute_qmc err t out keys false K E1 E2) as (t' & C1 & C2 & C3 & C4).
    destruct (compute_busy err t out E1 E2) as (t'' & n'' & D1 & D2 & D3 & D4 & D5 & D6). rewrite C1 in D1. injection D1 as <- <-. rewrite C1. cbn [fst snd]. set (n := get_next_n keys false (next t)) in *.
    assert (Hn : In n keys /\ num t <= n).
    { unfold n. destruct (get_next_spec keys false (next t) S) as [(k & E & Q1 & Q2 & Q3)|(Q1 & Q2 & Q3)]; [rewrite E; split; [exact Q1|lia]|]. destruct (Q3 eq_refl N) as [Q4 Q5]. split; [exact Q4|]. destruct Z as [Z|Z]; [lia|apply Q5, Z]. }
    destruct Hn as [Hn1 Hn2]. rewrite sizes_app. split; [congruence|]. split; [exact D3|]. destruct out as [[r m]|].
    + destruct (C4 r m eq_refl) as (C5 & _). cbn [sizes flat_map fst snd app]. assert (C6 : num t' = n) by lia. rewrite C6. specialize (S3 E1).
      split; [apply sorted_snoc; [exact S1|]; eapply Forall_impl; [|exact I2]; cbv beta; intros; lia|]. rewrite removelast_last. split; [exact S3|].
      split; [intros R; apply C3 in R; apply sorted_snoc; [exact S3|]; eapply Forall_impl; [|exact I2]; cbv beta; intros; lia|].
      split; [apply Forall_app; split; [exact I1|repeat constructor; exact Hn1]|]. split; [apply Forall_app; split; [eapply Forall_impl; [|exact I2]; cbv beta; intros; lia|repeat constructor]|]. rewrite last_last. split; [reflexivity|]. right. exact Hn1.
    + destruct (D5 eq_refl) as [D7 D8]. cbn [sizes flat_map fst snd app]. rewrite app_nil_r, D7. repeat (split; [first [assumption|auto]|]). assumption.
Qed.
(** ** the result *)
(** the results returned by the integrator *)
Definition answers (log : logbook) : list A := flat_map (fun c => match snd c with Some (r, _) => [r] | None => [] end) log.
Definition numeric (r : A) : Prop := exists e, err r = Some e.
(** As soon as an integration has succeeded there is a result, and it is the best of all results so far. *)
Theorem C56_best : forall keys median n0 a ops, lattice_table keys ->
  let log := snd (run (fresh (Qmc keys median) n0 a) ops) in Forall numeric (answers log) ->
  match get_result (fst (run (fresh (Qmc keys median) n0 a) ops)) with
  | None => answers log = []
  | Some r => In r (answers log) /\ forall r' e e', In r' (answers log) -> err r = Some e -> err r' = Some e' -> (e <= e')%R
  end.
Proof.
  intros keys med n0 a ops T. pose proof T as (S & N & P). cbv zeta.
  pose (Inv := fun (t : integral) (log : logbook) => how t = Qmc keys med /\ (Forall numeric (answers log) -> (num t = 0 /\ answers log = []) \/ (0 < num t /\ In (res t) (answers log) /\ forall r' e e', In r' (answers log) -> err (res t) = Some e -> err r' = Some e' -> (e <= e')%R))).
  enough (X : Inv (fst (run (fresh (Qmc keys med) n0 a) ops)) (snd (run (fresh (Qmc keys med) n0 a) ops))).
  { intros Q. destruct X as [_ X]. unfold get_result. destruct (X Q) as [[X1 X2]|(X1 & X2 & X3)]; [rewrite X1; exact X2|]. destruct (Nat.leb_spec (num (fst (run (fresh (Qmc keys med) n0 a) ops))) 0); [lia|]. split; assumption. }
  apply run_inv; [split; [reflexivity|]; intros _; left; split; reflexivity|]. intros t log o [K V]. destruct o as [n b|out]; cbn [step fst snd].
  - destruct (set_next_facts t n b) as (F1 & F2 & F3 & F4 & F5 & F6). unfold Inv. rewrite F1, F3, F4. auto.
  - destruct (refine t && (num t <? next t)) eqn:E.
    2:{ rewrite compute_idle by exact E. cbn [fst snd]. split; assumption. }
    apply andb_true_iff in E as [E1 E2]. apply Nat.ltb_lt in E2. destruct (compute_qmc err t out keys med K E1 E2) as (t' & C1 & C2 & C3 & C4).
    destruct (compute_busy err t out E1 E2) as (t'' & n'' & D1 & D2 & D3 & D4 & D5 & D6). rewrite C1 in D1. injection D1 as <- <-. rewrite C1. cbn [fst snd]. set (n := get_next_n keys med (next t)) in *.
    assert (Hn : 0 < n). { unfold n. destruct (get_next_spec keys med (next t) S) as [(k & E & Q1 & Q2 & Q3)|(Q1 & Q2 & Q3)]; [lia|]. destruct med; [rewrite Q2 by reflexivity; lia|]. destruct (Q3 eq_refl N) as [Q4 Q5]. rewrite Forall_forall in P. apply P, Q4. }
    split; [congruence|]. unfold answers. rewrite flat_map_app. fold (answers log). destruct out as [[r m]|]; cbn [flat_map snd app].
    + destruct (C4 r m eq_refl) as (C5 & C6 & C7). intros Q. apply Forall_app in Q as [Q1 Q2]. apply Forall_cons_iff in Q2 as [[e Q2] _]. right. split; [lia|]. destruct (V Q1) as [[V1 V2]|(V1 & V2 & V3)].
      * rewrite C6 by lia. rewrite V2. split; [left; reflexivity|]. intros r' e1 e' [<-|[]] X1 X2. rewrite X1 in X2. injection X2 as ->. lra.
      * rewrite C7 by lia. rewrite Forall_forall in Q1. destruct (Q1 _ V2) as [e0 Q0]. rewrite Q0, Q2. cbn [gt]. destruct (Rlt_dec e e0) as [L|L].
        -- split; [apply in_or_app; right; left; reflexivity|]. intros r' e1 e' Hr X1 X2. rewrite Q2 in X1. injection X1 as <-. apply in_app_or in Hr as [Hr|[<-|[]]]; [specialize (V3 r' e0 e' Hr Q0 X2); lra|]. rewrite Q2 in X2. injection X2 as <-. lra.
        -- split; [apply in_or_app; left; exact V2|]. intros r' e1 e' Hr X1 X2. rewrite Q0 in X1. injection X1 as <-. apply in_app_or in Hr as [Hr|[<-|[]]]; [exact (V3 r' e0 e' Hr Q0 X2)|]. rewrite Q2 in X2. injection X2 as <-. lra.
    + destruct (D5 eq_refl) as [D7 D8]. rewrite app_nil_r, D7, D8. exact V.
Qed.
End History.
(** ** deviations *)
(** a first result that is not a number is never replaced *)
Theorem C56_not_a_number_refuted : exists (ops : list (@op (option R))), let r := run (fun e => e) (fresh (Qmc [10; 20] false) 10 None) ops in
  In (Some 1%R) (answers (snd r)) /\ get_result (fst r) = Some None.
Proof. exists [Compute (Some (None, 0)); Request 20 false; Compute (Some (Some 1%R, 0))]. cbn. split; [right; left; reflexivity|reflexivity]. Qed.
(** if the integration with the largest lattice fails, the integral is never computed: the flag that forbids a further
    refinement is set before the integration. The loop that repeats failing integrations ends without a result. *)
Theorem C56_failure_at_largest_lattice_refuted : exists (outs : nat -> option (R * nat)) s', 
  attempts Some (/ 100)%R (/ 2)%R 5 0 outs (fresh (Qmc [10; 20] false) 30 0%R) [1%R] = Some (s', [(/ 2)%R], Finished) /\ get_result s' = None /\ outs 1%nat <> None.
Proof.
  exists (fun k => match k with O => None | _ => Some (5%R, 0) end). cbn. unfold shrink. destruct (Rlt_dec (/ 100) 1) as [_|N]; [|exfalso; lra]. destruct (Rlt_dec (1 * / 2) (/ 100)) as [N|_]; [exfalso; lra|]. cbn. eexists. split; [f_equal; f_equal; f_equal; f_equal; lra|]. split; [reflexivity|discriminate].
Qed.
(** concrete case: three integrations, the second one fails and the third one is worse *)
Example C56_ex : lattice_table [10; 20; 40] /\ let r := run Some (fresh (Qmc [10; 20; 40] false) 10 9%R) [Compute (Some (3%R, 0)); Request 15 false; Compute None; Compute (Some (4%R, 0))] in
  sizes (snd r) = [10; 20] /\ Forall (numeric Some) (answers (snd r)).
Proof. split; [repeat split; repeat constructor; try lia; discriminate|]. split; [reflexivity|]. repeat constructor; eexists; reflexivity. Qed.
Print Assumptions C56_best.
