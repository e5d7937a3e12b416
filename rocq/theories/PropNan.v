(** C88: one pass of disteval, NaN answers included. Read NanModel (the model) and the statements below; NanProofs only has the proofs. *)
From Verif Require Import NanModel NanProofs.
(** the requests whose answer will still be looked at *)
Definition waiting {L G R} (l : list (request L G R)) : list (request L G R) := filter (fun r => match r_cb _ _ _ r with Some _ => true | None => false end) l.
(** the deformation parameters after k reductions *)
Definition reduced (k : nat) (d : list Q) : list Q := map (fun p => Nat.iter k (fun q => q * (9 # 10))%Q p) d.
Section T.
Context {L G R V : Type}.
Variable nshifts : nat.
Variable lattices : nat -> L.
Variable genvecs : nat -> G.
Variable result : job L G R -> option V -> Prop.
Notation state := (state L G R V).
Notation out := (out L G R V).
Notation pend := (pend L G R V).
Notation rnd := (rnd L G R V).
Notation defp := (defp L G R V).
Notation val := (val L G R V).
Notation todo := (todo L G R V).
Notation dead := (dead L G R V).
Notation steps := (steps L G R V nshifts lattices genvecs result).
Notation step := (step L G R V nshifts lattices genvecs result).
Notation counted := (counted L G R V nshifts).
Notation mkJob := (mkJob L G R).
Lemma reduced_S k d : reduced (S k) d = reduce (reduced k d).
Proof. unfold reduced, reduce. rewrite map_map. reflexivity. Qed.
Lemma reduced_0 d : reduced 0 d = d.
Proof. unfold reduced. apply map_id. Qed.
Theorem C88_pending (st0 st : state) n : pass_start L G R V st0 -> steps n st0 st -> pend st = Z.of_nat (length (waiting (out st))).
Proof. intros S H. apply (i_pend nshifts lattices genvecs result st0 st (inv_steps nshifts lattices genvecs result st0 S n st H)). Qed.
(** the fields of [retry] *)
Lemma cancel_fields (st : state) i ls : let st' := cancel_shifts L G R V st i ls in defp st' = defp st /\ val st' = val st /\ todo st' = todo st /\ dead st' = dead st /\ length (out st') = length (out st).
Proof.
  revert st. induction ls as [|s ls IH]; intros st; cbn zeta; [repeat split|]. unfold cancel_shifts. cbn [fold_left].
  set (st1 := match tag L G R V st i s with Some t => cancel L G R V st t | None => st end). fold (cancel_shifts L G R V st1 i ls). destruct (IH st1) as (A & B & C & D & E). cbn zeta in *. rewrite A, B, C, D, E.
  unfold st1, cancel. destruct (tag L G R V st i s) as [t|]; [|repeat split]. destruct (existsb _ _); repeat split. cbn [NanModel.out]. apply map_length.
Qed.
Lemma sched_fields (st : state) i r w : let st' := schedule_kernel L G R V nshifts lattices genvecs st i r w in defp st' = defp st /\ val st' = val st /\ todo st' = todo st /\ dead st' = dead st /\ length (out st') = length (out st) + nshifts.
Proof.
  cbn zeta. destruct (sched_shifts_spec (L := L) (G := G) (R := R) (V := V) lattices genvecs i r w nshifts 0 st) as (A & _ & _ & _ & _ & F & H & I & J). unfold schedule_kernel.
  repeat split; try assumption. rewrite A, app_length. unfold newreqs. rewrite map_length, seq_length. reflexivity.
Qed.
Lemma retry_fields (st : state) i r w : let st' := retry L G R V nshifts lattices genvecs st i r w in defp st' = upd1 (defp st) i (reduce (defp st i)) /\ val st' = val st /\ todo st' = todo st /\ dead st' = dead st /\ length (out st') = length (out st) + nshifts.
Proof.
  cbn zeta. unfold retry. match goal with |- context [schedule_kernel _ _ _ _ _ _ _ ?s i r w] => destruct (sched_fields s i r w) as (A & B & C & D & E) end. cbn zeta in *. rewrite A, B, C, D, E.
  cbn [NanModel.defp NanModel.val NanModel.todo NanModel.dead NanModel.out]. destruct (cancel_fields st i (seq 0 nshifts)) as (A' & B' & C' & D' & E'). cbn zeta in *. rewrite A', B', C', D', E'. repeat split.
Qed.
Lemma remove_nth_length {A} (l : list A) k x : nth_error l k = Some x -> S (length (remove_nth k l)) = length l.
Proof. intros H. destruct (in_split_nth l k x H) as (a & b & E & _ & F). rewrite E at 2. rewrite F, !app_length. cbn. lia. Qed.
(** the number of reductions, and what is left to do, with a function K that counts the NaN answers of each kernel *)
Definition left_to_do (A : nat) (ks : list nat) (K : nat -> nat) (st : state) : nat := length (out st) + nshifts * list_sum (map (fun i => A - K i) ks) + length (todo st) * S nshifts.
Lemma list_sum_upd (A : nat) ks (K : nat -> nat) i : NoDup ks -> In i ks -> K i < A -> S (list_sum (map (fun x => A - upd1 K i (S (K i)) x) ks)) = list_sum (map (fun x => A - K x) ks).
Proof.
  intros N Hi Hk. induction ks as [|x ks IH]; [contradiction|]. inversion N; subst. unfold list_sum; cbn [map fold_right]; fold (list_sum (map (fun x => A - upd1 K i (S (K i)) x) ks)); fold (list_sum (map (fun x => A - K x) ks)). destruct (Nat.eq_dec x i) as [->|Hx].
  - unfold upd1 at 1. rewrite Nat.eqb_refl. assert (E : map (fun x => A - upd1 K i (S (K i)) x) ks = map (fun x => A - K x) ks).
    { apply map_ext_in. intros y Hy. unfold upd1. destruct (Nat.eqb_spec i y); [subst; contradiction|reflexivity]. } rewrite E. lia.
  - destruct Hi as [Hi|Hi]; [congruence|]. rewrite <- (IH H2 Hi). unfold upd1 at 1. destruct (Nat.eqb_spec i x); [congruence|]. lia.
Qed.
Lemma count (A : nat) (st0 : state) : pass_start L G R V st0 -> forall n st, steps n st0 st ->
  exists K : nat -> nat, (forall i, defp st i = reduced (K i) (defp st0 i)) /\
    ((forall j k, In (j_kernel _ _ _ j) (todo st0) -> j_deformp _ _ _ j = reduced k (defp st0 (j_kernel _ _ _ j)) -> A <= k -> ~ result j None) -> n + left_to_do A (todo st0) K st = left_to_do A (todo st0) (fun _ => 0) st0).
Proof.
  intros S n st H. assert (Nd : NoDup (todo st0)) by (destruct S as (_ & _ & _ & X & _); exact X).
  remember st0 as s0 eqn:E0. assert (S' : pass_start L G R V st0) by (subst; exact S). rewrite E0 in S. clear S.
  induction H as [s|n s t u H IH St]; subst.
  - exists (fun _ => 0). split; [intros i; symmetry; apply reduced_0|intros _; reflexivity].
  - specialize (IH eq_refl Nd). pose proof (inv_steps nshifts lattices genvecs result st0 S' n t H) as I. destruct IH as (K & D & M).
    destruct St as [t i rest r w E|t k tk w E De|t k tk w j s v E De Rs|t k tk w j s r w' E De Rs|t k tk w j s E De].
    + exists K. destruct (sched_fields (mkSt L G R V (out t) (NanModel.next L G R V t) (pend t) (NanModel.tag L G R V t) (rnd t) (defp t) (val t) rest (dead t)) i r w) as (A1 & A2 & A3 & A4 & A5). cbn zeta in *.
      split; [intros i'; rewrite A1; apply D|]. intros Hr. rewrite <- (M Hr). unfold left_to_do. rewrite A3, A5. cbn [NanModel.todo NanModel.out]. rewrite E. cbn [length]. lia.
    + exists K. split; [exact D|]. intros Hr. rewrite <- (M Hr). unfold left_to_do. unfold take; cbn [NanModel.out NanModel.todo]. rewrite <- (remove_nth_length _ _ _ E). lia.
    + exists K. split; [exact D|]. intros Hr. rewrite <- (M Hr). unfold left_to_do. unfold store, take; cbn [NanModel.out NanModel.todo]. rewrite <- (remove_nth_length _ _ _ E). lia.
    + destruct (retry_fields (take L G R V t k true) (j_kernel _ _ _ j) r w') as (A1 & A2 & A3 & A4 & A5). cbn zeta in *. unfold take at 2 3 in A1; unfold take at 2 in A3; unfold take at 2 in A5; cbn [NanModel.defp NanModel.todo NanModel.out] in A1, A3, A5.
      assert (Hx : In (mkReq L G R tk w (Some (j, s))) (out t)) by (eapply nth_error_In; exact E).
      destruct (i_live _ _ _ _ _ _ I _ j s Hx eq_refl) as (L1 & L2 & L3 & L4). set (i := j_kernel _ _ _ j) in *.
      exists (upd1 K i (Datatypes.S (K i))). split.
      * intros i'. rewrite A1. unfold upd1. destruct (Nat.eqb_spec i i') as [Ei|]; [|apply D]. rewrite <- Ei, reduced_S, <- D. reflexivity.
      * intros Hr. rewrite <- (M Hr). unfold left_to_do. rewrite A3, A5, <- (remove_nth_length _ _ _ E).
        assert (HK : K i < A). { destruct (Nat.lt_ge_cases (K i) A) as [X|X]; [exact X|exfalso]. apply (Hr j (K i)); [apply L2| |exact X|exact Rs]. fold i. rewrite <- D. destruct L4 as (rho & _ & EL). rewrite EL at 1. reflexivity. }
        rewrite <- (list_sum_upd A (todo st0) K i Nd (proj1 L2) HK). lia.
    + exists K. split; [exact D|]. intros Hr. rewrite <- (M Hr). unfold left_to_do. unfold kill_reader, take; cbn [NanModel.out NanModel.todo]. rewrite <- (remove_nth_length _ _ _ E). lia.
Qed.
(** C88_consistent: when the pass is over, each kernel has one answer for each of its shifts, all for the same, current deformation parameters, which are the initial ones reduced k times *)
Theorem C88_consistent (st0 st : state) n : pass_start L G R V st0 -> steps n st0 st -> todo st = [] -> pend st = 0%Z -> (forall w, dead st w = false) ->
  forall i, In i (todo st0) -> counted st i = true /\ (exists k, defp st i = reduced k (defp st0 i)) /\
    forall s, s < nshifts -> exists v rho, val st i s = Some v /\ rnd st i s = Some rho /\ result (mkJob i (lattices i) (genvecs i) rho (defp st i)) (Some v).
Proof.
  intros S H E P De i Hi. pose proof (inv_steps nshifts lattices genvecs result st0 S n st H) as I.
  assert (X : forall s, s < nshifts -> exists v rho, val st i s = Some v /\ rnd st i s = Some rho /\ result (mkJob i (lattices i) (genvecs i) rho (defp st i)) (Some v)).
  { intros s Hs. assert (Sc : sched st0 st i) by (split; [exact Hi|rewrite E; intros []]).
    destruct (i_val _ _ _ _ _ _ I i s Sc Hs) as [(r & Hr & (j & C & _))|[(v & j & V1 & (rho & R1 & ->) & V3)|(w & Hw)]].
    - exfalso. rewrite (i_pend _ _ _ _ _ _ I) in P. assert (F : In r (filter live (out st))) by (apply filter_In; split; [exact Hr|unfold live; rewrite C; reflexivity]).
      unfold nlive in P. destruct (filter live (out st)); [contradiction|cbn in P; lia].
    - exists v, rho. repeat split; assumption.
    - rewrite De in Hw. discriminate. }
  split; [|split; [|exact X]].
  - apply forallb_forall. intros s Hs. apply in_seq in Hs. destruct (X s) as (v & rho & Hv & _); [lia|]. rewrite Hv. reflexivity.
  - destruct (count 0 st0 S n st H) as (K & D & _). exists (K i). apply D.
Qed.
(** C88_no_stale: whenever a value is recorded, it answers a request made with the current parameters of its kernel; all other values and kernels outside the pass are left alone *)
Theorem C88_no_stale (st0 st st' : state) n : pass_start L G R V st0 -> steps n st0 st -> step st st' -> forall i s, val st' i s = val st i s \/
  (In i (todo st0) /\ s < nshifts /\ exists v rho, val st' i s = Some v /\ rnd st i s = Some rho /\ defp st' i = defp st i /\ result (mkJob i (lattices i) (genvecs i) rho (defp st i)) (Some v)).
Proof.
  intros S H St i s. pose proof (inv_steps nshifts lattices genvecs result st0 S n st H) as I.
  destruct St as [t i0 rest r w E|t k tk w E De|t k tk w j s0 v E De Rs|t k tk w j s0 r w' E De Rs|t k tk w j s0 E De]; try (left; reflexivity).
  - left. destruct (sched_fields (mkSt L G R V (out t) (NanModel.next L G R V t) (pend t) (NanModel.tag L G R V t) (rnd t) (defp t) (val t) rest (dead t)) i0 r w) as (_ & A2 & _). cbn zeta in A2. rewrite A2. reflexivity.
  - assert (Hx : In (mkReq L G R tk w (Some (j, s0))) (out t)) by (eapply nth_error_In; exact E). destruct (i_live _ _ _ _ _ _ I _ j s0 Hx eq_refl) as (L1 & L2 & L3 & (rho & R1 & R2)).
    unfold store, take. cbn [NanModel.val NanModel.defp]. unfold upd2. destruct (Nat.eqb_spec (j_kernel _ _ _ j) i) as [Ei|]; [|left; reflexivity]. destruct (Nat.eqb_spec s0 s) as [Es|]; [|left; reflexivity]. right. cbn [andb].
    subst s0. rewrite Ei in *. split; [apply L2|]. split; [exact L1|]. exists v, rho. rewrite <- R2. repeat split; assumption.
  - left. destruct (retry_fields (take L G R V t k true) (j_kernel _ _ _ j) r w') as (_ & A2 & _). cbn zeta in A2. rewrite A2. reflexivity.
Qed.
Theorem C88_frame (st0 st : state) n : pass_start L G R V st0 -> steps n st0 st -> forall i, ~ In i (todo st0) -> defp st i = defp st0 i /\ forall s, val st i s = val st0 i s.
Proof.
  intros S H i Hi. remember st0 as a eqn:Ea in H. assert (S' : pass_start L G R V st0) by exact S. induction H as [x|n x t u H IH St]; subst; [split; reflexivity|]. destruct (IH eq_refl) as (D & W).
  split.
  - rewrite <- D. pose proof (inv_steps nshifts lattices genvecs result st0 S n t H) as I.
    destruct St as [t i0 rest r w E|t k tk w E De|t k tk w j s0 v E De Rs|t k tk w j s0 r w' E De Rs|t k tk w j s0 E De]; try reflexivity.
    + destruct (sched_fields (mkSt L G R V (out t) (NanModel.next L G R V t) (pend t) (NanModel.tag L G R V t) (rnd t) (defp t) (val t) rest (dead t)) i0 r w) as (A2 & _). cbn zeta in A2. rewrite A2. reflexivity.
    + assert (Hx : In (mkReq L G R tk w (Some (j, s0))) (out t)) by (eapply nth_error_In; exact E). destruct (i_live _ _ _ _ _ _ I _ j s0 Hx eq_refl) as (L1 & L2 & L3 & _).
      destruct (retry_fields (take L G R V t k true) (j_kernel _ _ _ j) r w') as (A2 & _). cbn zeta in A2. rewrite A2. unfold upd1. destruct (Nat.eqb_spec (j_kernel _ _ _ j) i) as [Ei|]; [|reflexivity]. exfalso. apply Hi. rewrite <- Ei. apply L2.
  - intros s. rewrite <- W. destruct (C88_no_stale st0 t u n S H St i s) as [E|(E & _)]; [exact E|contradiction].
Qed.
(** C88_terminates: if no job gives NaN once its deformation parameters have been reduced A times, the pass takes a bounded number of scheduling steps and answers *)
Theorem C88_terminates (A : nat) (st0 st : state) n : pass_start L G R V st0 ->
  (forall j k, In (j_kernel _ _ _ j) (todo st0) -> j_deformp _ _ _ j = reduced k (defp st0 (j_kernel _ _ _ j)) -> A <= k -> ~ result j None) ->
  steps n st0 st -> n <= length (out st0) + length (todo st0) * (1 + nshifts * (A + 1)).
Proof.
  intros S Hr H. destruct (count A st0 S n st H) as (K & _ & M). specialize (M Hr). unfold left_to_do at 2 in M. assert (E : list_sum (map (fun _ : nat => A - 0) (todo st0)) = A * length (todo st0)).
  { generalize (todo st0). intros l. induction l as [|x l IH]; cbn; [lia|]. unfold list_sum in IH. rewrite IH. lia. } rewrite E in M. nia.
Qed.
(** C88_progress: as long as the pass is not over and all readers are running, something can happen, so that a pass that cannot go on is over *)
Theorem C88_progress (st0 st : state) n : pass_start L G R V st0 -> steps n st0 st -> (forall w, dead st w = false) -> (forall j, exists a, result j a) ->
  inhabited R -> todo st <> [] \/ pend st <> 0%Z -> exists st', step st st'.
Proof.
  intros S H De T [rho] [Ht|Hp]; pose proof (inv_steps nshifts lattices genvecs result st0 S n st H) as I.
  - destruct (todo st) as [|i rest] eqn:E; [congruence|]. eexists. apply (S_schedule L G R V nshifts lattices genvecs result st i rest (fun _ => rho) (fun _ => 0) E).
  - rewrite (i_pend _ _ _ _ _ _ I) in Hp. unfold nlive in Hp. destruct (filter live (out st)) as [|r l] eqn:E; [cbn in Hp; lia|].
    assert (F : In r (filter live (out st))) by (rewrite E; left; reflexivity). apply filter_In in F. destruct F as (F1 & F2). destruct r as [t w c]. unfold live in F2. cbn [r_cb] in F2. destruct c as [[j s]|]; [|discriminate].
    destruct (In_nth_error _ _ F1) as (k & Hk). destruct (T j) as ([v|] & Hv).
    + eexists. eapply S_value; [exact Hk|apply De|exact Hv].
    + eexists. eapply (S_nan L G R V nshifts lattices genvecs result st k t w j s (fun _ => rho) (fun _ => 0)); [exact Hk|apply De|exact Hv].
Qed.
End T.
(** ** deviations: one kernel with two shifts; a job whose random shift is [false] gives NaN, otherwise the value is the list of the deformation parameters used *)
Definition answers (j : job unit unit bool) (a : option (list Q)) : Prop := a = if j_shift _ _ _ j then Some (j_deformp _ _ _ j) else None.
Definition begin : state unit unit bool (list Q) := mkSt _ _ _ _ [] 0 0%Z (fun _ _ => None) (fun _ _ => None) (fun _ => [1%Q]) (fun _ _ => None) [0] (fun _ => false).
Lemma begin_start : pass_start _ _ _ _ begin.
Proof. repeat split; cbn; try constructor; try tauto; try constructor; intros; contradiction. Qed.
Notation steps' := (steps unit unit bool (list Q) 2 (fun _ => tt) (fun _ => tt) answers).
Notation step' := (step unit unit bool (list Q) 2 (fun _ => tt) (fun _ => tt) answers).
Definition s1 := schedule_kernel unit unit bool (list Q) 2 (fun _ => tt) (fun _ => tt) (mkSt _ _ _ _ [] 0 0%Z (fun _ _ => None) (fun _ _ => None) (fun _ => [1%Q]) (fun _ _ => None) [] (fun _ => false)) 0 (fun s => Nat.eqb s 0) (fun s => 0).
Definition s2 := store _ _ _ _ (take _ _ _ _ s1 0 true) 0 0 [1%Q].
Definition s3 := retry unit unit bool (list Q) 2 (fun _ => tt) (fun _ => tt) (take _ _ _ _ s2 0 true) 0 (fun s => true) (fun s => 0).
Definition s4 := store _ _ _ _ (take _ _ _ _ s3 1 true) 0 1 [(1 * (9 # 10))%Q].
Definition s5 := store _ _ _ _ (take _ _ _ _ s4 0 true) 0 0 [(1 * (9 # 10))%Q].
Lemma run4 : steps' 4 begin s4.
Proof.
  eapply steps_S; [eapply steps_S; [eapply steps_S; [eapply steps_S; [apply steps_O|]|]|]|].
  - apply (S_schedule unit unit bool (list Q) 2 (fun _ => tt) (fun _ => tt) answers begin 0 [] (fun s => Nat.eqb s 0) (fun s => 0)). reflexivity.
  - eapply (S_value unit unit bool (list Q) 2 (fun _ => tt) (fun _ => tt) answers s1 0 0 0 (mkJob _ _ _ 0 tt tt true [1%Q]) 0 [1%Q]); reflexivity.
  - eapply (S_nan unit unit bool (list Q) 2 (fun _ => tt) (fun _ => tt) answers s2 0 1 0 (mkJob _ _ _ 0 tt tt false [1%Q]) 1 (fun s => true) (fun s => 0)); reflexivity.
  - eapply (S_value unit unit bool (list Q) 2 (fun _ => tt) (fun _ => tt) answers s3 1 3 0 (mkJob _ _ _ 0 tt tt true [(1 * (9 # 10))%Q]) 1 [(1 * (9 # 10))%Q]); reflexivity.
Qed.
(** if the deadline comes after a retry, a kernel can count as done with values for different deformation parameters (values of the abandoned attempt are not reset) *)
Theorem C88_timeout_mixed_refuted : steps' 4 begin s4 /\ counted _ _ _ _ 2 s4 0 = true /\ pend _ _ _ _ s4 = 1%Z /\ val _ _ _ _ s4 0 0 = Some [1%Q] /\ val _ _ _ _ s4 0 1 = Some [(1 * (9 # 10))%Q].
Proof. split; [exact run4|]. repeat split. Qed.
(** an error answer ends the reader of its worker; the jobs queued there are never answered and the wait does not end before the deadline *)
Definition e2 := kill_reader _ _ _ _ (take _ _ _ _ s1 0 true) 0.
Theorem C88_error_refuted : steps' 2 begin e2 /\ pend _ _ _ _ e2 = 1%Z /\ forall st, ~ step' e2 st.
Proof.
  split; [|split; [reflexivity|]].
  - eapply steps_S; [eapply steps_S; [apply steps_O|]|].
    + apply (S_schedule unit unit bool (list Q) 2 (fun _ => tt) (fun _ => tt) answers begin 0 [] (fun s => Nat.eqb s 0) (fun s => 0)). reflexivity.
    + eapply (S_error unit unit bool (list Q) 2 (fun _ => tt) (fun _ => tt) answers s1 0 0 0 (mkJob _ _ _ 0 tt tt true [1%Q]) 0); reflexivity.
  - assert (W : forall k t w c, nth_error (out _ _ _ _ e2) k = Some (mkReq _ _ _ t w c) -> w = 0) by (intros [|[|k]] t w c E; cbn in E; congruence).
    intros st H. inversion H as [x i rest r w E|x k t w E De|x k t w j s v E De Rs|x k t w j s r w' E De Rs|x k t w j s E De]; subst; [discriminate| | | |]; apply W in E; subst w; discriminate.
Qed.
(** ** concrete cases: the run to its end (C88_consistent); a bound on NaN answers (C88_terminates) *)
Example ex_run : steps' 5 begin s5 /\ todo _ _ _ _ s5 = [] /\ pend _ _ _ _ s5 = 0%Z /\ (forall w, dead _ _ _ _ s5 w = false) /\ val _ _ _ _ s5 0 0 = val _ _ _ _ s5 0 1 /\ defp _ _ _ _ s5 0 = [(1 * (9 # 10))%Q].
Proof.
  split; [eapply steps_S; [exact run4|]|repeat split].
  eapply (S_value unit unit bool (list Q) 2 (fun _ => tt) (fun _ => tt) answers s4 0 2 0 (mkJob _ _ _ 0 tt tt true [(1 * (9 # 10))%Q]) 0 [(1 * (9 # 10))%Q]); reflexivity.
Qed.
(** a cancelled request: NaN for the first answer while the second job is still queued *)
Definition c2 := retry unit unit bool (list Q) 2 (fun _ => tt) (fun _ => tt) (take _ _ _ _ s1 1 true) 0 (fun s => true) (fun s => 0).
Example ex_cancel : steps' 2 begin c2 /\ length (out _ _ _ _ c2) = 3 /\ pend _ _ _ _ c2 = 2%Z /\ length (waiting (out _ _ _ _ c2)) = 2.
Proof.
  split; [|repeat split]. eapply steps_S; [eapply steps_S; [apply steps_O|]|].
  - apply (S_schedule unit unit bool (list Q) 2 (fun _ => tt) (fun _ => tt) answers begin 0 [] (fun s => Nat.eqb s 0) (fun s => 0)). reflexivity.
  - eapply (S_nan unit unit bool (list Q) 2 (fun _ => tt) (fun _ => tt) answers s1 1 1 0 (mkJob _ _ _ 0 tt tt false [1%Q]) 1 (fun s => true) (fun s => 0)); reflexivity.
Qed.
(** jobs that give NaN only for a parameter above 1/2: at most 7 reductions of 1 *)
Definition answers_half (j : job unit unit bool) (a : option (list Q)) : Prop := a = if forallb (fun p => Qle_bool p (1 # 2)) (j_deformp _ _ _ j) then Some (j_deformp _ _ _ j) else None.
Example ex_bound : forall (j : job unit unit bool) k, In (j_kernel _ _ _ j) (todo _ _ _ _ begin) -> j_deformp _ _ _ j = reduced k (defp _ _ _ _ begin (j_kernel _ _ _ j)) -> 7 <= k -> ~ answers_half j None.
Proof.
  intros j k _ E Hk. unfold answers_half. rewrite E. cbn [begin NanModel.defp reduced map forallb].
  assert (X : (Nat.iter k (fun q => q * (9 # 10)) 1 <= 1 # 2)%Q).
  { clear E. induction Hk as [|k Hk IH]; [vm_compute; discriminate|]. cbn [Nat.iter]. apply Qle_trans with (y := ((1 # 2) * (9 # 10))%Q); [apply Qmult_le_compat_r; [exact IH|vm_compute; discriminate]|vm_compute; discriminate]. }
  apply Qle_bool_iff in X. cbn beta. rewrite X. cbn [andb]. discriminate.
Qed.
Print Assumptions C88_consistent.
Print Assumptions C88_terminates.
