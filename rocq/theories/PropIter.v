(** Property C51: the integration loop of disteval. *)
From Coq Require Import Sorted Permutation.
From Verif Require Import IterModel AdjustProofs PropAdjust PropGenVec.
Local Open Scope R_scope.

(** * the proposals *)
Definition grows (ks : list kern) (n : list R) : Prop := Forall2 (fun k x => k_lat k <= x <= 20 * k_lat k) ks n.
Definition positive_lattices (ks : list kern) : Prop := Forall (fun k => 0 < k_lat k) ks.
Lemma clip_bounds x lo : 0 < lo -> lo <= clip x lo (lo * 20) <= 20 * lo.
Proof. intros H. unfold clip. split; [apply Rmin_glb; [apply Rmax_r|lra]|]. eapply Rle_trans; [apply Rmin_r|lra]. Qed.
Lemma propose1_grows ks n : positive_lattices ks -> propose1 ks = Some n -> grows ks n.
Proof.
  unfold propose1. destruct (forallb _ ks); [discriminate|]. intros H [= <-]. unfold grows. induction H as [|k ks Hk H IH]; cbn [map]; constructor; [|exact IH].
  cbv zeta. pose proof (clip_bounds (k_lat k * sqrt (absvar k / kern_maxvar k)) (k_lat k) Hk) as B. destruct (Rltb _ _ && Rltb _ _); [lra|exact B].
Qed.
(** the list never changes its length *)
Lemma assign_length l v : length (assign l v) = length l.
Proof. revert v. induction l as [|x l IH]; intros v; [reflexivity|]. cbn [assign]. destruct (active x); [destruct v as [|y v]; [reflexivity|]|]; cbn; rewrite IH; reflexivity. Qed.
Lemma adjust_row_length a allow l row V l' : length row = length l -> adjust_row a allow l (row, V) = Some l' -> length l' = length l.
Proof.
  intros Hl. unfold adjust_row. cbn [fst snd]. assert (E : length (use_row row l) = length l) by (unfold use_row; rewrite map_length, combine_length; lia).
  destruct (Nat.eqb _ 0); [intros [= <-]; exact E|]. destruct (adjust_1d_n _ _ _ _) as [r|]; [|discriminate]. destruct (returned r); [|discriminate]. intros [= <-]. rewrite assign_length. exact E.
Qed.
Lemma adjust_n_length a allow l rows l' : Forall (fun rV => length (fst rV) = length l) rows -> adjust_n a allow l rows = Some l' -> length l' = length l.
Proof.
  unfold adjust_n. revert l'. induction rows as [|[row V] rows IH]; intros l' Hr H; [injection H as <-; reflexivity|]. apply Forall_cons_iff in Hr as [R1 Hr]. cbn [fold_right] in H. destruct (fold_right _ (Some l) rows) as [l1|] eqn:E; [|discriminate].
  specialize (IH l1 Hr eq_refl). cbn [fst] in R1. rewrite <- IH. eapply adjust_row_length; [|exact H]. lia.
Qed.
Definition weights_fit (amps : list amp) (ks : list kern) : Prop := Forall (fun A => length (a_W A) = length ks) amps.
Lemma second_stage (ks : list kern) (l : list comp) : positive_lattices ks -> length l = length ks ->
  grows ks (map (fun p => clip (cnmin (fst p)) (k_lat (snd p)) (k_lat (snd p) * 20)) (combine l ks)).
Proof.
  intros H. revert l. unfold grows. induction H as [|k ks Hk H IH]; intros [|x l] E; try discriminate; [constructor|]. cbn [combine map fst snd]. constructor; [apply clip_bounds; exact Hk|apply IH; cbn in E; lia].
Qed.
Lemma third_stage ks n : positive_lattices ks -> grows ks n -> grows ks (map (fun p =>
               let n := if Rleb (k_lat (snd p) * 20) (fst p) then k_lat (snd p) * 20 else fst p in
               if Rltb n (k_lat (snd p) * 2) then k_lat (snd p) else n) (combine n ks)).
Proof.
  intros H G. revert H. unfold grows. induction G as [|k x ks n Hk G IH]; intros H; cbn [combine map fst snd]; [constructor|]. apply Forall_cons_iff in H as [Hp H]. constructor; [|apply IH, H]. cbv zeta.
  destruct (Rleb (k_lat k * 20) x); (destruct (Rltb _ _); lra).
Qed.
Lemma propose2_grows amps c ks n : positive_lattices ks -> weights_fit amps ks -> propose2 amps c ks = Some (Some n) -> grows ks n.
Proof.
  intros Hp Hw. unfold propose2. destruct (forallb _ amps); [discriminate|]. cbv zeta. destruct (adjust_n _ _ _ _) as [l|] eqn:E; [|discriminate].
  apply adjust_n_length in E; [|apply Forall_forall; intros q Hq; apply in_map_iff in Hq as (A & <- & HA); cbn [fst]; rewrite !map_length; unfold weights_fit in Hw; rewrite Forall_forall in Hw; apply Hw, HA].
  rewrite map_length in E. pose proof (second_stage ks l Hp E) as G. destruct (existsb _ _); intros [= <-]; [apply third_stage; assumption|exact G].
Qed.
(** the two proposals in the form used by the loop *)
Definition phase1 (ks : list kern) : option (option (list R)) := Some (propose1 ks).
(** * one pass *)
Lemma ceil_ge x : x <= IZR (ceilR x).
Proof. unfold ceilR. rewrite opp_IZR. destruct (base_Int_part (- x)). lra. Qed.
Lemma ceil_le_int x m : x <= IZR m -> (ceilR x <= m)%Z.
Proof. intros H. unfold ceilR. destruct (base_Int_part (- x)) as [_ H2]. assert (H3 : IZR (- m) < IZR (Int_part (- x)) + 1) by (rewrite opp_IZR; lra). rewrite <- plus_IZR in H3. apply lt_IZR in H3. lia. Qed.
Lemma standard_ge k n : (1 <= k_dim k)%Z -> n <= fst (standard k n).
Proof.
  intros Hd. unfold standard. destruct (generating_vector (k_dim k) (ceilR n)) as [[m z]| |] eqn:E; cbn [fst]; try lra. apply C44_returned_lattice in E as (H & _); [|exact Hd]. pose proof (ceil_ge n). apply IZR_le in H. lra.
Qed.
Lemma update_lat k o : k_lat (update k o) = k_lat k /\ k_old (update k o) = k_old k /\ k_dim (update k o) = k_dim k /\ k_gen (update k o) = k_gen k /\ k_tau (update k o) = k_tau k.
Proof. unfold update. destruct (todo k); [|auto]. destruct o as [s|]; [|auto]. destruct (cle _ _); cbn; auto. Qed.
Definition fits (i : input) (ks : list kern) : Prop := length (obtained_of i) = length ks.
Lemma evaluate_lat i ks : fits i ks -> Forall2 (fun k k' => k_lat k' = k_lat k /\ k_old k' = k_old k /\ k_dim k' = k_dim k /\ k_gen k' = k_gen k /\ k_tau k' = k_tau k) ks (evaluate i ks).
Proof. unfold fits, evaluate. generalize (obtained_of i) as o. induction ks as [|k ks IH]; intros [|x o] H; try discriminate; cbn [combine map fst snd]; constructor; [apply update_lat|apply IH; cbn in H; lia]. Qed.
Lemma positive_evaluate i ks : fits i ks -> positive_lattices ks -> positive_lattices (evaluate i ks).
Proof. intros F H. pose proof (evaluate_lat i ks F) as E. unfold positive_lattices in *. clear F. induction E as [|k k' ks ks' (Hk & _) E IH]; [constructor|]. apply Forall_cons_iff in H as [H1 H]. constructor; [rewrite Hk; exact H1|apply IH, H]. Qed.
(** what is assumed of the proposals; both proposals of the code satisfy it *)
Definition growing (propose : list kern -> option (option (list R))) (m : nat) : Prop :=
  forall ks n, length ks = m -> positive_lattices ks -> propose ks = Some (Some n) -> grows ks n.
Lemma phase1_growing m : growing phase1 m.
Proof. intros ks n _ Hp H. injection H as H. apply propose1_grows; assumption. Qed.
Lemma phase2_growing amps c m : Forall (fun A => length (a_W A) = m) amps -> growing (propose2 amps c) m.
Proof. intros Hw ks n E Hp H. eapply propose2_grows; [exact Hp| |exact H]. unfold weights_fit. rewrite E. exact Hw. Qed.
Definition dims_ok (ks : list kern) : Prop := Forall (fun k => (1 <= k_dim k)%Z) ks.
Lemma Forall2_len {A B} (P : A -> B -> Prop) l l' : Forall2 P l l' -> length l = length l'. Proof. induction 1; cbn; congruence. Qed.
Lemma pass_continue propose sl i ks ks' : growing propose (length ks) -> fits i ks -> positive_lattices ks -> dims_ok ks ->
  pass propose sl i ks = Continue ks' ->
  Forall2 (fun k k' => k_lat k <= k_lat k' /\ k_old k' = Some (k_lat k) /\ k_dim k' = k_dim k) ks ks' /\ exists k k', In (k, k') (combine ks ks') /\ k_lat k < k_lat k'.
Proof.
  intros G F Hp Hd. unfold pass. pose proof (evaluate_lat i ks F) as E. pose proof (positive_evaluate i ks F Hp) as Hp'. set (ks1 := evaluate i ks) in *. destruct i as [o|o]; [discriminate|].
  destruct (propose ks1) as [[n|]|] eqn:En; try discriminate.
  assert (L1 : length ks1 = length ks) by (symmetry; apply (Forall2_len _ _ _ E)).
  pose proof (G ks1 n L1 Hp' En) as Gr.
  assert (M : Forall2 (fun k k' => k_lat k <= k_lat k' /\ k_old k' = Some (k_lat k) /\ k_dim k' = k_dim k) ks (map (fun p => advance sl (fst p) (snd p)) (combine ks1 n))).
  { clear - E Gr Hd. revert n Gr. induction E as [|k k1 ks ks1 (E1 & E2 & E3 & _) E IH]; intros n Gr; inversion Gr as [|? x ? n' Hx Gr']; subst; [constructor|]. apply Forall_cons_iff in Hd as [D1 Hd]. cbn [combine map fst snd]. constructor; [|apply IH; assumption].
    unfold advance. cbn. rewrite <- E1. repeat split; try assumption. destruct sl; [|cbn; apply Hx]. pose proof (standard_ge k1 x ltac:(rewrite E3; exact D1)). lra. }
  destruct (forallb _ _) eqn:Eb; [discriminate|]. intros [= <-]. split; [exact M|].
  set (ks' := map (fun p => advance sl (fst p) (snd p)) (combine ks1 n)) in *. clearbody ks'. clearbody ks1. clear - E M Eb. revert ks1 E Eb. induction M as [|k k' ks ks' (M1 & _) M IH]; intros ks1 E Eb; [inversion E; subst; discriminate|].
  inversion E as [|? k1 ? ks2 (E1 & _) E']; subst. cbn [combine forallb fst snd] in Eb. destruct (Req_EM_T (k_lat k') (k_lat k1)) as [Eq|Ne].
  - cbn [andb] in Eb. destruct (IH ks2 E' Eb) as (a & b & Hin & Hlt). exists a, b. split; [right; exact Hin|exact Hlt].
  - exists k, k'. split; [left; reflexivity|]. rewrite E1 in Ne. lra.
Qed.
(** in each pass no lattice shrinks, at least one grows, and what is evaluated next is exactly what has grown *)
Theorem C51_pass : forall propose sl i ks ks', growing propose (length ks) -> fits i ks -> positive_lattices ks -> dims_ok ks ->
  pass propose sl i ks = Continue ks' ->
  Forall2 (fun k k' => k_lat k <= k_lat k') ks ks' /\ evaluated ks' <> [] /\
  forall j N, In (j, N) (evaluated ks') <-> exists k k', nth_error ks j = Some k /\ nth_error ks' j = Some k' /\ k_lat k < k_lat k' /\ N = k_lat k'.
Proof.
  intros propose sl i ks ks' G F Hp Hd H. destruct (pass_continue propose sl i ks ks' G F Hp Hd H) as [M (k & k' & Hin & Hlt)].
  assert (Hev : forall j N, In (j, N) (evaluated ks') <-> exists k k', nth_error ks j = Some k /\ nth_error ks' j = Some k' /\ k_lat k < k_lat k' /\ N = k_lat k').
  { unfold evaluated. clear - M. assert (Q : forall o j N, In (j, N) (map (fun p => (fst p, k_lat (snd p))) (filter (fun p => todo (snd p)) (combine (seq o (length ks')) ks'))) <-> exists t, j = (o + t)%nat /\ exists k k', nth_error ks t = Some k /\ nth_error ks' t = Some k' /\ k_lat k < k_lat k' /\ N = k_lat k').
    { induction M as [|k k' ks ks' (M1 & M2 & _) M IH]; intros o j N.
      - cbn. split; [intros []|]. intros (t & _ & k & k' & E & _). destruct t; discriminate.
      - cbn [length seq combine filter snd]. assert (T : todo k' = true <-> k_lat k < k_lat k') by (unfold todo; rewrite M2; destruct (Req_EM_T (k_lat k') (k_lat k)); split; intros; try discriminate; try reflexivity; lra).
        assert (S : (exists t, j = (o + t)%nat /\ exists k0 k0', nth_error (k :: ks) t = Some k0 /\ nth_error (k' :: ks') t = Some k0' /\ k_lat k0 < k_lat k0' /\ N = k_lat k0') <-> (j = o /\ k_lat k < k_lat k' /\ N = k_lat k') \/ (exists t, j = (S o + t)%nat /\ exists k0 k0', nth_error ks t = Some k0 /\ nth_error ks' t = Some k0' /\ k_lat k0 < k_lat k0' /\ N = k_lat k0')).
        { split.
          - intros ([|t] & -> & a & b & Ha & Hb & L & EN); cbn in Ha, Hb; [left; injection Ha as <-; injection Hb as <-; split; [lia|auto]|right; exists t; split; [lia|eauto 6]].
          - intros [(-> & L & EN)|(t & -> & R)]; [exists 0%nat; split; [lia|]; exists k, k'; auto|exists (S t); split; [lia|exact R]]. }
        rewrite S, <- (IH (Datatypes.S o) j N). destruct (todo k') eqn:Et; cbn [map fst snd].
        + split; [intros [E|E]; [left; injection E as -> <-; split; [reflexivity|]; split; [apply T, eq_refl|reflexivity]|right; exact E]|intros [(-> & _ & ->)|E]; [left; reflexivity|right; exact E]].
        + split; [intros E; right; exact E|intros [(_ & L & _)|E]; [apply T in L; discriminate|exact E]]. }
    intros j N. rewrite (Q 0%nat j N). split; [intros (t & -> & R); exact R|intros R; exists j; split; [lia|exact R]]. }
  split; [clear - M; induction M as [|? ? ? ? (M1 & _)]; constructor; assumption|]. split; [|exact Hev].
  assert (Hj : exists j, nth_error ks j = Some k /\ nth_error ks' j = Some k').
  { clear - Hin. revert ks' Hin. induction ks as [|a ks IH]; intros [|b ks'] Hin; cbn in Hin; try contradiction. destruct Hin as [E|Hin]; [injection E as -> ->; exists 0%nat; auto|]. destruct (IH ks' Hin) as (j & J1 & J2). exists (S j). auto. }
  destruct Hj as (j & J1 & J2). intros E. pose proof (proj2 (Hev j (k_lat k')) ltac:(exists k, k'; auto)) as X. rewrite E in X. exact X.
Qed.
Print Assumptions C51_pass.

(** * whole runs *)
(** every input reports on all kernels *)
Definition inputs_fit (m : nat) (inputs : list input) : Prop := Forall (fun i => length (obtained_of i) = m) inputs.
(** invariant: what was evaluated is not above the current lattice, and below it if the kernel is due again *)
Definition hist (log : list (list (nat * R))) (ks : list kern) : Prop :=
  ForallOrdPairs (fun p q => forall j N N', In (j, N) p -> In (j, N') q -> N < N') log /\
  forall p j N, In p log -> In (j, N) p -> exists k, nth_error ks j = Some k /\ N <= k_lat k /\ (todo k = true -> N < k_lat k).
Lemma Forall2_nth {A B} (P : A -> B -> Prop) l l' j x : Forall2 P l l' -> nth_error l j = Some x -> exists y, nth_error l' j = Some y /\ P x y.
Proof. intros H. revert j. induction H; intros [|j] E; try discriminate; cbn in *; [injection E as <-; eauto|apply IHForall2, E]. Qed.
Lemma in_evaluated ks j N : In (j, N) (evaluated ks) -> exists k, nth_error ks j = Some k /\ todo k = true /\ N = k_lat k.
Proof.
  unfold evaluated. intros H. apply in_map_iff in H as ([t k] & [= <- <-] & H). apply filter_In in H as [H T]. cbn [snd fst] in *. exists k. split; [|auto].
  assert (Q : forall o t, In (t, k) (combine (seq o (length ks)) ks) -> nth_error ks (t - o) = Some k /\ (o <= t)%nat).
  { clear. induction ks as [|a ks IH]; intros o t Hin; [destruct Hin|]. cbn [length seq combine] in Hin. destruct Hin as [E|Hin]; [injection E as <- <-; rewrite Nat.sub_diag; auto|]. destruct (IH (S o) t Hin) as [E L]. split; [|lia]. replace (t - o)%nat with (S (t - S o)) by lia. exact E. }
  destruct (Q 0%nat t H) as [E _]. rewrite Nat.sub_0_r in E. exact E.
Qed.
Lemma FOP_app {A} (P : A -> A -> Prop) l x : ForallOrdPairs P l -> (forall y, In y l -> P y x) -> ForallOrdPairs P (l ++ [x]).
Proof.
  induction 1 as [|a l Ha Hl IH]; intros H; cbn; [constructor; constructor|]. constructor; [|apply IH; intros y Hy; apply H; right; exact Hy].
  apply Forall_app. split; [exact Ha|]. constructor; [apply H; left; reflexivity|constructor].
Qed.
Lemma hist_log log ks : hist log ks -> ForallOrdPairs (fun p q => forall j N N', In (j, N) p -> In (j, N') q -> N < N') (log ++ [evaluated ks]).
Proof.
  intros [H1 H2]. apply FOP_app; [exact H1|]. intros p Hp j N N' HN HN'. destruct (H2 p j N Hp HN) as (k & Ek & _ & Hk). apply in_evaluated in HN' as (k2 & Ek2 & T & ->). rewrite Ek in Ek2. injection Ek2 as <-. apply Hk, T.
Qed.
Lemma hist_step log ks ks' : hist log ks -> Forall2 (fun k k' => k_lat k <= k_lat k' /\ k_old k' = Some (k_lat k) /\ k_dim k' = k_dim k) ks ks' -> hist (log ++ [evaluated ks]) ks'.
Proof.
  intros H M. split; [apply hist_log, H|]. intros p j N Hp HN.
  assert (B : exists k, nth_error ks j = Some k /\ N <= k_lat k).
  { apply in_app_iff in Hp as [Hp|[<-|[]]]; [destruct H as [_ H]; destruct (H p j N Hp HN) as (k & E & L & _); eauto|]. apply in_evaluated in HN as (k & E & _ & ->). exists k. split; [exact E|lra]. }
  destruct B as (k & E & L). destruct (Forall2_nth _ _ _ _ _ M E) as (k' & E' & (M1 & M2 & _)). exists k'. split; [exact E'|]. split; [lra|]. unfold todo. rewrite M2. destruct (Req_EM_T (k_lat k') (k_lat k)); [discriminate|]. intros _. lra.
Qed.
(** during a run every kernel is evaluated on strictly larger and larger lattices (in particular never twice on the same one), and the
    lattices never end below those at the beginning *)
Theorem C51_strictly_larger_lattices : forall propose sl inputs ks r log, growing propose (length ks) -> inputs_fit (length ks) inputs -> positive_lattices ks -> dims_ok ks ->
  iterate propose sl inputs ks [] = Some (r, log) ->
  ForallOrdPairs (fun p q => forall j N N', In (j, N) p -> In (j, N') q -> N < N') log /\
  match r with Stop _ ks' => Forall2 (fun k k' => k_lat k <= k_lat k') ks ks' | _ => True end.
Proof.
  intros propose sl inputs ks r log G F Hp Hd H.
  assert (R : forall inputs ks1 log0, inputs_fit (length ks) inputs -> length ks1 = length ks -> positive_lattices ks1 -> dims_ok ks1 -> Forall2 (fun k k' => k_lat k <= k_lat k') ks ks1 -> hist log0 ks1 -> iterate propose sl inputs ks1 log0 = Some (r, log) ->
    ForallOrdPairs (fun p q => forall j N N', In (j, N) p -> In (j, N') q -> N < N') log /\ match r with Stop _ ks' => Forall2 (fun k k' => k_lat k <= k_lat k') ks ks' | _ => True end).
  { clear inputs F H. induction inputs as [|i inputs IH]; intros ks1 log0 F L Hp1 Hd1 M Hh H; [discriminate|]. apply Forall_cons_iff in F as [F1 F]. cbn [iterate] in H.
    assert (Fi : fits i ks1) by (unfold fits; lia). assert (G1 : growing propose (length ks1)) by (rewrite L; exact G).
    assert (Ev : Forall2 (fun k k' => k_lat k <= k_lat k') ks (evaluate i ks1)).
    { pose proof (evaluate_lat i ks1 Fi) as E. clear - M E. revert M E. generalize (evaluate i ks1) as ks2. intros ks2 M E. revert ks2 E. induction M as [|a b l l' Hab M IHM]; intros ks2 E; inversion E as [|? c ? ? (E1 & _) E']; subst; constructor; [lra|apply IHM, E']. }
    destruct (pass propose sl i ks1) as [ks2|rr ks2|] eqn:Ep.
    - destruct (pass_continue propose sl i ks1 ks2 G1 Fi Hp1 Hd1 Ep) as [M2 _]. apply (IH ks2 (log0 ++ [evaluated ks1])); try assumption.
      + rewrite <- L. symmetry. apply (Forall2_len _ _ _ M2).
      + clear - M2 Hp1. unfold positive_lattices in *. induction M2 as [|a b l l' (A1 & _) M2 IHM]; [constructor|]. apply Forall_cons_iff in Hp1 as [P1 Hp1]. constructor; [lra|apply IHM, Hp1].
      + clear - M2 Hd1. unfold dims_ok in *. induction M2 as [|a b l l' (_ & _ & A1) M2 IHM]; [constructor|]. apply Forall_cons_iff in Hd1 as [P1 Hd1]. constructor; [rewrite A1; exact P1|apply IHM, Hd1].
      + clear - M M2. revert ks2 M2. induction M as [|a b l l' Hab M IHM]; intros ks2 M2; inversion M2 as [|? c ? ? (C1 & _) M2']; subst; constructor; [lra|apply IHM, M2'].
      + apply hist_step; assumption.
    - injection H as <- <-. split; [apply hist_log, Hh|]. unfold pass in Ep. destruct i as [o|o]; [injection Ep as <- <-; exact Ev|]. destruct (propose (evaluate (Drained o) ks1)) as [[n|]|]; try discriminate.
      + destruct (forallb _ _); [|discriminate]. injection Ep as <- <-. exact Ev.
      + injection Ep as <- <-. clear - Ev. revert Ev. generalize (evaluate (Drained o) ks1) as z. intros z Ev. induction Ev; cbn; constructor; assumption.
    - injection H as <- <-. split; [apply hist_log, Hh|exact I]. }
  apply (R inputs ks []); try assumption; try reflexivity.
  - clear. induction ks; constructor; [lra|assumption].
  - split; [constructor|]. intros p j N [].
Qed.
Print Assumptions C51_strictly_larger_lattices.

(** * when a run stops *)
Definition reached (ks : list kern) (A : amp) : Prop := amp_abserr ks A <= Rmax (a_epsabs A) (Rmax (amp_absval ks A) (amp_abserr ks A) * a_epsrel A).
Lemma settle_amp ks A : amp_abserr (map settle ks) A = amp_abserr ks A /\ amp_absval (map settle ks) A = amp_absval ks A.
Proof. unfold amp_abserr, amp_absval. rewrite !map_map. split; f_equal. Qed.
Lemma iterate_last propose sl inputs : forall ks log r log', iterate propose sl inputs ks log = Some (r, log') -> exists i ks1, In i inputs /\ pass propose sl i ks1 = r /\ forall x, r <> Continue x.
Proof.
  induction inputs as [|i inputs IH]; intros ks log r log' H; [discriminate|]. cbn [iterate] in H. destruct (pass propose sl i ks) as [ks2|rr ks2|] eqn:E.
  - destruct (IH _ _ _ _ H) as (i' & ks1 & Hin & Hp & Hc). exists i', ks1. split; [right; exact Hin|auto].
  - injection H as <- <-. exists i, ks. split; [left; reflexivity|]. split; [exact E|discriminate].
  - injection H as <- <-. exists i, ks. split; [left; reflexivity|]. split; [exact E|discriminate].
Qed.
(** a run ends because of the deadline, because every amplitude has the requested precision, or because no lattice grows *)
Theorem C51_stop : forall amps c sl inputs ks reason ks' log, iterate (propose2 amps c) sl inputs ks [] = Some (Stop reason ks', log) ->
  (reason = OutOfTime /\ exists o, In (Deadline o) inputs) \/
  (reason = PrecisionReached /\ forall A, In A amps -> reached ks' A) \/
  (reason = NoMoreLattices /\ ~ (forall A, In A amps -> reached ks' A) /\ exists n, propose2 amps c ks' = Some (Some n) /\
     map (fun p => k_lat (advance sl (fst p) (snd p))) (combine ks' n) = map (fun p => k_lat (fst p)) (combine ks' n)).
Proof.
  intros amps c sl inputs ks reason ks' log H. apply iterate_last in H as (i & ks1 & Hin & Hp & _). unfold pass in Hp. destruct i as [o|o]; [injection Hp as <- <-; left; split; [reflexivity|eauto]|]. right.
  set (ks2 := evaluate (Drained o) ks1) in *. destruct (propose2 amps c ks2) as [[n|]|] eqn:E; [| |discriminate].
  - right. destruct (forallb _ _) eqn:Ef in Hp; [|discriminate]. injection Hp as <- <-. split; [reflexivity|]. split.
    + intros Hall. unfold propose2 in E. destruct (forallb (fun A => Rleb (amp_abserr ks2 A) (amp_maxerr ks2 A)) amps) eqn:Ea; [discriminate|]. assert (forallb (fun A => Rleb (amp_abserr ks2 A) (amp_maxerr ks2 A)) amps = true); [|congruence]. apply forallb_forall. intros A HA. apply Rleb_spec. apply (Hall A HA).
    + exists n. split; [exact E|]. clear - Ef. revert Ef. generalize ks2 as l. intros l. revert n. induction l as [|k l IH]; intros [|x n] Ef; try reflexivity. cbn [combine map forallb fst snd] in *. destruct (Req_EM_T _ _) as [Eq|]; [|discriminate]. cbn [andb] in Ef. rewrite Eq. f_equal. apply IH, Ef.
  - left. injection Hp as <- <-. split; [reflexivity|]. intros A HA. unfold reached. destruct (settle_amp ks2 A) as [-> ->]. unfold propose2 in E. destruct (forallb _ amps) eqn:Ea; [|cbv zeta in E; destruct (adjust_n _ _ _ _); [destruct (existsb _ _); discriminate|discriminate]]. rewrite forallb_forall in Ea. apply Rleb_spec. apply (Ea A HA).
Qed.
Print Assumptions C51_stop.

(** * without median lattices the second phase only uses tabulated lattices *)
Definition tabled (k : kern) : Prop := (1 <= k_dim k <= 100)%Z /\ exists N z, k_lat k = IZR N /\ k_gen k = Some z /\ generating_vector (k_dim k) N = Returns (N, z).
Definition capped (l : list comp) : Prop := Forall (fun x => cnmin x <= cnmax x) l.
Lemma filter_capped l : capped l -> capped (filter active l).
Proof. unfold capped. induction 1 as [|x l Hx H IH]; cbn [filter]; [constructor|]. destruct (active x); [constructor; assumption|exact IH]. Qed.
Lemma assign_capped l v : capped l -> at_least (map cnmax (filter active l)) v -> capped (assign l v) /\ map cnmax (assign l v) = map cnmax l.
Proof.
  unfold capped. intros H. revert v. induction H as [|x l Hx H IH]; intros v Hv; [split; [constructor|reflexivity]|]. cbn [filter assign] in *. destruct (active x).
  - cbn [map] in Hv. inversion Hv as [|? y ? v' Hy Hv']; subst. destruct (IH v' Hv') as [I1 I2]. split; [constructor; [exact Hy|exact I1]|cbn; rewrite I2; reflexivity].
  - destruct (IH v Hv) as [I1 I2]. split; [constructor; assumption|cbn; rewrite I2; reflexivity].
Qed.
Lemma use_row_capped row l : length row = length l -> capped l -> capped (use_row row l) /\ map cnmax (use_row row l) = map cnmax l.
Proof.
  unfold use_row, capped. intros E H. revert row E. induction H as [|x l Hx H IH]; intros [|r row] E; try discriminate; [split; [constructor|reflexivity]|]. destruct (IH row ltac:(cbn in E; lia)) as [I1 I2]. cbn [combine map fst snd cnmax]. split; [constructor; [exact Hx|exact I1]|rewrite I2; reflexivity].
Qed.
Lemma adjust_row_capped a l row V l' : 0 < a -> 0 < V -> length row = length l -> capped l -> adjust_row a false l (row, V) = Some l' -> capped l' /\ map cnmax l' = map cnmax l.
Proof.
  intros Ha HV Hl Hc. unfold adjust_row. cbn [fst snd]. destruct (use_row_capped row l Hl Hc) as [C1 C2]. set (l1 := use_row row l) in *. destruct (Nat.eqb _ 0); [intros [= <-]; auto|].
  destruct (adjust_1d_n a V false (filter active l1)) as [r|] eqn:E; [|discriminate]. destruct (returned r) as [v|] eqn:Ev; [|discriminate]. intros [= <-]. rewrite <- C2. apply assign_capped; [exact C1|].
  assert (P : positive_data (filter active l1)). { destruct (Classical_Prop.classic (positive_data (filter active l1))) as [P|P]; [exact P|]. rewrite (not_positive a V false _ P) in E. injection E as <-. discriminate. }
  pose proof (C52_never_above_cap a V (filter active l1) Ha HV P (filter_capped _ C1)) as B. rewrite E in B. destruct r as [l2|l2|]; cbn in Ev; [| |discriminate]; injection Ev as <-; [exact B|].
  revert B. generalize (map cnmax (filter active l1)) as z. clear. intros z. revert l2. induction z as [|y z IH]; intros [|x l2] B; inversion B; subst; cbn [map]; constructor; [|apply IH; assumption]. destruct (trunc_spec (cn x)) as [[T _] _]. lra.
Qed.
Lemma adjust_n_capped a l rows l' : 0 < a -> Forall (fun rV => length (fst rV) = length l /\ 0 < snd rV) rows -> capped l -> adjust_n a false l rows = Some l' -> capped l' /\ map cnmax l' = map cnmax l.
Proof.
  intros Ha Hr Hc. revert l'. unfold adjust_n. induction Hr as [|[row V] rows (H1 & H2) Hr IH]; intros l' H; [injection H as <-; auto|]. cbn [fold_right] in H. destruct (fold_right _ (Some l) rows) as [l1|] eqn:E; [|discriminate]. destruct (IH l1 eq_refl) as [I1 I2].
  assert (L : length l1 = length l) by (pose proof (f_equal (@length R) I2) as Q; rewrite !map_length in Q; exact Q). cbn [fst snd] in *. destruct (adjust_row_capped a l1 row V l' Ha H2 ltac:(lia) I1 H) as [J1 J2]. split; [exact J1|congruence].
Qed.
Lemma maxlattice_spec k : (1 <= k_dim k <= 100)%Z -> exists M, max_lattice_size (k_dim k) = Returns M /\ maxlattice k = IZR M /\ (M < 2 ^ 63)%Z /\ (0 < M)%Z.
Proof.
  intros H. unfold maxlattice, max_lattice_size. destruct (Z.leb_spec (k_dim k) 10); [exists 68719476767%Z; repeat split; reflexivity|]. destruct (Z.leb_spec (k_dim k) 100); [|lia]. exists 2147483647%Z. repeat split; reflexivity.
Qed.
Lemma tabled_max k : tabled k -> 0 < k_lat k <= maxlattice k.
Proof.
  intros (Hd & N & z & EN & _ & Hg). destruct (maxlattice_spec k Hd) as (M & HM & -> & HMb & _). rewrite EN. destruct (C44_returned_lattice _ _ _ _ (proj1 Hd) Hg) as (_ & _ & _ & Lz & Fz & _).
  assert (HN : (0 < N)%Z). { destruct z as [|a z]; [cbn in Lz; lia|]. apply Forall_cons_iff in Fz as [[A _] _]. lia. }
  split; [apply IZR_lt; exact HN|]. apply IZR_le. destruct (Z_le_gt_dec N M) as [|Hgt]; [assumption|exfalso].
  destruct (Z_lt_le_dec N (2 ^ 63)) as [Hb|Hb].
  - destruct (C44_fails_above_maximum (k_dim k) N Hd ltac:(lia)) as (M' & E & _ & F & _). rewrite HM in E. injection E as <-. rewrite (proj2 F ltac:(lia)) in Hg. discriminate.
  - unfold generating_vector in Hg. destruct (Z.leb_spec (k_dim k) 100); [|lia]. unfold int64 in Hg. destruct (Z.ltb_spec N (2 ^ 63)); [lia|]. rewrite andb_false_r in Hg. discriminate.
Qed.
Lemma standard_tabled k n : (1 <= k_dim k <= 100)%Z -> 0 < n <= maxlattice k -> exists N z, standard k n = (IZR N, Some z) /\ generating_vector (k_dim k) N = Returns (N, z).
Proof.
  intros Hd Hn. destruct (maxlattice_spec k Hd) as (M & HM & EM & HMb & _). rewrite EM in Hn. pose proof (ceil_le_int n M (proj2 Hn)) as Hc. assert (Hc0 : (0 < ceilR n)%Z) by (apply lt_IZR; pose proof (ceil_ge n); lra).
  destruct (C44_fails_above_maximum (k_dim k) (ceilR n) Hd ltac:(lia)) as (M' & E & _ & _ & F). rewrite HM in E. injection E as <-. destruct (F Hc) as (N & z & Eg). exists N, z. unfold standard. rewrite Eg. split; [reflexivity|]. apply (C44_stable (k_dim k) (ceilR n)); [lia|exact Eg].
Qed.
Definition fair (amps : list amp) (ks : list kern) : Prop := Forall (fun A => length (a_W A) = length ks /\ 0 < a_epsabs A) amps.
Theorem C51_second_phase_stays_in_tables : forall amps i ks ks', fair amps ks -> fits i ks -> Forall tabled ks -> pass (propose2 amps 0) true i ks = Continue ks' -> Forall tabled ks'.
Proof.
  intros amps i ks ks' Hf F Ht. unfold pass. pose proof (evaluate_lat i ks F) as E. set (ks1 := evaluate i ks) in *. destruct i as [o|o]; [discriminate|].
  assert (Ht1 : Forall tabled ks1). { clearbody ks1. clear - Ht E. induction E as [|k k' ks9 ks19 (E1 & E2 & E3 & E4 & _) E IH]; [constructor|]. apply Forall_cons_iff in Ht as [(T1 & N & z & T2 & T3 & T4) Ht]. constructor; [|apply IH, Ht]. unfold tabled. rewrite E1, E3, E4. eauto 8. }
  assert (L1 : length ks1 = length ks) by (symmetry; apply (Forall2_len _ _ _ E)).
  destruct (propose2 amps 0 ks1) as [[n|]|] eqn:En; try discriminate. destruct (forallb _ _); [discriminate|]. intros [= <-].
  assert (B : Forall2 (fun k x => 0 < x <= maxlattice k) ks1 n).
  { unfold propose2 in En. destruct (forallb _ amps); [discriminate|]. cbv zeta in En. change (Nat.ltb 0 0) with false in En. destruct (adjust_n _ _ _ _) as [l|] eqn:El; [|discriminate].
    assert (Pos : positive_lattices ks1) by (eapply Forall_impl; [|exact Ht1]; intros k Hk; apply (tabled_max k Hk)).
    destruct (adjust_n_capped 2 (map (fun k => mkC 0 (absvar k * k_lat k ^ 2) (k_tau k) (k_lat k) (maxlattice k) 0) ks1) (map (fun A => (map abs2 (a_W A), amp_maxerr ks1 A ^ 2)) amps) l ltac:(lra)) as [C1 C2].
    - apply Forall_forall. intros q Hq. apply in_map_iff in Hq as (A & <- & HA). cbn [fst snd]. rewrite !map_length, L1. unfold fair in Hf. rewrite Forall_forall in Hf. destruct (Hf A HA) as [H1 H2]. split; [exact H1|]. apply pow_lt. unfold amp_maxerr. eapply Rlt_le_trans; [exact H2|apply Rmax_l].
    - unfold capped. clearbody ks1. clear - Ht1. induction Ht1 as [|k ks9 Hk H IH]; cbn [map]; constructor; [apply tabled_max, Hk|exact IH].
    - exact El.
    - rewrite map_map in C2. cbn [cnmax] in C2.
      assert (Gn : Forall2 (fun k x => 0 < x <= maxlattice k) ks1 (map (fun p => clip (cnmin (fst p)) (k_lat (snd p)) (k_lat (snd p) * 20)) (combine l ks1))).
      { clearbody ks1. clear - C1 C2 Ht1. revert l C1 C2. induction Ht1 as [|k ks9 Hk H IH]; intros [|x l] C1 C2; try discriminate; [constructor|]. apply Forall_cons_iff in C1 as [X1 C1]. cbn [map] in C2. injection C2 as X2 C2. cbn [combine map fst snd]. constructor; [|apply IH; assumption].
        pose proof (tabled_max k Hk) as [T1 T2]. rewrite X2 in X1. unfold clip. split; [apply Rmin_glb_lt; [eapply Rlt_le_trans; [exact T1|apply Rmax_r]|lra]|]. eapply Rle_trans; [apply Rmin_l|]. apply Rmax_lub; assumption. }
      destruct (existsb _ _) in En; injection En as <-; [|exact Gn].
      revert Gn. generalize (map (fun p => clip (cnmin (fst p)) (k_lat (snd p)) (k_lat (snd p) * 20)) (combine l ks1)) as m. clearbody ks1. clear - Ht1. intros m Gn. revert Ht1. induction Gn as [|k x ks9 m Hx Gn IH]; intros Ht; cbn [combine map fst snd]; [constructor|]. apply Forall_cons_iff in Ht as [T Ht]. constructor; [|apply IH, Ht]. cbv zeta.
      pose proof (tabled_max k T) as [T1 T2]. destruct (Rleb (k_lat k * 20) x) eqn:Eb; [apply Rleb_spec in Eb|]; (destruct (Rltb _ _); [split; assumption|]); [lra|exact Hx]. }
  clearbody ks1. clear - Ht1 B. revert Ht1. induction B as [|k x ks9 n9 Hx B IH]; intros Ht; cbn [combine map fst snd]; [constructor|]. apply Forall_cons_iff in Ht as [T Ht]. constructor; [|apply IH, Ht].
  destruct T as (Hd & _). destruct (standard_tabled k x Hd Hx) as (N & z & E1 & E2). unfold advance, tabled. rewrite E1. cbn. split; [exact Hd|]. exists N, z. auto.
Qed.
Print Assumptions C51_second_phase_stays_in_tables.
(** the initial state is tabulated *)
Theorem C51_start_tabled : forall npoints0 dims taus ks, Forall (fun d => (1 <= d <= 100)%Z) dims -> start npoints0 dims taus = Some ks -> Forall tabled ks.
Proof.
  intros np dims. induction dims as [|d dims IH]; intros taus ks Hd H; [injection H as <-; constructor|]. destruct taus as [|t taus]; [injection H as <-; constructor|]. apply Forall_cons_iff in Hd as [D1 Hd]. unfold start in H. cbn [combine fold_right fst snd] in H.
  destruct (generating_vector d np) as [[m z]| |] eqn:E; try discriminate. destruct (fold_right _ (Some []) (combine dims taus)) as [l|] eqn:El; [|discriminate]. injection H as <-. constructor; [|apply (IH taus l Hd El)]. split; [exact D1|]. exists m, z. split; [reflexivity|]. split; [reflexivity|]. apply (C44_stable d np); [lia|exact E].
Qed.
(** in the first phase the size is not capped: beyond the largest tabulated lattice the missing generating vector is ignored and the kernel is evaluated
    without one (the worker cannot parse the request), although median lattices are switched off *)
Theorem C51_first_phase_leaves_tables_refuted : exists ks i ks', Forall tabled ks /\ fits i ks /\ pass phase1 true i ks = Continue ks' /\ exists k, In k ks' /\ todo k = true /\ k_gen k = None.
Proof.
  destruct (generating_vector 50 2147483647) as [[N z]| |] eqn:E; [|vm_compute in E; discriminate|vm_compute in E; discriminate].
  assert (EN : N = 2147483647%Z) by (vm_compute in E; congruence). subst N.
  set (k := mkK 50 2147483647 (Some 2147483647) (Some z) 1 (0, 0) (Some (1, 0))). exists [k], (Drained [[]]). eexists. split; [|split; [reflexivity|]].
  - constructor; [|constructor]. split; [cbn; lia|]. exists 2147483647%Z, z. auto.
  - assert (Ek : evaluate (Drained [[]]) [k] = [k]). { unfold evaluate. cbn. unfold update, todo. cbn. destruct (Req_EM_T _ _) as [|C]; [reflexivity|destruct (C eq_refl)]. }
    assert (Ev : absvar k = 1) by (unfold absvar, k; cbn; lra). assert (Em : kern_maxvar k = (1 / 10000) ^ 2). { unfold kern_maxvar, abs2, k. cbn [k_val fst snd]. apply Rmax_left. lra. }
    assert (Es : sqrt (absvar k / kern_maxvar k) = 10000). { rewrite Ev, Em. replace (1 / (1 / 10000) ^ 2) with (10000 ^ 2) by field. apply sqrt_pow2. lra. }
    assert (Ep : phase1 [k] = Some (Some [42949672940])).
    { unfold phase1, propose1. cbn [forallb]. replace (Rleb (absvar k) (kern_maxvar k)) with false by (symmetry; rewrite Ev, Em; unfold Rleb; destruct (Rle_dec _ _); [lra|reflexivity]). cbn [andb map]. rewrite Es. cbv zeta. change (k_lat k) with 2147483647.
      assert (Ec : clip (2147483647 * 10000) 2147483647 (2147483647 * 20) = 42949672940) by (unfold clip; rewrite Rmax_left by lra; rewrite Rmin_right by lra; lra). rewrite Ec.
      replace (Rltb 42949672940 (2147483647 * 2)) with false by (symmetry; apply Rltb_false; lra). rewrite andb_false_r. reflexivity. }
    assert (Ed : standard k 42949672940 = (42949672940, None)).
    { unfold standard. assert (Ec : ceilR 42949672940 = 42949672940%Z). { pose proof (ceil_ge 42949672940) as H1. pose proof (ceil_le_int 42949672940 42949672940 ltac:(lra)) as H2. apply le_IZR in H1. lia. }
      rewrite Ec. change (generating_vector (k_dim k) 42949672940) with (generating_vector 50 42949672940). replace (generating_vector 50 42949672940) with (@ValueError (Z * list Z)) by (vm_compute; reflexivity). reflexivity. }
    split.
    + unfold pass. rewrite Ek, Ep. cbn [combine map fst snd]. unfold advance. rewrite Ed. cbn [fst snd forallb combine k_lat]. destruct (Req_EM_T 42949672940 (k_lat k)) as [C|_]; [unfold k in C; cbn in C; lra|]. reflexivity.
    + eexists. split; [left; reflexivity|]. split; [|reflexivity]. unfold todo. cbn. destruct (Req_EM_T _ _) as [C|_]; [lra|reflexivity].
Qed.

(** * giving up *)
Lemma one_update_id k o : todo k = false -> evaluate (Drained [o]) [k] = [k].
Proof. intros H. unfold evaluate. cbn. unfold update. rewrite H. reflexivity. Qed.
(** [NoMoreLattices] does not mean that the lattices are exhausted: the truncation to an integer may hide the missing points *)
Theorem C51_gives_up_early_refuted : exists amps i ks ks' k, fair amps ks /\ fits i ks /\ Forall tabled ks /\
  pass (propose2 amps 0) true i ks = Stop NoMoreLattices ks' /\ In k ks' /\ 1000000 * k_lat k < maxlattice k /\ ~ (forall A, In A amps -> reached ks' A).
Proof.
  destruct (generating_vector 5 1021) as [[N z]| |] eqn:E; [|vm_compute in E; discriminate|vm_compute in E; discriminate].
  assert (EN : N = 1021%Z) by (vm_compute in E; congruence). subst N.
  set (v := (2043 / 2042) ^ 2). set (k := mkK 5 1021 (Some 1021) (Some z) 1 (0, 0) (Some (v, 0))). set (A := mkA [(1, 0)] 0 1).
  assert (Hk : todo k = false) by (unfold todo, k; cbn; destruct (Req_EM_T 1021 1021) as [|C]; [reflexivity|destruct (C eq_refl)]).
  assert (Hm : maxlattice k = 68719476767) by reflexivity.
  assert (Hmax : amp_maxerr [k] A = 1). { unfold amp_maxerr, A. cbn [a_epsabs a_epsrel]. rewrite Rmult_0_r. apply Rmax_left. lra. }
  assert (Herr : amp_abserr [k] A = 2043 / 2042). { unfold amp_abserr, amp_var, A, k. cbn. match goal with |- sqrt ?q = _ => replace q with ((2043 / 2042) ^ 2) by (unfold v; field) end. apply sqrt_pow2. lra. }
  assert (Hr : ~ reached [k] A). { unfold reached. change (Rmax _ _) with (amp_maxerr [k] A). rewrite Hmax, Herr. lra. }
  assert (Hab : absvar k = v) by (unfold absvar, k; cbn; lra).
  exists [A], (Drained [[]]), [k], [k], k. split; [constructor; [split; [reflexivity|cbn; lra]|constructor]|]. split; [reflexivity|].
  split; [constructor; [split; [cbn; lia|exists 1021%Z, z; auto]|constructor]|].
  split; [|split; [left; reflexivity|split; [rewrite Hm; change (k_lat k) with 1021; lra|intros H; apply Hr, H; left; reflexivity]]].
  unfold pass. rewrite (one_update_id k [] Hk).
  assert (Hp : propose2 [A] 0 [k] = Some (Some [1021])).
  { unfold propose2. cbn [forallb]. rewrite Hmax, Herr. replace (Rleb (2043 / 2042) 1) with false by (symmetry; unfold Rleb; destruct (Rle_dec _ _); [lra|reflexivity]). cbn [andb]. cbv zeta. cbn [map]. rewrite Hmax, Hab, Hm. change (Nat.ltb 0 0) with false. change (k_lat k) with 1021. change (k_tau k) with 1. change (map abs2 (a_W A)) with [abs2 (1, 0)].
    replace (abs2 (1, 0)) with 1 by (unfold abs2; cbn; ring). replace (1 ^ 2) with 1 by ring.
    set (x := mkC 1 (v * 1021 ^ 2) 1 1021 68719476767 0).
    assert (Hu : adjust_n 2 false [mkC 0 (v * 1021 ^ 2) 1 1021 68719476767 0] [([1], 1)] = Some [mkC 1 (v * 1021 ^ 2) 1 1021 68719476767 0]).
    { unfold adjust_n, adjust_row. cbn [fold_right fst snd use_row combine map cw ctau cnmin cnmax cn]. fold x. assert (Ha : active x = true). { unfold active, x. cbn [cw cW2]. assert (v * 1021 ^ 2 <> 0) by (unfold v; lra). destruct (Req_EM_T _ 0); [contradiction|]. destruct (Req_EM_T 1 0); [lra|reflexivity]. }
      cbn [filter]. rewrite Ha. cbn [length Nat.eqb]. assert (Hg : positive_data [x]) by (repeat constructor; cbn; unfold v; lra).
      assert (R2 : forall y, 0 < y -> Rpower y 2 = y ^ 2) by (intros y Hy; change 2 with (INR 2); apply Rpower_pow; exact Hy).
      destruct (C52_capped 2 1 [x] ltac:(lra) ltac:(lra) Hg) as (l' & Hl & _ & Hge & Hle & Heq).
      - repeat constructor. cbn. lra.
      - unfold predicted. cbn [map combine fold_right cnmax cw cW2 x fst snd]. rewrite R2 by lra. unfold v. lra.
      - assert (Hlt : 1 < predicted 2 [x] (map cnmin [x])). { unfold predicted. cbn [map combine fold_right cnmin cw cW2 x fst snd]. rewrite R2 by lra. unfold v. lra. }
        specialize (Heq Hlt). destruct l' as [|y [|y2 l']]; cbn in Hge; inversion Hge as [|? ? ? ? Hy Hy']; subst; [|inversion Hy'].
        assert (Ey : cn y = 2043 / 2). { unfold predicted in Heq. cbn [map combine fold_right cw cW2 x fst snd] in Heq. cbn in Hy. rewrite R2 in Heq by lra. assert (E2 : (2043 / 2) ^ 2 = cn y ^ 2). { assert (cn y ^ 2 <> 0) by (apply pow_nonzero; lra). assert (E3 : 1 * (v * 1021 ^ 2) / cn y ^ 2 * cn y ^ 2 = 1 * cn y ^ 2) by (f_equal; lra). unfold Rdiv in E3 at 1. rewrite Rmult_assoc, Rinv_l in E3 by assumption. unfold v in E3. lra. }
          nra. }
        destruct Hl as [Hl|Hl].
        + (* a float array would keep the value, but this branch is not taken *)
          exfalso. unfold adjust_1d_n in Hl. rewrite (positive_floor [x] Hg) in Hl. cbn [negb] in Hl.
          destruct (Rleb (total 2 (map (fun x0 => set_n x0 (cnmin x0)) [x])) 1) eqn:Ef; [apply Rleb_spec in Ef; rewrite set_total in Ef; lra|].
          set (u := unbounded 2 1 (map (fun x0 => set_n x0 (cnmin x0)) [x])) in *.
          assert (Eu : exists w, u = [w] /\ cnmax w = 68719476767 /\ cnmin w = 1021 /\ (cn w <= 68719476767 -> True)) by (eexists; repeat split).
          destruct Eu as (w & Eu & W1 & W2 & _). rewrite Eu in Hl. cbn [length start_mask map] in Hl. rewrite W1 in Hl.
          destruct (Rltb 68719476767 (cn w)) eqn:E1.
          * cbn [cap_loop put map fst snd sel filter length Nat.eqb] in Hl. injection Hl as <-. cbn in Ey. rewrite W1 in Ey. lra.
          * cbn [cap_loop put map fst snd sel filter length Nat.eqb start_mask] in Hl. unfold start_mask in Hl. cbn [map] in Hl. rewrite W2 in Hl. destruct (Rltb (cn w) 1021) eqn:E2.
            -- cbn [raise_loop put map fst snd sel filter length Nat.eqb] in Hl. injection Hl as <-. cbn in Ey. rewrite W2 in Ey. lra.
            -- cbn [raise_loop put map fst snd sel filter length Nat.eqb] in Hl. destruct (forallb _ _); discriminate.
        + rewrite Hl. cbn [returned map]. cbn [assign]. rewrite Ha. unfold x. cbn [cW2 cw ctau cnmax cn]. do 3 f_equal. rewrite Ey. unfold truncR. f_equal. destruct (base_Int_part (2043 / 2)) as [B1 B2]. assert (D1 : IZR (Int_part (2043 / 2)) < 1022) by lra. assert (D2 : 1020 < IZR (Int_part (2043 / 2))) by lra. apply lt_IZR in D1, D2. lia. }
    rewrite Hu. cbn [combine map fst snd cnmin]. change (k_lat k) with 1021. assert (Ec : clip 1021 1021 (1021 * 20) = 1021) by (unfold clip; rewrite Rmax_left by lra; apply Rmin_left; lra). rewrite Ec. cbn [existsb fst snd]. change (k_lat k) with 1021.
    replace (Rleb (1021 * 20) 1021) with false by (symmetry; unfold Rleb; destruct (Rle_dec _ _); [lra|reflexivity]). reflexivity. }
  rewrite Hp. cbn [combine map fst snd]. unfold advance. assert (Es : standard k 1021 = (1021, Some z)). { unfold standard. assert (Ec : ceilR 1021 = 1021%Z). { pose proof (ceil_ge 1021) as H1. pose proof (ceil_le_int 1021 1021 ltac:(lra)) as H2. apply le_IZR in H1. lia. } rewrite Ec. change (k_dim k) with 5%Z. rewrite E. reflexivity. }
  rewrite Es. cbn [forallb combine fst snd k_lat]. change (k_lat k) with 1021. destruct (Req_EM_T 1021 1021) as [_|C]; [reflexivity|destruct (C eq_refl)].
Qed.
Print Assumptions C51_gives_up_early_refuted.

(** * values and errors *)
Definition total_re (l : list C2) : R := fold_right Rplus 0 (map fst l).
Definition total_im (l : list C2) : R := fold_right Rplus 0 (map snd l).
Lemma csumR_parts l : fst (csumR l) = total_re l /\ snd (csumR l) = total_im l.
Proof. unfold total_re, total_im. induction l as [|x l [I1 I2]]; [split; reflexivity|]. unfold csumR in *. cbn [fold_right map]. unfold cadd at 1 3. cbn [fst snd]. rewrite I1, I2. split; reflexivity. Qed.
Lemma fold_app (l m : list R) : fold_right Rplus 0 (l ++ m) = fold_right Rplus 0 l + fold_right Rplus 0 m.
Proof. induction l as [|x l IH]; cbn; [ring|rewrite IH; ring]. Qed.
Lemma concat_sum (g : C2 -> R) pts : fold_right Rplus 0 (map g (concat pts)) = fold_right Rplus 0 (map (fun p => fold_right Rplus 0 (map g p)) pts).
Proof. induction pts as [|p pts IH]; [reflexivity|]. cbn [concat map fold_right]. rewrite map_app, fold_app, IH. reflexivity. Qed.
Lemma concat_len {A} N (pts : list (list A)) : Forall (fun p => length p = N) pts -> length (concat pts) = (length pts * N)%nat.
Proof. induction 1 as [|p pts Hp H IH]; [reflexivity|]. cbn [concat length]. rewrite app_length, Hp, IH. reflexivity. Qed.
(** the value of a kernel is the average of the integrand over all points of all shifts, if the number of points is an integer;
    [pts] are the values of the integrand on the points of every shift *)
Theorem C51_value_is_average : forall N (pts : list (list C2)), (0 < N)%Z -> pts <> [] -> Forall (fun p => length p = points (IZR N)) pts ->
  new_val (IZR N) (map csumR pts) = (total_re (concat pts) / INR (length (concat pts)), total_im (concat pts) / INR (length (concat pts))).
Proof.
  intros N pts HN Hne HL. assert (EI : Int_part (IZR N) = N). { destruct (base_Int_part (IZR N)) as [B1 B2]. apply le_IZR in B1. assert (B3 : IZR N < IZR (Int_part (IZR N) + 1)) by (rewrite plus_IZR; lra). apply lt_IZR in B3. lia. }
  unfold points in HL. rewrite EI in HL. rewrite (concat_len _ _ HL), mult_INR. assert (En : INR (Z.to_nat N) = IZR N) by (rewrite INR_IZR_INZ, Z2Nat.id by lia; reflexivity). rewrite En.
  assert (H1 : INR (length pts) <> 0) by (apply not_0_INR; destruct pts; [contradiction|discriminate]). assert (H2 : IZR N <> 0) by (apply not_0_IZR; lia).
  unfold new_val, meanR. rewrite !map_map, !map_length. f_equal.
  - unfold total_re. rewrite concat_sum. rewrite (map_ext (fun p : list C2 => fst (csumR p)) (fun p : list C2 => fold_right Rplus 0 (map fst p))) by (intros p; apply (csumR_parts p)). unfold Rdiv. rewrite Rinv_mult, <- Rmult_assoc. reflexivity.
  - unfold total_im. rewrite concat_sum. rewrite (map_ext (fun p : list C2 => snd (csumR p)) (fun p : list C2 => fold_right Rplus 0 (map snd p))) by (intros p; apply (csumR_parts p)). unfold Rdiv. rewrite Rinv_mult, <- Rmult_assoc. reflexivity.
Qed.
(** with random generating vectors only, the first phase also proposes numbers of points that are not integers; then the sum over int(N) points is divided by N,
    and even the integral of the constant 1 comes out wrong *)
Theorem C51_noninteger_lattice_refuted : exists ks i ks' k, Forall tabled ks /\ fits i ks /\ pass phase1 false i ks = Continue ks' /\ In k ks' /\ todo k = true /\
  new_val (k_lat k) [csumR (repeat (1, 0) (points (k_lat k)))] <> (1, 0).
Proof.
  destruct (generating_vector 5 1021) as [[N z]| |] eqn:E; [|vm_compute in E; discriminate|vm_compute in E; discriminate].
  assert (EN : N = 1021%Z) by (vm_compute in E; congruence). subst N.
  set (k := mkK 5 1021 (Some 1021) (Some z) 1 (0, 0) (Some (1 / 16000000, 0))).
  assert (Hk : todo k = false) by (unfold todo, k; cbn; destruct (Req_EM_T 1021 1021) as [|C]; [reflexivity|destruct (C eq_refl)]).
  assert (Ev : absvar k = 1 / 16000000) by (unfold absvar, k; cbn; lra). assert (Em : kern_maxvar k = (1 / 10000) ^ 2). { unfold kern_maxvar, abs2, k. cbn [k_val fst snd]. apply Rmax_left. lra. }
  assert (Es : sqrt (absvar k / kern_maxvar k) = 5 / 2). { rewrite Ev, Em. replace (1 / 16000000 / (1 / 10000) ^ 2) with ((5 / 2) ^ 2) by field. apply sqrt_pow2. lra. }
  assert (Ep : phase1 [k] = Some (Some [5105 / 2])).
  { unfold phase1, propose1. cbn [forallb]. replace (Rleb (absvar k) (kern_maxvar k)) with false by (symmetry; rewrite Ev, Em; unfold Rleb; destruct (Rle_dec _ _); [lra|reflexivity]). cbn [andb map]. rewrite Es. cbv zeta. change (k_lat k) with 1021.
    assert (Ec : clip (1021 * (5 / 2)) 1021 (1021 * 20) = 5105 / 2) by (unfold clip; rewrite Rmax_left by lra; rewrite Rmin_left by lra; lra). rewrite Ec.
    replace (Rltb (5105 / 2) (1021 * 2)) with false by (symmetry; apply Rltb_false; lra). rewrite andb_false_r. reflexivity. }
  set (k' := advance false k (5105 / 2)). assert (El : k_lat k' = 5105 / 2) by reflexivity.
  exists [k], (Drained [[]]), [k'], k'. split; [constructor; [split; [cbn; lia|exists 1021%Z, z; auto]|constructor]|]. split; [reflexivity|]. split; [|split; [left; reflexivity|split]].
  - unfold pass. rewrite (one_update_id k [] Hk), Ep. cbn [combine map fst snd]. fold k'. cbn [forallb combine fst snd]. rewrite El. change (k_lat k) with 1021. destruct (Req_EM_T (5105 / 2) 1021); [lra|reflexivity].
  - unfold todo. rewrite El. change (k_old k') with (Some 1021). cbv iota beta. destruct (Req_EM_T (5105 / 2) 1021); [lra|reflexivity].
  - rewrite El. assert (EI : Int_part (5105 / 2) = 2552%Z). { destruct (base_Int_part (5105 / 2)) as [B1 B2]. assert (D1 : IZR (Int_part (5105 / 2)) < 2553) by lra. assert (D2 : 2551 < IZR (Int_part (5105 / 2))) by lra. apply lt_IZR in D1, D2. lia. }
    unfold points. rewrite EI. set (n := Z.to_nat 2552). assert (En : INR n = 2552) by (unfold n; rewrite INR_IZR_INZ, Z2Nat.id by lia; reflexivity). clearbody n.
    assert (Es2 : fst (csumR (repeat (1, 0) n)) = 2552). { rewrite <- En. rewrite (proj1 (csumR_parts _)). unfold total_re. clear. induction n as [|n IH]; [reflexivity|]. rewrite S_INR. cbn [repeat map fst fold_right]. rewrite IH. ring. }
    unfold new_val, meanR. intros H. apply (f_equal fst) in H. cbn [fst map fold_right length] in H. rewrite Es2 in H. cbn [INR] in H. lra.
Qed.
(** the reported value and error of a kernel always come from one and the same evaluation, and the error of the real part never grows *)
Theorem C51_update : forall k o, let k' := update k o in
  ((k_val k' = k_val k /\ k_var k' = k_var k) \/ exists s, o = Some s /\ k_val k' = new_val (k_lat k) s /\ k_var k' = Some (new_variance (k_lat k) s)) /\
  (forall v, k_var k = Some v -> exists v', k_var k' = Some v' /\ fst v' <= fst v) /\
  (k_var k = None -> todo k = true -> forall s, o = Some s -> k_var k' = Some (new_variance (k_lat k) s)).
Proof.
  intros k o. cbv zeta. unfold update. destruct (todo k) eqn:T; [|split; [left; auto|split; [intros v Hv; exists v; split; [exact Hv|lra]|discriminate]]].
  destruct o as [s|]; [|split; [left; auto|split; [intros v Hv; exists v; split; [exact Hv|lra]|discriminate]]].
  destruct (cle _ _) eqn:C.
  - split; [right; exists s; auto|]. cbn. split; [|intros _ _ s' [= <-]; reflexivity]. intros v Hv. eexists. split; [reflexivity|]. rewrite Hv in C. cbn [cle] in C. apply orb_prop in C as [C|C]; [apply Rltb_spec in C; lra|]. apply andb_prop in C as [C _]. destruct (Req_EM_T _ _) as [C'|]; [lra|discriminate].
  - split; [left; auto|]. split; [intros v Hv; exists v; split; [exact Hv|lra]|]. intros Hv. rewrite Hv in C. discriminate.
Qed.
(** the error of the imaginary part may grow, and so may the error that is compared with the requested precision: complex numbers are compared lexicographically *)
Theorem C51_error_grows_refuted : exists k s, todo k = true /\ match k_var k, k_var (update k (Some s)) with Some v, Some v' => 1000 * (fst v + snd v) < fst v' + snd v' | _, _ => False end.
Proof.
  set (k := mkK 5 1 None None 1 (0, 0) (Some (2, 0))). exists k, [(0, 200); (0, -200)]. split; [reflexivity|].
  assert (E : cle (new_variance (k_lat k) [(0, 200); (0, -200)]) (k_var k) = true). { cbn [cle k k_var]. apply orb_true_intro. left. apply Rltb_spec. unfold new_variance, np_var, meanR, k. cbn. lra. }
  unfold update. replace (todo k) with true by reflexivity. rewrite E. cbn [k k_var]. unfold new_variance, np_var, meanR. cbn. lra.
Qed.

(** * the median among the candidates *)
Lemma insert_perm x l : Permutation (insertR x l) (x :: l).
Proof. induction l as [|y l IH]; [reflexivity|]. cbn [insertR]. destruct (Rleb x y); [reflexivity|]. rewrite IH. apply perm_swap. Qed.
Lemma sort_perm l : Permutation (sortR l) l.
Proof. induction l as [|x l IH]; [reflexivity|]. unfold sortR in *. cbn [fold_right]. rewrite insert_perm, IH. reflexivity. Qed.
Lemma insert_sorted x l : StronglySorted Rle l -> StronglySorted Rle (insertR x l).
Proof.
  induction 1 as [|y l H IH Hy]; [repeat constructor|]. cbn [insertR]. destruct (Rleb x y) eqn:E.
  - apply Rleb_spec in E. constructor; [constructor; assumption|]. constructor; [exact E|]. eapply Forall_impl; [|exact Hy]. cbv beta. intros; lra.
  - assert (y <= x) by (unfold Rleb in E; destruct (Rle_dec x y); [discriminate|lra]). constructor; [exact IH|]. rewrite insert_perm. constructor; assumption.
Qed.
Lemma sort_sorted l : StronglySorted Rle (sortR l).
Proof. induction l as [|x l IH]; [constructor|]. apply insert_sorted, IH. Qed.
Lemma sorted_nth l : StronglySorted Rle l -> forall i j, (i <= j < length l)%nat -> nth i l 0 <= nth j l 0.
Proof.
  induction 1 as [|x l H IH Hx]; intros i j [Hij Hj]; [cbn in Hj; lia|]. destruct i, j; cbn [nth length] in *; [lra| |lia|apply IH; lia].
  rewrite Forall_forall in Hx. apply Hx, nth_In. lia.
Qed.
Definition count (p : R -> bool) (l : list R) : nat := length (filter p l).
Lemma count_perm p l l' : Permutation l l' -> count p l = count p l'.
Proof. unfold count. induction 1; cbn; [reflexivity| | |congruence]; [destruct (p x); cbn; congruence|destruct (p x), (p y); reflexivity]. Qed.
Lemma count_prefix p l m : (m <= length l)%nat -> (forall i, (i < m)%nat -> p (nth i l 0) = true) -> (m <= count p l)%nat.
Proof.
  revert m. induction l as [|x l IH]; intros [|m] Hm H; try (cbn in *; lia). unfold count in *. cbn [filter length] in *. pose proof (H 0%nat ltac:(lia)) as H0. cbn in H0. rewrite H0. cbn [length]. specialize (IH m ltac:(lia)). assert (m <= length (filter p l))%nat; [|lia]. apply IH. intros i Hi. apply (H (S i)). lia.
Qed.
Lemma count_suffix p l m : (m <= length l)%nat -> (forall i, (m <= i < length l)%nat -> p (nth i l 0) = true) -> (length l - m <= count p l)%nat.
Proof.
  revert m. induction l as [|x l IH]; intros m Hm H; [cbn in *; lia|]. unfold count in *. cbn [filter length] in *. destruct m as [|m].
  - pose proof (H 0%nat ltac:(lia)) as H0. cbn in H0. rewrite H0. cbn [length]. specialize (IH 0%nat ltac:(lia)). assert (length l - 0 <= length (filter p l))%nat; [|lia]. apply IH. intros i Hi. apply (H (S i)). lia.
  - assert (length l - m <= length (filter p l))%nat by (apply IH; [lia|]; intros i Hi; apply (H (S i)); lia). destruct (p x); cbn [length]; lia.
Qed.
Lemma div2_lt n : Nat.odd n = true -> (Nat.div2 n < n)%nat /\ n = (2 * Nat.div2 n + 1)%nat.
Proof. intros H. pose proof (Nat.div2_odd n) as E. rewrite H in E. cbn [Nat.b2n] in E. lia. Qed.
(** with an odd number of candidates the chosen generating vector is one of the candidates, and its integral is a median: at least half
    of the candidates (rounded up) give at most this value, at least half give at least this value *)
Theorem C51_median_candidate : forall cands current, Nat.odd (length cands) = true -> exists c, In c cands /\ pick_candidate cands current = Some (snd c) /\
  (length cands < 2 * count (fun x => Rleb x (signedMax (fst c))) (map (fun c => signedMax (fst c)) cands))%nat /\
  (length cands < 2 * count (fun x => Rleb (signedMax (fst c)) x) (map (fun c => signedMax (fst c)) cands))%nat.
Proof.
  intros cands current Ho. set (vals := map (fun c => signedMax (fst c)) cands). assert (Lv : length vals = length cands) by apply map_length.
  destruct (div2_lt _ Ho) as [Hm Hn]. set (m := Nat.div2 (length cands)) in *. set (med := medianR vals).
  assert (Em : med = nth m (sortR vals) 0) by (unfold med, medianR; rewrite Lv, Ho; reflexivity).
  assert (Ls : length (sortR vals) = length cands) by (rewrite <- Lv; apply Permutation_length, sort_perm).
  assert (Hin : In med vals) by (rewrite Em; apply (Permutation_in _ (sort_perm vals)), nth_In; lia).
  assert (P : forall (l : list (C2 * list Z)) cur, (exists c, In c l /\ signedMax (fst c) = med) -> exists c, In c l /\ signedMax (fst c) = med /\ fold_left (fun g c => if Req_EM_T (signedMax (fst c)) med then Some (snd c) else g) l cur = Some (snd c)).
  { clearbody med. clear. induction l as [|a l IH]; intros cur (c & Hc & E); [destruct Hc|]. cbn [fold_left]. destruct (Classical_Prop.classic (exists c, In c l /\ signedMax (fst c) = med)) as [H|H].
    - destruct (IH (if Req_EM_T (signedMax (fst a)) med then Some (snd a) else cur) H) as (c' & H1 & H2 & H3). exists c'. split; [right; exact H1|auto].
    - destruct Hc as [<-|Hc]; [|destruct H; eauto]. exists a. split; [left; reflexivity|]. split; [exact E|]. destruct (Req_EM_T (signedMax (fst a)) med) as [_|C]; [|contradiction].
      clear - H. induction l as [|b l IH]; [reflexivity|]. cbn [fold_left]. destruct (Req_EM_T (signedMax (fst b)) med) as [C|_]; [destruct H; exists b; split; [left; reflexivity|exact C]|]. apply IH. intros (c & H1 & H2). apply H. exists c. split; [right; exact H1|exact H2]. }
  destruct (P cands current) as (c & Hc & Ec & Ep).
  { unfold vals in Hin. apply in_map_iff in Hin as (c & E & Hc). eauto. }
  exists c. split; [exact Hc|]. split; [exact Ep|]. rewrite Ec. fold vals. rewrite <- !(count_perm _ _ _ (sort_perm vals)). split.
  - assert (S m <= count (fun x => Rleb x med) (sortR vals))%nat; [|lia]. apply count_prefix; [lia|]. intros i Hi. apply Rleb_spec. rewrite Em. apply sorted_nth; [apply sort_sorted|lia].
  - assert (length (sortR vals) - m <= count (fun x => Rleb med x) (sortR vals))%nat; [|lia]. apply count_suffix; [lia|]. intros i Hi. apply Rleb_spec. rewrite Em. apply sorted_nth; [apply sort_sorted|lia].
Qed.
(** the number of candidates asked for is made odd without being decreased, and 0 (no candidates) is kept *)
Theorem C51_make_odd : forall n, (n <= make_odd n <= n + 1)%nat /\ (make_odd n = 0%nat <-> n = 0%nat) /\ (n <> 0%nat -> Nat.odd (make_odd n) = true).
Proof.
  intros n. unfold make_odd. destruct (Nat.ltb_spec 0 n) as [H|H]; cbn [andb]; [|assert (n = 0%nat) by lia; subst; repeat split; auto; try lia; try congruence]. destruct (Nat.even n) eqn:E; (split; [lia|]); (split; [lia|]); intros _; unfold Nat.odd.
  - rewrite Nat.even_succ. unfold Nat.odd. rewrite E. reflexivity.
  - rewrite E. reflexivity.
Qed.
(** with an even number of candidates none of them need be the median: the old vector stays *)
Theorem C51_even_candidates_refuted : exists cands, cands <> [] /\ pick_candidate cands None = None.
Proof.
  exists [((1, 0), [1%Z]); ((3, 0), [2%Z])]. split; [discriminate|]. unfold pick_candidate. cbn [map fst]. assert (S1 : signedMax (1, 0) = 1) by (unfold signedMax; cbn [fst snd]; rewrite Rabs_R0, Rabs_pos_eq by lra; replace (Rltb 0 1) with true by (symmetry; apply Rltb_spec; lra); reflexivity).
  assert (S3 : signedMax (3, 0) = 3) by (unfold signedMax; cbn [fst snd]; rewrite Rabs_R0, Rabs_pos_eq by lra; replace (Rltb 0 3) with true by (symmetry; apply Rltb_spec; lra); reflexivity). rewrite S1, S3.
  assert (M : medianR [1; 3] = 2). { unfold medianR, sortR. cbn [fold_right insertR]. replace (Rleb 1 3) with true by (symmetry; apply Rleb_spec; lra). cbn. lra. }
  rewrite M. cbn [fold_left fst snd]. rewrite S1, S3. destruct (Req_EM_T 1 2); [lra|]. destruct (Req_EM_T 3 2); [lra|]. reflexivity.
Qed.
Print Assumptions C51_median_candidate.

(** * the hypotheses are met: two kernels, started from 1000 points; the first phase doubles or more *)
Example C51_example : exists ks, start 1000 [3; 12]%Z [1; 1] = Some ks /\ Forall tabled ks /\ positive_lattices ks /\ dims_ok ks /\ (forall k, In k ks -> todo k = true) /\
  growing phase1 2 /\ growing (propose2 [mkA [(1, 0); (0, 1)] (1 / 1000) (1 / 100000)] 0) 2 /\ fair [mkA [(1, 0); (0, 1)] (1 / 1000) (1 / 100000)] ks /\ fits (Drained [[(1, 0)]; [(2, 1)]]) ks.
Proof.
  destruct (start 1000 [3; 12]%Z [1; 1]) as [ks|] eqn:E; [|vm_compute in E; discriminate]. exists ks. split; [reflexivity|].
  assert (T : Forall tabled ks) by (apply (C51_start_tabled 1000 [3; 12]%Z [1; 1]); [repeat constructor; lia|exact E]). split; [exact T|].
  assert (L : length ks = 2%nat). { unfold start in E. cbn [combine fold_right fst snd] in E. destruct (generating_vector 12 1000) as [[? ?]| |]; [|discriminate|discriminate]. destruct (generating_vector 3 1000) as [[? ?]| |]; [|discriminate|discriminate]. injection E as <-. reflexivity. }
  split; [eapply Forall_impl; [|exact T]; intros k Hk; apply (tabled_max k Hk)|]. split; [eapply Forall_impl; [|exact T]; intros k (Hk & _); lia|].
  split. { unfold start in E. cbn [combine fold_right fst snd] in E. destruct (generating_vector 12 1000) as [[? ?]| |]; [|discriminate|discriminate]. destruct (generating_vector 3 1000) as [[? ?]| |]; [|discriminate|discriminate]. injection E as <-. intros k [<-|[<-|[]]]; reflexivity. }
  split; [apply phase1_growing|]. split; [apply phase2_growing; repeat constructor|]. split; [constructor; [|constructor]; split; [rewrite L; reflexivity|cbn; lra]|]. unfold fits. rewrite L. reflexivity.
Qed.

(** * the end of the first phase: every kernel has an error of at most 20 percent or 1/10000 *)
Theorem C51_stop_first_phase : forall sl inputs ks reason ks' log, iterate phase1 sl inputs ks [] = Some (Stop reason ks', log) ->
  (reason = OutOfTime /\ exists o, In (Deadline o) inputs) \/
  (reason = PrecisionReached /\ forall k, In k ks' -> absvar k <= Rmax ((1 / 10000) ^ 2) ((1 / 5) ^ 2 * abs2 (k_val k)) /\ k_old k = Some (k_lat k)) \/
  (reason = NoMoreLattices /\ exists k, In k ks' /\ Rmax ((1 / 10000) ^ 2) ((1 / 5) ^ 2 * abs2 (k_val k)) < absvar k).
Proof.
  intros sl inputs ks reason ks' log H. apply iterate_last in H as (i & ks1 & Hin & Hp & _). unfold pass in Hp. destruct i as [o|o]; [injection Hp as <- <-; left; split; [reflexivity|eauto]|]. right.
  set (ks2 := evaluate (Drained o) ks1) in *. unfold phase1, propose1 in Hp. destruct (forallb _ ks2) eqn:Ef.
  - left. injection Hp as <- <-. split; [reflexivity|]. intros k Hk. apply in_map_iff in Hk as (k2 & <- & Hk). rewrite forallb_forall in Ef. specialize (Ef k2 Hk). apply Rleb_spec in Ef. split; [|reflexivity]. rewrite Rmult_comm. exact Ef.
  - right. destruct (forallb _ (combine _ _)); [|discriminate]. injection Hp as <- <-. split; [reflexivity|]. clear - Ef. clearbody ks2. induction ks2 as [|k l IH]; [discriminate|]. cbn [forallb] in Ef. destruct (Rleb (absvar k) (kern_maxvar k)) eqn:E.
    + destruct (IH Ef) as (k' & H1 & H2). exists k'. split; [right; exact H1|exact H2].
    + exists k. split; [left; reflexivity|]. unfold Rleb in E. destruct (Rle_dec _ _) as [|N]; [discriminate|]. rewrite Rmult_comm. unfold kern_maxvar in N. lra.
Qed.
