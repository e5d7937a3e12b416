From Verif Require Export WrapProofs.
Open Scope Z_scope.
Section Inv.
Variable D : Z.
Variable need : nat -> Z.
Variable f0 : option text.
Hypothesis D_nonneg : 0 <= D.
Hypothesis whole0 : Forall whole (kept_lines f0).
Let ls := kept_lines f0.
Let v0 := form_workspace D f0.
Notation step := (step D need). Notation steps := (steps D need).
Lemma v0_nonneg : 0 <= v0. Proof. apply current_nonneg, D_nonneg. Qed.
Lemma raise_gt w : 0 <= w -> w < raise_ws w. Proof. unfold raise_ws. lia. Qed.
Lemma raise_mono w w' : w <= w' -> raise_ws w <= raise_ws w'. Proof. unfold raise_ws. lia. Qed.
(** the work spaces that can occur: the one of the file at the start, raised any number of times *)
Definition value (k : nat) : Z := Nat.iter k raise_ws v0.
Definition level (z : Z) : Prop := exists k, z = value k.
Lemma value_nonneg k : 0 <= value k.
Proof. induction k as [|k IH]; [exact v0_nonneg|]. change (0 <= raise_ws (value k)). unfold raise_ws. lia. Qed.
Lemma value_step k : value k < value (S k).
Proof. apply raise_gt, value_nonneg. Qed.
Lemma value_lt j k : (j < k)%nat -> value j < value k.
Proof. induction 1 as [|k _ IH]; [apply value_step|]. pose proof (value_step k). lia. Qed.
Lemma value_le j k : (j <= k)%nat -> value j <= value k.
Proof. intro H. destruct (Nat.eq_dec j k) as [->|N]; [lia|]. pose proof (value_lt j k ltac:(lia)). lia. Qed.
Lemma level_nonneg z : level z -> 0 <= z. Proof. intros [k ->]. apply value_nonneg. Qed.
Lemma level_raise z : level z -> level (raise_ws z). Proof. intros [k ->]. exists (S k). reflexivity. Qed.
Lemma level_v0 z : level z -> v0 <= z. Proof. intros [k ->]. apply (value_le 0 k). lia. Qed.
(** the file: as it was, or rewritten because some process reported a work space that it found too small *)
Definition file_ok (n : nat) (f : option text) : Prop :=
  f = f0 \/ exists w i, (i < n)%nat /\ level w /\ w < need i /\ f = Some (set_text ls (raise_ws w)).
Definition proc_ok (i : nat) (p : phase) : Prop :=
  match p with
  | Running w => level w
  | Reading w => level w /\ w < need i
  | Staged w c => level w /\ w < need i /\ c = set_text ls (raise_ws w)
  | _ => True
  end.
Definition sys_ok (n : nat) (s : system) : Prop := List.length (procs s) = n /\ file_ok n (file s) /\ forall i p, nth_error (procs s) i = Some p -> proc_ok i p.
Lemma raise_nonneg w : 0 <= raise_ws w. Proof. unfold raise_ws. lia. Qed.
Lemma kept_same n f : file_ok n f -> kept_lines f = ls.
Proof. intros [->|(w & i & _ & _ & _ & ->)]; [reflexivity|]. apply set_kept; [exact whole0|apply kept_none|apply raise_nonneg]. Qed.
Lemma content_same n f z : file_ok n f -> new_content f z = set_text ls z.
Proof. intro H. unfold new_content. rewrite (kept_same n f H). reflexivity. Qed.
Lemma file_value n f : file_ok n f -> level (form_workspace D f).
Proof. intros [->|(w & i & _ & L & _ & ->)]; [exists O; reflexivity|]. unfold form_workspace. rewrite set_current by (exact whole0 || apply raise_nonneg). apply level_raise, L. Qed.
Lemma get_lt {A} (l : list A) i p : nth_error l i = Some p -> (i < List.length l)%nat.
Proof. intro H. apply nth_error_Some. rewrite H. discriminate. Qed.
Lemma step_ok n s t : sys_ok n s -> step s t -> sys_ok n t.
Proof.
  intros (L & F & P) H. destruct H as [f ps i H|f ps i w out H HS R|f ps i w out r H HS R|f ps i w H C|f ps i w H C|f ps i w c H|f ps i p H _ _]; cbn [file procs] in *;
    (split; [cbn [procs]; rewrite set_nth_len; exact L|]); cbn [file procs]; (split; [try exact F|intros j q Hq; apply set_nth_inv in Hq; destruct Hq as [[<- ->]|Hq]; [|exact (P j q Hq)]]); cbn [proc_ok]; try exact I.
  - exact (file_value n f F).
  - destruct (says_report _ _ _ _ HS R) as [-> W]. split; [exact (P i _ H)|exact W].
  - destruct (P i _ H) as [A B]. split; [exact A|]. split; [exact B|]. apply (content_same n f), F.
  - destruct (P i _ H) as (A & B & ->). right. exists w, i. split; [rewrite <- L; exact (get_lt _ _ _ H)|]. split; [exact A|]. split; [exact B|reflexivity].
Qed.
Lemma start_ok n : sys_ok n (start n f0).
Proof.
  split; [cbn; apply repeat_length|]. split; [left; reflexivity|]. cbn [start procs]. intros i p H. apply nth_error_In in H. apply repeat_spec in H. subst. exact I.
Qed.
Lemma steps_ok n k s : steps k (start n f0) s -> sys_ok n s.
Proof. intro H. remember (start n f0) as a eqn:E. induction H as [a|k a t u _ IH H]; subst; [apply start_ok|]. exact (step_ok n t u (IH eq_refl) H). Qed.
(** ** termination *)
Section Bound.
Variable n K : nat.
Hypothesis enough : forall i, (i < n)%nat -> need i <= value K.
Let B : nat := (4 * n + 1)%nat.
Fixpoint lvn (k : nat) (z : Z) : nat := match k with O => O | S k => (lvn k z + (if Z.ltb (value k) z then 1 else 0))%nat end.
Definition W (z : Z) : nat := (B ^ (K - lvn K z))%nat.
Lemma lvn_mono k z z' : z <= z' -> (lvn k z <= lvn k z')%nat.
Proof. intro H. induction k as [|k IH]; cbn [lvn]; [lia|]. destruct (Z.ltb_spec (value k) z), (Z.ltb_spec (value k) z'); lia. Qed.
Lemma lvn_le k z : (lvn k z <= k)%nat.
Proof. induction k as [|k IH]; cbn [lvn]; [lia|]. destruct (value k <? z); lia. Qed.
Lemma lvn_lt k : forall j z, (j < k)%nat -> value j < z -> (lvn k (value j) < lvn k z)%nat.
Proof.
  induction k as [|k IH]; intros j z Hj Hz; [lia|]. cbn [lvn]. destruct (Nat.eq_dec j k) as [->|N].
  - destruct (Z.ltb_spec (value k) (value k)); [lia|]. destruct (Z.ltb_spec (value k) z); [|lia]. pose proof (lvn_mono k (value k) z ltac:(lia)). lia.
  - pose proof (IH j z ltac:(lia) Hz). destruct (Z.ltb_spec (value k) (value j)) as [X|X]; [pose proof (value_le j k ltac:(lia)); lia|]. lia.
Qed.
Lemma lvn_v0 k : lvn k v0 = O.
Proof. induction k as [|k IH]; cbn [lvn]; [reflexivity|]. rewrite IH. destruct (Z.ltb_spec (value k) v0); [|reflexivity]. pose proof (value_le 0 k ltac:(lia)). change (value 0) with v0 in *. lia. Qed.
Lemma W_pos z : (1 <= W z)%nat.
Proof. unfold W. pose proof (Nat.pow_nonzero B (K - lvn K z) ltac:(unfold B; lia)). lia. Qed.
Lemma W_drop w z : level w -> w < value K -> w < z -> (B * W z <= W w)%nat.
Proof.
  intros [j ->] H1 H2. assert (J : (j < K)%nat) by (destruct (le_lt_dec K j) as [X|X]; [pose proof (value_le K j X); lia|exact X]).
  pose proof (lvn_lt K j z J H2). pose proof (lvn_le K z). unfold W. replace (B * B ^ (K - lvn K z))%nat with (B ^ S (K - lvn K z))%nat by reflexivity.
  apply Nat.pow_le_mono_r; [unfold B; lia|lia].
Qed.
Definition cost (f : option text) (p : phase) : nat :=
  match p with Ready => (4 * W (form_workspace D f))%nat | Running w => (3 * W w)%nat | Reading w => (2 * W w)%nat | Staged w _ => W w | Done => O | Dead => O end.
Fixpoint total (f : option text) (ps : list phase) : nat := match ps with [] => O | p :: r => (cost f p + total f r)%nat end.
Lemma total_set f ps i p q : nth_error ps i = Some p -> (cost f q < cost f p)%nat -> (total f (set_nth i q ps) < total f ps)%nat.
Proof.
  revert i. induction ps as [|a ps IH]; intros [|i] H C; cbn in *; try discriminate.
  - injection H as ->. lia.
  - specialize (IH i H C). lia.
Qed.
Lemma total_file f g ps : (total g ps <= total f ps + 4 * W (form_workspace D g) * List.length ps)%nat.
Proof. induction ps as [|p ps IH]; cbn [total List.length]; [lia|]. assert (cost g p <= cost f p + 4 * W (form_workspace D g))%nat by (destruct p; cbn [cost]; lia). lia. Qed.
Lemma total_rename f g ps i w c : nth_error ps i = Some (Staged w c) -> (total g (set_nth i Ready ps) + W w <= total f ps + 4 * W (form_workspace D g) * List.length ps)%nat.
Proof.
  revert i. induction ps as [|a ps IH]; intros [|i] H; cbn in H; try discriminate.
  - injection H as ->. cbn [set_nth total cost List.length]. pose proof (total_file f g ps). lia.
  - specialize (IH i H). cbn [set_nth total List.length]. assert (cost g a <= cost f a + 4 * W (form_workspace D g))%nat by (destruct a; cbn [cost]; lia). lia.
Qed.
Definition measure (s : system) : nat := total (file s) (procs s).
Lemma step_decreases s t : sys_ok n s -> step s t -> (measure t < measure s)%nat.
Proof.
  intros (L & F & P) H. unfold measure. destruct H as [f ps i H|f ps i w out H HS R|f ps i w out r H HS R|f ps i w H C|f ps i w H C|f ps i w c H|f ps i p H N1 N2]; cbn [file procs] in *.
  - apply (total_set f ps i Ready); [exact H|]. cbn [cost]. pose proof (W_pos (form_workspace D f)). lia.
  - apply (total_set f ps i (Running w)); [exact H|]. cbn [cost]. pose proof (W_pos w). lia.
  - destruct (says_report _ _ _ _ HS R) as [-> _]. apply (total_set f ps i (Running w)); [exact H|]. cbn [cost]. pose proof (W_pos w). lia.
  - apply (total_set f ps i (Reading w)); [exact H|]. cbn [cost]. destruct (P i _ H) as [A A'].
    pose proof (enough i ltac:(rewrite <- L; exact (get_lt _ _ _ H))) as E. pose proof (raise_gt w (level_nonneg w A)) as G.
    assert (C' : raise_ws w <= form_workspace D f). { unfold form_workspace. destruct (current_cases f w D) as [X|X]; rewrite X in C; destruct (Z.geb_spec (current_ws f D) (raise_ws w)); try discriminate; try lia; destruct (Z.geb_spec w (raise_ws w)); try discriminate; lia. }
    pose proof (W_drop w (form_workspace D f) A ltac:(lia) ltac:(lia)). pose proof (W_pos (form_workspace D f)).
    assert (1 <= n)%nat by (pose proof (get_lt _ _ _ H); lia). unfold B in *. nia.
  - apply (total_set f ps i (Reading w)); [exact H|]. cbn [cost]. pose proof (W_pos w). lia.
  - destruct (P i _ H) as (A & A' & ->). pose proof (total_rename f (Some (set_text ls (raise_ws w))) ps i w _ H) as T.
    assert (V : form_workspace D (Some (set_text ls (raise_ws w))) = raise_ws w) by (apply set_current; [exact whole0|apply raise_nonneg]). rewrite V in T.
    pose proof (enough i ltac:(rewrite <- L; exact (get_lt _ _ _ H))) as E. pose proof (raise_gt w (level_nonneg w A)) as G.
    pose proof (W_drop w (raise_ws w) A ltac:(lia) G) as Q. pose proof (W_pos (raise_ws w)). rewrite L in T. unfold B in Q. nia.
  - apply (total_set f ps i p); [exact H|]. cbn [cost]. destruct p as [|w|w|w c| |]; try contradiction; cbn [cost].
    + pose proof (W_pos (form_workspace D f)). lia.
    + pose proof (W_pos w). lia.
    + pose proof (W_pos w). lia.
    + pose proof (W_pos w). lia.
Qed.
Lemma steps_bound k s : steps k (start n f0) s -> (k + measure s <= 4 * n * (4 * n + 1) ^ K)%nat.
Proof.
  intro H. remember (start n f0) as a eqn:E. induction H as [a|k a t u H IH St]; subst.
  - unfold measure. cbn [start file procs]. assert (T : forall m, total f0 (repeat Ready m) = (4 * m * W v0)%nat) by (induction m as [|m IH]; cbn [repeat total cost]; [reflexivity|rewrite IH; fold v0; lia]).
    rewrite T. unfold W. rewrite lvn_v0, Nat.sub_0_r. fold B. lia.
  - specialize (IH eq_refl). pose proof (step_decreases t u (steps_ok n k t H) St). lia.
Qed.
End Bound.
End Inv.
