From Verif Require Export FsetProofs.
From Coq Require Lqa.
Open Scope Z_scope.
Lemma half_double x : Qred x = x -> half (double x) = x.
Proof. intro H. unfold half, double. rewrite <- H at 2. apply Qred_complete. rewrite Qred_correct. field. Qed.
Lemma half_val x : (half x == x * (1 # 2))%Q. Proof. apply Qred_correct. Qed.
Lemma double_val x : (double x == x * 2)%Q. Proof. apply Qred_correct. Qed.
Lemma red_half x : Qred (half x) = half x. Proof. apply Qred_complete, Qred_correct. Qed.
Lemma red_double x : Qred (double x) = double x. Proof. apply Qred_complete, Qred_correct. Qed.
Section Search.
Variable f : Q -> Z.
(** the values are those of f, and once there is an upper end the budget lies between the ends *)
Definition inv (st : search) : Prop :=
  y1 st = f (x1 st) /\ (0 < x1 st)%Q /\ Qred (x1 st) = x1 st /\
  match upper st with None => True | Some (x2, y2) => (x1 st < x2)%Q /\ y2 = f x2 /\ y1 st < 0 <= y2 end.
Lemma step_inv st : inv st -> inv (search_step f st).
Proof.
  destruct st as [a ya up]. intros (E & P & R & U); cbn [x1 y1 upper] in *. unfold search_step; cbn [x1 y1 upper]. destruct up as [[b yb]|].
  - destruct U as (L & Eb & Y). pose proof (half_val (a + b)) as HV. pose proof (red_half (a + b)) as HR. set (h := half (a + b)) in *. destruct (Z.ltb_spec (f h) 0); unfold inv; cbn [x1 y1 upper].
    + split; [reflexivity|]. split; [Lqa.lra|]. split; [exact HR|]. split; [Lqa.lra|]. split; [exact Eb|lia].
    + split; [exact E|]. split; [exact P|]. split; [exact R|]. split; [Lqa.lra|]. split; [reflexivity|lia].
  - pose proof (half_val a) as HV. pose proof (red_half a) as HR. pose proof (double_val a) as DV. pose proof (red_double a) as DR. set (h := half a) in *. set (d := double a) in *. destruct (Z.ltb_spec ya 0).
    + destruct (Z.gtb_spec (f d) 0); unfold inv; cbn [x1 y1 upper].
      * split; [exact E|]. split; [exact P|]. split; [exact R|]. split; [Lqa.lra|]. split; [reflexivity|lia].
      * split; [reflexivity|]. split; [Lqa.lra|]. split; [exact DR|exact I].
    + destruct (Z.ltb_spec (f h) 0); unfold inv; cbn [x1 y1 upper].
      * split; [reflexivity|]. split; [Lqa.lra|]. split; [exact HR|]. split; [Lqa.lra|]. split; [exact E|lia].
      * split; [reflexivity|]. split; [Lqa.lra|]. split; [exact HR|exact I].
Qed.
Lemma inv_ok st : inv st -> search_ok st = true.
Proof.
  destruct st as [a ya up]. intros (_ & _ & _ & U); cbn [x1 y1 upper] in *. unfold search_ok; cbn [x1 y1 upper]. destruct up as [[b yb]|]; [|reflexivity]. destruct U as (L & _ & Y).
  apply andb_true_intro; split; [|apply Z.ltb_lt; lia]. apply Bool.negb_true_iff. apply Bool.not_true_iff_false. intro H. apply Qle_bool_iff in H. Lqa.lra.
Qed.
Fixpoint iter (n : nat) (st : search) : search := match n with O => st | S n => iter n (search_step f st) end.
Lemma loop_iter n st : inv st -> search_loop f n st = Some (iter n st).
Proof. revert st. induction n as [|n IH]; intros st H; cbn [search_loop iter]; [reflexivity|]. cbv zeta. rewrite inv_ok by (apply step_inv, H). apply IH, step_inv, H. Qed.
Lemma iter_inv n st : inv st -> inv (iter n st).
Proof. revert st. induction n as [|n IH]; intros st H; cbn; [exact H|]. apply IH, step_inv, H. Qed.
Lemma iter_S n st : iter (S n) st = search_step f (iter n st).
Proof. revert st. induction n as [|n IH]; intro st; [reflexivity|]. cbn [iter] in *. rewrite <- IH. reflexivity. Qed.
(** started below the budget, the search stays at or below it *)
Definition below (i : nat) (st : search) : Prop :=
  (1 <= x1 st)%Q /\
  match upper st with
  | None => (x1 st == inject_Z (2 ^ Z.of_nat i))%Q /\ (y1 st < 0 \/ y1 st = 0 /\ (1 <= i)%nat /\ f (half (x1 st)) < 0)
  | Some (x2, y2) => y1 st < 0 /\ exists k : nat, (1 <= k <= i)%nat /\ (inject_Z (2 ^ (Z.of_nat k - 1)) <= x1 st)%Q /\ (x2 <= inject_Z (2 ^ Z.of_nat k))%Q /\
                       ((x2 - x1 st) * inject_Z (2 ^ Z.of_nat i) <= inject_Z (2 ^ (2 * Z.of_nat k)))%Q
  end.
Lemma inj_double a : (inject_Z (2 * a) == 2 * inject_Z a)%Q.
Proof. rewrite inject_Z_mult. reflexivity. Qed.
Lemma pow2S n : 2 ^ Z.of_nat (S n) = 2 * 2 ^ Z.of_nat n.
Proof. rewrite Nat2Z.inj_succ, Z.pow_succ_r by lia. reflexivity. Qed.
Lemma pow2_ge1 z : 0 <= z -> (1 <= inject_Z (2 ^ z))%Q.
Proof. intro H. change 1%Q with (inject_Z 1). rewrite <- Zle_Qle. pose proof (Z.pow_pos_nonneg 2 z ltac:(lia) H). lia. Qed.
Lemma step_below i st : inv st -> below i st -> below (S i) (search_step f st).
Proof.
  destruct st as [a ya up]. intros (E & P & R & U) (G & B); cbn [x1 y1 upper] in *. unfold search_step; cbn [x1 y1 upper]. destruct up as [[b yb]|].
  - destruct U as (L & Eb & Y). destruct B as (Ya & k & Hk & K1 & K2 & K3).
    assert (Q2 : (inject_Z (2 ^ Z.of_nat (S i)) == 2 * inject_Z (2 ^ Z.of_nat i))%Q) by (rewrite pow2S; apply inj_double).
    pose proof (half_val (a + b)) as HV. set (h := half (a + b)) in *. destruct (Z.ltb_spec (f h) 0); unfold below; cbn [x1 y1 upper].
    + split; [Lqa.lra|]. split; [assumption|]. exists k. split; [lia|]. split; [Lqa.lra|]. split; [exact K2|].
      rewrite Q2, HV. setoid_replace ((b - (a + b) * (1 # 2)) * (2 * inject_Z (2 ^ Z.of_nat i)))%Q with ((b - a) * inject_Z (2 ^ Z.of_nat i))%Q by field. exact K3.
    + split; [exact G|]. split; [assumption|]. exists k. split; [lia|]. split; [exact K1|]. split; [Lqa.lra|].
      rewrite Q2, HV. setoid_replace (((a + b) * (1 # 2) - a) * (2 * inject_Z (2 ^ Z.of_nat i)))%Q with ((b - a) * inject_Z (2 ^ Z.of_nat i))%Q by field. exact K3.
  - destruct B as (X & B).
    pose proof (double_val a) as DV. pose proof (half_val a) as HV.
    destruct (Z.ltb_spec ya 0).
    + set (d := double a) in *.
      assert (Ed : (d == inject_Z (2 ^ Z.of_nat (S i)))%Q) by (rewrite DV, X, pow2S, inj_double; ring).
      destruct (Z.gtb_spec (f d) 0); unfold below; cbn [x1 y1 upper].
      * split; [exact G|]. split; [assumption|]. exists (S i). split; [lia|]. replace (Z.of_nat (S i) - 1) with (Z.of_nat i) by lia. split; [Lqa.lra|]. split; [Lqa.lra|].
        rewrite DV, X. setoid_replace (inject_Z (2 ^ Z.of_nat i) * 2 - inject_Z (2 ^ Z.of_nat i))%Q with (inject_Z (2 ^ Z.of_nat i)) by ring.
        rewrite <- inject_Z_mult, <- Zle_Qle. rewrite <- Z.pow_add_r by lia. apply Z.pow_le_mono_r; lia.
      * split; [Lqa.lra|]. split; [exact Ed|]. destruct (Z.eq_dec (f d) 0) as [Z0|Z0]; [right|left; lia]. split; [exact Z0|]. split; [lia|]. unfold d. rewrite half_double by exact R. rewrite <- E. assumption.
    + destruct B as [B|(Y0 & Hi & HF)]; [lia|]. destruct (Z.ltb_spec (f (half a)) 0); [|lia]. unfold below; cbn [x1 y1 upper].
      destruct i as [|i]; [lia|]. rewrite pow2S, inj_double in X. pose proof (pow2_ge1 (Z.of_nat i) ltac:(lia)) as PG. set (h := half a) in *.
      split; [Lqa.lra|]. split; [assumption|]. exists (S i). split; [lia|]. replace (Z.of_nat (S i) - 1) with (Z.of_nat i) by lia. split; [Lqa.lra|]. split; [rewrite pow2S, inj_double; Lqa.lra|].
      rewrite HV, X. setoid_replace (2 * inject_Z (2 ^ Z.of_nat i) - 2 * inject_Z (2 ^ Z.of_nat i) * (1 # 2))%Q with (inject_Z (2 ^ Z.of_nat i)) by field.
      rewrite <- inject_Z_mult, <- Zle_Qle. rewrite <- Z.pow_add_r by lia. apply Z.pow_le_mono_r; lia.
Qed.
Lemma iter_below n st i : inv st -> below i st -> below (n + i) (iter n st).
Proof. revert st i. induction n as [|n IH]; intros st i H B; [exact B|]. cbn [iter]. replace (S n + i)%nat with (n + S i)%nat by lia. apply IH; [apply step_inv, H|apply step_below; assumption]. Qed.
(** started at or above the budget: either still above after halving every time, or at or below *)
Definition above (i : nat) (st : search) : Prop :=
  match upper st with
  | None => (x1 st * inject_Z (2 ^ Z.of_nat i) == 1)%Q /\ 0 <= y1 st
  | Some _ => y1 st < 0
  end.
Lemma step_above i st : above i st -> above (S i) (search_step f st).
Proof.
  destruct st as [a ya up]. unfold above; cbn [x1 y1 upper]. unfold search_step; cbn [x1 y1 upper]. destruct up as [[b yb]|].
  - intro H. destruct (Z.ltb_spec (f (half (a + b))) 0); cbn [x1 y1 upper]; assumption.
  - intros [X Y]. destruct (Z.ltb_spec ya 0); [lia|]. destruct (Z.ltb_spec (f (half a)) 0); cbn [x1 y1 upper]; [assumption|]. split; [|assumption].
    rewrite half_val, pow2S, inj_double. rewrite <- X. ring.
Qed.
Lemma iter_above n st i : above i st -> above (n + i) (iter n st).
Proof. revert st i. induction n as [|n IH]; intros st i H; [exact H|]. cbn [iter]. replace (S n + i)%nat with (n + S i)%nat by lia. apply IH, step_above, H. Qed.
End Search.
(** ** numbers with three figures *)
Lemma ilog10_aux_spec n : forall x, 1 <= x -> x < 10 ^ (Z.of_nat n + 1) -> figures x (ilog10_aux n x).
Proof.
  induction n as [|n IH]; intros x H1 H2; cbn [ilog10_aux]. { cbn in H2. split; [lia|]. cbn. lia. }
  destruct (Z.ltb_spec x 10). { split; [lia|]. cbn. lia. }
  assert (D : 1 <= x / 10) by (apply Z.div_le_lower_bound; lia).
  destruct (IH (x / 10) D) as (A & B & C). { rewrite Nat2Z.inj_succ in H2. replace (Z.succ (Z.of_nat n) + 1) with (Z.succ (Z.of_nat n + 1)) in H2 by lia. rewrite Z.pow_succ_r in H2 by lia. apply Z.div_lt_upper_bound; lia. }
  set (e := ilog10_aux n (x / 10)) in *. split; [lia|]. replace (1 + e) with (Z.succ e) by lia. replace (Z.succ e + 1) with (Z.succ (e + 1)) by lia. rewrite !Z.pow_succ_r by lia.
  pose proof (Z.div_mod x 10 ltac:(lia)). pose proof (Z.mod_pos_bound x 10 ltac:(lia)). lia.
Qed.
Lemma ilog10_spec x : 1 <= x -> figures x (ilog10 x).
Proof.
  intro H. unfold ilog10. apply ilog10_aux_spec; [exact H|]. pose proof (Z.log2_nonneg x). rewrite Z2Nat.id by assumption. pose proof (Z.log2_spec x ltac:(lia)) as [_ B].
  eapply Z.lt_le_trans; [exact B|]. rewrite <- Z.add_1_r. apply Z.pow_le_mono_l. lia.
Qed.
Lemma human_value_eq x up : human_value x up = three_figures x up.
Proof.
  unfold human_value. cbv zeta. set (t := three_figures x up).
  destruct (Z.eqb_spec (round_off up t (1000 ^ 4)) t); [assumption|]. destruct (Z.eqb_spec (round_off up t (1000 ^ 3)) t); [assumption|].
  destruct (Z.eqb_spec (round_off up t (1000 ^ 2)) t); [assumption|]. destruct (Z.eqb_spec (round_off up t 1000) t); [assumption|reflexivity].
Qed.
Lemma round_off_divides up x n : 0 < n -> (n | round_off up x n).
Proof. intro H. destruct up; [apply round_up_spec|apply round_down_spec]; exact H. Qed.
