(** The Korobov transform. *)
From Coq Require Import Lia Lra NArith.
From Coquelicot Require Import Coquelicot.
From Verif Require Import TransModel TransSpec TransProofs.
Local Open Scope R_scope.

Lemma ipow_ok n x : ipow n x = x ^ n.
Proof.
  assert (A : forall p, ipow_pos p x = x ^ Pos.to_nat p).
  { induction p as [p IH|p IH|]; cbn [ipow_pos]; cbv zeta; rewrite ?IH.
    - replace (Pos.to_nat p~1) with (S (Pos.to_nat p + Pos.to_nat p)) by lia. cbn [pow]. rewrite pow_add. ring.
    - replace (Pos.to_nat p~0) with (Pos.to_nat p + Pos.to_nat p)%nat by lia. rewrite pow_add. ring.
    - change (Pos.to_nat 1) with 1%nat. rewrite pow_1. ring. }
  unfold ipow. destruct n as [|n]; [reflexivity|]. cbn [N.of_nat]. rewrite A. f_equal. lia.
Qed.
Lemma C_0 n : C n 0 = 1.
Proof. unfold C. rewrite Nat.sub_0_r. cbn [fact]. cbn [INR]. field. apply INR_fact_neq_0. Qed.
Lemma C_n n : C n n = 1.
Proof. unfold C. rewrite Nat.sub_diag. cbn [fact]. cbn [INR]. field. apply INR_fact_neq_0. Qed.
Lemma binomial_ok : forall n k, (k <= n)%nat -> INR (TransModel.binomial n k) = C n k.
Proof.
  induction n as [|n IH]; intros k H.
  - replace k with 0%nat by lia. rewrite C_0. reflexivity.
  - cbn [TransModel.binomial]. destruct (Nat.ltb_spec (S n) k); [lia|]. destruct (Nat.eqb_spec k 0) as [->|K0]; [rewrite C_0; reflexivity|].
    destruct (Nat.eqb_spec (S n) k) as [<-|Kn]; [rewrite C_n; reflexivity|]. destruct k as [|k]; [lia|]. rewrite plus_INR, !IH by lia. apply pascal. lia.
Qed.
Lemma coefficient_ok a b k : (k <= b)%nat -> korobov_coefficient k a b = (INR a + INR b + 1) * C (a + b) b * (-1) ^ k * C b k / (INR a + INR k + 1).
Proof.
  pose proof (pos_INR a) as Pa. induction k as [|k IH]; intros H.
  - cbn [korobov_coefficient]. rewrite binomial_ok by lia. rewrite C_0. cbn [pow INR]. field. lra.
  - cbn [korobov_coefficient]. rewrite IH by lia. rewrite (pascal_step3 b k) by lia. rewrite minus_INR by lia. rewrite !S_INR. cbn [pow].
    pose proof (pos_INR k). field. repeat split; lra.
Qed.
Lemma term_ok a b x : forall k, (k <= b)%nat -> korobov_term k a b x = sum_f_R0 (fun j => korobov_coefficient (b - k + j) a b * x ^ j) k.
Proof.
  induction k as [|k IH]; intros H.
  - cbn [korobov_term sum_f_R0]. replace (b - 0 + 0)%nat with b by lia. cbn [pow]. ring.
  - cbn [korobov_term]. rewrite IH by lia. rewrite (decomp_sum _ (S k)) by lia. cbn [pred]. rewrite Nat.add_0_r. cbn [pow]. rewrite Rplus_comm, Rmult_1_r. f_equal.
    rewrite Rmult_comm, scal_sum. apply sum_eq. intros j Hj. replace (b - k + j)%nat with (b - S k + S j)%nat by lia. ring.
Qed.
Lemma derive_sum (F D : nat -> R -> R) x n : (forall k, (k <= n)%nat -> is_derive (F k) x (D k x)) -> is_derive (fun x => sum_f_R0 (fun k => F k x) n) x (sum_f_R0 (fun k => D k x) n).
Proof.
  induction n as [|n IH]; intros H; cbn [sum_f_R0]; [apply H; lia|]. apply (is_derive_plus (V := R_NormedModule)); [apply IH; intros k Hk; apply H; lia|apply H; lia].
Qed.
(** the polynomial *)
Definition P (a b : nat) (x : R) : R := x ^ (a + 1) * korobov_term b a b x.
Definition K (a b : nat) : R := (INR a + INR b + 1) * C (a + b) b.
Lemma P_sum a b x : P a b x = sum_f_R0 (fun j => korobov_coefficient j a b * x ^ (a + 1 + j)) b.
Proof. unfold P. rewrite term_ok, scal_sum by lia. apply sum_eq. intros j Hj. replace (b - b + j)%nat with j by lia. rewrite (pow_add x (a + 1) j). ring. Qed.
Lemma P_derive a b x : is_derive (P a b) x (K a b * x ^ a * (1 - x) ^ b).
Proof.
  apply is_derive_ext with (f := fun x => sum_f_R0 (fun j => korobov_coefficient j a b * x ^ (a + 1 + j)) b); [intros t; symmetry; apply P_sum|].
  replace (K a b * x ^ a * (1 - x) ^ b) with (sum_f_R0 (fun j => korobov_coefficient j a b * (INR (a + 1 + j) * x ^ (a + j))) b).
  - apply (derive_sum (fun j x => korobov_coefficient j a b * x ^ (a + 1 + j)) (fun j x => korobov_coefficient j a b * (INR (a + 1 + j) * x ^ (a + j)))). intros k Hk. auto_derive; [exact I|]. replace (Init.Nat.pred (a + 1 + k)) with (a + k)%nat by lia. ring.
  - replace (1 - x) with (- x + 1) by ring. rewrite Binomial.binomial. rewrite scal_sum. apply sum_eq. intros j Hj. rewrite coefficient_ok by lia. rewrite pow1.
    replace ((- x) ^ j) with ((-1) ^ j * x ^ j) by (rewrite <- Rpow_mult_distr; f_equal; ring). rewrite pow_add, !plus_INR. cbn [INR]. unfold K.
    pose proof (pos_INR a). pose proof (pos_INR j). field. lra.
Qed.
Lemma Sm k : match k with O => 1 | S _ => INR k + 1 end = INR k + 1.
Proof. destruct k; [cbn; ring|reflexivity]. Qed.
(** Euler's beta function *)
Lemma beta b : forall a, is_RInt (fun x => x ^ a * (1 - x) ^ b) 0 1 (INR (fact a) * INR (fact b) / INR (fact (a + b + 1))).
Proof.
  induction b as [|b IH]; intros a.
  - replace (INR (fact a) * INR (fact 0) / INR (fact (a + 0 + 1))) with (minus (1 ^ (a + 1) / INR (a + 1)) (0 ^ (a + 1) / INR (a + 1)) : R).
    + apply (is_RInt_derive (fun x => x ^ (a + 1) / INR (a + 1))).
      * intros x _. auto_derive; [exact I|]. cbn [pow]. replace (Init.Nat.pred (a + 1)) with a by lia. field. rewrite plus_INR. pose proof (pos_INR a). cbn. lra.
      * intros x _. apply (ex_derive_continuous (fun x => x ^ a * (1 - x) ^ 0)). auto_derive. exact I.
    + rewrite pow1, pow_i by lia. unfold minus, plus, opp; cbn -[INR fact]. replace (a + 0 + 1)%nat with (S a) by lia. replace (a + 1)%nat with (S a) by lia. rewrite fact_simpl, mult_INR.
      cbn [fact]. replace (INR 1) with 1 by reflexivity. field. split; [apply INR_fact_neq_0|apply not_0_INR; lia].
  - pose proof (pos_INR a) as Pa. pose proof (pos_INR b) as Pb.
    set (d := fun x : R => (INR a + 1) * (x ^ a * (1 - x) ^ (S b)) - (INR b + 1) * (x ^ (S a) * (1 - x) ^ b)).
    assert (D : is_RInt d 0 1 0).
    { replace 0 with (minus (1 ^ (S a) * (1 - 1) ^ (S b)) (0 ^ (S a) * (1 - 0) ^ (S b)) : R) at 2.
      - apply (is_RInt_derive (fun x => x ^ (S a) * (1 - x) ^ (S b))).
        + intros x _. unfold d. auto_derive; [exact I|]. cbn [Init.Nat.pred]. rewrite !Sm. change (1 + - x) with (1 - x). cbn [pow]. ring.
        + intros x _. unfold d. apply (ex_derive_continuous (fun x => (INR a + 1) * (x ^ a * (1 - x) ^ (S b)) - (INR b + 1) * (x ^ (S a) * (1 - x) ^ b))). auto_derive. exact I.
      - unfold minus, plus, opp; cbn. ring. }
    replace (INR (fact a) * INR (fact (S b)) / INR (fact (a + S b + 1))) with (scal (/ (INR a + 1)) (plus 0 (scal (INR b + 1) (INR (fact (S a)) * INR (fact b) / INR (fact (S a + b + 1))))) : R).
    + apply is_RInt_ext with (f := fun x => scal (/ (INR a + 1)) (plus (d x) (scal (INR b + 1) (x ^ (S a) * (1 - x) ^ b)))).
      * intros x _. unfold d, scal, plus; cbn -[pow INR]. unfold mult; cbn -[pow INR]. field. lra.
      * apply (is_RInt_scal (V := R_NormedModule)). apply (is_RInt_plus (V := R_NormedModule)); [exact D|]. apply (is_RInt_scal (V := R_NormedModule)). apply IH.
    + unfold scal, plus; cbn -[INR fact]. unfold mult; cbn -[INR fact]. replace (a + S b + 1)%nat with (S (a + b + 1)) by lia. rewrite (fact_simpl a), (fact_simpl b), !mult_INR, !S_INR.
      pose proof (INR_fact_neq_0 (S (a + b + 1))). field. split; [assumption|lra].
Qed.
Lemma P_0 a b : P a b 0 = 0.
Proof. unfold P. rewrite pow_i by lia. ring. Qed.
Lemma w_continuous a b x : continuous (fun x => K a b * x ^ a * (1 - x) ^ b) x.
Proof. apply (ex_derive_continuous (fun x => K a b * x ^ a * (1 - x) ^ b)). auto_derive. exact I. Qed.
Lemma P_1 a b : P a b 1 = 1.
Proof.
  assert (I1 : is_RInt (fun x => K a b * x ^ a * (1 - x) ^ b) 0 1 (minus (P a b 1) (P a b 0))).
  { apply (is_RInt_derive (P a b)); [intros x _; apply P_derive|intros x _; apply w_continuous]. }
  assert (I2 : is_RInt (fun x => K a b * x ^ a * (1 - x) ^ b) 0 1 (scal (K a b) (INR (fact a) * INR (fact b) / INR (fact (a + b + 1))))).
  { apply is_RInt_ext with (f := fun x => scal (K a b) (x ^ a * (1 - x) ^ b)); [intros x _; unfold scal; cbn; unfold mult; cbn; ring|]. apply (is_RInt_scal (V := R_NormedModule)), beta. }
  apply (is_RInt_unique (V := R_CompleteNormedModule)) in I1. apply (is_RInt_unique (V := R_CompleteNormedModule)) in I2. pose proof (eq_trans (eq_sym I1) I2) as I3. clear I1 I2. rename I3 into I2. rewrite P_0 in I2. unfold minus, plus, opp, scal in I2; cbn -[fact INR] in I2. unfold mult in I2; cbn -[fact INR] in I2.
  replace (P a b 1) with (P a b 1 + - 0) by ring. rewrite I2. unfold K, C. replace (a + b - b)%nat with a by lia. replace (a + b + 1)%nat with (S (a + b)) by lia.
  rewrite fact_simpl, mult_INR, S_INR, plus_INR. field. pose proof (pos_INR a). pose proof (pos_INR b). repeat split; try apply INR_fact_neq_0. lra.
Qed.
Lemma K_pos a b : 0 < K a b.
Proof.
  unfold K, C. pose proof (pos_INR a). pose proof (pos_INR b). apply Rmult_lt_0_compat; [lra|]. apply Rdiv_lt_0_compat; [apply INR_fact_lt_0|]. apply Rmult_lt_0_compat; apply INR_fact_lt_0.
Qed.
Lemma korobov_w_eq a b x : korobov_w a b x = K a b * x ^ a * (1 - x) ^ b.
Proof. unfold korobov_w, K. rewrite !ipow_ok, binomial_ok by lia. rewrite (pascal_step1 (a + b) a) by lia. replace (a + b - a)%nat with b by lia. reflexivity. Qed.
Lemma korobov_f_eq a b x : korobov_f a b x = clamp (P a b x).
Proof. unfold korobov_f, P. rewrite ipow_ok. reflexivity. Qed.
Lemma korobov_smooth a b : keeps (fun x => K a b * x ^ a * (1 - x) ^ b) (fun x => clamp (P a b x)) /\ forall x, 0 <= x <= 1 -> 0 <= P a b x <= 1.
Proof.
  apply smooth_keeps.
  - intros x _. apply P_derive.
  - intros x. apply w_continuous.
  - intros x Hx. pose proof (K_pos a b). apply Rmult_le_pos; [apply Rmult_le_pos; [lra|apply pow_le; lra]|apply pow_le; lra].
  - apply P_0.
  - apply P_1.
Qed.
Lemma korobov_keeps a b : keeps (korobov_w a b) (korobov_f a b).
Proof. apply keeps_ext with (3 := proj1 (korobov_smooth a b)); intros x _; symmetry; [apply korobov_w_eq|apply korobov_f_eq]. Qed.
(** ** disteval *)
Ltac binom := rewrite ?binomial_ok by lia; repeat match goal with |- context [C ?n (S ?i)] => rewrite (pascal_step3 n i) by lia end; rewrite ?C_0;
  rewrite !INR_IZR_INZ; cbn [Z.of_nat Pos.of_succ_nat Pos.succ Nat.sub Nat.add].
Lemma dist_w_ok i x : (1 <= i <= 10)%nat -> dist_w i x = korobov_w i i x.
Proof.
  intros H. unfold korobov_w. rewrite !ipow_ok.
  do 11 (destruct i as [|i]; [first [lia|cbn [dist_w Nat.add]; binom; unfold sqr; field]|]). lia.
Qed.
Lemma dist_h_ok i x : (1 <= i <= 10)%nat -> dist_h i x = P i i x.
Proof.
  intros H. rewrite P_sum.
  do 11 (destruct i as [|i]; [first [lia|cbn [dist_h sum_f_R0]; rewrite !coefficient_ok by lia; cbn [Nat.add]; binom; unfold sqr; field]|]). lia.
Qed.
Lemma P_reflect a x : P a a (1 - x) = 1 - P a a x.
Proof.
  set (Q := fun x => P a a x + P a a (1 - x)).
  assert (D : forall t, is_derive Q t 0).
  { intros t. replace 0 with (plus (K a a * t ^ a * (1 - t) ^ a) (scal (-1) (K a a * (1 - t) ^ a * (1 - (1 - t)) ^ a)) : R).
    - apply (is_derive_plus (V := R_NormedModule)); [apply P_derive|]. assert (A : is_derive (fun t : R => 1 - t) t (-1)) by (auto_derive; [exact I|ring]). exact (is_derive_comp (V := R_NormedModule) (P a a) (fun t => 1 - t) t _ (-1) (P_derive a a (1 - t)) A).
    - unfold plus, scal; cbn. unfold mult; cbn. replace (1 - (1 - t)) with t by (clear; lra). ring. }
  assert (E : Q x = Q 0).
  { destruct (MVT_gen Q 0 x (fun _ => 0)) as (c & _ & E); [intros t _; apply D|intros t _; apply continuity_pt_filterlim, (ex_derive_continuous Q); exists 0; apply D|]. lra. }
  unfold Q in E. rewrite P_0, Rminus_0_r, P_1 in E. lra.
Qed.
Lemma dist_f_ok i x : (1 <= i <= 10)%nat -> dist_f i x = P i i x.
Proof.
  intros H. unfold dist_f, reflect, le_choose. cbv zeta. destruct (Rle_dec x (1 / 2)); rewrite dist_h_ok by exact H; [reflexivity|]. rewrite P_reflect. ring.
Qed.
Lemma dist_keeps i : (1 <= i <= 10)%nat -> keeps (dist_w i) (dist_f i).
Proof.
  intros H. apply keeps_ext with (3 := korobov_keeps i i); intros x Hx.
  - symmetry. apply dist_w_ok, H.
  - rewrite dist_f_ok, korobov_f_eq by exact H. apply clamp_id. apply korobov_smooth, Hx.
Qed.
Lemma dist_baker_keeps : keeps dist_baker_w dist_baker_f.
Proof.
  apply keeps_ext with (3 := baker_keeps); intros x Hx; [reflexivity|]. unfold dist_baker_f, vec_min, baker_f.
  destruct (Rle_dec (2 * x) (2 - 2 * x)); [rewrite Rabs_left1 by lra|rewrite Rabs_right by lra]; rewrite clamp_id by lra; lra.
Qed.
