(** The Sidi transform. *)
From Coq Require Import Lia Lra NArith.
From Coquelicot Require Import Coquelicot.
From Verif Require Import TransModel TransSpec TransProofs TransKorobov.
Local Open Scope R_scope.

(** ** sums *)
Lemma sum_rev m : forall b, sum_f_R0 (fun i => b (m - i)%nat) m = sum_f_R0 b m.
Proof.
  induction m as [|m IH]; intros b; [reflexivity|]. rewrite decomp_sum by lia. cbn [pred]. rewrite Nat.sub_0_r. cbn [Nat.sub]. rewrite (IH b). cbn [sum_f_R0]. ring.
Qed.
Lemma fold_odd m a : (forall k, (k <= 2 * m + 1)%nat -> a (2 * m + 1 - k)%nat = a k) -> sum_f_R0 a (2 * m + 1) = 2 * sum_f_R0 a m.
Proof.
  intros H. rewrite (tech2 a m (2 * m + 1)) by lia. replace (2 * m + 1 - S m)%nat with m by lia. rewrite <- (sum_rev m (fun i => a (S m + i)%nat)).
  replace (sum_f_R0 (fun i => a (S m + (m - i))%nat) m) with (sum_f_R0 a m); [ring|]. apply sum_eq. intros i Hi. rewrite <- (H i) by lia. f_equal. lia.
Qed.
Lemma fold_even m a : (forall k, (k <= 2 * S m)%nat -> a (2 * S m - k)%nat = a k) -> sum_f_R0 a (2 * S m) = 2 * sum_f_R0 a m + a (S m).
Proof.
  intros H. rewrite (tech2 a (S m) (2 * S m)) by lia. replace (2 * S m - S (S m))%nat with m by lia. rewrite <- (sum_rev m (fun i => a (S (S m) + i)%nat)). cbn [sum_f_R0].
  replace (sum_f_R0 (fun i => a (S (S m) + (m - i))%nat) m) with (sum_f_R0 a m); [ring|]. apply sum_eq. intros i Hi. rewrite <- (H i) by lia. f_equal. lia.
Qed.
(** the r-th central difference *)
Definition T (r : nat) (g : R -> R) : R := sum_f_R0 (fun k => (-1) ^ k * C r k * g (INR r - 2 * INR k)) r.
Lemma T_S r g : T (S r) g = T r (fun u => g (u + 1) - g (u - 1)).
Proof.
  unfold T. transitivity (sum_f_R0 (fun k => (-1) ^ k * C r k * g (INR r - 2 * INR k + 1)) r - sum_f_R0 (fun k => (-1) ^ k * C r k * g (INR r - 2 * INR k - 1)) r).
  2:{ rewrite <- minus_sum. apply sum_eq. intros k Hk. ring. }
  destruct r as [|r].
  - cbn [sum_f_R0]. rewrite !C_0, C_n. cbn [pow INR]. replace (1 - 2 * 0) with (0 - 2 * 0 + 1) by ring. replace (1 - 2 * 1) with (0 - 2 * 0 - 1) by ring. ring.
  - rewrite (decomp_sum _ (S (S r))) by lia. cbn [pred]. rewrite (decomp_sum (fun k => (-1) ^ k * C (S r) k * g (INR (S r) - 2 * INR k + 1)) (S r)) by lia. cbn [pred].
    rewrite (tech5 (fun i => (-1) ^ S i * C (S (S r)) (S i) * g (INR (S (S r)) - 2 * INR (S i)))).
    rewrite (tech5 (fun k => (-1) ^ k * C (S r) k * g (INR (S r) - 2 * INR k - 1))). rewrite !C_0, !C_n.
    replace (sum_f_R0 (fun i => (-1) ^ S i * C (S (S r)) (S i) * g (INR (S (S r)) - 2 * INR (S i))) r)
      with (sum_f_R0 (fun i => (-1) ^ S i * C (S r) (S i) * g (INR (S r) - 2 * INR (S i) + 1)) r - sum_f_R0 (fun k => (-1) ^ k * C (S r) k * g (INR (S r) - 2 * INR k - 1)) r).
    + replace (INR (S (S r)) - 2 * INR 0) with (INR (S r) - 2 * INR 0 + 1) by (rewrite !S_INR; ring).
      replace (INR (S (S r)) - 2 * INR (S (S r))) with (INR (S r) - 2 * INR (S r) - 1) by (rewrite !S_INR; ring). cbn [pow]. ring.
    + rewrite <- minus_sum. apply sum_eq. intros k Hk. rewrite <- (pascal (S r) k) by lia.
      replace (INR (S (S r)) - 2 * INR (S k)) with (INR (S r) - 2 * INR (S k) + 1) by (rewrite !S_INR; ring).
      replace (INR (S r) - 2 * INR k - 1) with (INR (S r) - 2 * INR (S k) + 1) by (rewrite !S_INR; ring). cbn [pow]. ring.
Qed.
Lemma T_ext r g h : (forall u, g u = h u) -> T r g = T r h.
Proof. intros H. apply sum_eq. intros k _. rewrite H. reflexivity. Qed.
Lemma T_scal r c g : T r (fun u => c * g u) = c * T r g.
Proof. unfold T. rewrite scal_sum. apply sum_eq. intros k _. ring. Qed.
Lemma T_cos r t : T (S r) (fun u => cos (u * t)) = -2 * sin t * T r (fun u => sin (u * t)).
Proof.
  rewrite T_S, <- T_scal. apply T_ext. intros u. replace ((u + 1) * t) with (u * t + t) by ring. replace ((u - 1) * t) with (u * t - t) by ring. rewrite cos_plus, cos_minus. ring.
Qed.
Lemma T_sin r t : T (S r) (fun u => sin (u * t)) = 2 * sin t * T r (fun u => cos (u * t)).
Proof.
  rewrite T_S, <- T_scal. apply T_ext. intros u. replace ((u + 1) * t) with (u * t + t) by ring. replace ((u - 1) * t) with (u * t - t) by ring. rewrite sin_plus, sin_minus. ring.
Qed.
Lemma T_even m t : T (2 * m) (fun u => cos (u * t)) = (-1) ^ m * 4 ^ m * sin t ^ (2 * m).
Proof.
  induction m as [|m IH]; [change (2 * 0)%nat with 0%nat; unfold T; cbn [sum_f_R0]; rewrite C_0; cbn [pow INR]; replace ((0 - 2 * 0) * t) with 0 by ring; rewrite cos_0; ring|].
  replace (2 * S m)%nat with (S (S (2 * m))) by lia. rewrite T_cos, T_sin, IH. cbn [pow]. ring.
Qed.
Lemma T_odd m t : T (2 * m + 1) (fun u => sin (u * t)) = 2 * ((-1) ^ m * 4 ^ m * sin t ^ (2 * m + 1)).
Proof. replace (2 * m + 1)%nat with (S (2 * m)) by lia. rewrite T_sin, T_even. cbn [pow]. ring. Qed.
(** powers of the sine in terms of multiple angles *)
Lemma neg_pow m k : (k <= m)%nat -> (-1) ^ (m - k) = (-1) ^ m * (-1) ^ k.
Proof.
  intros H. assert (E : (-1) ^ m = (-1) ^ (m - k) * (-1) ^ k) by (rewrite <- pow_add; f_equal; lia). rewrite E, Rmult_assoc, <- pow_add.
  replace (k + k)%nat with (2 * k)%nat by lia. rewrite pow_1_even. ring.
Qed.
Lemma one_pow m : (-1) ^ m * (-1) ^ m = 1.
Proof. rewrite <- pow_add. replace (m + m)%nat with (2 * m)%nat by lia. apply pow_1_even. Qed.
Lemma half_odd m t : sum_f_R0 (fun k => (-1) ^ (m - k) * C (2 * m + 1) k * sin ((INR (2 * m + 1) - 2 * INR k) * t)) m = 4 ^ m * sin t ^ (2 * m + 1).
Proof.
  pose proof (T_odd m t) as E. unfold T in E. rewrite fold_odd in E.
  - apply Rmult_eq_reg_l in E; [|lra]. transitivity ((-1) ^ m * ((-1) ^ m * 4 ^ m * sin t ^ (2 * m + 1))).
    + rewrite <- E, scal_sum. apply sum_eq. intros k Hk. rewrite neg_pow by exact Hk. ring.
    + rewrite <- !Rmult_assoc, one_pow. ring.
  - intros k Hk. rewrite <- (pascal_step1 (2 * m + 1) k) by lia. rewrite minus_INR by lia. replace (INR (2 * m + 1) - 2 * (INR (2 * m + 1) - INR k)) with (- (INR (2 * m + 1) - 2 * INR k)) by ring.
    rewrite Ropp_mult_distr_l_reverse, sin_neg, (neg_pow (2 * m + 1) k) by lia. replace (2 * m + 1)%nat with (S (2 * m)) at 1 by lia. cbn [pow]. rewrite pow_1_even. ring.
Qed.
Lemma half_even m t : sum_f_R0 (fun k => (-1) ^ (S m - k) * C (2 * S m) k * cos ((INR (2 * S m) - 2 * INR k) * t)) m + 1 / 2 * C (2 * S m) (S m) = 1 / 2 * (4 ^ S m * sin t ^ (2 * S m)).
Proof.
  pose proof (T_even (S m) t) as E. unfold T in E. rewrite fold_even in E.
  - replace ((INR (2 * S m) - 2 * INR (S m)) * t) with 0 in E by (rewrite mult_INR; cbn [INR]; ring). rewrite cos_0 in E.
    transitivity (1 / 2 * ((-1) ^ S m * ((-1) ^ S m * 4 ^ S m * sin t ^ (2 * S m)))).
    + rewrite <- E, Rmult_plus_distr_l, Rmult_plus_distr_l. f_equal.
      * rewrite !scal_sum. apply sum_eq. intros k Hk. rewrite (neg_pow (S m) k) by lia. field.
      * rewrite Rmult_1_r, <- (Rmult_assoc ((-1) ^ S m)), one_pow. ring.
    + rewrite <- (Rmult_assoc ((-1) ^ S m)), <- (Rmult_assoc ((-1) ^ S m) ((-1) ^ S m)), one_pow. ring.
  - intros k Hk. rewrite <- (pascal_step1 (2 * S m) k) by lia. rewrite minus_INR by lia. replace (INR (2 * S m) - 2 * (INR (2 * S m) - INR k)) with (- (INR (2 * S m) - 2 * INR k)) by ring.
    rewrite Ropp_mult_distr_l_reverse, cos_neg, (neg_pow (2 * S m) k) by lia. rewrite pow_1_even. ring.
Qed.
(** ** Wallis *)
Definition W (r : nat) (x : R) : R := sin (PI * x) ^ r.
Lemma W_continuous r x : continuous (W r) x.
Proof. apply (ex_derive_continuous (W r)). unfold W. auto_derive. exact I. Qed.
Lemma W_step r v : is_RInt (W r) 0 1 v -> is_RInt (W (S (S r))) 0 1 ((INR r + 1) / (INR r + 2) * v).
Proof.
  intros H. pose proof (pos_INR r) as Pr. pose proof PI_RGT_0 as PP. set (d := fun x => (INR r + 1) * PI * W r x - (INR r + 2) * PI * W (S (S r)) x).
  assert (D : is_RInt d 0 1 0).
  { replace 0 with (minus (sin (PI * 1) ^ S r * cos (PI * 1)) (sin (PI * 0) ^ S r * cos (PI * 0)) : R) at 2.
    - apply (is_RInt_derive (fun x => sin (PI * x) ^ S r * cos (PI * x))).
      + intros x _. unfold d, W. auto_derive; [exact I|]. cbn [Init.Nat.pred]. rewrite !Sm. cbn [pow]. pose proof (sin2_cos2 (PI * x)) as E. unfold Rsqr in E. set (s := sin (PI * x)) in *. set (c := cos (PI * x)) in *.
        transitivity ((INR r + 1) * PI * s ^ r * (c * c) - PI * s ^ r * (s * s)); [ring|]. replace (c * c) with (1 - s * s) by (clear - E; lra). ring.
      + intros x _. unfold d. apply (continuous_minus (V := R_NormedModule)); apply (continuous_scal_r (V := R_NormedModule)); apply W_continuous.
    - rewrite Rmult_1_r, Rmult_0_r, sin_PI, sin_0. unfold minus, plus, opp; cbn. ring. }
  apply is_RInt_ext with (f := fun x => scal (/ ((INR r + 2) * PI)) (minus (scal ((INR r + 1) * PI) (W r x)) (d x))).
  - intros x _. unfold d, scal, minus, plus, opp; cbn -[INR W]. unfold mult; cbn -[INR W]. field. lra.
  - replace ((INR r + 1) / (INR r + 2) * v) with (scal (/ ((INR r + 2) * PI)) (minus (scal ((INR r + 1) * PI) v) 0) : R).
    + apply (is_RInt_scal (V := R_NormedModule)), (is_RInt_minus (V := R_NormedModule)); [apply (is_RInt_scal (V := R_NormedModule)), H|exact D].
    + unfold scal, minus, plus, opp; cbn -[INR]. unfold mult; cbn -[INR]. field. lra.
Qed.
Lemma W_even m : is_RInt (W (2 * m)) 0 1 (INR (fact (2 * m)) / (4 ^ m * INR (fact m) * INR (fact m))).
Proof.
  induction m as [|m IH].
  - replace (INR (fact (2 * 0)) / (4 ^ 0 * INR (fact 0) * INR (fact 0))) with (scal (1 - 0) 1 : R) by (unfold scal; cbn; unfold mult; cbn; field). apply (is_RInt_const (V := R_NormedModule) 0 1 1).
  - apply W_step in IH. replace (2 * S m)%nat with (S (S (2 * m))) by lia. replace (INR (fact (S (S (2 * m)))) / (4 ^ S m * INR (fact (S m)) * INR (fact (S m)))) with ((INR (2 * m) + 1) / (INR (2 * m) + 2) * (INR (fact (2 * m)) / (4 ^ m * INR (fact m) * INR (fact m)))); [exact IH|].
    rewrite !fact_simpl, !mult_INR, !S_INR, mult_INR. cbn [INR pow]. pose proof (pos_INR m). pose proof (INR_fact_neq_0 m). pose proof (pow_nonzero 4 m ltac:(lra)). field. repeat split; try assumption; lra.
Qed.
Lemma W_odd m : is_RInt (W (2 * m + 1)) 0 1 (2 * 4 ^ m * INR (fact m) * INR (fact m) / (PI * INR (fact (2 * m + 1)))).
Proof.
  pose proof PI_RGT_0 as PP. induction m as [|m IH].
  - replace (2 * 4 ^ 0 * INR (fact 0) * INR (fact 0) / (PI * INR (fact (2 * 0 + 1)))) with (minus (- cos (PI * 1) / PI) (- cos (PI * 0) / PI) : R).
    + apply (is_RInt_derive (fun x => - cos (PI * x) / PI)); [|intros x _; apply W_continuous]. intros x _. unfold W. auto_derive; [exact I|]. cbn. field. lra.
    + rewrite Rmult_1_r, Rmult_0_r, cos_PI, cos_0. unfold minus, plus, opp; cbn. field. lra.
  - apply W_step in IH. replace (2 * S m + 1)%nat with (S (S (2 * m + 1))) by lia. match goal with |- is_RInt _ _ _ ?v => match type of IH with is_RInt _ _ _ ?u => replace v with u; [exact IH|] end end.
    rewrite !fact_simpl, !mult_INR, !S_INR, plus_INR, mult_INR. cbn [INR pow]. pose proof (pos_INR m). pose proof (INR_fact_neq_0 m). pose proof (INR_fact_neq_0 (2 * m + 1)). field. repeat split; try assumption; lra.
Qed.
(** ** the transform *)
Lemma coef_odd m k : (k <= m)%nat -> sidi_coefficient k (2 * m + 1) = (-1) ^ (m - k) * C (2 * m + 1) k / (2 * INR k - INR (2 * m + 1)).
Proof.
  intros H. unfold sidi_coefficient. replace (Nat.odd (2 * m + 1)) with true by (symmetry; apply Nat.odd_spec; exists m; lia).
  replace ((2 * m + 1 - 1) / 2)%nat with m by (replace (2 * m + 1 - 1)%nat with (m * 2)%nat by lia; symmetry; apply Nat.div_mul; lia). cbv zeta. rewrite ipow_ok, binomial_ok by lia. reflexivity.
Qed.
Lemma odd_odd m : Nat.odd (2 * m + 1) = true. Proof. apply Nat.odd_spec. exists m. lia. Qed.
Lemma odd_even m : Nat.odd (2 * m) = false. Proof. rewrite <- Nat.negb_even. replace (Nat.even (2 * m)) with true; [reflexivity|]. symmetry. apply Nat.even_spec. exists m. lia. Qed.
Lemma div_odd m : ((2 * m + 1 - 1) / 2 = m)%nat. Proof. replace (2 * m + 1 - 1)%nat with (m * 2)%nat by lia. apply Nat.div_mul. lia. Qed.
Lemma div_even m : (2 * m / 2 = m)%nat. Proof. rewrite Nat.mul_comm. apply Nat.div_mul. lia. Qed.
Lemma coef_even m k : (k <= m)%nat -> sidi_coefficient k (2 * m) = (-1) ^ (m - k) * C (2 * m) k / (2 * INR k - INR (2 * m)).
Proof. intros H. unfold sidi_coefficient. rewrite odd_even, div_even. cbv zeta. rewrite ipow_ok, binomial_ok by lia. reflexivity. Qed.
Lemma term_odd m x : forall k, sidi_term k (2 * m + 1) x = sum_f_R0 (fun j => sidi_coefficient j (2 * m + 1) * (cos ((2 * INR j - INR (2 * m + 1)) * PI * x) - 1)) k.
Proof.
  induction k as [|k IH]; cbn [sidi_term sum_f_R0]; rewrite odd_odd; [|rewrite IH; ring]. replace (2 * INR 0 - INR (2 * m + 1)) with (- INR (2 * m + 1)) by (cbn [INR]; ring). reflexivity.
Qed.
Lemma term_even m x : forall k, sidi_term k (2 * m) x = sum_f_R0 (fun j => sidi_coefficient j (2 * m) * sin ((2 * INR j - INR (2 * m)) * PI * x)) k + 1 / 2 * PI * C (2 * m) m * x.
Proof.
  induction k as [|k IH]; cbn [sidi_term sum_f_R0]; rewrite odd_even; [|rewrite IH; ring]. rewrite div_even, binomial_ok by lia.
  replace (2 * INR 0 - INR (2 * m)) with (- INR (2 * m)) by (cbn [INR]; ring). reflexivity.
Qed.
Lemma d_cos c u x : is_derive (fun x => c * (cos (u * PI * x) - 1)) x (c * (- sin (u * PI * x) * (u * PI))).
Proof. auto_derive; [exact I|ring]. Qed.
Lemma d_sin c u x : is_derive (fun x => c * sin (u * PI * x)) x (c * (cos (u * PI * x) * (u * PI))).
Proof. auto_derive; [exact I|ring]. Qed.
Lemma d_lin c x : is_derive (fun x => c * x) x c.
Proof. auto_derive; [exact I|ring]. Qed.
Lemma term_odd_derive m x : is_derive (sidi_term m (2 * m + 1)) x (PI * (4 ^ m * W (2 * m + 1) x)).
Proof.
  apply is_derive_ext with (f := fun x => sum_f_R0 (fun j => sidi_coefficient j (2 * m + 1) * (cos ((2 * INR j - INR (2 * m + 1)) * PI * x) - 1)) m); [intros t; symmetry; apply term_odd|].
  unfold W. rewrite <- half_odd, scal_sum.
  apply (derive_sum (fun j x => sidi_coefficient j (2 * m + 1) * (cos ((2 * INR j - INR (2 * m + 1)) * PI * x) - 1)) (fun j x => (-1) ^ (m - j) * C (2 * m + 1) j * sin ((INR (2 * m + 1) - 2 * INR j) * (PI * x)) * PI)).
  intros k Hk. match goal with |- is_derive _ _ ?v => replace v with (sidi_coefficient k (2 * m + 1) * (- sin ((2 * INR k - INR (2 * m + 1)) * PI * x) * ((2 * INR k - INR (2 * m + 1)) * PI))) end; [apply d_cos|].
  rewrite coef_odd by exact Hk.
  replace ((INR (2 * m + 1) - 2 * INR k) * (PI * x)) with (- ((2 * INR k - INR (2 * m + 1)) * PI * x)) by ring. rewrite sin_neg. field.
  assert (INR k <= INR m) by (apply le_INR, Hk). rewrite plus_INR, mult_INR. cbn [INR]. lra.
Qed.
Lemma term_even_derive m x : is_derive (sidi_term m (2 * S m)) x (PI * (1 / 2 * (4 ^ S m * W (2 * S m) x))).
Proof.
  apply is_derive_ext with (f := fun x => sum_f_R0 (fun j => sidi_coefficient j (2 * S m) * sin ((2 * INR j - INR (2 * S m)) * PI * x)) m + 1 / 2 * PI * C (2 * S m) (S m) * x); [intros t; symmetry; apply term_even|].
  unfold W. rewrite <- half_even, Rmult_plus_distr_l, scal_sum. apply (is_derive_plus (V := R_NormedModule)).
  - apply (derive_sum (fun j x => sidi_coefficient j (2 * S m) * sin ((2 * INR j - INR (2 * S m)) * PI * x)) (fun j x => (-1) ^ (S m - j) * C (2 * S m) j * cos ((INR (2 * S m) - 2 * INR j) * (PI * x)) * PI)).
    intros k Hk. match goal with |- is_derive _ _ ?v => replace v with (sidi_coefficient k (2 * S m) * (cos ((2 * INR k - INR (2 * S m)) * PI * x) * ((2 * INR k - INR (2 * S m)) * PI))) end; [apply d_sin|].
    rewrite coef_even by lia.
    replace ((INR (2 * S m) - 2 * INR k) * (PI * x)) with (- ((2 * INR k - INR (2 * S m)) * PI * x)) by ring. rewrite cos_neg. field.
    assert (INR k <= INR m) by (apply le_INR, Hk). rewrite (mult_INR 2 (S m)), (S_INR m). replace (INR 2) with 2 by (cbn; ring). lra.
  - replace (PI * (1 / 2 * C (2 * S m) (S m))) with (1 / 2 * PI * C (2 * S m) (S m)) by ring. apply d_lin.
Qed.
Lemma factorial_ok n : factorial n = fact n.
Proof. induction n as [|n IH]; [reflexivity|]. cbn [factorial]. rewrite IH, fact_simpl. reflexivity. Qed.
Lemma W_pos r x : 0 <= x <= 1 -> 0 <= W r x.
Proof. intros H. pose proof PI_RGT_0. apply pow_le, sin_ge_0; nra. Qed.
(** a multiple of the sine power whose integral is one *)
Lemma sidi_smooth r c v f : is_RInt (W r) 0 1 v -> c * v = 1 -> 0 <= c -> f 0 = 0 -> (forall x, is_derive f x (c * W r x)) -> keeps (fun x => c * W r x) (fun x => clamp (f x)).
Proof.
  intros HW E Hc F0 D. assert (F1 : f 1 = 1).
  { assert (I1 : is_RInt (fun x => c * W r x) 0 1 (minus (f 1) (f 0))).
    { apply (is_RInt_derive f); [intros x _; apply D|]. intros x _. apply (continuous_scal_r (V := R_NormedModule) c (W r)), W_continuous. }
    assert (I2 : is_RInt (fun x => c * W r x) 0 1 (scal c v)) by (apply (is_RInt_scal (V := R_NormedModule) (W r)), HW).
    apply (is_RInt_unique (V := R_CompleteNormedModule)) in I1. apply (is_RInt_unique (V := R_CompleteNormedModule)) in I2. pose proof (eq_trans (eq_sym I1) I2) as I3.
    rewrite F0 in I3. unfold minus, plus, opp, scal in I3; cbn in I3. unfold mult in I3; cbn in I3. lra. }
  apply smooth_keeps; auto.
  - intros x. apply (continuous_scal_r (V := R_NormedModule) c (W r)), W_continuous.
  - intros x Hx. apply Rmult_le_pos; [exact Hc|apply W_pos, Hx].
Qed.
Lemma fact_pos' n : 0 < INR (fact n). Proof. apply INR_fact_lt_0. Qed.
Lemma sidi_keeps r : keeps (sidi_w r) (sidi_f r).
Proof.
  pose proof PI_RGT_0 as PP. destruct (Nat.eq_dec r 0) as [->|R0]; [apply id_keeps|].
  destruct (Nat.Even_or_Odd r) as [[m E]|[m E]].
  - destruct m as [|m]; [lia|]. subst r. set (c := 2 ^ (2 * m) * INR (2 * S m) * INR (fact m) * INR (fact m) / INR (fact (2 * m + 1))).
    set (f := fun x => INR (2 * S m) / 2 / PI * INR (fact m) * INR (fact m) / INR (fact (2 * m + 1)) * sidi_term m (2 * S m) x).
    assert (P4 : 2 ^ (2 * m) = 4 ^ m) by (rewrite pow_mult; f_equal; ring).
    assert (KK : keeps (fun x => c * W (2 * S m) x) (fun x => clamp (f x))).
    { apply (sidi_smooth _ _ _ _ (W_even (S m))).
      - unfold c. rewrite P4. replace (2 * S m)%nat with (S (2 * m + 1)) by lia. rewrite !fact_simpl, !mult_INR. rewrite !S_INR, plus_INR, mult_INR. cbn [INR pow].
        pose proof (pos_INR m). pose proof (fact_pos' m). pose proof (fact_pos' (2 * m + 1)). pose proof (pow_lt 4 m ltac:(lra)). field. repeat split; lra.
      - unfold c. apply Rlt_le. repeat first [apply Rdiv_lt_0_compat|apply Rmult_lt_0_compat]; try apply fact_pos'; [apply pow_lt; lra|apply lt_0_INR; lia].
      - unfold f. rewrite term_even. rewrite Rmult_0_r, Rplus_0_r. replace (sum_f_R0 _ m) with 0; [ring|]. symmetry. apply sum_eq_R0. intros k _. rewrite Rmult_0_r, sin_0. ring.
      - intros x. unfold f, c. rewrite P4. replace (4 ^ m * INR (2 * S m) * INR (fact m) * INR (fact m) / INR (fact (2 * m + 1)) * W (2 * S m) x)
          with (scal (INR (2 * S m) / 2 / PI * INR (fact m) * INR (fact m) / INR (fact (2 * m + 1))) (PI * (1 / 2 * (4 ^ S m * W (2 * S m) x))) : R).
        + apply (is_derive_scal (sidi_term m (2 * S m))). apply term_even_derive.
        + unfold scal; cbn -[INR fact W pow Nat.mul]. unfold mult; cbn -[INR fact W pow Nat.mul]. cbn [pow]. pose proof (fact_pos' (2 * m + 1)). field. split; lra. }
    apply keeps_ext with (3 := KK); intros x Hx; unfold sidi_w, sidi_f; (destruct (Nat.eqb_spec (2 * S m) 0); [lia|]); rewrite odd_even, div_even, !factorial_ok;
      replace (S m - 1)%nat with m by lia; replace (2 * S m - 1)%nat with (2 * m + 1)%nat by lia; cbv zeta; [|reflexivity].
    unfold c, W. rewrite !ipow_ok. replace (2 * S m - 2)%nat with (2 * m)%nat by lia. reflexivity.
  - subst r. set (c := PI / 2 ^ (2 * m + 1) * INR (fact (2 * m + 1)) / INR (fact m) / INR (fact m)).
    set (f := fun x => 1 / 2 ^ (2 * (2 * m + 1) - 1) * INR (fact (2 * m + 1)) / INR (fact m) / INR (fact m) * sidi_term m (2 * m + 1) x).
    assert (P4 : 2 ^ (2 * m + 1) = 2 * 4 ^ m) by (rewrite pow_add, pow_mult; replace (2 ^ 2) with 4 by ring; ring).
    assert (KK : keeps (fun x => c * W (2 * m + 1) x) (fun x => clamp (f x))).
    { apply (sidi_smooth _ _ _ _ (W_odd m)).
      - unfold c. rewrite P4. pose proof (fact_pos' m). pose proof (fact_pos' (2 * m + 1)). pose proof (pow_lt 4 m ltac:(lra)). field. repeat split; lra.
      - unfold c. apply Rlt_le. apply Rdiv_lt_0_compat; [|apply fact_pos']. apply Rdiv_lt_0_compat; [|apply fact_pos']. apply Rmult_lt_0_compat; [|apply fact_pos']. apply Rdiv_lt_0_compat; [exact PP|apply pow_lt; lra].
      - unfold f. rewrite term_odd. replace (sum_f_R0 _ m) with 0; [ring|]. symmetry. apply sum_eq_R0. intros k _. rewrite Rmult_0_r, cos_0. ring.
      - intros x. unfold f, c. replace (2 * (2 * m + 1) - 1)%nat with (2 * m + (2 * m + 1))%nat by lia. rewrite (pow_add 2 (2 * m)), P4, pow_mult. replace (2 ^ 2) with 4 by ring.
        replace (PI / (2 * 4 ^ m) * INR (fact (2 * m + 1)) / INR (fact m) / INR (fact m) * W (2 * m + 1) x)
          with (scal (1 / (4 ^ m * (2 * 4 ^ m)) * INR (fact (2 * m + 1)) / INR (fact m) / INR (fact m)) (PI * (4 ^ m * W (2 * m + 1) x)) : R).
        + apply (is_derive_scal (sidi_term m (2 * m + 1))). apply term_odd_derive.
        + unfold scal; cbn -[INR fact W pow Nat.mul Nat.add]. unfold mult; cbn -[INR fact W pow Nat.mul Nat.add]. pose proof (fact_pos' m). pose proof (pow_lt 4 m ltac:(lra)). field. repeat split; lra. }
    apply keeps_ext with (3 := KK); intros x Hx; unfold sidi_w, sidi_f; (destruct (Nat.eqb_spec (2 * m + 1) 0); [lia|]); rewrite odd_odd, div_odd, !factorial_ok, !ipow_ok; reflexivity.
Qed.
