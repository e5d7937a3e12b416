(** The real numbers as a coefficient field, and derivatives of integer powers. *)
From Coq Require Export Reals Lra.
From Verif Require Export FieldBase.

Definition Req_b (a b : R) : bool := if Req_EM_T a b then true else false.
Lemma Req_b_spec a b : Req_b a b = true <-> a = b.
Proof. unfold Req_b. destruct (Req_EM_T a b); split; congruence. Qed.

Lemma R_field_theory : field_theory 0%R 1%R Rplus Rmult Rminus Ropp Rdiv Rinv (@eq R).
Proof.
  constructor.
  - constructor; intros; try ring. 
  - exact R1_neq_R0.
  - reflexivity.
  - intros; apply Rinv_l; assumption.
Qed.

Definition R_Fld : Fld := mkFld R 0%R 1%R Rplus Rmult Rminus Ropp Rdiv Rinv R_field_theory Req_b Req_b_spec.

Lemma npow_R (x : R) n : @npow R_Fld x n = pow x n.
Proof. induction n as [|n IH]; cbn [npow pow]; [reflexivity|rewrite IH; reflexivity]. Qed.

Lemma natF_R n : @natF R_Fld n = INR n.
Proof.
  induction n as [|n IH]; [reflexivity|]. cbn [natF]. rewrite IH, S_INR. cbn. ring.
Qed.

Lemma zF_R z : @zF R_Fld z = IZR z.
Proof.
  destruct (Z_le_gt_dec 0 z) as [H|H].
  - rewrite <- (Z2Nat.id z H), zF_of_nat, natF_R, INR_IZR_INZ. reflexivity.
  - replace z with (- Z.of_nat (Z.to_nat (- z)))%Z by lia.
    rewrite zF_opp, zF_of_nat, natF_R, opp_IZR, INR_IZR_INZ. reflexivity.
Qed.

(** d/dt t^k = k t^(k-1) *)
Lemma zpow_deriv (k : Z) (x : R) : (x <> 0%R \/ (0 <= k)%Z) ->
  derivable_pt_lim (fun t => @zpow R_Fld t k) x (IZR k * @zpow R_Fld x (k - 1))%R.
Proof.
  intros Hx. destruct (Z_le_gt_dec 0 k) as [Hk|Hk].
  - rewrite <- (Z2Nat.id k Hk). set (n := Z.to_nat k).
    assert (Hf : derivable_pt_lim (fun t => pow t n) x (INR n * pow x (pred n))%R) by apply derivable_pt_lim_pow.
    assert (E : (INR n * pow x (pred n) = IZR (Z.of_nat n) * @zpow R_Fld x (Z.of_nat n - 1))%R).
    { rewrite <- INR_IZR_INZ. destruct n as [|m]; [cbn [INR]; ring|]. cbn [pred].
      replace (Z.of_nat (S m) - 1)%Z with (Z.of_nat m) by lia. rewrite (@zpow_of_nat R_Fld). apply f_equal. symmetry. apply npow_R. }
    rewrite <- E. intros eps Heps. destruct (Hf eps Heps) as [d Hd]. exists d. intros h Hh Hhd.
    rewrite !zpow_of_nat. exact (Hd h Hh Hhd).
  - destruct Hx as [Hx|Hx]; [|lia].
    set (n := Z.to_nat (- k)). assert (Ek : k = (- Z.of_nat n)%Z) by lia.
    assert (Hn : n <> 0%nat) by lia.
    assert (Hp := derivable_pt_lim_pow x n).
    assert (Hpx : pow x n <> 0%R) by (apply pow_nonzero; exact Hx).
    assert (Hd := derivable_pt_lim_div (fct_cte 1%R) (fun t => pow t n) x 0%R _ (derivable_pt_lim_const 1 x) Hp Hpx).
    assert (E : ((0 * pow x n - INR n * pow x (pred n) * fct_cte 1%R x) / Rsqr (pow x n) = IZR k * @zpow R_Fld x (k - 1))%R).
    { rewrite Ek, opp_IZR, <- INR_IZR_INZ. replace (- Z.of_nat n - 1)%Z with (- Z.of_nat (S n))%Z by lia.
      rewrite zpow_opp_nat by exact Hx. change (@finv R_Fld (@npow R_Fld x (S n))) with (Rinv (@npow R_Fld x (S n))). replace (@npow R_Fld x (S n)) with (pow x (S n)) by (symmetry; apply npow_R). unfold fct_cte, Rsqr.
      destruct n as [|m]; [congruence|]. cbn [pred pow]. field. split; [apply pow_nonzero; exact Hx|exact Hx]. }
    rewrite <- E. clear E.
    intros eps Heps. destruct (Hd eps Heps) as [d Hdd].
    assert (Hmin : (0 < Rmin d (Rabs x))%R) by (apply Rmin_pos; [apply cond_pos|apply Rabs_pos_lt; exact Hx]).
    exists (mkposreal _ Hmin). intros h Hh Hhd. cbn [pos] in Hhd.
    assert (Hxh : (x + h <> 0)%R).
    { intros H0. assert (Hh2 : (Rabs h < Rabs x)%R) by (eapply Rlt_le_trans; [exact Hhd|apply Rmin_r]).
      replace h with (- x)%R in Hh2 by lra. rewrite Rabs_Ropp in Hh2. lra. }
    assert (Hhd' : (Rabs h < d)%R) by (eapply Rlt_le_trans; [exact Hhd|apply Rmin_l]).
    specialize (Hdd h Hh Hhd'). rewrite Ek.
    rewrite (@zpow_opp_nat R_Fld (x + h)%R n Hxh), (@zpow_opp_nat R_Fld x n Hx).
    cbn [finv R_Fld]. unfold div_fct, fct_cte in Hdd. unfold Rdiv in Hdd. rewrite !Rmult_1_l in Hdd. exact Hdd.
Qed.

Lemma deriv_ext (f g : R -> R) x l : (forall t, f t = g t) -> derivable_pt_lim f x l -> derivable_pt_lim g x l.
Proof.
  intros H Hf eps Heps. destruct (Hf eps Heps) as [d Hd]. exists d. intros h Hh Hhd. rewrite <- !H. auto.
Qed.

Lemma deriv_val (f : R -> R) x l l' : derivable_pt_lim f x l -> l = l' -> derivable_pt_lim f x l'.
Proof. intros H E. rewrite <- E. exact H. Qed.
