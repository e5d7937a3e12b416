(** Property C67: linear combinations of integrals (vectors of WeightedIntegral) and their value. *)
From Coq Require Import QArith Qcanon.
From Verif Require Import FieldBase AmpModel UncModel UncSpec PropUnc.
Close Scope Q_scope. Close Scope Qc_scope.
Local Open Scope fld_scope.

Section Linear.
Context {F : Fld}.
Add Field FldWeighted : (@f_th F).
Notation term := (nat * F)%type.
(** the coefficient of an integral in a list of terms: specification *)
Definition coeff (a : list term) (i : nat) : F := fold_right (fun t acc => if Nat.eqb (fst t) i then snd t + acc else acc) 0 a.
Notation "a <+> b" := (wadd (@fadd F) a b) (at level 50).
Lemma coeff_merge (a : list term) y i : coeff (merge (@fadd F) a y) i = coeff a i + (if Nat.eqb (fst y) i then snd y else 0).
Proof.
  unfold coeff. induction a as [|x a IH]; cbn; [destruct (Nat.eqb (fst y) i); ring|]. destruct (Nat.eqb_spec (fst x) (fst y)) as [E|E]; cbn.
  - rewrite E. destruct (Nat.eqb (fst y) i); ring.
  - rewrite IH. destruct (Nat.eqb (fst x) i); ring.
Qed.
Theorem C67_add : forall (a b : list term) i, coeff (a <+> b) i = coeff a i + coeff b i.
Proof.
  intros a b i. unfold wadd. revert a. induction b as [|y b IH]; intros a; cbn [fold_left]; [cbn; ring|]. rewrite IH, coeff_merge. cbn [coeff fold_right]. fold (coeff b i). destruct (Nat.eqb (fst y) i); ring.
Qed.
Theorem C67_mul : forall (a : list term) c i, coeff (wmul (@fmul F) a c) i = c * coeff a i.
Proof. intros a c i. unfold wmul, coeff. induction a as [|x a IH]; cbn; [ring|]. rewrite IH. destruct (Nat.eqb (fst x) i); ring. Qed.
Theorem C67_div : forall (a : list term) c i, c <> 0 -> coeff (wdiv (@fdiv F) a c) i = coeff a i / c.
Proof. intros a c i N. unfold wdiv, coeff. induction a as [|x a IH]; cbn; [field; exact N|]. rewrite IH. destruct (Nat.eqb (fst x) i); [field; exact N|reflexivity]. Qed.
Theorem C67_neg : forall (a : list term) i, coeff (wneg (@fmul F) (- (1)) a) i = - coeff a i.
Proof. intros a i. unfold wneg. rewrite C67_mul. ring. Qed.
Theorem C67_sub : forall (a b : list term) i, coeff (wsub (@fadd F) (@fmul F) (- (1)) a b) i = coeff a i - coeff b i.
Proof. intros a b i. unfold wsub. rewrite C67_add, C67_neg. ring. Qed.
(** ** every integral occurs once, and exactly the integrals of the operands occur *)
Lemma merge_ids (a : list term) y : map fst (merge (@fadd F) a y) = if existsb (fun i => Nat.eqb i (fst y)) (map fst a) then map fst a else (map fst a ++ [fst y])%list.
Proof.
  induction a as [|x a IH]; cbn; [reflexivity|]. destruct (Nat.eqb_spec (fst x) (fst y)) as [E|E]; cbn; [reflexivity|]. rewrite IH. destruct (existsb _ _); reflexivity.
Qed.
Lemma merge_nodup (a : list term) y : NoDup (map fst a) -> NoDup (map fst (merge (@fadd F) a y)).
Proof.
  intros H. rewrite merge_ids. destruct (existsb _ _) eqn:E; [exact H|]. apply NoDup_rev in H. rewrite <- (rev_involutive (map fst a ++ [fst y])). apply NoDup_rev. rewrite rev_app_distr. cbn. constructor; [|exact H].
  rewrite <- in_rev. intros X. assert (Y : existsb (fun i => Nat.eqb i (fst y)) (map fst a) = true) by (apply existsb_exists; exists (fst y); split; [exact X|apply Nat.eqb_refl]). congruence.
Qed.
Theorem C67_once : forall (a b : list term), NoDup (map fst a) -> NoDup (map fst (a <+> b)) /\ forall i, In i (map fst (a <+> b)) <-> In i (map fst a) \/ In i (map fst b).
Proof.
  intros a b. unfold wadd. revert a. induction b as [|y b IH]; intros a H; cbn; [split; [exact H|intros i; tauto]|]. destruct (IH (merge (@fadd F) a y) (merge_nodup a y H)) as [I1 I2]. split; [exact I1|]. intros i. rewrite I2, merge_ids.
  destruct (existsb (fun i => Nat.eqb i (fst y)) (map fst a)) eqn:E.
  - apply existsb_exists in E as (j & Hj & Ej). apply Nat.eqb_eq in Ej. split; [tauto|]. intros [X|[X|X]]; [tauto| |tauto]. left. subst. exact Hj.
  - rewrite in_app_iff. cbn. tauto.
Qed.
Theorem C67_once_scaled : forall (a : list term) c, map fst (wmul (@fmul F) a c) = map fst a /\ map fst (wdiv (@fdiv F) a c) = map fst a /\ map fst (wneg (@fmul F) (- (1)) a) = map fst a.
Proof. intros a c. unfold wneg, wmul, wdiv. rewrite !map_map. cbn. auto. Qed.
End Linear.

(** * the value of a sum *)
Local Open Scope R_scope.
Local Notation dist := UncSpec.dist.
Notation stands a d := (describes (val a) (unc a) d).
(** the distribution of  sum_i c_i X_i  for independent X_i with distributions [laws i] *)
Fixpoint combination (laws : nat -> dist) (a : list (nat * R)) : dist :=
  match a with [] => [(1, 0)] | t :: r => image2 Rplus (image (fun y => snd t * y) (laws (fst t))) (combination laws r) end.
Lemma expect2_swap (f : R -> R) (op : R -> R -> R) (d e : dist) : expect (fun x => expect (fun y => f (op x y)) e) d = expect (fun y => expect (fun x => f (op x y)) d) e.
Proof.
  induction d as [|[p x] d IH]; cbn; [induction e as [|[q y] e IHe]; cbn; [reflexivity|rewrite <- IHe; ring]|]. rewrite IH. clear IH. rewrite <- expect_scal, <- expect_add. reflexivity.
Qed.
(** first and second moment determine what is needed; the order of the summation does not matter *)
Definition same_moments (d e : dist) : Prop := is_dist d /\ is_dist e /\ mean d = mean e /\ variance d = variance e.
Lemma describes_moments v u d e : same_moments d e -> describes v u d -> describes v u e.
Proof. intros (D & E & M & V) (_ & H2 & H3 & H4). split; [exact E|]. split; [congruence|]. split; [exact H3|congruence]. Qed.
Lemma add_moments (d e : dist) : is_dist d -> is_dist e -> is_dist (image2 Rplus d e) /\ mean (image2 Rplus d e) = mean d + mean e /\ variance (image2 Rplus d e) = variance d + variance e.
Proof.
  intros D E. destruct (lin2_ok 1 1 d e D E) as (H1 & H2 & H3). rewrite (image2_ext _ (fun x y => 1 * x + 1 * y)) by (intros; ring). repeat split; [apply H1|apply H1|rewrite H2; ring|rewrite H3; ring].
Qed.
Lemma combination_moments laws a : (forall t, In t a -> is_dist (laws (fst t))) -> is_dist (combination laws a) /\ mean (combination laws a) = fold_right (fun t acc => snd t * mean (laws (fst t)) + acc) 0 a /\ variance (combination laws a) = fold_right (fun t acc => snd t ^ 2 * variance (laws (fst t)) + acc) 0 a.
Proof.
  induction a as [|t a IH]; intros H; cbn [combination fold_right].
  - unfold variance, mean, is_dist. cbn. repeat split; try ring. repeat constructor. cbn. lra.
  - destruct (IH (fun s Hs => H s (or_intror Hs))) as (I1 & I2 & I3). destruct (affine_ok (snd t) 0 (laws (fst t)) (H t (or_introl eq_refl))) as (A1 & A2 & A3). rewrite (image_ext _ (fun y => snd t * y + 0)) by (intros; ring).
    destruct (add_moments _ _ A1 I1) as (B1 & B2 & B3). rewrite B2, B3, A2, A3, I2, I3. split; [exact B1|]. split; ring.
Qed.
Theorem C67_value : forall (get : nat -> ud) (a : list (nat * R)),
  val (compute_sum get a) = fold_right (fun t acc => snd t * val (get (fst t)) + acc) 0 a /\
  unc (compute_sum get a) ^ 2 = fold_right (fun t acc => (snd t * unc (get (fst t))) ^ 2 + acc) 0 a /\ 0 <= unc (compute_sum get a).
Proof.
  intros get a. unfold compute_sum. assert (X : forall acc, 0 <= unc acc -> let r := fold_left (fun acc t => uadd acc (tmul (snd t) (get (fst t)))) a acc in val r = val acc + fold_right (fun t acc => snd t * val (get (fst t)) + acc) 0 a /\ unc r ^ 2 = unc acc ^ 2 + fold_right (fun t acc => (snd t * unc (get (fst t))) ^ 2 + acc) 0 a /\ 0 <= unc r).
  { induction a as [|t a IH]; intros acc P; cbv zeta; cbn [fold_left fold_right]; [repeat split; [ring|ring|exact P]|]. destruct (IH (uadd acc (tmul (snd t) (get (fst t)))) (sqrt_pos _)) as (I1 & I2 & I3). cbv zeta in *. split; [rewrite I1; cbn [uadd tmul umul_t val]; ring|]. split; [|exact I3]. rewrite I2. cbn [uadd tmul umul_t unc].
    set (w := sqrt (unc (get (fst t)) * snd t * unc (get (fst t)) * snd t)). assert (W : w * w = (snd t * unc (get (fst t))) ^ 2). { unfold w. replace (unc (get (fst t)) * snd t * unc (get (fst t)) * snd t) with ((snd t * unc (get (fst t))) ^ 2) by ring. apply sqrt_sqrt, sq_pos. }
    rewrite sq_sqrt by (rewrite W; pose proof (sq_pos (snd t * unc (get (fst t)))); pose proof (Rle_0_sqr (unc acc)); unfold Rsqr in *; lra). rewrite W. ring. }
  destruct (X (conv 0)) as (X1 & X2 & X3); [cbn; lra|]. cbv zeta in *. split; [rewrite X1; cbn; ring|]. split; [rewrite X2; cbn [conv unc]; ring|exact X3].
Qed.
(** If the integrals are independent and each occurs once, the value and the uncertainty of the sum are the mean and the
    standard deviation of the linear combination. *)
(** the coefficient of integral i *)
Definition weight (a : list (nat * R)) (i : nat) : R := fold_right (fun t acc => if Nat.eqb (fst t) i then snd t + acc else acc) 0 a.
Theorem C67_sum : forall (get : nat -> ud) (laws : nat -> dist) (a : list (nat * R)), NoDup (map fst a) -> (forall t, In t a -> stands (get (fst t)) (laws (fst t))) ->
  stands (compute_sum get a) (combination laws (map (fun i => (i, weight a i)) (nodup Nat.eq_dec (map fst a)))).
Proof.
  intros get laws a N H. rewrite nodup_fixed_point by exact N.
  replace (map (fun i => (i, weight a i)) (map fst a)) with a.
  2:{ clear - N. rewrite map_map. rewrite <- (map_id a) at 1. apply map_ext_in. intros t Ht. rewrite (surjective_pairing t) at 1. f_equal. unfold weight. induction a as [|x a IH]; [destruct Ht|]. cbn in N. inversion N as [|? ? N1 N2]; subst. cbn [fold_right].
      assert (Z : forall i, ~ In i (map fst a) -> fold_right (fun t acc => if Nat.eqb (fst t) i then snd t + acc else acc) 0 a = 0). { clear. induction a as [|x a IH]; intros i Hi; [reflexivity|]. cbn in *. rewrite IH by tauto. destruct (Nat.eqb_spec (fst x) i); [tauto|reflexivity]. }
      destruct Ht as [->|Ht]; [rewrite Nat.eqb_refl, Z by exact N1; ring|]. destruct (Nat.eqb_spec (fst x) (fst t)) as [E|E]; [|apply IH; assumption]. exfalso. apply N1. rewrite E. apply in_map, Ht. }
  destruct (combination_moments laws a) as (D & M & V); [intros t Ht; destruct (H t Ht) as [D _]; exact D|]. destruct (C67_value get a) as (V1 & V2 & V3). split; [exact D|]. split; [rewrite M, V1; clear - H; induction a as [|t a IH]; cbn; [reflexivity|]|].
  - rewrite (IH (fun s Hs => H s (or_intror Hs))). destruct (H t (or_introl eq_refl)) as (_ & Ht & _). rewrite Ht. reflexivity.
  - split; [exact V3|]. rewrite V2, V. clear - H. induction a as [|t a IH]; cbn [fold_right]; [reflexivity|]. rewrite (IH (fun s Hs => H s (or_intror Hs))). destruct (H t (or_introl eq_refl)) as (_ & _ & _ & Ht). rewrite <- Ht. ring.
Qed.
(** If an integral occurs twice in the list the uncertainty is too small: X + X has twice the deviation of X *)
Theorem C67_repeated_integral_refuted : exists (get : nat -> ud) (a : list (nat * R)), val (compute_sum get a) = val (tmul 2 (get 0%nat)) /\ 0 < unc (get 0%nat) /\ unc (compute_sum get a) < unc (tmul 2 (get 0%nat)).
Proof.
  exists (fun _ => mkU 1 1), [(0%nat, 1); (0%nat, 1)]. unfold compute_sum. cbn. split; [ring|]. split; [lra|]. replace (1 * 1 * 1 * 1) with 1 by ring. replace (1 * 2 * 1 * 2) with 4 by ring. rewrite sqrt_1. replace (0 * 0 + 1 * 1) with 1 by ring. rewrite sqrt_1. apply sqrt_lt_1; lra.
Qed.
(** concrete case *)
Example C67_ex : NoDup (map fst (@wadd Qc Qcplus [(3%nat, Q2Qc 1); (5%nat, Q2Qc 2)] [(5%nat, Q2Qc 1); (7%nat, Q2Qc 4)])) /\ describes 2 1 coin.
Proof. split; [repeat constructor; cbn; intuition discriminate|exact (proj1 C55_ex)]. Qed.
Print Assumptions C67_once.
