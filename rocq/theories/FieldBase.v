(** Fields with decidable equality: the coefficients of the computer-algebra model.
    pySecDec's coefficients are numpy numbers or sympy expressions.  The model takes
    them from an arbitrary field with decidable equality: numbers, or rational functions of symbols in a
    normal form.  Simplification: sympy's [==] is structural and may fail to
    recognise a hidden zero; the model's test is exact. *)
From Coq Require Export List ZArith Lia Bool Field Field_theory Ring Permutation.
Export ListNotations.

Record Fld : Type := mkFld {
  car :> Type;
  f0 : car; f1 : car;
  fadd : car -> car -> car; fmul : car -> car -> car;
  fsub : car -> car -> car; fopp : car -> car;
  fdiv : car -> car -> car; finv : car -> car;
  f_th : field_theory f0 f1 fadd fmul fsub fopp fdiv finv (@eq car);
  feqb : car -> car -> bool;
  feqb_spec : forall a b, feqb a b = true <-> a = b }.

Arguments f0 {f}. Arguments f1 {f}.
Arguments fadd {f} _ _. Arguments fmul {f} _ _. Arguments fsub {f} _ _.
Arguments fopp {f} _. Arguments fdiv {f} _ _. Arguments finv {f} _.
Arguments feqb {f} _ _.

Declare Scope fld_scope.
Delimit Scope fld_scope with fld.
Notation "a + b" := (fadd a b) : fld_scope.
Notation "a * b" := (fmul a b) : fld_scope.
Notation "a - b" := (fsub a b) : fld_scope.
Notation "a / b" := (fdiv a b) : fld_scope.
Notation "- a" := (fopp a) : fld_scope.
Notation "0" := f0 : fld_scope.
Notation "1" := f1 : fld_scope.

Section Base.
Variable F : Fld.
Local Open Scope fld_scope.
Add Field Fld_field : (f_th F).

(** natural and integer powers *)
Fixpoint npow (x : F) (n : nat) : F :=
  match n with O => 1 | S m => x * npow x m end.

Definition zpow (x : F) (z : Z) : F :=
  match z with
  | Z0 => 1
  | Zpos p => npow x (Pos.to_nat p)
  | Zneg p => finv (npow x (Pos.to_nat p))
  end.

(** integers in the field *)
Fixpoint natF (n : nat) : F := match n with O => 0 | S m => 1 + natF m end.
Definition zF (z : Z) : F :=
  match z with Z0 => 0 | Zpos p => natF (Pos.to_nat p) | Zneg p => - natF (Pos.to_nat p) end.

Fixpoint sumF (l : list F) : F := match l with [] => 0 | x :: r => x + sumF r end.
Fixpoint prodF (l : list F) : F := match l with [] => 1 | x :: r => x * prodF r end.

Lemma feqb_refl (a : F) : feqb a a = true.
Proof. apply feqb_spec; reflexivity. Qed.

Lemma feqb_false (a b : F) : feqb a b = false <-> a <> b.
Proof.
  destruct (feqb a b) eqn:E.
  - apply feqb_spec in E. split; [discriminate|congruence].
  - split; [|reflexivity]. intros _ H. apply feqb_spec in H. congruence.
Qed.

Lemma F_dec (a b : F) : {a = b} + {a <> b}.
Proof.
  destruct (feqb a b) eqn:E; [left; apply feqb_spec; exact E|right; apply feqb_false; exact E].
Qed.

Lemma F1_neq_0 : (1 : F) <> 0.
Proof. exact (F_1_neq_0 (f_th F)). Qed.

Lemma Fintegral (a b : F) : a * b = 0 -> a = 0 \/ b = 0.
Proof.
  intros H. destruct (F_dec a 0) as [Ha|Ha]; [left; exact Ha|right].
  assert (E : b = (a * b) / a) by (field; exact Ha).
  rewrite E, H. field. exact Ha.
Qed.

Lemma Fmul_neq0 (a b : F) : a <> 0 -> b <> 0 -> a * b <> 0.
Proof. intros Ha Hb H. apply Fintegral in H. tauto. Qed.

Lemma Finv_neq0 (a : F) : a <> 0 -> finv a <> 0.
Proof.
  intros Ha H. apply F1_neq_0.
  assert (E : (1:F) = a * finv a) by (field; exact Ha).
  rewrite E, H. ring.
Qed.

Lemma npow_add x m n : npow x (m + n) = npow x m * npow x n.
Proof. induction m as [|m IH]; cbn [npow Nat.add]; [ring|rewrite IH; ring]. Qed.

Lemma npow_mul_base x y n : npow (x * y) n = npow x n * npow y n.
Proof. induction n as [|n IH]; cbn [npow]; [ring|rewrite IH; ring]. Qed.

Lemma npow_1 n : npow 1 n = 1.
Proof. induction n as [|n IH]; cbn [npow]; [ring|rewrite IH; ring]. Qed.

Lemma npow_mult x m n : npow x (m * n) = npow (npow x n) m.
Proof. induction m as [|m IH]; cbn [npow Nat.mul]; [ring|rewrite npow_add, IH; ring]. Qed.

Lemma npow_neq0 x n : x <> 0 -> npow x n <> 0.
Proof.
  intros Hx; induction n as [|n IH]; cbn [npow]; [exact F1_neq_0|apply Fmul_neq0; assumption].
Qed.

Lemma zpow_of_nat x n : zpow x (Z.of_nat n) = npow x n.
Proof.
  destruct n as [|n]; [reflexivity|].
  cbn [Z.of_nat zpow]. rewrite SuccNat2Pos.id_succ. reflexivity.
Qed.

Lemma zpow_opp_nat x n : x <> 0 -> zpow x (- Z.of_nat n) = finv (npow x n).
Proof.
  intros Hx. destruct n as [|n].
  - cbn [Z.of_nat Z.opp zpow npow]. field. exact F1_neq_0.
  - cbn [Z.of_nat Z.opp zpow]. rewrite SuccNat2Pos.id_succ. reflexivity.
Qed.

Lemma zpow_0 x : zpow x 0 = 1. Proof. reflexivity. Qed.

Lemma zpow_1_r x : zpow x 1 = x.
Proof. change (npow x 1 = x). cbn [npow]. ring. Qed.

Lemma zpow_1 z : zpow 1 z = 1.
Proof. destruct z as [|p|p]; cbn [zpow]; rewrite ?npow_1; try reflexivity. field. exact F1_neq_0. Qed.

Lemma zpow_succ x z : x <> 0 -> zpow x (z + 1) = x * zpow x z.
Proof.
  intros Hx. destruct (Z_le_gt_dec 0 z) as [Hz|Hz].
  - rewrite <- (Z2Nat.id z Hz). replace (Z.of_nat (Z.to_nat z) + 1)%Z with (Z.of_nat (S (Z.to_nat z))) by lia.
    rewrite !zpow_of_nat. reflexivity.
  - remember (Z.to_nat (- z - 1)) as n eqn:En.
    assert (E1 : z = (- Z.of_nat (S n))%Z) by lia.
    assert (E2 : (z + 1 = - Z.of_nat n)%Z) by lia.
    rewrite E2, E1, !zpow_opp_nat by assumption. cbn [npow].
    field. split; [apply npow_neq0; exact Hx|exact Hx].
Qed.

Lemma zpow_pred x z : x <> 0 -> zpow x (z - 1) = finv x * zpow x z.
Proof.
  intros Hx. replace z with (z - 1 + 1)%Z at 2 by lia. rewrite zpow_succ by exact Hx.
  field. exact Hx.
Qed.

Lemma zpow_succ_nonneg x z : (0 <= z)%Z -> zpow x (z + 1) = x * zpow x z.
Proof.
  intros Hz. rewrite <- (Z2Nat.id z Hz).
  replace (Z.of_nat (Z.to_nat z) + 1)%Z with (Z.of_nat (S (Z.to_nat z))) by lia.
  rewrite !zpow_of_nat. reflexivity.
Qed.

Lemma zpow_neq0 x z : x <> 0 -> zpow x z <> 0.
Proof.
  intros Hx. destruct z as [|p|p]; cbn [zpow].
  - exact F1_neq_0.
  - apply npow_neq0; exact Hx.
  - apply Finv_neq0, npow_neq0; exact Hx.
Qed.

(** [zpow_add] under the guard that makes the python expression defined. *)
Definition pow_ok (x : F) (z : Z) : Prop := x <> 0 \/ (0 <= z)%Z.

Lemma zpow_add x a b : pow_ok x a -> pow_ok x b -> zpow x (a + b) = zpow x a * zpow x b.
Proof.
  intros Ha Hb. destruct (F_dec x 0) as [E|Hx].
  - destruct Ha as [Ha|Ha]; [congruence|]. destruct Hb as [Hb|Hb]; [congruence|].
    rewrite <- (Z2Nat.id a Ha), <- (Z2Nat.id b Hb), <- Nat2Z.inj_add, !zpow_of_nat.
    apply npow_add.
  - clear Ha Hb. revert a. 
    assert (Hn : forall n a, zpow x (a + Z.of_nat n) = zpow x a * npow x n).
    { induction n as [|n IH]; intros a.
      - rewrite Z.add_0_r. cbn [npow]. ring.
      - replace (a + Z.of_nat (S n))%Z with (a + Z.of_nat n + 1)%Z by lia.
        rewrite zpow_succ, IH by exact Hx. cbn [npow]. ring. }
    intros a. destruct (Z_le_gt_dec 0 b) as [Hb|Hb].
    + rewrite <- (Z2Nat.id b Hb), Hn, zpow_of_nat. reflexivity.
    + remember (Z.to_nat (- b)) as n eqn:En. assert (Eb : b = (- Z.of_nat n)%Z) by lia.
      assert (H := Hn n (a + b)%Z). replace (a + b + Z.of_nat n)%Z with a in H by lia.
      rewrite H, Eb, zpow_opp_nat by exact Hx. field. apply npow_neq0; exact Hx.
Qed.

Lemma zpow_mul_base x y z : (x <> 0 /\ y <> 0) \/ (0 <= z)%Z -> zpow (x * y) z = zpow x z * zpow y z.
Proof.
  intros H. destruct z as [|p|p]; cbn [zpow].
  - ring.
  - apply npow_mul_base.
  - destruct H as [[Hx Hy]|H]; [|lia]. rewrite npow_mul_base. field.
    split; apply npow_neq0; assumption.
Qed.

Lemma zpow_opp x z : x <> 0 -> zpow x (- z) = finv (zpow x z).
Proof.
  intros Hx.
  assert (H : zpow x (- z) * zpow x z = 1).
  { rewrite <- zpow_add by (left; exact Hx). replace (- z + z)%Z with 0%Z by lia. reflexivity. }
  assert (Hz := zpow_neq0 x z Hx).
  assert (E : zpow x (- z) = (zpow x (- z) * zpow x z) / zpow x z) by (field; exact Hz).
  rewrite E, H. field. exact Hz.
Qed.

Lemma zpow_zmul x a b : x <> 0 -> zpow x (a * b) = zpow (zpow x a) b.
Proof.
  intros Hx.
  assert (Hn : forall n, zpow x (a * Z.of_nat n) = npow (zpow x a) n).
  { induction n as [|n IH].
    - rewrite Z.mul_0_r. reflexivity.
    - replace (a * Z.of_nat (S n))%Z with (a + a * Z.of_nat n)%Z by lia.
      rewrite zpow_add, IH by (left; exact Hx). reflexivity. }
  destruct (Z_le_gt_dec 0 b) as [Hb|Hb].
  - rewrite <- (Z2Nat.id b Hb), Hn, zpow_of_nat. reflexivity.
  - remember (Z.to_nat (- b)) as n eqn:En. assert (Eb : b = (- Z.of_nat n)%Z) by lia.
    rewrite Eb. replace (a * - Z.of_nat n)%Z with (- (a * Z.of_nat n))%Z by lia.
    rewrite zpow_opp, Hn, zpow_opp_nat; [reflexivity| |exact Hx]. apply zpow_neq0; exact Hx.
Qed.

Lemma natF_add m n : natF (m + n) = natF m + natF n.
Proof. induction m as [|m IH]; cbn [natF Nat.add]; [ring|rewrite IH; ring]. Qed.

Lemma natF_mul m n : natF (m * n) = natF m * natF n.
Proof. induction m as [|m IH]; cbn [natF Nat.mul]; [ring|rewrite natF_add, IH; ring]. Qed.

Lemma zF_of_nat n : zF (Z.of_nat n) = natF n.
Proof. destruct n as [|n]; [reflexivity|]. cbn [Z.of_nat zF]. rewrite SuccNat2Pos.id_succ. reflexivity. Qed.

Lemma zF_opp z : zF (- z) = - zF z.
Proof. destruct z; cbn [Z.opp zF]; ring. Qed.

Lemma zF_add1 z : zF (z + 1) = zF z + 1.
Proof.
  destruct (Z_le_gt_dec 0 z) as [Hz|Hz].
  - rewrite <- (Z2Nat.id z Hz). replace (Z.of_nat (Z.to_nat z) + 1)%Z with (Z.of_nat (S (Z.to_nat z))) by lia.
    rewrite !zF_of_nat. cbn [natF]. ring.
  - remember (Z.to_nat (- z - 1)) as n eqn:En.
    assert (E1 : z = (- Z.of_nat (S n))%Z) by lia.
    assert (E2 : (z + 1 = - Z.of_nat n)%Z) by lia.
    rewrite E2, E1, !zF_opp, !zF_of_nat. cbn [natF]. ring.
Qed.

Lemma zF_add a b : zF (a + b) = zF a + zF b.
Proof.
  assert (Hn : forall n a, zF (a + Z.of_nat n) = zF a + natF n).
  { induction n as [|n IH]; intros c.
    - rewrite Z.add_0_r. cbn [natF]. ring.
    - replace (c + Z.of_nat (S n))%Z with (c + Z.of_nat n + 1)%Z by lia.
      rewrite zF_add1, IH. cbn [natF]. ring. }
  destruct (Z_le_gt_dec 0 b) as [Hb|Hb].
  - rewrite <- (Z2Nat.id b Hb), Hn, zF_of_nat. reflexivity.
  - remember (Z.to_nat (- b)) as n eqn:En. assert (Eb : b = (- Z.of_nat n)%Z) by lia.
    assert (H := Hn n (a + b)%Z). replace (a + b + Z.of_nat n)%Z with a in H by lia.
    rewrite H, Eb, zF_opp, zF_of_nat. ring.
Qed.

Lemma zF_mul a b : zF (a * b) = zF a * zF b.
Proof.
  assert (Hn : forall n, zF (a * Z.of_nat n) = zF a * natF n).
  { induction n as [|n IH].
    - rewrite Z.mul_0_r. cbn [natF]. cbn [zF]. ring.
    - replace (a * Z.of_nat (S n))%Z with (a + a * Z.of_nat n)%Z by lia.
      rewrite zF_add, IH. cbn [natF]. ring. }
  destruct (Z_le_gt_dec 0 b) as [Hb|Hb].
  - rewrite <- (Z2Nat.id b Hb), Hn, zF_of_nat. reflexivity.
  - remember (Z.to_nat (- b)) as n eqn:En. assert (Eb : b = (- Z.of_nat n)%Z) by lia.
    rewrite Eb. replace (a * - Z.of_nat n)%Z with (- (a * Z.of_nat n))%Z by lia.
    rewrite !zF_opp, Hn, zF_of_nat. ring.
Qed.

Lemma sumF_app l1 l2 : sumF (l1 ++ l2) = sumF l1 + sumF l2.
Proof. induction l1 as [|x l1 IH]; cbn [sumF app]; [ring|rewrite IH; ring]. Qed.

Lemma sumF_perm l1 l2 : Permutation l1 l2 -> sumF l1 = sumF l2.
Proof. induction 1; cbn [sumF]; congruence || ring. Qed.

Lemma prodF_app l1 l2 : prodF (l1 ++ l2) = prodF l1 * prodF l2.
Proof. induction l1 as [|x l1 IH]; cbn [prodF app]; [ring|rewrite IH; ring]. Qed.

Lemma prodF_perm l1 l2 : Permutation l1 l2 -> prodF l1 = prodF l2.
Proof. induction 1; cbn [prodF]; congruence || ring. Qed.

Lemma sumF_map_ext {A} (f g : A -> F) l : (forall a, In a l -> f a = g a) -> sumF (map f l) = sumF (map g l).
Proof.
  induction l as [|a l IH]; intros H; cbn [map sumF]; [reflexivity|].
  rewrite H by (left; reflexivity). rewrite IH; [reflexivity|]. intros; apply H; right; assumption.
Qed.

Lemma sumF_scale c l : sumF (map (fun a => c * a) l) = c * sumF l.
Proof. induction l as [|a l IH]; cbn [map sumF]; [ring|rewrite IH; ring]. Qed.

Lemma prodF_map_ext {A} (f g : A -> F) l : (forall a, In a l -> f a = g a) -> prodF (map f l) = prodF (map g l).
Proof.
  induction l as [|a l IH]; intros H; cbn [map prodF]; [reflexivity|].
  rewrite H by (left; reflexivity). rewrite IH; [reflexivity|]. intros; apply H; right; assumption.
Qed.

Lemma prodF_mul {A} (f g : A -> F) l : prodF (map (fun a => f a * g a) l) = prodF (map f l) * prodF (map g l).
Proof. induction l as [|a l IH]; cbn [map prodF]; [ring|rewrite IH; ring]. Qed.

Lemma prodF_neq0 l : Forall (fun a : F => a <> 0) l -> prodF l <> 0.
Proof.
  induction 1; cbn [prodF]; [exact F1_neq_0|apply Fmul_neq0; assumption].
Qed.
End Base.

Arguments npow {F} _ _. Arguments zpow {F} _ _. Arguments natF {F} _. Arguments zF {F} _.
Arguments sumF {F} _. Arguments prodF {F} _. Arguments pow_ok {F} _ _.

(** The rational numbers as an instance, for examples. *)
From Coq Require Import QArith Qcanon.
Definition Qc_Fld : Fld.
Proof.
  refine (@mkFld Qc (Q2Qc 0) (Q2Qc 1) Qcplus Qcmult Qcminus Qcopp Qcdiv Qcinv Qcft
            (fun a b => Qc_eq_bool a b) _).
  intros a b. split; intros H.
  - apply Qc_eq_bool_correct; exact H.
  - subst. unfold Qc_eq_bool. destruct (Qc_eq_dec b b); [reflexivity|congruence].
Defined.
