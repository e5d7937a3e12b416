From Coq Require Import List ZArith QArith Qcanon Bool Lia Znumtheory. Import ListNotations.
From Verif Require Import XregModel.
Local Open Scope Z_scope.
(** * integers in the rationals *)
Lemma inj_add a b : inj (a + b) = (inj a + inj b)%Qc.
Proof. unfold inj. apply Qc_is_canon. cbn [this Q2Qc Qcplus]. rewrite !Qred_correct, inject_Z_plus. reflexivity. Qed.
Lemma inj_mul a b : inj (a * b) = (inj a * inj b)%Qc.
Proof. unfold inj. apply Qc_is_canon. cbn [this Q2Qc Qcmult]. rewrite !Qred_correct, inject_Z_mult. reflexivity. Qed.
Lemma inj_opp a : inj (- a) = (- inj a)%Qc.
Proof. unfold inj. apply Qc_is_canon. cbn [this Q2Qc Qcopp]. rewrite !Qred_correct, inject_Z_opp. reflexivity. Qed.
Lemma inj_inj a b : inj a = inj b -> a = b.
Proof.
  unfold inj. intros H. assert (E : (inject_Z a == inject_Z b)%Q).
  { apply (f_equal this) in H. cbn [this Q2Qc] in H. transitivity (Qred (inject_Z a)); [symmetry; apply Qred_correct|]. rewrite H. apply Qred_correct. }
  unfold inject_Z, Qeq in E. cbn in E. lia.
Qed.
Lemma inj_0 : inj 0 = Q2Qc 0. Proof. reflexivity. Qed.
Lemma inj_1 : inj 1 = Q2Qc 1. Proof. reflexivity. Qed.
Lemma inj_neq0 a : a <> 0 -> inj a <> Q2Qc 0.
Proof. intros H E. apply H. apply inj_inj. exact E. Qed.
(** * sums of fractions with distinct prime denominators *)
Fixpoint prod2 (l : list (Z * Z)) : Z := match l with [] => 1 | (d, p) :: r => p * prod2 r end.
Fixpoint num2 (l : list (Z * Z)) : Z := match l with [] => 0 | (d, p) :: r => d * prod2 r + p * num2 r end.
Lemma qsum_cons x l : qsum (x :: l) = (x + qsum l)%Qc. Proof. reflexivity. Qed.
Definition frac (l : list (Z * Z)) : Qc := qsum (map (fun q => (inj (fst q) * / inj (snd q))%Qc) l).
Lemma prod2_neq0 l : Forall (fun q => prime (snd q)) l -> prod2 l <> 0.
Proof.
  induction 1 as [|[d p] l H _ IH]; cbn [prod2]; [discriminate|]. cbn [snd] in H. apply prime_ge_2 in H. lia.
Qed.
Lemma frac_num l : Forall (fun q => prime (snd q)) l -> (frac l * inj (prod2 l) = inj (num2 l))%Qc.
Proof.
  induction 1 as [|[d p] l H Hl IH]; [cbn [prod2 num2]; unfold frac; cbn [map qsum fold_right]; rewrite inj_0; ring|]. cbn [snd] in H.
  unfold frac. cbn [map qsum fold_right fst snd]. fold (qsum (map (fun q : Z * Z => (inj (fst q) * / inj (snd q))%Qc) l)). fold (frac l).
  cbn [prod2 num2]. rewrite inj_add, !inj_mul. rewrite <- IH. assert (P : inj p <> Q2Qc 0) by (apply inj_neq0; apply prime_ge_2 in H; lia). field. exact P.
Qed.
Lemma prime_prod p l : prime p -> Forall (fun q => prime (snd q)) l -> ~ In p (map snd l) -> ~ (p | prod2 l).
Proof.
  intros Hp. induction 1 as [|[d q] l H _ IH]; intros Hn; cbn [prod2].
  - intros D. apply prime_ge_2 in Hp. apply Z.divide_1_r_nonneg in D; lia.
  - intros D. apply prime_mult in D; [|exact Hp]. cbn [map snd] in Hn, H. destruct D as [D|D].
    + apply prime_div_prime in D; try assumption. apply Hn. left. congruence.
    + apply IH; [|exact D]. intros Hi. apply Hn. right. exact Hi.
Qed.
Lemma frac_zero l : Forall (fun q => prime (snd q) /\ Z.abs (fst q) < snd q) l -> NoDup (map snd l) -> frac l = inj 0 -> Forall (fun q => fst q = 0) l.
Proof.
  intros H. induction H as [|[d p] l [Hp Hd] Hl IH]; intros N E; [constructor|]. cbn [fst snd map] in *. inversion N as [|? ? Np Nl]; subst.
  assert (Hl' : Forall (fun q => prime (snd q)) l) by (eapply Forall_impl; [|exact Hl]; cbn; intros ? [? _]; assumption).
  assert (D0 : d = 0).
  { assert (HA : Forall (fun q : Z * Z => prime (snd q)) ((d, p) :: l)) by (constructor; [exact Hp|exact Hl']).
    apply frac_num in HA. rewrite E, inj_0 in HA. assert (Z0 : num2 ((d, p) :: l) = 0) by (apply inj_inj; rewrite <- HA, inj_0; ring). cbn [num2] in Z0.
    assert (DV : (p | d * prod2 l)) by (exists (- num2 l); lia). apply prime_mult in DV; [|exact Hp]. destruct DV as [DV|DV]; [|exfalso; apply (prime_prod p l Hp Hl' Np); exact DV].
    destruct (Z.eq_dec d 0) as [|Hne]; [assumption|]. exfalso. apply Z.divide_abs_r in DV. apply Z.divide_pos_le in DV; lia. }
  constructor; [exact D0|]. apply IH; [exact Nl|]. rewrite <- E. unfold frac. cbn [map fst snd]. rewrite qsum_cons, D0, inj_0. ring.
Qed.
(** * one attempt *)
Section Attempt.
Variable pr : Z -> Z.
Notation fill := (fill pr). Notation attempt := (attempt pr). Notation search := (search pr). Notation value := (value pr).
Lemma fill_length nb : forall k, length (fill nb k) = length nb.
Proof. induction nb as [|[|] nb IH]; intros k; cbn; auto. Qed.
Fixpoint count (nb : list bool) : Z := match nb with [] => 0 | true :: r => 1 + count r | false :: r => count r end.
Lemma fill_app nb1 : forall nb2 k, fill (nb1 ++ nb2) k = fill nb1 k ++ fill nb2 (k + count nb1).
Proof.
  induction nb1 as [|[|] nb1 IH]; intros nb2 k; cbn [app XregModel.fill count]; [f_equal; lia| |]; rewrite IH.
  - do 2 f_equal. f_equal. lia.
  - reflexivity.
Qed.
Lemma fill_false nb k : Forall (fun b => b = false) nb -> fill nb k = map (fun _ => inj 0) nb.
Proof. induction 1 as [|b nb -> _ IH]; [reflexivity|]. cbn. rewrite IH. reflexivity. Qed.
Lemma last_false nb : Forall (fun b => b = false) nb -> forall i o, last_needed nb i o = o.
Proof. induction 1 as [|b nb -> _ IH]; intros i o; cbn; auto. Qed.
Lemma last_app nb1 : forall nb2 i o, last_needed (nb1 ++ nb2) i o = last_needed nb2 (i + length nb1)%nat (last_needed nb1 i o).
Proof. induction nb1 as [|b nb1 IH]; intros nb2 i o; cbn [app last_needed length]; [f_equal; lia|]. rewrite IH. f_equal. lia. Qed.
Lemma set_mid u x y v : set_at (length u) x (u ++ y :: v) = u ++ x :: v.
Proof. induction u as [|a u IH]; cbn; [reflexivity|]. rewrite IH. reflexivity. Qed.
Lemma qsum_app a b : qsum (a ++ b) = (qsum a + qsum b)%Qc.
Proof. induction a as [|x a IH]; cbn [app]; [change (qsum []) with (inj 0); rewrite inj_0; ring|]. rewrite !qsum_cons, IH. ring. Qed.
Lemma qsum_zeros {A} (l : list A) : qsum (map (fun _ => inj 0) l) = inj 0.
Proof. induction l as [|x l IH]; [reflexivity|]. cbn [map]. rewrite qsum_cons, IH, inj_0. ring. Qed.
Lemma split_last (nb : list bool) : (Forall (fun b => b = false) nb) \/ exists nb1 nb2, nb = nb1 ++ true :: nb2 /\ Forall (fun b => b = false) nb2.
Proof.
  induction nb as [|b nb IH]; [left; constructor|]. destruct IH as [H|(nb1 & nb2 & -> & H)].
  - destruct b; [right; exists [], nb; split; [reflexivity|exact H]|left; constructor; [reflexivity|exact H]].
  - right. exists (b :: nb1), nb2. split; [reflexivity|exact H].
Qed.
Lemma attempt_eq nb1 nb2 z : Forall (fun b => b = false) nb2 ->
  attempt (nb1 ++ true :: nb2) z = Some (fill nb1 (- z) ++ (- qsum (fill nb1 (- z)))%Qc :: map (fun _ => inj 0) nb2).
Proof.
  intros H. unfold attempt, XregModel.attempt. rewrite last_app. cbn [last_needed]. rewrite (last_false nb2 H), Nat.add_0_l.
  rewrite fill_app. cbn [XregModel.fill]. rewrite (fill_false nb2 _ H). rewrite <- (fill_length nb1 (- z)). rewrite !set_mid. f_equal. f_equal. f_equal.
  f_equal. rewrite qsum_app, qsum_cons, qsum_zeros, inj_0. ring.
Qed.
Lemma dot_app r1 : forall e1 r2 e2, length r1 = length e1 -> dot (r1 ++ r2) (e1 ++ e2) = (dot r1 e1 + dot r2 e2)%Qc.
Proof.
  unfold dot. induction r1 as [|x r1 IH]; intros [|y e1] r2 e2 L; try discriminate; cbn [app combine map].
  - change (qsum []) with (inj 0). rewrite inj_0. ring.
  - rewrite !qsum_cons, IH by (cbn in L; lia). ring.
Qed.
Lemma dot_zeros {A} (l : list A) : forall r, dot r (map (fun _ => inj 0) l) = inj 0.
Proof.
  unfold dot. induction l as [|x l IH]; intros [|y r]; try reflexivity. cbn [map combine fst snd]. rewrite qsum_cons, IH, inj_0. ring.
Qed.
Lemma dot_shift x r : forall e, length r = length e -> (dot r e + inj x * - qsum e = dot (map (fun y => (y - x)%Z) r) e)%Qc.
Proof.
  unfold dot. induction r as [|y r IH]; intros [|v e] L; try discriminate; [cbn [combine map]; change (qsum []) with (inj 0); rewrite inj_0; ring|]. cbn [combine map fst snd].
  rewrite !qsum_cons, <- IH by (cbn in L; lia). replace (y - x) with (y + - x) by ring. rewrite inj_add, inj_opp. ring.
Qed.
Lemma attempt_dot nb1 nb2 z e r1 x r2 : Forall (fun b => b = false) nb2 -> attempt (nb1 ++ true :: nb2) z = Some e -> length r1 = length nb1 ->
  dot (r1 ++ x :: r2) e = dot (map (fun y => y - x) r1) (fill nb1 (- z)).
Proof.
  intros H E L. rewrite (attempt_eq nb1 nb2 z H) in E. injection E as <-. assert (L' : length r1 = length (fill nb1 (- z))) by (rewrite fill_length; exact L).
  rewrite dot_app by exact L'. rewrite <- dot_shift by exact L'. f_equal. change (dot (x :: r2) ((- qsum (fill nb1 (- z)))%Qc :: map (fun _ => inj 0) nb2)) with (inj x * - qsum (fill nb1 (- z)) + dot r2 (map (fun _ => inj 0) nb2))%Qc.
  rewrite dot_zeros, inj_0. ring.
Qed.
(** the terms of the dot product *)
Fixpoint terms (nb : list bool) (r : list Z) (k : Z) : list (Z * Z) :=
  match nb, r with true :: nb, x :: r => (x, pr k) :: terms nb r (k + 1) | false :: nb, _ :: r => terms nb r k | _, _ => [] end.
Lemma dot_terms nb : forall r k, 1 <= k -> dot r (fill nb k) = frac (terms nb r k).
Proof.
  unfold dot, frac. induction nb as [|[|] nb IH]; intros [|x r] k Hk; try reflexivity; cbn [XregModel.fill combine map fst snd terms]; rewrite ?qsum_cons, IH by lia.
  - unfold XregModel.value. replace (k <? 0) with false by lia. replace (k <? 1) with false by lia. reflexivity.
  - rewrite inj_0. ring.
Qed.
Hypothesis Hpr : forall k, 1 <= k -> prime (pr k) /\ pr k < pr (k + 1).
Lemma pr_mono k j : 1 <= k -> k < j -> pr k < pr j.
Proof.
  intros Hk Hj. replace j with (k + 1 + Z.of_nat (Z.to_nat (j - k - 1))) by lia. induction (Z.to_nat (j - k - 1)) as [|m IH]; [rewrite Z.add_0_r; apply Hpr, Hk|].
  etransitivity; [exact IH|]. replace (k + 1 + Z.of_nat (S m)) with (k + 1 + Z.of_nat m + 1) by lia. apply Hpr. lia.
Qed.
Lemma pr_big k : 1 <= k -> k < pr k.
Proof.
  intros Hk. replace k with (1 + Z.of_nat (Z.to_nat (k - 1))) by lia. induction (Z.to_nat (k - 1)) as [|m IH]; [destruct (Hpr 1 ltac:(lia)) as [P _]; apply prime_ge_2 in P; cbn; lia|].
  replace (1 + Z.of_nat (S m)) with (1 + Z.of_nat m + 1) by lia. destruct (Hpr (1 + Z.of_nat m) ltac:(lia)) as [_ P]. lia.
Qed.
Lemma terms_ok B nb : forall r k, 1 <= k -> B <= k -> Forall (fun x => Z.abs x <= B) r ->
  Forall (fun q => prime (snd q) /\ Z.abs (fst q) < snd q) (terms nb r k) /\ NoDup (map snd (terms nb r k)) /\ Forall (fun p => pr k <= p) (map snd (terms nb r k)).
Proof.
  induction nb as [|[|] nb IH]; intros [|x r] k Hk HB Hr; cbn [terms map]; try solve [split; [constructor|split; constructor]].
  - inversion Hr as [|? ? Hx Hr']; subst. destruct (IH r (k + 1) ltac:(lia) ltac:(lia) Hr') as (A1 & A2 & A3). pose proof (pr_big k Hk) as PB. destruct (Hpr k Hk) as [P1 P2].
    split; [constructor; [cbn [fst snd]; split; [exact P1|lia]|exact A1]|]. cbn [snd]. split.
    + constructor; [|exact A2]. intros Hi. rewrite Forall_forall in A3. apply A3 in Hi. lia.
    + constructor; [lia|]. eapply Forall_impl; [|exact A3]. cbn. intros. lia.
  - inversion Hr as [|? ? Hx Hr']; subst. apply IH; assumption.
Qed.
Fixpoint agree (nb : list bool) (r : list Z) (x : Z) : Prop :=
  match nb, r with b :: nb, y :: r => (b = true -> y = x) /\ agree nb r x | _, _ => True end.
Lemma terms_zero x nb : forall r k, Forall (fun q => fst q = 0) (terms nb (map (fun y => y - x) r) k) -> agree nb r x.
Proof.
  induction nb as [|[|] nb IH]; intros [|y r] k H; cbn [agree terms map] in *; try exact I.
  - inversion H as [|? ? H1 H2]; subst. cbn [fst] in H1. split; [intros _; lia|eapply IH; exact H2].
  - split; [discriminate|eapply IH; exact H].
Qed.
Lemma agree_zero x nb : forall r k, agree nb r x -> dot (map (fun y => y - x) r) (fill nb k) = inj 0.
Proof.
  unfold dot. induction nb as [|[|] nb IH]; intros [|y r] k H; try reflexivity; destruct H as [H1 H2]; cbn [XregModel.fill combine map fst snd]; rewrite qsum_cons, IH by exact H2.
  - rewrite (H1 eq_refl), Z.sub_diag, inj_0. ring.
  - rewrite inj_0. ring.
Qed.
(** * the search *)
Definition passes (constr : list (list Z)) (e : list Qc) : Prop := Forall (fun row => dot row e <> inj 0) constr.
Lemma pass_dec constr e : forallb (fun row => negb (if Qc_eq_dec (dot row e) (inj 0) then true else false)) constr = true <-> passes constr e.
Proof.
  unfold passes. rewrite forallb_forall, Forall_forall. split; intros H row Hr; specialize (H row Hr); destruct (Qc_eq_dec (dot row e) (inj 0)); cbn in *; congruence.
Qed.
Lemma search_sound fuel constr nb : forall z e, search fuel constr nb z = Some e -> exists z', attempt nb z' = Some e /\ passes constr e.
Proof.
  induction fuel as [|fuel IH]; intros z e E; [discriminate|]. cbn [XregModel.search] in E. fold (attempt nb z) in E. destruct (attempt nb z) as [e'|] eqn:Ea; [|discriminate].
  destruct (forallb _ constr) eqn:Ef; [|apply IH in E; exact E]. injection E as <-. exists z. split; [exact Ea|apply pass_dec, Ef].
Qed.
Lemma search_reach constr nb1 nb2 t : Forall (fun b => b = false) nb2 -> forall z e, attempt (nb1 ++ true :: nb2) (z - Z.of_nat t) = Some e -> passes constr e ->
  exists e', forall fuel, (S t <= fuel)%nat -> search fuel constr (nb1 ++ true :: nb2) z = Some e'.
Proof.
  intros H. induction t as [|t IH]; intros z e E P.
  - exists e. intros [|fuel] Hf; [lia|]. cbn [XregModel.search]. replace z with (z - Z.of_nat 0) by lia. rewrite E. apply pass_dec in P. rewrite P. reflexivity.
  - pose proof (attempt_eq nb1 nb2 z H) as Ez. set (e0 := fill nb1 (- z) ++ _ :: _) in Ez. destruct (forallb (fun row => negb (if Qc_eq_dec (dot row e0) (inj 0) then true else false)) constr) eqn:Ef.
    + exists e0. intros [|fuel] Hf; [lia|]. cbn [XregModel.search]. rewrite Ez, Ef. reflexivity.
    + destruct (IH (z - 1) e) as [e' He']; [rewrite <- E; f_equal; lia|exact P|]. exists e'. intros [|fuel] Hf; [lia|]. cbn [XregModel.search]. rewrite Ez, Ef. apply He'. lia.
Qed.
Lemma bound (constr : list (list Z)) : exists B, 0 <= B /\ forall row x y, In row constr -> In x row -> In y row -> Z.abs (x - y) <= B.
Proof.
  induction constr as [|row constr (B & H0 & HB)]; [exists 0; split; [lia|intros ? ? ? []]|].
  assert (M : exists M, 0 <= M /\ forall x, In x row -> Z.abs x <= M).
  { clear. induction row as [|x row (M & H0 & HM)]; [exists 0; split; [lia|intros ? []]|]. exists (Z.max M (Z.abs x)). split; [lia|]. intros y [<-|Hy]; [lia|]. specialize (HM y Hy). lia. }
  destruct M as (M & M0 & HM). exists (Z.max B (2 * M)). split; [lia|]. intros r x y [<-|Hr] Hx Hy; [pose proof (HM x Hx); pose proof (HM y Hy); lia|]. specialize (HB r x y Hr Hx Hy). lia.
Qed.
Definition mixed (nb1 : list bool) (row : list Z) : Prop := exists r1 x r2, row = r1 ++ x :: r2 /\ length r1 = length nb1 /\ ~ agree nb1 r1 x.
Theorem search_terminates constr nb1 nb2 n : Forall (fun b => b = false) nb2 -> Forall (mixed nb1) constr ->
  exists e fuel0, forall fuel, (fuel0 <= fuel)%nat -> search fuel constr (nb1 ++ true :: nb2) n = Some e.
Proof.
  intros H HM. destruct (bound constr) as (B & B0 & HB). set (k := B + 1 + Z.max 0 (- n)).
  pose proof (attempt_eq nb1 nb2 (- k) H) as Ez. set (e := fill nb1 (- (- k)) ++ _ :: _) in Ez.
  destruct (search_reach constr nb1 nb2 (Z.to_nat (n + k)) H n e) as [e' He']; [rewrite <- Ez; f_equal; lia| |exists e', (S (Z.to_nat (n + k))); exact He'].
  apply Forall_forall. intros row Hr. rewrite Forall_forall in HM. destruct (HM row Hr) as (r1 & x & r2 & -> & L & NA).
  rewrite (attempt_dot nb1 nb2 (- k) e r1 x r2 H Ez L). rewrite Z.opp_involutive. rewrite dot_terms by lia. intros E0. apply NA. eapply (terms_zero x nb1 r1 k).
  assert (HF : Forall (fun y => Z.abs y <= B) (map (fun y => y - x) r1)).
  { apply Forall_forall. intros y Hy. apply in_map_iff in Hy. destruct Hy as (y0 & <- & Hy). apply (HB (r1 ++ x :: r2)); [exact Hr|apply in_or_app; left; exact Hy|apply in_or_app; right; left; reflexivity]. }
  destruct (terms_ok B nb1 (map (fun y => y - x) r1) k ltac:(lia) ltac:(lia) HF) as (A1 & A2 & _). apply frac_zero; assumption.
Qed.
Theorem search_stuck constr nb1 nb2 r1 x r2 : Forall (fun b => b = false) nb2 -> In (r1 ++ x :: r2) constr -> length r1 = length nb1 -> agree nb1 r1 x ->
  forall fuel z, search fuel constr (nb1 ++ true :: nb2) z = None.
Proof.
  intros H Hin L A fuel z. destruct (search fuel constr (nb1 ++ true :: nb2) z) as [e|] eqn:E; [|reflexivity]. exfalso.
  apply search_sound in E. destruct E as (z' & Ea & P). unfold passes in P. rewrite Forall_forall in P. apply (P _ Hin). rewrite (attempt_dot nb1 nb2 z' e r1 x r2 H Ea L). apply agree_zero, A.
Qed.
End Attempt.
