(** C50, C53, C63, C64: series, weights, variances and notations of disteval and formset. *)
From Coq Require Import Lra QArith Qcanon.
From Verif Require Import DistProofs.
Local Open Scope Z_scope.

(** * C50 *)
Section C50.
Context {F : Fld}.
Local Open Scope fld_scope.
Add Field c50_field : (@f_th F).
(** [k <= mx] componentwise *)
Definition below (k mx : order) : Prop := Forall2 Z.le k mx.
Lemma oleb_below k mx : length k = length mx -> oleb k mx = true <-> below k mx.
Proof.
  unfold below. revert mx. induction k as [|x k IH]; intros [|y mx] H; cbn in *; try discriminate; [split; [constructor|reflexivity]|]. rewrite andb_true_iff, Z.leb_le, IH by lia. split; [intros []; constructor; assumption|intros G; inversion G; subst; auto].
Qed.
(** dictionaries with orders in [d] regulators *)
Definition is_series (d : nat) (br : bracket F) : Prop := NoDup (map fst br) /\ forall k, In k (map fst br) -> length k = d.
Fixpoint ominus (a b : order) : order := match a, b with x :: a', y :: b' => (x - y)%Z :: ominus a' b' | _, _ => [] end.
Lemma oadd_ominus a b k : length a = length b -> length a = length k -> oadd a b = k <-> b = ominus k a.
Proof.
  revert b k. induction a as [|x a IH]; intros [|y b] [|z k] H1 H2; cbn in *; try discriminate; [tauto|]. split.
  - intros [= Ez Ek]. subst z. f_equal; [lia|]. apply IH; [lia|lia|exact Ek].
  - intros [= Ey Eb]. subst y. f_equal; [lia|]. apply IH; [lia|lia|exact Eb].
Qed.
(** the coefficients of the result are those of the product of the series, up to the requested powers, and zero beyond:
    coefficient k is the sum over the orders k1 of the first factor of coefficient k1 times coefficient k - k1 *)
Theorem C50_cauchy_product : forall d (br1 br2 : bracket F) mx k, is_series d br1 -> is_series d br2 -> length mx = d -> length k = d ->
  (below k mx -> coef (bracket_mul br1 br2 mx fmul) k = sum (map fst br1) (fun k1 => coef br1 k1 * coef br2 (ominus k k1)))
  /\ (~ below k mx -> coef (bracket_mul br1 br2 mx fmul) k = 0).
Proof.
  intros d br1 br2 mx k [N1 L1] [N2 L2] Lm Lk. rewrite bracket_mul_coef. split; intros Hb.
  - assert (Hl : oleb k mx = true) by (apply oleb_below; [congruence|exact Hb]). unfold sum at 3. rewrite map_map. fold (sum br1 (fun x => coef br1 (fst x) * coef br2 (ominus k (fst x)))). apply sum_ext. intros [k1 v1] H1. cbn [fst snd].
    assert (E1 : coef br1 k1 = v1) by (unfold coef; rewrite (bget_first k1 br1 v1 N1 H1); reflexivity). rewrite E1, (coef_sum br2 _ N2), <- sum_mul. apply sum_ext. intros [k2 v2] H2. cbn [fst snd]. rewrite Hl, andb_true_r.
    assert (Hk1 : length k1 = d) by (apply L1; apply in_map_iff; exists (k1, v1); auto). assert (Hk2 : length k2 = d) by (apply L2; apply in_map_iff; exists (k2, v2); auto).
    destruct (oeqb (oadd k1 k2) k) eqn:E.
    + apply oeqb_spec in E. apply oadd_ominus in E; [|congruence|congruence]. replace (oeqb k2 (ominus k k1)) with true by (symmetry; apply oeqb_spec; exact E). reflexivity.
    + replace (oeqb k2 (ominus k k1)) with false; [ring|]. symmetry. apply oeqb_false. intros G. apply oeqb_false in E. apply E. apply oadd_ominus; [congruence|congruence|exact G].
  - apply sum_zero. intros p1 _. apply sum_zero. intros p2 _. replace (oleb k mx) with false; [rewrite andb_false_r; reflexivity|]. symmetry. apply not_true_is_false. intros G. apply Hb. apply oleb_below; [congruence|exact G].
Qed.
(** with any other multiplication of the coefficients; and the orders present are exactly the sums within the bounds *)
Theorem C50_general : forall d (br1 br2 : bracket F) mx mul, is_series d br1 -> is_series d br2 -> length mx = d ->
  is_series d (bracket_mul br1 br2 mx mul)
  /\ (forall k, In k (map fst (bracket_mul br1 br2 mx mul)) <-> below k mx /\ exists k1 k2, In k1 (map fst br1) /\ In k2 (map fst br2) /\ k = oadd k1 k2)
  /\ (forall k, below k mx -> coef (bracket_mul br1 br2 mx mul) k = sum (list_prod br1 br2) (fun q => if oeqb (oadd (fst (fst q)) (fst (snd q))) k then mul (snd (fst q)) (snd (snd q)) else 0)).
Proof.
  intros d br1 br2 mx mul [N1 L1] [N2 L2] Lm.
  assert (Hlen : forall k1 k2, In k1 (map fst br1) -> In k2 (map fst br2) -> length (oadd k1 k2) = d) by (intros k1 k2 H1 H2; rewrite oadd_len; [apply L1, H1|rewrite (L1 k1 H1), (L2 k2 H2); reflexivity]).
  split; [|split].
  - split; [apply bracket_mul_nodup|]. intros k Hk. apply bracket_mul_keys in Hk as (_ & k1 & k2 & H1 & H2 & ->). apply Hlen; assumption.
  - intros k. rewrite bracket_mul_keys. split; (intros [Hl (k1 & k2 & H1 & H2 & ->)]; split; [|eauto]); (apply oleb_below; [rewrite (Hlen k1 k2 H1 H2); congruence|exact Hl]).
  - intros k Hk. rewrite bracket_mul_coef. assert (Hl : oleb k mx = true). { apply oleb_below; [|exact Hk]. clear - Hk. induction Hk; cbn; [reflexivity|lia]. } rewrite Hl. clear.
    induction br1 as [|p1 br1 IH]; [reflexivity|]. cbn [list_prod]. rewrite sum_cons, sum_app, IH. f_equal. unfold sum. rewrite map_map. f_equal. apply map_ext. intros p2. cbn [fst snd]. rewrite andb_true_r. reflexivity.
Qed.
End C50.
Print Assumptions C50_cauchy_product. Print Assumptions C50_general.

Definition qz (z : Z) : Qc_Fld := Q2Qc (inject_Z z).
Definition ex_a : bracket Qc_Fld := [([-1], qz 2); ([0], qz 3)].
Definition ex_b : bracket Qc_Fld := [([0], qz 5); ([1], qz 7)].
Example C50_ex : is_series 1 ex_a /\ is_series 1 ex_b /\ map fst (bracket_mul ex_a ex_b [0] fmul) = [[-1]; [0]] /\ coef (bracket_mul ex_a ex_b [0] fmul) [0] = qz 29.
Proof.
  split; [|split; [|split]]; [| |reflexivity|vm_compute; reflexivity]; (split; [cbn; repeat constructor; cbn; intuition discriminate|cbn; intuition subst; reflexivity]).
Qed.

(** * C63 *)
Section C63.
Context {F : Fld}.
Local Open Scope fld_scope.
Add Field c63_field : (@f_th F).
(** coefficient of order p in the product of three series *)
Definition coef3 (P C K : list (order * F)) (p : order) : F :=
  sum P (fun a => sum C (fun b => sum K (fun k => if oeqb (oadd (oadd (fst a) (fst b)) (fst k)) p then snd a * snd b * snd k else 0))).
(** the expansion of the integral given the values of its kernels *)
Definition kernel_series (kern_orders : list (order * list nat)) (val : list F) : list (order * F) :=
  map (fun o => (fst o, sum (snd o) (fun k => nth k val 0))) kern_orders.
(** pointwise view *)
Local Notation "a @ i" := (nth i a 0%Z) (at level 30).
Lemma below_nth a b : length a = length b -> below a b <-> forall i, (a @ i <= b @ i)%Z.
Proof.
  unfold below. revert b. induction a as [|x a IH]; intros [|y b] H; cbn in *; try discriminate.
  - split; [intros _ [|i]; lia|constructor].
  - split; [intros G; inversion G; subst; intros [|i]; [assumption|]; apply IH; [lia|assumption]|]. intros G. constructor; [apply (G O)|]. apply IH; [lia|]. intros i. apply (G (S i)).
Qed.
Lemma nth_oadd a b i : length a = length b -> ((oadd a b) @ i = a @ i + b @ i)%Z.
Proof. revert b i. induction a as [|x a IH]; intros [|y b] [|i] H; cbn in *; try discriminate; try reflexivity. apply IH. lia. Qed.
Lemma nth_opp a i : ((map Z.opp a) @ i = - a @ i)%Z.
Proof. revert i. induction a as [|x a IH]; intros [|i]; cbn; try reflexivity. apply IH. Qed.
Lemma ozip_len f a b : length a = length b -> length (ozip f a b) = length a.
Proof. revert b. induction a as [|x a IH]; intros [|y b] H; cbn in *; try discriminate; [reflexivity|]. f_equal. apply IH. lia. Qed.
Lemma nth_ozip f a b i : f 0%Z 0%Z = 0%Z -> length a = length b -> (ozip f a b) @ i = f (a @ i) (b @ i).
Proof. intros H0. revert b i. induction a as [|x a IH]; intros [|y b] [|i] H; cbn in *; try discriminate; auto. Qed.
Lemma ofold_spec f d : f 0%Z 0%Z = 0%Z -> forall l a, length a = d -> (forall x, In x l -> length x = d) -> length (fold_left (ozip f) l a) = d /\ forall i, (fold_left (ozip f) l a) @ i = fold_left f (map (fun x => x @ i) l) (a @ i).
Proof.
  intros H0. induction l as [|x l IH]; intros a Ha Hl; cbn [fold_left map]; [auto|]. assert (Hx : length x = d) by (apply Hl; left; reflexivity). destruct (IH (ozip f a x)) as [I1 I2]; [rewrite ozip_len; congruence|intros y Hy; apply Hl; right; exact Hy|]. split; [exact I1|]. intros i. rewrite I2, nth_ozip by congruence. reflexivity.
Qed.
Lemma omin_spec d l : l <> [] -> (forall x, In x l -> length x = d) -> length (omin l) = d /\ forall x i, In x l -> ((omin l) @ i <= x @ i)%Z.
Proof.
  destruct l as [|a l]; intros Hne Hl; [congruence|]. unfold omin. destruct (ofold_spec Z.min d eq_refl l a) as [I1 I2]; [apply Hl; left; reflexivity|intros y Hy; apply Hl; right; exact Hy|]. split; [exact I1|]. intros x i Hx. rewrite I2. clear I1 I2 Hl Hne.
  assert (G : forall m z, (fold_left Z.min m z <= z)%Z /\ forall y, In y m -> (fold_left Z.min m z <= y)%Z).
  { induction m as [|w m IH]; intros z; cbn [fold_left]; [split; [lia|intros y []]|]. destruct (IH (Z.min z w)) as [J1 J2]. split; [lia|]. intros y [<-|Hy]; [lia|apply J2, Hy]. }
  destruct Hx as [->|Hx]; [apply (proj1 (G _ _))|]. apply (proj2 (G _ _)). apply in_map_iff. exists x. auto.
Qed.
Lemma omax_spec d l : l <> [] -> (forall x, In x l -> length x = d) -> length (omax l) = d /\ forall x i, In x l -> (x @ i <= (omax l) @ i)%Z.
Proof.
  destruct l as [|a l]; intros Hne Hl; [congruence|]. unfold omax. destruct (ofold_spec Z.max d eq_refl l a) as [I1 I2]; [apply Hl; left; reflexivity|intros y Hy; apply Hl; right; exact Hy|]. split; [exact I1|]. intros x i Hx. rewrite I2. clear I1 I2 Hl Hne.
  assert (G : forall m z, (z <= fold_left Z.max m z)%Z /\ forall y, In y m -> (y <= fold_left Z.max m z)%Z).
  { induction m as [|w m IH]; intros z; cbn [fold_left]; [split; [lia|intros y []]|]. destruct (IH (Z.max z w)) as [J1 J2]. split; [lia|]. intros y [<-|Hy]; [lia|apply J2, Hy]. }
  destruct Hx as [->|Hx]; [apply (proj1 (G _ _))|]. apply (proj2 (G _ _)). apply in_map_iff. exists x. auto.
Qed.
(** a linear functional of the truncated product *)
Lemma lin_bset (g : order -> F) key v (br : bracket F) : NoDup (map fst br) -> sum (bset key (match bget key br with Some x => x | None => 0 end + v) br) (fun pc => snd pc * g (fst pc)) = sum br (fun pc => snd pc * g (fst pc)) + v * g key.
Proof.
  induction br as [|[a u] br IH]; intros Hn; cbn [bset bget]; [rewrite sum_cons, sum_nil; cbn [fst snd]; ring|]. cbn [map fst] in Hn. inversion Hn as [|? ? Ha Hd]; subst. destruct (oeqb key a) eqn:E.
  - apply oeqb_spec in E. subst a. rewrite !sum_cons. cbn [fst snd]. ring.
  - rewrite !sum_cons, IH by exact Hd. cbn [fst snd]. ring.
Qed.
Lemma lin_bracket_mul (g : order -> F) (br1 br2 : bracket F) mx : sum (bracket_mul br1 br2 mx fmul) (fun pc => snd pc * g (fst pc)) =
  sum br1 (fun p1 => sum br2 (fun p2 => if oleb (oadd (fst p1) (fst p2)) mx then snd p1 * snd p2 * g (oadd (fst p1) (fst p2)) else 0)).
Proof.
  unfold bracket_mul. enough (H : forall br, NoDup (map fst br) -> let r := fold_left (fun br p1 => fold_left (fun br p2 => bmul_entry mx fmul br (fst p1) (snd p1) (fst p2) (snd p2)) br2 br) br1 br in
    sum r (fun pc => snd pc * g (fst pc)) = sum br (fun pc => snd pc * g (fst pc)) + sum br1 (fun p1 => sum br2 (fun p2 => if oleb (oadd (fst p1) (fst p2)) mx then snd p1 * snd p2 * g (oadd (fst p1) (fst p2)) else 0))).
  { cbn zeta in H. rewrite H by constructor. rewrite sum_nil. ring. }
  induction br1 as [|p1 br1 IH]; intros br Hn; cbn [fold_left]; cbn zeta; [rewrite sum_nil; ring|].
  assert (H : forall b2 br, NoDup (map fst br) -> let r := fold_left (fun br p2 => bmul_entry mx fmul br (fst p1) (snd p1) (fst p2) (snd p2)) b2 br in NoDup (map fst r) /\
     sum r (fun pc => snd pc * g (fst pc)) = sum br (fun pc => snd pc * g (fst pc)) + sum b2 (fun p2 => if oleb (oadd (fst p1) (fst p2)) mx then snd p1 * snd p2 * g (oadd (fst p1) (fst p2)) else 0)).
  { clear. induction b2 as [|p2 b2 IH]; intros br Hn; cbn [fold_left]; cbn zeta; [split; [exact Hn|rewrite sum_nil; ring]|]. unfold bmul_entry at 2 4. rewrite sum_cons. destruct (oleb (oadd (fst p1) (fst p2)) mx).
    - destruct (IH _ (bset_nodup (oadd (fst p1) (fst p2)) (match bget (oadd (fst p1) (fst p2)) br with Some x => x | None => 0 end + snd p1 * snd p2) br Hn)) as [J1 J2]. split; [exact J1|]. cbn zeta in J2. rewrite J2, lin_bset by exact Hn. ring.
    - destruct (IH br Hn) as [J1 J2]. split; [exact J1|]. cbn zeta in J2. rewrite J2. ring. }
  destruct (H br2 br Hn) as [H1 H2]. cbn zeta in *. rewrite IH by exact H1. rewrite H2, sum_cons. ring.
Qed.
Lemma oadd_len2 d a b : length a = d -> length b = d -> length (oadd a b) = d.
Proof. intros. rewrite oadd_len; congruence. Qed.
(** shapes: every order has d components, nothing is empty *)
Definition shape {V} (d : nat) (l : list (order * V)) : Prop := l <> [] /\ forall k, In k (map fst l) -> length k = d.
Definition highest_known (kern_orders : list (order * list nat)) (br_pref br_coef : bracket F) : order :=
  oadd (oadd (omin (map fst br_pref)) (omin (map fst br_coef))) (omax (map fst kern_orders)).
(** the weights of the kernels give, for each order up to the requested and the highest known one, the coefficient of
    prefactor * coefficient * integral, added to what other integrals contribute; nothing is stored for other orders *)
Theorem C63_weights : forall d nkern orders kern_orders br_pref br_coef requested val,
  shape d kern_orders -> shape d br_pref -> shape d br_coef -> length requested = d ->
  rows_ok nkern orders -> length val = nkern -> Forall (fun o => Forall (fun k => (k < nkern)%nat) (snd o)) kern_orders ->
  let res := split_integral nkern orders kern_orders br_pref br_coef requested in
  rows_ok nkern res
  /\ (forall p, length p = d -> below p requested -> below p (highest_known kern_orders br_pref br_coef) ->
        weighted res val p = weighted orders val p + coef3 br_pref br_coef (kernel_series kern_orders val) p)
  /\ (forall p, length p = d -> ~ (below p requested /\ below p (highest_known kern_orders br_pref br_coef)) -> weighted res val p = weighted orders val p)
  /\ (forall p, In p (map fst res) -> In p (map fst orders) \/ (below p requested /\ below p (highest_known kern_orders br_pref br_coef))).
Proof.
  intros d nkern orders ko bp bc req val [Nk Sk] [Np Sp] [Nc Sc] Lr Hrows Hval Hk res.
  assert (Mk : map fst ko <> []) by (destruct ko; [congruence|discriminate]). assert (Mp : map fst bp <> []) by (destruct bp; [congruence|discriminate]). assert (Mc : map fst bc <> []) by (destruct bc; [congruence|discriminate]).
  destruct (omin_spec d _ Mk Sk) as [Kl Kmin]. destruct (omin_spec d _ Mp Sp) as [Pl _]. destruct (omin_spec d _ Mc Sc) as [Cl _]. destruct (omax_spec d _ Mk Sk) as [Kh _].
  assert (Lh : length (highest_known ko bp bc) = d) by (unfold highest_known; repeat apply oadd_len2; assumption).
  destruct (split_weighted nkern orders ko bp bc req val Hrows Hval Hk) as (S1 & S2 & S3). cbn zeta in S1, S2, S3. fold res in S1, S2, S3. fold (highest_known ko bp bc) in S2, S3. split; [exact S1|]. split; [|split].
  - intros p Lp Hr Hh. rewrite S2. f_equal. assert (E1 : oleb p req = true) by (apply oleb_below; [congruence|exact Hr]). assert (E2 : oleb p (highest_known ko bp bc) = true) by (apply oleb_below; [congruence|exact Hh]). rewrite E1, E2. cbn [andb].
    unfold coef3, kernel_series. transitivity (sum ko (fun o => sum bp (fun a => sum bc (fun b => if oeqb (oadd (oadd (fst a) (fst b)) (fst o)) p then snd a * snd b * sum (snd o) (fun k => nth k val 0) else 0)))).
    + apply sum_ext. intros o Ho. set (v := sum (snd o) _).
      rewrite (sum_ext _ _ (fun pc => snd pc * (if oeqb (oadd (fst o) (fst pc)) p then v else 0))) by (intros pc _; destruct (oeqb _ _); ring).
      rewrite (lin_bracket_mul (fun q => if oeqb (oadd (fst o) q) p then v else 0)). apply sum_ext. intros a Ha. apply sum_ext. intros b Hb. rewrite (oadd_comm (fst o)).
      assert (La : length (fst a) = d) by (apply Sp, in_map, Ha). assert (Lb : length (fst b) = d) by (apply Sc, in_map, Hb). assert (Lo : length (fst o) = d) by (apply Sk, in_map, Ho).
      assert (Lab : length (oadd (fst a) (fst b)) = d) by (rewrite oadd_len; congruence).
      destruct (oeqb (oadd (oadd (fst a) (fst b)) (fst o)) p) eqn:E; [|match goal with |- context [if ?c then _ else _] => destruct c end; ring].
      replace (oleb (oadd (fst a) (fst b)) (oadd (map Z.opp (omin (map fst ko))) req)) with true; [reflexivity|]. symmetry.
      assert (Lx : length (oadd (map Z.opp (omin (map fst ko))) req) = d) by (rewrite oadd_len; rewrite map_length; congruence).
      apply oleb_below; [congruence|]. apply below_nth; [congruence|]. intros i. rewrite (nth_oadd (map Z.opp _)) by (rewrite map_length; congruence). rewrite nth_opp. apply oeqb_spec in E. apply (f_equal (fun z => z @ i)) in E. rewrite nth_oadd in E by congruence.
      pose proof (proj1 (below_nth p req ltac:(congruence)) Hr i) as B. pose proof (Kmin (fst o) i (in_map fst _ _ Ho)) as M. lia.
    + rewrite sum_swap. apply sum_ext. intros a Ha. rewrite sum_swap. apply sum_ext. intros b Hb. unfold sum at 3. rewrite map_map. reflexivity.
  - intros p Lp Hn. rewrite S2. replace (oleb p req && oleb p (highest_known ko bp bc)) with false; [ring|]. symmetry. apply not_true_is_false. intros G. apply andb_prop in G as [G1 G2]. apply Hn. split; (apply oleb_below; [congruence|assumption]).
  - intros p Hp. apply S3 in Hp as [Hp|(H1 & H2 & o & pc & Ho & Hpc & ->)]; [auto|]. right. assert (L : length (oadd (fst o) (fst pc)) = d).
    { assert (length (fst o) = d) by (apply Sk, in_map, Ho). rewrite oadd_len; [assumption|]. apply in_map with (f := fst) in Hpc. apply bracket_mul_keys in Hpc as (_ & k1 & k2 & Hk1 & Hk2 & ->). rewrite oadd_len; rewrite (Sp k1 Hk1); [congruence|rewrite (Sc k2 Hk2); reflexivity]. }
    split; (apply oleb_below; [congruence|assumption]).
Qed.
(** these are the true coefficients: terms of the coefficient beyond the order that was asked for (line 497:
    requested - leading order of the kernels - leading order of the prefactor) and orders of the integral beyond the computed
    ones do not contribute *)
Theorem C63_truncation_is_harmless : forall d kern_orders (br_pref br_coef more_coef : bracket F) (kern more_kern : bracket F) requested p,
  shape d kern_orders -> shape d br_pref -> shape d br_coef -> map fst kern = map fst kern_orders -> length requested = d -> length p = d ->
  (forall c, In c (map fst more_coef) -> length c = d /\ exists i, (c @ i > requested @ i - omin (map fst kern_orders) @ i - omin (map fst br_pref) @ i)%Z) ->
  (forall k, In k (map fst more_kern) -> length k = d /\ (forall i, (omin (map fst kern_orders) @ i <= k @ i)%Z) /\ exists i, (k @ i > omax (map fst kern_orders) @ i)%Z) ->
  below p requested -> below p (highest_known kern_orders br_pref br_coef) ->
  coef3 br_pref (br_coef ++ more_coef) (kern ++ more_kern) p = coef3 br_pref br_coef kern p.
Proof.
  intros d ko bp bc mc kern mk req p [Nk Sk] [Np Sp] [Nc Sc] Ek Lr Lp Hc Hm Hr Hh.
  assert (Mk : map fst ko <> []) by (destruct ko; [congruence|discriminate]). assert (Mp : map fst bp <> []) by (destruct bp; [congruence|discriminate]). assert (Mc : map fst bc <> []) by (destruct bc; [congruence|discriminate]).
  destruct (omin_spec d _ Mk Sk) as [Kl Kmin]. destruct (omin_spec d _ Mp Sp) as [Pl Pmin]. destruct (omin_spec d _ Mc Sc) as [Cl Cmin]. destruct (omax_spec d _ Mk Sk) as [Kh Kmax].
  assert (Lh : length (highest_known ko bp bc) = d) by (unfold highest_known; repeat apply oadd_len2; assumption).
  rewrite (below_nth p req ltac:(congruence)) in Hr. rewrite (below_nth p (highest_known ko bp bc) ltac:(congruence)) in Hh.
  assert (Nth : forall x y z i, length x = d -> length y = d -> length z = d -> ((oadd (oadd x y) z) @ i = x @ i + y @ i + z @ i)%Z) by (intros x y z i Hx Hy Hz; rewrite nth_oadd by (rewrite (oadd_len2 d) by assumption; congruence); rewrite nth_oadd by congruence; reflexivity).
  unfold coef3. apply sum_ext. intros a Ha. apply (in_map fst) in Ha. rewrite sum_app.
  rewrite (sum_zero mc).
  2: { intros c Hcin. apply (in_map fst) in Hcin. destruct (Hc _ Hcin) as [Lc [i Hi]]. apply sum_zero. intros k Hkin. apply (in_map fst) in Hkin.
       assert (Hkk : length (fst k) = d /\ (omin (map fst ko) @ i <= fst k @ i)%Z). { rewrite map_app, in_app_iff, Ek in Hkin. destruct Hkin as [Hkin|Hkin]; [split; [apply Sk, Hkin|apply Kmin, Hkin]|]. destruct (Hm _ Hkin) as (? & H2 & _). auto. }
       replace (oeqb _ p) with false; [reflexivity|]. symmetry. apply oeqb_false. intros E. apply (f_equal (fun z => z @ i)) in E. rewrite Nth in E; [|apply Sp, Ha|exact Lc|apply Hkk]. pose proof (Pmin _ i Ha). pose proof (Hr i). lia. }
  rewrite (sum_ext bc _ (fun b => sum kern (fun k => if oeqb (oadd (oadd (fst a) (fst b)) (fst k)) p then snd a * snd b * snd k else 0))).
  2: { intros b Hb. apply (in_map fst) in Hb. rewrite sum_app, (sum_zero mk); [ring|]. intros k Hkin. apply (in_map fst) in Hkin. destruct (Hm _ Hkin) as (Lk & _ & [i Hi]).
       replace (oeqb _ p) with false; [reflexivity|]. symmetry. apply oeqb_false. intros E. apply (f_equal (fun z => z @ i)) in E. rewrite Nth in E; [|apply Sp, Ha|apply Sc, Hb|exact Lk]. pose proof (Pmin _ i Ha). pose proof (Cmin _ i Hb). pose proof (Hh i) as B. unfold highest_known in B. rewrite Nth in B by assumption. lia. }
  ring.
Qed.
End C63.
Example C63_ex : let kern := [([-1], [0%nat]); ([0], [1%nat; 2%nat])] in
  shape 1 kern /\ shape 1 ex_a /\ shape 1 ex_b /\ highest_known kern ex_a ex_b = [-1] /\ map fst (split_integral 3 [] kern ex_a ex_b [0]) = [[-2]; [-1]].
Proof. cbn zeta. repeat (split; [split; [discriminate|cbn; intuition subst; reflexivity]|]). split; vm_compute; reflexivity. Qed.
Print Assumptions C63_weights. Print Assumptions C63_truncation_is_harmless.

(** * C64: error propagation *)
Section Var.
Local Open Scope R_scope.
(** a random variable on a finite sample space with equal probabilities *)
Variable Omega : Type.
Variable space : list Omega.
Hypothesis space_nonempty : space <> [].
Definition rsum (f : Omega -> R) : R := fold_right Rplus 0 (map f space).
Definition mean (f : Omega -> R) : R := rsum f / INR (length space).
Definition cov (f g : Omega -> R) : R := mean (fun w => (f w - mean f) * (g w - mean g)).
Definition variance (f : Omega -> R) : R := cov f f.
Lemma rsum_lin a f b g : rsum (fun w => a * f w + b * g w) = a * rsum f + b * rsum g.
Proof. unfold rsum. clear space_nonempty. generalize space as l. induction l as [|w l IH]; cbn; [lra|]. rewrite IH. lra. Qed.
Lemma mean_lin a f b g : mean (fun w => a * f w + b * g w) = a * mean f + b * mean g.
Proof. unfold mean. rewrite rsum_lin. field. destruct space; [congruence|]. apply not_0_INR. discriminate. Qed.
Lemma rsum_ext f g : (forall w, f w = g w) -> rsum f = rsum g.
Proof. intros H. unfold rsum. f_equal. apply map_ext, H. Qed.
Lemma mean_ext f g : (forall w, f w = g w) -> mean f = mean g.
Proof. intros H. unfold mean. rewrite (rsum_ext f g H). reflexivity. Qed.
Lemma cov_lin_l a f b g h : cov (fun w => a * f w + b * g w) h = a * cov f h + b * cov g h.
Proof. unfold cov. rewrite <- mean_lin. apply mean_ext. intros w. rewrite mean_lin. ring. Qed.
Lemma cov_sym f g : cov f g = cov g f.
Proof. unfold cov. apply mean_ext. intros w. ring. Qed.
Lemma cov_ext f f' g g' : (forall w, f w = f' w) -> (forall w, g w = g' w) -> cov f g = cov f' g'.
Proof. intros Hf Hg. unfold cov. apply mean_ext. intros w. rewrite Hf, Hg, (mean_ext f f' Hf), (mean_ext g g' Hg). reflexivity. Qed.
Lemma var_lin a f b g : variance (fun w => a * f w + b * g w) = a ^ 2 * variance f + 2 * a * b * cov f g + b ^ 2 * variance g.
Proof. unfold variance. rewrite cov_lin_l, (cov_sym f), (cov_sym g), !cov_lin_l, (cov_sym g f). ring. Qed.
(** [mul_variance] is the variance of the product with a constant, for uncorrelated real and imaginary parts *)
Theorem C64_mul_variance : forall (c : R * R) (X : Omega -> R * R), cov (fun w => fst (X w)) (fun w => snd (X w)) = 0 ->
  mul_variance c (variance (fun w => fst (X w)), variance (fun w => snd (X w)))
  = (variance (fun w => fst (cmul c (X w))), variance (fun w => snd (cmul c (X w)))).
Proof.
  intros [cr ci] X H. unfold mul_variance. cbn [fst snd]. f_equal.
  - transitivity (variance (fun w => cr * fst (X w) + (- ci) * snd (X w))); [rewrite var_lin, H; ring|]. apply cov_ext; intros; cbn; ring.
  - transitivity (variance (fun w => ci * fst (X w) + cr * snd (X w))); [rewrite var_lin, H; ring|]. apply cov_ext; intros; cbn; ring.
Qed.
(** linear combinations of uncorrelated variables *)
Fixpoint lincomb (l : list (R * (Omega -> R))) (w : Omega) : R := match l with [] => 0 | (a, f) :: r => 1 * (a * f w + 0 * f w) + 1 * lincomb r w end.
Lemma cov_lincomb l h : (forall q, In q l -> cov (snd q) h = 0) -> cov (lincomb l) h = 0.
Proof.
  induction l as [|[a f] l IH]; intros H.
  - assert (Z : forall (f : Omega -> R), (forall w, f w = 0) -> mean f = 0).
    { intros f Hf. unfold mean, rsum. replace (fold_right Rplus 0 (map f space)) with 0; [unfold Rdiv; ring|]. generalize space as m. induction m as [|w m IHm]; cbn; [reflexivity|]. rewrite <- IHm, Hf. ring. }
    unfold cov. apply Z. intros w. rewrite (Z (lincomb [])) by reflexivity. cbn. ring.
  - change (cov (fun w => 1 * (fun w => a * f w + 0 * f w) w + 1 * lincomb l w) h = 0). rewrite cov_lin_l, cov_lin_l. pose proof (H (a, f) (or_introl eq_refl)) as Hf. cbn [snd] in Hf. rewrite Hf. rewrite IH by (intros q Hq; apply H; right; exact Hq). ring.
Qed.
Lemma var_lincomb l : ForallOrdPairs (fun f g => cov f g = 0) (map snd l) -> variance (lincomb l) = fold_right Rplus 0 (map (fun q => fst q ^ 2 * variance (snd q)) l).
Proof.
  induction l as [|[a f] l IH]; intros H.
  - apply cov_lincomb. intros q [].
  - cbn [map] in H. inversion H as [|? ? H1 H2]; subst. cbn [map fold_right fst snd]. rewrite <- IH by exact H2. transitivity (variance (fun w => 1 * (fun w => a * f w + 0 * f w) w + 1 * lincomb l w)); [reflexivity|].
    rewrite (var_lin 1 (fun w => a * f w + 0 * f w) 1 (lincomb l)). rewrite (var_lin a f 0 f). rewrite cov_lin_l.
    assert (C : cov f (lincomb l) = 0). { rewrite cov_sym. apply cov_lincomb. intros q Hq. rewrite cov_sym. cbn in H1. rewrite Forall_forall in H1. apply H1, in_map, Hq. }
    rewrite C. ring.
Qed.
(** the variance of an amplitude is the sum over its kernels with squared weights, if all real and imaginary parts of the
    kernels are uncorrelated *)
Definition parts (X : list (Omega -> R * R)) : list (Omega -> R) := flat_map (fun x => [(fun w => fst (x w)); (fun w => snd (x w))]) X.
Theorem C64_amplitude_variance : forall (W : list (R * R)) (X : list (Omega -> R * R)), length W = length X ->
  ForallOrdPairs (fun f g => cov f g = 0) (parts X) ->
  amp_var W (map (fun x => (variance (fun w => fst (x w)), variance (fun w => snd (x w)))) X)
  = (variance (fun w => fst (amp_val W (map (fun x => x w) X))), variance (fun w => snd (amp_val W (map (fun x => x w) X)))).
Proof.
  intros W X Hl Hc. set (re := flat_map (fun p : (R * R) * (Omega -> R * R) => [(fst (fst p), fun w => fst (snd p w)); (- snd (fst p), fun w => snd (snd p w))]) (combine W X)).
  set (im := flat_map (fun p : (R * R) * (Omega -> R * R) => [(snd (fst p), fun w => fst (snd p w)); (fst (fst p), fun w => snd (snd p w))]) (combine W X)).
  assert (Hre : map snd re = parts X /\ map snd im = parts X).
  { unfold re, im, parts. clear - Hl. revert X Hl. induction W as [|c W IH]; intros [|x X] H; cbn in *; try discriminate; [auto|]. destruct (IH X) as [I1 I2]; [lia|]. rewrite I1, I2. auto. }
  assert (Vre : forall w, fst (amp_val W (map (fun x => x w) X)) = lincomb re w /\ snd (amp_val W (map (fun x => x w) X)) = lincomb im w).
  { intros w. unfold re, im, amp_val. clear - Hl. revert X Hl. induction W as [|c W IH]; intros [|x X] H; cbn in *; try discriminate; [auto|]. destruct (IH X) as [I1 I2]; [lia|]. rewrite I1, I2. split; ring. }
  destruct Hre as [Hre Him].
  assert (E1 : variance (fun w => fst (amp_val W (map (fun x => x w) X))) = variance (lincomb re)) by (apply cov_ext; intros w; apply Vre).
  assert (E2 : variance (fun w => snd (amp_val W (map (fun x => x w) X))) = variance (lincomb im)) by (apply cov_ext; intros w; apply Vre).
  rewrite E1, E2, !var_lincomb by congruence. unfold amp_var, dotR, re, im. clear. 
  f_equal; (revert X; induction W as [|[cr ci] W IH]; intros [|x X]; cbn in *; try lra; rewrite <- IH; ring).
Qed.
End Var.
Print Assumptions C64_mul_variance. Print Assumptions C64_amplitude_variance.
(** the condition is needed: for perfectly correlated real and imaginary parts the variances are wrong *)
Theorem C64_correlated_refuted : exists (c : R * R) (X : bool -> R * R), 
  mul_variance c (variance bool [true; false] (fun w => fst (X w)), variance bool [true; false] (fun w => snd (X w)))
  <> (variance bool [true; false] (fun w => fst (cmul c (X w))), variance bool [true; false] (fun w => snd (cmul c (X w)))).
Proof.
  exists (1, 1)%R, (fun b : bool => if b then (1, 1) else (0, 0))%R. unfold variance, cov, mean, rsum, mul_variance. cbn. intros H. injection H as H1 H2. field_simplify in H1. lra.
Qed.
Example C64_ex : ForallOrdPairs (fun f g => cov (bool * bool) (list_prod [true; false] [true; false]) f g = 0%R) (parts (bool * bool) [fun w : bool * bool => ((if fst w then 3 else 1), (if snd w then 2 else 7))%R]).
Proof. unfold cov, mean, rsum. cbn. repeat constructor; cbn; try field; lra. Qed.

(** * C53 *)
Section C53.
Variable V : Type.
Variable pyfloat : list ascii -> option V.
Variable pyint : list ascii -> option Z.
(** the documented grammar: array ::= item ["," item]*; item ::= [count "x"]? value *)
Inductive item := One (value : list ascii) | Times (count value : list ascii).
Definition comma : ascii := ","%char.
Definition ex : ascii := "x"%char.
Definition show_item (i : item) : list ascii := match i with One v => v | Times c v => c ++ ex :: v end.
Fixpoint show (i : item) (l : list item) : list ascii := match l with [] => show_item i | j :: r => show_item i ++ comma :: show j r end.
(** what an item means *)
Inductive means_item : item -> list V -> Prop :=
| MOne v x : pyfloat v = Some x -> means_item (One v) [x]
| MTimes c v n x : pyint c = Some n -> pyfloat v = Some x -> means_item (Times c v) (repeat x (Z.to_nat n)).
(** the texts of values and counts contain no separators (a value after a count may contain an x) *)
Definition item_ok (i : item) : Prop := match i with One v => ~ In comma v /\ ~ In ex v | Times c v => ~ In comma c /\ ~ In ex c /\ ~ In comma v end.
Lemma split_first_none t : ~ In ex t -> split_first "x" t = None.
Proof. induction t as [|a t IH]; intros H; [reflexivity|]. cbn [split_first]. destruct (Ascii.eqb_spec a "x") as [->|]; [exfalso; apply H; left; reflexivity|]. rewrite IH; [reflexivity|]. intros G. apply H. right. exact G. Qed.
Lemma split_first_some c v : ~ In ex c -> split_first "x" (c ++ ex :: v) = Some (c, v).
Proof. induction c as [|a c IH]; intros H; [reflexivity|]. cbn [split_first app]. destruct (Ascii.eqb_spec a "x") as [->|]; [exfalso; apply H; left; reflexivity|]. rewrite IH; [reflexivity|]. intros G. apply H. right. exact G. Qed.
Lemma parse_item_means i l : item_ok i -> means_item i l -> parse_item V pyfloat pyint (show_item i) = Some l.
Proof.
  intros Ho H. unfold parse_item. destruct H as [v x H|c v n x H1 H2]; cbn [show_item item_ok] in *.
  - rewrite split_first_none by tauto. rewrite H. reflexivity.
  - rewrite split_first_some by tauto. rewrite H2, H1. reflexivity.
Qed.
Lemma show_item_comma i : item_ok i -> ~ In comma (show_item i).
Proof. destruct i as [v|c v]; cbn; [tauto|]. intros (H1 & _ & H2). rewrite in_app_iff. cbn. intros [G|[G|G]]; [tauto|discriminate|tauto]. Qed.
Lemma split_on_nil t : ~ In comma t -> split_on "," t = [t].
Proof. induction t as [|a t IH]; intros H; [reflexivity|]. cbn [split_on]. destruct (Ascii.eqb_spec a ",") as [->|]; [exfalso; apply H; left; reflexivity|]. rewrite IH; [reflexivity|]. intros G. apply H. right. exact G. Qed.
Lemma split_on_cons t r : ~ In comma t -> split_on "," (t ++ comma :: r) = t :: split_on "," r.
Proof. induction t as [|a t IH]; intros H; [reflexivity|]. cbn [split_on app]. destruct (Ascii.eqb_spec a ",") as [->|]; [exfalso; apply H; left; reflexivity|]. rewrite IH; [reflexivity|]. intros G. apply H. right. exact G. Qed.
Theorem C53_array_shorthand : forall i l ls, Forall item_ok (i :: l) -> Forall2 means_item (i :: l) ls ->
  parse_array_shorthand V pyfloat pyint (show i l) = Some (concat ls).
Proof.
  intros i l. revert i. unfold parse_array_shorthand. induction l as [|j l IH]; intros i ls Ho H; apply Forall_cons_iff in Ho as [Hi Ho]; inversion H as [|? x ? xs Hx Hxs]; subst; cbn [show].
  - inversion Hxs; subst. rewrite split_on_nil by (apply show_item_comma, Hi). cbn [parse_items concat]. rewrite (parse_item_means i x Hi Hx). reflexivity.
  - rewrite split_on_cons by (apply show_item_comma, Hi). cbn [parse_items concat]. rewrite (parse_item_means i x Hi Hx), (IH j xs Ho Hxs). reflexivity.
Qed.
(** a text without separators is a single number, or an error *)
Theorem C53_array_single : forall t, ~ In comma t -> ~ In ex t -> parse_array_shorthand V pyfloat pyint t = option_map (fun v => [v]) (pyfloat t).
Proof. intros t H1 H2. unfold parse_array_shorthand. rewrite split_on_nil by exact H1. cbn. unfold parse_item. rewrite split_first_none by exact H2. destruct (pyfloat t); reflexivity. Qed.

Variable scale : V -> V -> V.
Definition ends_in (t u : list ascii) : Prop := exists s, t = s ++ u.
Lemma endswith_spec t u : endswith t u = true <-> ends_in t u.
Proof.
  unfold endswith. rewrite andb_true_iff, Nat.leb_le. split.
  - intros [H1 H2]. match type of H2 with (if ?c then _ else _) = _ => destruct c as [E|] end; [|discriminate]. exists (firstn (length t - length u) t). rewrite <- E at 2. symmetry. apply firstn_skipn.
  - intros [s ->]. rewrite app_length. split; [lia|]. replace (length s + length u - length u)%nat with (length s) by lia. rewrite skipn_app, skipn_all, Nat.sub_diag. cbn [skipn app]. destruct (list_eq_dec ascii_dec u u); [reflexivity|congruence].
Qed.
(** a number followed by a unit is the number times the magnitude of the unit; other texts are plain numbers *)
Theorem C53_unit : forall units1 u m units2 num, (forall q, In q units1 -> ~ ends_in (num ++ u) (fst q)) ->
  parse_unit V pyfloat scale (units1 ++ (u, m) :: units2) (num ++ u) = option_map (fun v => scale v m) (pyfloat num).
Proof.
  intros units1 u m units2 num H. induction units1 as [|[v mv] r IH]; cbn [app parse_unit].
  - replace (endswith (num ++ u) u) with true by (symmetry; apply endswith_spec; exists num; reflexivity). rewrite app_length. replace (length num + length u - length u)%nat with (length num) by lia. rewrite firstn_app, firstn_all, Nat.sub_diag. cbn. rewrite app_nil_r. reflexivity.
  - destruct (endswith (num ++ u) v) eqn:E; [exfalso; apply (H (v, mv)); [left; reflexivity|apply endswith_spec, E]|]. apply IH. intros q Hq. apply H. right. exact Hq.
Qed.
Theorem C53_no_unit : forall units t, (forall q, In q units -> ~ ends_in t (fst q)) -> parse_unit V pyfloat scale units t = pyfloat t.
Proof. intros units t H. induction units as [|[v mv] r IH]; cbn [parse_unit]; [reflexivity|]. destruct (endswith t v) eqn:E; [exfalso; apply (H (v, mv)); [left; reflexivity|apply endswith_spec, E]|]. apply IH. intros q Hq. apply H. right. exact Hq. Qed.
End C53.
(** the time units of the command line *)
Definition time_units : list (list ascii * Z) := [(["s"%char], 1); (["m"%char], 60); (["h"%char], 3600); (["d"%char], 86400)].
Corollary C53_timeout : forall (pyfloat : list ascii -> option Z) num u m, In ([u], m) time_units ->
  parse_unit Z pyfloat Z.mul time_units (num ++ [u]) = option_map (fun v => v * m) (pyfloat num).
Proof.
  intros pf num u m H.
  assert (G : forall a b, a <> b -> ~ ends_in (num ++ [a]) [b]) by (intros a b Hab [s E]; apply app_inj_tail in E as [_ E]; congruence).
  cbn in H. destruct H as [[= <- <-]|[[= <- <-]|[[= <- <-]|[[= <- <-]|[]]]]]; unfold time_units.
  - apply (C53_unit Z pf Z.mul []). intros q [].
  - apply (C53_unit Z pf Z.mul [(["s"%char], 1)]). intros q [<-|[]]; apply G; discriminate.
  - apply (C53_unit Z pf Z.mul [(["s"%char], 1); (["m"%char], 60)]). intros q [<-|[<-|[]]]; apply G; discriminate.
  - apply (C53_unit Z pf Z.mul [(["s"%char], 1); (["m"%char], 60); (["h"%char], 3600)]). intros q [<-|[<-|[<-|[]]]]; apply G; discriminate.
Qed.
(** rounding *)
Theorem C53_round_down : forall x n, 0 < n -> (n | round_down x n) /\ round_down x n <= x < round_down x n + n.
Proof. intros x n H. unfold round_down. split; [exists (x / n); reflexivity|]. pose proof (Z.div_mod x n). pose proof (Z.mod_pos_bound x n). lia. Qed.
Theorem C53_round_up : forall x n, 0 < n -> (n | round_up x n) /\ round_up x n - n < x <= round_up x n.
Proof. intros x n H. unfold round_up. split; [exists ((x + (n - 1)) / n); reflexivity|]. pose proof (Z.div_mod (x + (n - 1)) n). pose proof (Z.mod_pos_bound (x + (n - 1)) n). lia. Qed.
Lemma log10_spec fuel : forall x, 1 <= x -> x < 2 ^ Z.of_nat fuel -> 0 <= log10_floor fuel x /\ 10 ^ log10_floor fuel x <= x < 10 ^ (log10_floor fuel x + 1).
Proof.
  induction fuel as [|f IH]; intros x H1 H2; [cbn in H2; lia|]. cbn [log10_floor]. rewrite Nat2Z.inj_succ, Z.pow_succ_r in H2 by lia. destruct (Z.ltb_spec x 10); [cbn; lia|].
  assert (Hd : 1 <= x / 10) by (apply Z.div_le_lower_bound; lia). assert (Hu : x / 10 < 2 ^ Z.of_nat f) by (apply Z.div_lt_upper_bound; lia). destruct (IH (x / 10)) as (I0 & I1 & I2); [lia|lia|]. set (k := log10_floor f (x / 10)) in *.
  split; [lia|]. rewrite !Z.pow_add_r in * by lia. change (10 ^ 1) with 10 in *. pose proof (Z.div_mod x 10). pose proof (Z.mod_pos_bound x 10). set (t := 10 ^ k) in *. clearbody t k. lia.
Qed.
(** three significant figures: the value is within one percent, on the right side, and a multiple of the unit; the text denotes
    the value *)
Theorem C53_human_readable : forall x up, 100 <= x -> let r := fst (round_human_readable x up) in let t := snd (round_human_readable x up) in
  (if up then x <= r /\ 100 * (r - x) < x else r <= x /\ 100 * (x - r) < x)
  /\ fst t * 1000 ^ Z.of_nat (snd t) = r
  /\ exists k, 0 <= k /\ 10 ^ (k + 2) <= x < 10 ^ (k + 3) /\ (10 ^ k | r).
Proof.
  intros x up Hx. unfold round_human_readable. set (ro := if up then round_up else round_down).
  destruct (log10_spec (Z.to_nat (Z.log2 x + 1)) x) as (L0 & L1 & L2); [lia|pose proof (Z.log2_nonneg x); rewrite Z2Nat.id by lia; apply Z.log2_spec; lia|]. set (L := log10_floor (Z.to_nat (Z.log2 x + 1)) x) in *.
  assert (HL : 2 <= L). { destruct (Z.leb_spec 2 L); [assumption|]. assert (10 ^ (L + 1) <= 10 ^ 2) by (apply Z.pow_le_mono_r; lia). lia. }
  set (k := L - 2). assert (Hk : 0 <= k) by (unfold k; lia). replace (L + 1) with (k + 3) in L2 by (unfold k; lia). replace L with (k + 2) in L1 by (unfold k; lia). clearbody k.
  assert (Hp : 0 < 10 ^ k) by (apply Z.pow_pos_nonneg; lia).
  set (y := ro x (10 ^ k)).
  assert (Hy : (if up then x <= y /\ 100 * (y - x) < x else y <= x /\ 100 * (x - y) < x) /\ (10 ^ k | y)).
  { rewrite Z.pow_add_r in L1 by lia. change (10 ^ 2) with 100 in L1. unfold y, ro. destruct up; [destruct (C53_round_up x (10 ^ k) Hp) as [D B]|destruct (C53_round_down x (10 ^ k) Hp) as [D B]]; (split; [lia|exact D]). }
  assert (Hro : forall n, 0 < n -> (n | ro y n)) by (intros n Hn; unfold ro; destruct up; [apply C53_round_up, Hn|apply C53_round_down, Hn]).
  assert (Fin : forall n, 0 < n -> ro y n = y -> y / n * n = y) by (intros n Hn E; pose proof (Hro n Hn) as D; rewrite E in D; apply Z.divide_div_mul_exact in D || idtac; destruct (Hro n Hn) as [q Hq]; rewrite E in Hq; rewrite Hq, Z.div_mul; lia).
  destruct Hy as [Hy1 Hy2]. assert (Ex : exists k0, 0 <= k0 /\ 10 ^ (k0 + 2) <= x < 10 ^ (k0 + 3) /\ (10 ^ k0 | y)) by (exists k; auto).
  repeat (match goal with |- context [Z.eqb ?a ?b] => destruct (Z.eqb_spec a b) as [E|_] end; [cbn [fst snd]; rewrite E; split; [exact Hy1|split; [apply Fin; [reflexivity|exact E]|exact Ex]]|]).
  cbn [fst snd]. split; [exact Hy1|]. split; [cbn; lia|exact Ex].
Qed.
Print Assumptions C53_human_readable.
(** reading such a text back gives the value: a number followed by a metric prefix *)
Theorem C53_parse_number : forall pyfloat num c m, (In (c, m) [("k", 1000); ("K", 1000); ("m", 1000 ^ 2); ("M", 1000 ^ 2); ("g", 1000 ^ 3); ("G", 1000 ^ 3); ("t", 1000 ^ 4); ("T", 1000 ^ 4)]%char) ->
  parse_number pyfloat (num ++ [c]) = option_map (fun v => v * m) (pyfloat num).
Proof.
  intros pf num c m H. unfold parse_number. rewrite rev_app_distr. cbn [rev app]. rewrite rev_involutive.
  cbn in H. repeat (destruct H as [[= <- <-]|H]; [reflexivity|]). destruct H.
Qed.
Theorem C53_parse_plain_number : forall pyfloat num c, (In c (list_ascii_of_string "kKmMgGtT") -> False) -> parse_number pyfloat (num ++ [c]) = pyfloat (num ++ [c]).
Proof.
  intros pf num c H. unfold parse_number. rewrite rev_app_distr. cbn [rev app]. unfold strip_lower_prefix. cbn [existsb].
  assert (N : forall a, In a (list_ascii_of_string "kKmMgGtT") -> Ascii.eqb c a = false) by (intros a Ha; destruct (Ascii.eqb_spec c a); [subst; exfalso; auto|reflexivity]).
  rewrite !N by (cbn; tauto). reflexivity.
Qed.
Example C53_ex1 : parse_array_shorthand Z (fun t => Some (Z.of_nat (length t))) (fun t => match t with ["2"%char] => Some 2 | _ => None end) (list_ascii_of_string "2xaa,bbb") = Some [2; 2; 3].
Proof. reflexivity. Qed.
Example C53_ex2 : round_human_readable 1234567 true = (1240000, (1240, 1%nat)) /\ round_human_readable 1234567 false = (1230000, (1230, 1%nat)) /\ round_human_readable 25000000 true = (25000000, (25, 2%nat)).
Proof. repeat split; vm_compute; reflexivity. Qed.
