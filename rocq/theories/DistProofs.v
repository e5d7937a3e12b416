(** Lemmas on order dictionaries. *)
From Verif Require Export DistModel.
Local Open Scope Z_scope.

Lemma oeqb_spec a b : oeqb a b = true <-> a = b.
Proof. unfold oeqb. destruct (list_eq_dec Z.eq_dec a b); split; congruence. Qed.
Lemma oeqb_refl a : oeqb a a = true. Proof. apply oeqb_spec. reflexivity. Qed.
Lemma oeqb_false a b : oeqb a b = false <-> a <> b.
Proof. rewrite <- oeqb_spec. destruct (oeqb a b); split; congruence. Qed.
Section Dict.
Context {V : Type}.
Implicit Types d : bracket V.
Lemma bget_set k j v d : bget k (bset j v d) = if oeqb k j then Some v else bget k d.
Proof.
  induction d as [|[a u] d IH]; cbn [bset bget]; [reflexivity|]. destruct (oeqb j a) eqn:E.
  - apply oeqb_spec in E. subst a. cbn [bget]. destruct (oeqb k j); reflexivity.
  - cbn [bget]. rewrite IH. destruct (oeqb k a) eqn:E2; [|reflexivity]. apply oeqb_spec in E2. subst a. destruct (oeqb k j) eqn:E3; [|reflexivity]. apply oeqb_spec in E3. subst j. rewrite oeqb_refl in E. discriminate.
Qed.
Lemma bget_in k d : bget k d <> None <-> In k (map fst d).
Proof.
  induction d as [|[a u] d IH]; cbn [bget map fst In]; [tauto|]. destruct (oeqb k a) eqn:E; [apply oeqb_spec in E; split; [auto|discriminate]|]. apply oeqb_false in E. rewrite IH. intuition congruence.
Qed.
Lemma bset_keys k v d x : In x (map fst (bset k v d)) <-> x = k \/ In x (map fst d).
Proof. rewrite <- !bget_in, bget_set. destruct (oeqb x k) eqn:E; [apply oeqb_spec in E; split; [auto|discriminate]|]. apply oeqb_false in E. tauto. Qed.
Lemma bset_nodup k v d : NoDup (map fst d) -> NoDup (map fst (bset k v d)).
Proof.
  induction d as [|[a u] d IH]; intros H; cbn [bset map fst]; [repeat constructor; auto|]. inversion H as [|? ? Ha Hd]; subst. destruct (oeqb k a) eqn:E; cbn [map fst]; [exact H|]. constructor; [|apply IH, Hd]. rewrite bset_keys. apply oeqb_false in E. intros [->|Hin]; [congruence|contradiction].
Qed.
Lemma bget_first k d v : NoDup (map fst d) -> In (k, v) d -> bget k d = Some v.
Proof.
  induction d as [|[a u] d IH]; intros H Hin; [destruct Hin|]. cbn [map fst] in H. inversion H as [|? ? Ha Hd]; subst. cbn [bget]. destruct Hin as [[= -> ->]|Hin]; [rewrite oeqb_refl; reflexivity|]. destruct (oeqb k a) eqn:E; [|apply IH; assumption]. apply oeqb_spec in E. subst. exfalso. apply Ha. apply in_map_iff. exists (a, v). auto.
Qed.
End Dict.
Lemma oadd_len a b : length a = length b -> length (oadd a b) = length a.
Proof. revert b. induction a as [|x a IH]; intros [|y b] H; cbn in *; try discriminate; [reflexivity|]. f_equal. apply IH. lia. Qed.
Lemma oadd_comm a b : oadd a b = oadd b a.
Proof. revert b. induction a as [|x a IH]; intros [|y b]; cbn; try reflexivity. f_equal; [lia|apply IH]. Qed.
Lemma oadd_assoc a b c : oadd a (oadd b c) = oadd (oadd a b) c.
Proof. revert b c. induction a as [|x a IH]; intros [|y b] [|z c]; cbn; try reflexivity. f_equal; [lia|apply IH]. Qed.
Section Sums.
Context {F : Fld}.
Local Open Scope fld_scope.
Add Field dist_field : (@f_th F).
Definition sum {A} (l : list A) (f : A -> F) : F := sumF (map f l).
Lemma sum_nil {A} (f : A -> F) : sum [] f = 0. Proof. reflexivity. Qed.
Lemma sum_cons {A} x (l : list A) f : sum (x :: l) f = f x + sum l f. Proof. reflexivity. Qed.
Lemma sum_app {A} (l1 l2 : list A) f : sum (l1 ++ l2) f = sum l1 f + sum l2 f.
Proof. induction l1 as [|x l IH]; cbn [app]; [rewrite sum_nil; ring|]. rewrite !sum_cons, IH. ring. Qed.
Lemma sum_ext {A} (l : list A) f g : (forall x, In x l -> f x = g x) -> sum l f = sum l g.
Proof. intros H. unfold sum. f_equal. apply map_ext_in, H. Qed.
Lemma sum_zero {A} (l : list A) f : (forall x, In x l -> f x = 0) -> sum l f = 0.
Proof. induction l as [|x l IH]; intros H; [reflexivity|]. rewrite sum_cons, H by (left; reflexivity). rewrite IH; [ring|]. intros y Hy. apply H. right. exact Hy. Qed.
Lemma sum_mul {A} (l : list A) f c : sum l (fun x => c * f x) = c * sum l f.
Proof. induction l as [|x l IH]; [rewrite !sum_nil; ring|]. rewrite !sum_cons, IH. ring. Qed.
Lemma sum_add {A} (l : list A) f g : sum l (fun x => f x + g x) = sum l f + sum l g.
Proof. induction l as [|x l IH]; [rewrite !sum_nil; ring|]. rewrite !sum_cons, IH. ring. Qed.
Lemma sum_swap {A B} (l : list A) (m : list B) f : sum l (fun x => sum m (fun y => f x y)) = sum m (fun y => sum l (fun x => f x y)).
Proof. induction l as [|x l IH]; [rewrite sum_nil; symmetry; apply sum_zero; reflexivity|]. rewrite sum_cons, IH, <- sum_add. apply sum_ext. intros y _. reflexivity. Qed.
(** the coefficient of an order: zero if not present *)
Definition coef (d : bracket F) (k : order) : F := match bget k d with Some v => v | None => 0 end.
Lemma coef_sum d k : NoDup (map fst d) -> coef d k = sum d (fun p => if oeqb (fst p) k then snd p else 0).
Proof.
  unfold coef. induction d as [|[a u] d IH]; intros H; [reflexivity|]. cbn [map fst] in H. inversion H as [|? ? Ha Hd]; subst. cbn [bget]. rewrite sum_cons. cbn [fst snd]. destruct (oeqb k a) eqn:E.
  - apply oeqb_spec in E. subst a. rewrite oeqb_refl. rewrite sum_zero; [ring|]. intros [b v] Hin. cbn. destruct (oeqb b k) eqn:Eb; [|reflexivity]. apply oeqb_spec in Eb. subst. exfalso. apply Ha, in_map_iff. exists (k, v). auto.
  - rewrite IH by exact Hd. replace (oeqb a k) with false; [ring|]. symmetry. apply oeqb_false. apply oeqb_false in E. congruence.
Qed.
Lemma bmul_entry_coef mx mul br k1 v1 k2 v2 k : coef (bmul_entry mx mul br k1 v1 k2 v2) k = coef br k + (if oeqb (oadd k1 k2) k && oleb k mx then mul v1 v2 else 0).
Proof.
  unfold bmul_entry, coef. destruct (oleb (oadd k1 k2) mx) eqn:El.
  - rewrite bget_set. destruct (oeqb k (oadd k1 k2)) eqn:E.
    + apply oeqb_spec in E. subst k. rewrite oeqb_refl, El. reflexivity.
    + replace (oeqb (oadd k1 k2) k) with false by (symmetry; apply oeqb_false; apply oeqb_false in E; congruence). cbn. destruct (bget k br); ring.
  - destruct (oeqb (oadd k1 k2) k) eqn:E; [apply oeqb_spec in E; subst k; rewrite El|]; cbn; destruct (bget _ br); ring.
Qed.
Lemma bracket_mul_coef br1 br2 mx mul k : coef (bracket_mul br1 br2 mx mul) k = sum br1 (fun p1 => sum br2 (fun p2 => if oeqb (oadd (fst p1) (fst p2)) k && oleb k mx then mul (snd p1) (snd p2) else 0)).
Proof.
  unfold bracket_mul. enough (H : forall br, coef (fold_left (fun br p1 => fold_left (fun br p2 => bmul_entry mx mul br (fst p1) (snd p1) (fst p2) (snd p2)) br2 br) br1 br) k = coef br k + sum br1 (fun p1 => sum br2 (fun p2 => if oeqb (oadd (fst p1) (fst p2)) k && oleb k mx then mul (snd p1) (snd p2) else 0))).
  { rewrite H. unfold coef. cbn. ring. }
  induction br1 as [|p1 br1 IH]; intros br; cbn [fold_left]; [rewrite sum_nil; ring|]. rewrite IH, sum_cons.
  assert (H : forall b2 br, coef (fold_left (fun br p2 => bmul_entry mx mul br (fst p1) (snd p1) (fst p2) (snd p2)) b2 br) k = coef br k + sum b2 (fun p2 => if oeqb (oadd (fst p1) (fst p2)) k && oleb k mx then mul (snd p1) (snd p2) else 0)).
  { clear. induction b2 as [|p2 b2 IH]; intros br; cbn [fold_left]; [rewrite sum_nil; ring|]. rewrite IH, bmul_entry_coef, sum_cons. ring. }
  rewrite H. ring.
Qed.
Lemma bracket_mul_keys (br1 br2 : bracket F) mx mul k : In k (map fst (bracket_mul br1 br2 mx mul)) <-> oleb k mx = true /\ exists k1 k2, In k1 (map fst br1) /\ In k2 (map fst br2) /\ k = oadd k1 k2.
Proof.
  unfold bracket_mul.
  assert (E : forall br k1 v1 k2 v2, In k (map fst (bmul_entry mx mul br k1 v1 k2 v2)) <-> In k (map fst br) \/ (oleb k mx = true /\ k = oadd k1 k2)).
  { intros. unfold bmul_entry. destruct (oleb (oadd k1 k2) mx) eqn:El; [rewrite bset_keys; split; [intros [->|]; auto|tauto]|]. split; [auto|]. intros [|[H ->]]; [assumption|congruence]. }
  assert (H : forall p1 b2 br, In k (map fst (fold_left (fun br p2 => bmul_entry mx mul br (fst p1) (snd p1) (fst p2) (snd p2)) b2 br)) <-> In k (map fst br) \/ (oleb k mx = true /\ exists k2, In k2 (map fst b2) /\ k = oadd (fst p1) k2)).
  { intros p1. induction b2 as [|p2 b2 IH]; intros br; cbn [fold_left map In]; [split; [auto|intros [|(_ & k2 & [] & _)]; assumption]|]. rewrite IH, E. split.
    - intros [[H|[H1 H2]]|(H1 & k2 & H2 & H3)]; [auto|right; eauto|right; eauto].
    - intros [H|(H1 & k2 & [<-|H2] & H3)]; [auto|auto|right; eauto]. }
  enough (G : forall br, In k (map fst (fold_left (fun br p1 => fold_left (fun br p2 => bmul_entry mx mul br (fst p1) (snd p1) (fst p2) (snd p2)) br2 br) br1 br)) <-> In k (map fst br) \/ (oleb k mx = true /\ exists k1 k2, In k1 (map fst br1) /\ In k2 (map fst br2) /\ k = oadd k1 k2)).
  { rewrite G. cbn. tauto. }
  induction br1 as [|p1 br1 IH]; intros br; cbn [fold_left map In]; [split; [auto|intros [|(_ & k1 & k2 & [] & _)]; assumption]|]. rewrite IH, H. split.
  - intros [[G|(H1 & k2 & H2 & H3)]|(H1 & k1 & k2 & H2 & H3 & H4)]; [auto|right; split; [exact H1|]; eauto 6|right; split; [exact H1|]; eauto 6].
  - intros [G|(H1 & k1 & k2 & [<-|H2] & H3 & H4)]; [auto|left; right; eauto|right; eauto 6].
Qed.
Lemma bracket_mul_nodup (br1 br2 : bracket F) mx mul : NoDup (map fst (bracket_mul br1 br2 mx mul)).
Proof.
  unfold bracket_mul. enough (H : forall br, NoDup (map fst br) -> NoDup (map fst (fold_left (fun br p1 => fold_left (fun br p2 => bmul_entry mx mul br (fst p1) (snd p1) (fst p2) (snd p2)) br2 br) br1 br))) by (apply H; constructor).
  induction br1 as [|p1 br1 IH]; intros br Hb; cbn [fold_left]; [exact Hb|]. apply IH. clear IH. revert br Hb. induction br2 as [|p2 b2 IH]; intros br Hb; cbn [fold_left]; [exact Hb|]. apply IH. unfold bmul_entry. destruct (oleb _ _); [apply bset_nodup, Hb|exact Hb].
Qed.

(** * weights *)
Definition dot (row val : list F) : F := sum (combine row val) (fun p => fst p * snd p).
Lemma set_at_len {A} (f : A -> A) l : forall i, length (set_at i f l) = length l.
Proof. induction l as [|x l IH]; intros [|i]; cbn; auto. Qed.
Lemma dot_set c row : forall val k, (k < length row)%nat -> length row = length val -> dot (set_at k (fun x => x + c) row) val = dot row val + c * nth k val 0.
Proof.
  unfold dot. induction row as [|x row IH]; intros [|v val] k Hk Hl; cbn in Hk, Hl; try lia. destruct k as [|k]; cbn [set_at combine nth]; rewrite !sum_cons; cbn [fst snd]; [ring|]. rewrite IH by lia. ring.
Qed.
Lemma dot_zero n val : dot (repeat 0 n) val = 0.
Proof. unfold dot. apply sum_zero. intros [a b] H. apply in_combine_l in H. apply repeat_spec in H. cbn. rewrite H. ring. Qed.
Lemma dot_fold c ks : forall row val, Forall (fun k => (k < length row)%nat) ks -> length row = length val ->
  let row' := fold_left (fun row k => set_at k (fun x => x + c) row) ks row in length row' = length row /\ dot row' val = dot row val + c * sum ks (fun k => nth k val 0).
Proof.
  induction ks as [|k ks IH]; intros row val Hk Hl; cbn [fold_left]; [split; [reflexivity|rewrite sum_nil; ring]|]. apply Forall_cons_iff in Hk as [Hk Hks].
  destruct (IH (set_at k (fun x => x + c) row) val) as [I1 I2]; [rewrite set_at_len; exact Hks|rewrite set_at_len; exact Hl|]. cbn zeta in *. rewrite I1, I2, set_at_len, dot_set, sum_cons by assumption. split; [reflexivity|ring].
Qed.
(** the value that an entry of the weight dictionary gives to an order *)
Definition weighted (orders : bracket (list F)) (val : list F) (p : order) : F := match bget p orders with Some row => dot row val | None => 0 end.
Definition rows_ok (n : nat) (orders : bracket (list F)) : Prop := forall p row, bget p orders = Some row -> length row = n.
Lemma split_weighted nkern orders kern_orders br_pref br_coef requested val :
  rows_ok nkern orders -> length val = nkern -> Forall (fun o => Forall (fun k => (k < nkern)%nat) (snd o)) kern_orders ->
  let mh := oadd (oadd (omin (map fst br_pref)) (omin (map fst br_coef))) (omax (map fst kern_orders)) in
  let pref := bracket_mul br_pref br_coef (oadd (map Z.opp (omin (map fst kern_orders))) requested) fmul in
  let res := split_integral nkern orders kern_orders br_pref br_coef requested in
  rows_ok nkern res /\ (forall p, weighted res val p = weighted orders val p +
    (if oleb p requested && oleb p mh then sum kern_orders (fun o => sum pref (fun pc => if oeqb (oadd (fst o) (fst pc)) p then snd pc * sum (snd o) (fun k => nth k val 0) else 0)) else 0))
  /\ forall p, In p (map fst res) <-> In p (map fst orders) \/ (oleb p requested = true /\ oleb p mh = true /\ exists o pc, In o kern_orders /\ In pc pref /\ p = oadd (fst o) (fst pc)).
Proof.
  intros Hrows Hval Hk mh pref. unfold split_integral. fold mh pref. clearbody mh pref. cbn zeta. revert orders Hrows Hk. induction kern_orders as [|o ks IH]; intros orders Hrows Hk; cbn [fold_left].
  - split; [exact Hrows|]. split; [|intros p; split; [auto|intros [H|(_ & _ & o & pc & [] & _)]; exact H]]. intros p. rewrite sum_nil. destruct (oleb p requested && oleb p mh); ring.
  - apply Forall_cons_iff in Hk as [Hk Hks]. set (stp := fun (orders : bracket (list F)) (pc : order * F) => _).
    assert (G : forall l ord, rows_ok nkern ord -> let r := fold_left stp l ord in rows_ok nkern r /\ (forall p, weighted r val p = weighted ord val p + (if oleb p requested && oleb p mh then sum l (fun pc => if oeqb (oadd (fst o) (fst pc)) p then snd pc * sum (snd o) (fun k => nth k val 0) else 0) else 0))
        /\ (forall p, In p (map fst r) <-> In p (map fst ord) \/ (oleb p requested = true /\ oleb p mh = true /\ exists pc, In pc l /\ p = oadd (fst o) (fst pc)))).
    { induction l as [|pc l IHl]; intros ord Ho; cbn [fold_left]; [split; [exact Ho|]; split; [intros p; rewrite sum_nil; destruct (oleb p requested && oleb p mh); ring|]; intros p; split; [auto|intros [H|(_ & _ & pc & [] & _)]; exact H]|].
      assert (Hstep : rows_ok nkern (stp ord pc) /\ (forall p, weighted (stp ord pc) val p = weighted ord val p + (if oleb p requested && oleb p mh then (if oeqb (oadd (fst o) (fst pc)) p then snd pc * sum (snd o) (fun k => nth k val 0) else 0) else 0)) /\ (forall p, In p (map fst (stp ord pc)) <-> In p (map fst ord) \/ (oleb p requested = true /\ oleb p mh = true /\ p = oadd (fst o) (fst pc)))).
      { unfold stp. cbv beta zeta. set (q := oadd (fst o) (fst pc)). destruct (oleb q requested && oleb q mh) eqn:El.
        2: { split; [exact Ho|]. split; intros p.
             - destruct (oeqb q p) eqn:E; [apply oeqb_spec in E; subst p; rewrite El; ring|]. destruct (oleb p requested && oleb p mh); ring.
             - split; [auto|]. intros [H|(H1 & H2 & ->)]; [exact H|]. rewrite H1, H2 in El. discriminate. }
        set (row := match bget q ord with Some r => r | None => repeat 0 nkern end).
        assert (Hrow : length row = nkern) by (unfold row; destruct (bget q ord) eqn:E; [apply (Ho _ _ E)|apply repeat_length]).
        destruct (dot_fold (snd pc) (snd o) row val) as [D1 D2]; [rewrite Hrow; exact Hk|congruence|]. cbn zeta in D1, D2.
        assert (Hd : dot row val = weighted ord val q) by (unfold row, weighted; destruct (bget q ord); [reflexivity|apply dot_zero]).
        split; [|split].
        - intros p r. rewrite bget_set. destruct (oeqb p q); [intros [= <-]; congruence|apply Ho].
        - intros p. unfold weighted at 1. rewrite bget_set. destruct (oeqb p q) eqn:E.
          + apply oeqb_spec in E. subst p. rewrite D2, Hd, El, oeqb_refl. reflexivity.
          + replace (oeqb q p) with false by (symmetry; apply oeqb_false; apply oeqb_false in E; congruence). fold (weighted ord val p). destruct (oleb p requested && oleb p mh); ring.
        - intros p. rewrite bset_keys. apply andb_prop in El as [El1 El2]. split; [intros [->|]; auto|]. intros [|(_ & _ & ->)]; auto. }
      destruct Hstep as (S1 & S2 & S3). destruct (IHl (stp ord pc) S1) as (J1 & J2 & J3). cbn zeta in *. split; [exact J1|]. split.
      - intros p. rewrite J2, S2, sum_cons. destruct (oleb p requested && oleb p mh); ring.
      - intros p. rewrite J3, S3. cbn [In]. split; [intros [[H|(H1 & H2 & H3)]|(H1 & H2 & x & H3 & H4)]; [auto|right; eauto 6|right; eauto 6]|]. intros [H|(H1 & H2 & x & [<-|H3] & H4)]; [auto|auto|right; eauto 6]. }
    destruct (G pref orders Hrows) as (G1 & G2 & G3). cbn zeta in *. destruct (IH _ G1 Hks) as (J1 & J2 & J3). split; [exact J1|]. split.
    + intros p. rewrite J2, G2, sum_cons. destruct (oleb p requested && oleb p mh); ring.
    + intros p. rewrite J3, G3. cbn [In]. split; [intros [[H|(H1 & H2 & x & H3 & H4)]|(H1 & H2 & y & x & H3 & H4)]; [auto|right; split; [exact H1|]; split; [exact H2|]; exists o, x; auto|right; split; [exact H1|]; split; [exact H2|]; exists y, x; destruct H4; auto]|].
      intros [H|(H1 & H2 & y & x & [<-|H3] & H4 & H5)]; [auto|left; right; eauto 6|right; eauto 8].
Qed.
End Sums.
