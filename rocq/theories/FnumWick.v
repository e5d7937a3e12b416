From Verif Require Import FieldBase MiscModel MiscSpec MiscProofs FnumModel FnumSpec FnumProofs FnumContract.
Local Open Scope fld_scope.
Section W.
Variable F : Fld.
Add Field Fw : (f_th F).
Lemma Radd_comm_F (a b : F) : a + b = b + a. Proof. ring. Qed.
Lemma sum_exchange2 {A B} (f : A -> B -> F) l1 l2 : sumF (map (fun i => sumF (map (fun j => f i j) l2)) l1) = sumF (map (fun j => sumF (map (fun i => f i j) l1)) l2).
Proof.
  induction l1 as [|i l1 IH]; cbn [map sumF].
  - induction l2 as [|j l2 IH2]; cbn [map sumF]; [reflexivity|]. rewrite <- IH2. ring.
  - rewrite IH. clear IH. induction l2 as [|j l2 IH2]; cbn [map sumF]; [ring|]. rewrite <- IH2. ring.
Qed.
Lemma pairs_fuel {A} : forall f1 f2 (l : list A), length l <= f1 -> length l <= f2 -> all_pairs_rec f1 l = all_pairs_rec f2 l.
Proof.
  induction f1 as [|f1 IH]; intros f2 l H1 H2.
  - destruct l; [|cbn in H1; lia]. destruct f2; reflexivity.
  - destruct l as [|a [|b l]]; [destruct f2; reflexivity|destruct f2; reflexivity|]. destruct f2 as [|f2]; [cbn in H2; lia|].
    rewrite !all_pairs_rec_cons, !flat_map_concat_map. f_equal. apply map_ext_in. intros (y, r) Hq. cbn [fst snd]. apply picks_len in Hq. cbn [length] in *.
    rewrite (IH f2); [reflexivity|lia|lia].
Qed.
Section Gen.
Variable T : Type.
Notation sel := (select T).
Lemma picks_select (l : list T) : forall pre, picks pre l = map (fun q => (fst q, pre ++ snd q)) (sel l).
Proof.
  induction l as [|x l IH]; intros pre; cbn [picks FnumSpec.select map fst snd]; [reflexivity|]. f_equal. rewrite IH, map_map. apply map_ext.
  intros (y, r). cbn [fst snd]. rewrite <- app_assoc. reflexivity.
Qed.
Lemma select_len (l : list T) : Forall (fun q => S (length (snd q)) = length l) (sel l).
Proof.
  induction l as [|x l IH]; cbn [FnumSpec.select]; [constructor|]. constructor; [reflexivity|]. apply Forall_map. apply Forall_impl with (2 := IH).
  intros q Hq. cbn. rewrite Hq. reflexivity.
Qed.
Lemma select_perm_in (l : list T) y r : In (y, r) (sel l) -> Permutation l (y :: r).
Proof.
  revert y r. induction l as [|x l IH]; intros y r H; cbn [FnumSpec.select] in H; [destruct H|]. destruct H as [H|H]; [injection H as <- <-; reflexivity|].
  apply in_map_iff in H as ((z, s) & E & Hs). injection E as <- <-. cbn [fst snd]. rewrite (IH _ _ Hs). apply perm_swap.
Qed.
(** positional splits into the elements of "A" and of "P" *)
Fixpoint splits (l : list T) : list (list T * list T) :=
  match l with [] => [([], [])] | x :: r => map (fun q => (x :: fst q, snd q)) (splits r) ++ map (fun q => (fst q, x :: snd q)) (splits r) end.
Lemma splits_perm l : Forall (fun q => Permutation l (fst q ++ snd q)) (splits l).
Proof.
  induction l as [|x l IH]; cbn [splits]; [constructor; [reflexivity|constructor]|]. apply Forall_app. rewrite Forall_forall in IH.
  split; apply Forall_map, Forall_forall; intros q Hq; cbn [fst snd].
  - cbn [app]. constructor. apply IH, Hq.
  - rewrite <- Permutation_middle. constructor. apply IH, Hq.
Qed.
Variables (mean : T -> F) (cov : T -> T -> F) (c : nat -> F).
Definition pairprod (p : list (T * T)) : F := prodF (map (fun q => cov (fst q) (snd q)) p).
Definition pairsum (A : list T) : F := sumF (map pairprod (all_pairs_rec (length A) A)).
Lemma sum_flat {A B} (f : B -> F) (h : A -> list B) l : sumF (map f (flat_map h l)) = sumF (map (fun x => sumF (map f (h x))) l).
Proof. induction l as [|x l IH]; cbn [flat_map map sumF]; [reflexivity|]. rewrite map_app, sumF_app, IH. reflexivity. Qed.
Lemma sum_scale {A} (k : F) (f : A -> F) l : sumF (map (fun x => k * f x) l) = k * sumF (map f l).
Proof. induction l as [|x l IH]; cbn [map sumF]; [ring|rewrite IH; ring]. Qed.
Lemma sum_add {A} (f h : A -> F) l : sumF (map (fun x => f x + h x) l) = sumF (map f l) + sumF (map h l).
Proof. induction l as [|x l IH]; cbn [map sumF]; [ring|rewrite IH; ring]. Qed.
Lemma pairsum_cons x A : A <> [] -> pairsum (x :: A) = sumF (map (fun q => cov x (fst q) * pairsum (snd q)) (sel A)).
Proof.
  intros HA. destruct A as [|b A]; [congruence|]. unfold pairsum. cbn [length]. rewrite all_pairs_rec_cons, sum_flat.
  change (S (length A)) with (length (b :: A)). rewrite picks_select, map_map. apply sumF_map_ext. intros (y, r) Hq. cbn [fst snd app].
  rewrite map_map. unfold pairprod at 1. cbn [map prodF fst snd]. change (fun x0 => cov x y * prodF (map (fun q => cov (fst q) (snd q)) x0)) with (fun x0 => cov x y * pairprod x0).
  rewrite sum_scale. f_equal. f_equal. f_equal.
  pose proof (select_len (b :: A)) as HL. rewrite Forall_forall in HL. specialize (HL _ Hq). cbn [snd length] in HL. 
  apply pairs_fuel; cbn [length]; lia.
Qed.
Definition h (m k : nat) : F := if Nat.even k then c (m + Nat.div2 k) else 0.
Definition split_term (m : nat) (q : list T * list T) : F := h m (length (fst q)) * pairsum (fst q) * prodF (map mean (snd q)).
Definition split_sum (m : nat) (l : list T) : F := sumF (map (split_term m) (splits l)).
(** first an element of A and then the split, or the split and then an element of A *)
Lemma select_splits (f : T -> list T * list T -> F) l :
  sumF (map (fun q => sumF (map (fun y => f (fst y) (snd y, snd q)) (sel (fst q)))) (splits l))
  = sumF (map (fun y => sumF (map (f (fst y)) (splits (snd y)))) (sel l)).
Proof.
  revert f. induction l as [|x l IH]; intros f; cbn [splits FnumSpec.select map sumF fst snd].
  - ring.
  - rewrite map_app, sumF_app, !map_map. cbn [fst snd].
    rewrite (sumF_map_ext F (fun q => sumF (map (fun y => f (fst y) (snd y, snd q)) (sel (x :: fst q))))
       (fun q => f x q + sumF (map (fun y => f (fst y) (x :: snd y, snd q)) (sel (fst q))))); [|intros (A, P) _; cbn [FnumSpec.select map sumF fst snd]; rewrite map_map; reflexivity].
    rewrite sum_add. pose proof (IH (fun y q => f y (x :: fst q, snd q))) as I1. pose proof (IH (fun y q => f y (fst q, x :: snd q))) as I2. cbn [fst snd] in I1, I2. rewrite I1, I2.
    rewrite (sumF_map_ext F (fun y => sumF (map (f (fst y)) (splits (x :: snd y)))) (fun y => sumF (map (fun q => f (fst y) (x :: fst q, snd q)) (splits (snd y))) + sumF (map (fun q => f (fst y) (fst q, x :: snd q)) (splits (snd y))))).
    + rewrite sum_add. change (fun x0 => f x x0) with (f x). ring.
    + intros y _. cbn [splits]. rewrite map_app, sumF_app, !map_map. reflexivity.
Qed.
Lemma split_sum_cons m x l : split_sum m (x :: l) = mean x * split_sum m l + sumF (map (fun q => cov x (fst q) * split_sum (S m) (snd q)) (sel l)).
Proof.
  unfold split_sum at 1. cbn [splits]. rewrite map_app, sumF_app, !map_map. cbn [fst snd]. rewrite Radd_comm_F. f_equal.
  - unfold split_sum. rewrite <- sum_scale. apply sumF_map_ext. intros q _. unfold split_term. cbn [fst snd map prodF]. ring.
  - rewrite (sumF_map_ext F _ (fun q => sumF (map (fun y => cov x (fst y) * split_term (S m) (snd y, snd q)) (sel (fst q))))).
    + rewrite (select_splits (fun y q => cov x y * split_term (S m) q)). apply sumF_map_ext. intros y _. unfold split_sum. rewrite <- sum_scale. reflexivity.
    + intros (A, P) _. unfold split_term. cbn [fst snd]. destruct A as [|b A].
      * cbn [length]. unfold h. cbn. ring.
      * rewrite pairsum_cons by discriminate.
        rewrite (sumF_map_ext F (fun y => cov x (fst y) * (h (S m) (length (snd y)) * pairsum (snd y) * prodF (map mean P)))
           (fun y => h m (length (x :: b :: A)) * prodF (map mean P) * (cov x (fst y) * pairsum (snd y)))).
        -- rewrite sum_scale. ring.
        -- intros y Hy. pose proof (select_len (b :: A)) as HL. rewrite Forall_forall in HL. specialize (HL _ Hy). cbn [length] in HL. injection HL as HL.
           assert (Eh : h (S m) (length (snd y)) = h m (length (x :: b :: A))).
           { unfold h. cbn [length]. rewrite HL. cbn [Nat.even Nat.div2]. rewrite Nat.add_succ_r. reflexivity. }
           rewrite Eh. ring.
Qed.
Lemma wick_split n : forall m l, length l <= n -> wick F T mean cov c n m l = split_sum m l.
Proof.
  induction n as [|n IH]; intros m l Hl.
  - destruct l; [|cbn in Hl; lia]. cbn [wick]. unfold split_sum, split_term. cbn. unfold h. cbn. rewrite Nat.add_0_r. ring.
  - destruct l as [|x l].
    + cbn [wick]. unfold split_sum, split_term. cbn. unfold h. cbn. rewrite Nat.add_0_r. ring.
    + cbn [wick]. cbn [length] in Hl. rewrite split_sum_cons, IH by lia. f_equal. apply sumF_map_ext. intros q Hq. rewrite IH; [reflexivity|].
      pose proof (select_len l) as HL. rewrite Forall_forall in HL. specialize (HL _ Hq). lia.
Qed.
(** the loop over the subsets *)
Lemma combinations_sum (f : list T -> F) l : forall r, sumF (map f (combinations r l)) = sumF (map (fun q => if Nat.eqb (length (fst q)) r then f (fst q) else 0) (splits l)).
Proof.
  revert f. induction l as [|x l IH]; intros f r.
  - destruct r; cbn; ring.
  - cbn [splits]. rewrite map_app, sumF_app, !map_map. cbn [fst snd length]. destruct r as [|r].
    + assert (Ec : forall l' : list T, combinations 0 l' = [[]]) by (intros [|]; reflexivity). rewrite Ec, <- (Ec l). rewrite IH.
      rewrite (sumF_map_ext F (fun q : list T * list T => if Nat.eqb (S (length (fst q))) 0 then f (x :: fst q) else 0) (fun _ => 0 * 1)) by (intros; cbn; ring).
      rewrite (sum_scale 0). ring.
    + cbn [combinations]. rewrite map_app, sumF_app, map_map, (IH (fun A => f (x :: A))), IH. reflexivity.
Qed.
Lemma range_even_sum (f : F) n N : n <= N -> sumF (map (fun r => if Nat.eqb n r then f else 0) (range_step 0 (N + 1) 2)) = if Nat.even n then f else 0.
Proof.
  intros Hn. unfold range_step. rewrite map_map.
  set (K := ((N + 1 - 0 + 2 - 1) / 2)%nat). assert (HK : N < 2 * K). { unfold K. replace (N + 1 - 0 + 2 - 1)%nat with (N + 2)%nat by lia.
    pose proof (Nat.div_mod (N + 2) 2 ltac:(lia)). pose proof (Nat.mod_upper_bound (N + 2) 2 ltac:(lia)). lia. }
  assert (G : forall k s, sumF (map (fun x => if Nat.eqb n (0 + x * 2) then f else 0) (seq s k)) = if (Nat.even n && Nat.leb (2 * s) n && Nat.ltb n (2 * (s + k)))%bool then f else 0).
  { induction k as [|k IH]; intros s; cbn [seq map sumF].
    - destruct (Nat.even n); cbn [andb]; [|reflexivity]. destruct (Nat.leb_spec (2 * s) n); cbn [andb]; [|reflexivity]. destruct (Nat.ltb_spec n (2 * (s + 0))); [lia|reflexivity].
    - rewrite IH. destruct (Nat.eqb_spec n (0 + s * 2)) as [E|E].
      + assert (Ev : Nat.even n = true) by (rewrite E; apply Nat.even_spec; exists s; lia). rewrite Ev.
        destruct (Nat.leb_spec (2 * S s) n); [lia|]. destruct (Nat.leb_spec (2 * s) n); [|lia]. destruct (Nat.ltb_spec n (2 * (s + S k))); [|lia]. cbn [andb]. ring.
      + destruct (Nat.even n) eqn:Ev; cbn [andb]; [|ring]. apply Nat.even_spec in Ev as [j Ej].
        destruct (Nat.leb_spec (2 * S s) n), (Nat.ltb_spec n (2 * (S s + k))), (Nat.leb_spec (2 * s) n), (Nat.ltb_spec n (2 * (s + S k))); cbn [andb]; try lia; ring. }
  rewrite G. destruct (Nat.even n); cbn [andb]; [|reflexivity]. destruct (Nat.leb_spec (2 * 0) n); [|lia]. destruct (Nat.ltb_spec n (2 * (0 + K))); [reflexivity|lia].
Qed.
Lemma powerset_sum (f : list T -> F) l L : powerset l 0 2 = Some L ->
  sumF (map f L) = sumF (map (fun q => if Nat.even (length (fst q)) then f (fst q) else 0) (splits l)).
Proof.
  intros H. rewrite powerset_some in H by lia. injection H as <-. rewrite sum_flat.
  rewrite (sumF_map_ext F _ (fun r => sumF (map (fun q => if Nat.eqb (length (fst q)) r then f (fst q) else 0) (splits l)))) by (intros; apply combinations_sum).
  rewrite (sum_exchange2 (fun r (q : list T * list T) => if Nat.eqb (length (fst q)) r then f (fst q) else 0)). apply sumF_map_ext. intros q Hq. apply range_even_sum.
  pose proof (splits_perm l) as HS. rewrite Forall_forall in HS. rewrite (Permutation_length (HS _ Hq)), app_length. lia.
Qed.
(** ** the order of the factors does not matter *)
Lemma double_select (phi : T -> T -> list T -> F) l :
  sumF (map (fun q => sumF (map (fun r => phi (fst q) (fst r) (snd r)) (sel (snd q)))) (sel l))
  = sumF (map (fun q => sumF (map (fun r => phi (fst r) (fst q) (snd r)) (sel (snd q)))) (sel l)).
Proof.
  revert phi. induction l as [|x l IH]; intros phi; cbn [FnumSpec.select map sumF fst snd]; [reflexivity|]. rewrite !map_map. cbn [fst snd].
  rewrite (sumF_map_ext F (fun q => sumF (map (fun r => phi (fst q) (fst r) (snd r)) (sel (x :: snd q))))
     (fun q => phi (fst q) x (snd q) + sumF (map (fun r => phi (fst q) (fst r) (x :: snd r)) (sel (snd q))))); [|intros q _; cbn [FnumSpec.select map sumF fst snd]; rewrite map_map; reflexivity].
  rewrite (sumF_map_ext F (fun q => sumF (map (fun r => phi (fst r) (fst q) (snd r)) (sel (x :: snd q))))
     (fun q => phi x (fst q) (snd q) + sumF (map (fun r => phi (fst r) (fst q) (x :: snd r)) (sel (snd q))))); [|intros q _; cbn [FnumSpec.select map sumF fst snd]; rewrite map_map; reflexivity].
  rewrite !sum_add, (IH (fun a b r => phi a b (x :: r))). ring.
Qed.
Lemma select_perm (l l' : list T) : Permutation l l' -> forall f : T -> list T -> F,
  (forall y r r', S (length r) = length l -> Permutation r r' -> f y r = f y r') ->
  sumF (map (fun q => f (fst q) (snd q)) (sel l)) = sumF (map (fun q => f (fst q) (snd q)) (sel l')).
Proof.
  induction 1 as [|x l l' P IH|x y l|l1 l2 l3 P1 IH1 P2 IH2]; intros f Hf; [reflexivity| | |].
  - cbn [FnumSpec.select map sumF fst snd]. rewrite !map_map. cbn [fst snd]. f_equal; [apply Hf; [reflexivity|exact P]|].
    apply (IH (fun y r => f y (x :: r))). intros y r r' Hr Pr. apply Hf; [cbn [length]; lia|constructor; exact Pr].
  - cbn [FnumSpec.select map sumF fst snd]. rewrite !map_map. cbn [fst snd].
    assert (E : sumF (map (fun q => f (fst q) (y :: x :: snd q)) (sel l)) = sumF (map (fun q => f (fst q) (x :: y :: snd q)) (sel l))).
    { apply sumF_map_ext. intros q Hq. apply Hf; [|apply perm_swap]. pose proof (select_len l) as HL. rewrite Forall_forall in HL. specialize (HL _ Hq). cbn [length]. lia. }
    rewrite E. ring.
  - rewrite IH1 by exact Hf. apply IH2. intros y r r' Hr. apply Hf. rewrite (Permutation_length P1). exact Hr.
Qed.
Hypothesis cov_sym : forall x y, cov x y = cov y x.
Lemma split_sum_perm n : forall l l', length l <= n -> Permutation l l' -> forall m, split_sum m l = split_sum m l'.
Proof.
  induction n as [|n IHn]; intros l l' Hl HP.
  - destruct l; [|cbn in Hl; lia]. apply Permutation_nil in HP. subst. reflexivity.
  - revert Hl. induction HP as [|x l l' P IH|x y l|l1 l2 l3 P1 IH1 P2 IH2]; intros Hl m; [reflexivity| | |].
    + cbn [length] in Hl. rewrite !split_sum_cons, (IHn l l') by (try lia; exact P). f_equal.
      apply (select_perm l l' P (fun y r => cov x y * split_sum (S m) r)). intros y r r' Hr Pr. rewrite (IHn r r'); [reflexivity|lia|exact Pr].
    + rewrite !split_sum_cons. cbn [FnumSpec.select map sumF fst snd]. rewrite !map_map. cbn [fst snd].
      rewrite (sumF_map_ext F (fun q => cov y (fst q) * split_sum (S m) (x :: snd q))
        (fun q => mean x * (cov y (fst q) * split_sum (S m) (snd q)) + sumF (map (fun r => cov y (fst q) * cov x (fst r) * split_sum (S (S m)) (snd r)) (sel (snd q))))).
      2:{ intros q _. rewrite split_sum_cons.
          rewrite (sumF_map_ext F (fun r => cov y (fst q) * cov x (fst r) * split_sum (S (S m)) (snd r)) (fun r => cov y (fst q) * (cov x (fst r) * split_sum (S (S m)) (snd r)))) by (intros; ring).
          rewrite sum_scale. ring. }
      rewrite (sumF_map_ext F (fun q => cov x (fst q) * split_sum (S m) (y :: snd q))
        (fun q => mean y * (cov x (fst q) * split_sum (S m) (snd q)) + sumF (map (fun r => cov x (fst q) * cov y (fst r) * split_sum (S (S m)) (snd r)) (sel (snd q))))).
      2:{ intros q _. rewrite split_sum_cons.
          rewrite (sumF_map_ext F (fun r => cov x (fst q) * cov y (fst r) * split_sum (S (S m)) (snd r)) (fun r => cov x (fst q) * (cov y (fst r) * split_sum (S (S m)) (snd r)))) by (intros; ring).
          rewrite sum_scale. ring. }
      rewrite !sum_add, !sum_scale. rewrite (double_select (fun a b r => cov y a * cov x b * split_sum (S (S m)) r)).
      rewrite (sumF_map_ext F (fun q => sumF (map (fun r => cov y (fst r) * cov x (fst q) * split_sum (S (S m)) (snd r)) (sel (snd q))))
         (fun q => sumF (map (fun r => cov x (fst q) * cov y (fst r) * split_sum (S (S m)) (snd r)) (sel (snd q))))).
      2:{ intros q _. apply sumF_map_ext. intros r _. ring. }
      rewrite (cov_sym y x). ring.
    + rewrite IH1 by exact Hl. apply IH2. rewrite <- (Permutation_length P1). exact Hl.
Qed.
Theorem isserlis_perm l l' : Permutation l l' -> isserlis F T mean cov c l = isserlis F T mean cov c l'.
Proof. intros H. unfold isserlis. rewrite !wick_split by lia. apply (split_sum_perm (length l)); [lia|exact H]. Qed.
End Gen.
End W.
