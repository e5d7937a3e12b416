(** C76: tensor reduction of the numerator of a loop integral given by propagators. *)
From Verif Require Import FieldBase MiscModel MiscSpec MiscProofs FnumModel FnumSpec FnumProofs FnumContract FnumWick.
Local Open Scope fld_scope.

(** contracting metric tensors, the tensor "P" and the external momenta does not change the value of the product, for every
    dimension, metric, vectors and values of the free indices; the trace of a metric tensor is the dimension *)
Theorem C76_contraction_keeps_value : forall (F : Fld) (d : nat) (w : nat -> F), (forall i, i < d -> w i <> 0) ->
  forall ms ps es e, in_range d e -> at_most_twice (occurrences F ms (ps ++ es)) ->
  let c := contract F (natF d) ms ps es in
  tensor_value F d w ms (ps ++ es) e = coef c * tensor_value F d w (metrics c) (vectors c) e.
Proof. intros F d w Hw ms ps es e He Ha. apply contract_value; assumption. Qed.
(** a metric tensor that is left over carries two different free indices *)
Theorem C76_contraction_complete : forall (F : Fld) (d : nat) (w : nat -> F), (forall i, i < d -> w i <> 0) ->
  forall ms ps es e, in_range d e -> at_most_twice (occurrences F ms (ps ++ es)) ->
  let c := contract F (natF d) ms ps es in
  Forall (fun q => fst q <> snd q /\ count_occ Nat.eq_dec (occurrences F (metrics c) (vectors c)) (fst q) = 1%nat
                /\ count_occ Nat.eq_dec (occurrences F (metrics c) (vectors c)) (snd q) = 1%nat) (metrics c).
Proof. intros F d w Hw ms ps es e He Ha. apply (contract_complete F d w Hw ms ps es e); assumption. Qed.

Section Num.
Variable F : Fld.
Add Field Fm : (f_th F).
(** 351-369: Gamma(a - m) = reduce_gamma(m) * Gamma(a - highest_rank//2) for every function with the recursion of the Gamma function *)
Theorem C76_gamma_recursion (G : F -> F) (a : F) (n m : nat) : (forall x, x <> 0 -> G (x + 1) = x * G x) ->
  (forall k, m < k <= m + n -> a - natF k <> 0) -> reduce_gamma F a n m * G (a - natF (m + n)) = G (a - natF m).
Proof.
  intros HG. revert m. induction n as [|n IH]; intros m Hk; cbn [reduce_gamma]; [rewrite Nat.add_0_r; ring|].
  assert (E : G (a - natF m) = (a - natF (m + 1)) * G (a - natF (m + 1))).
  { rewrite <- HG by (apply Hk; lia). f_equal. rewrite natF_add. cbn [natF]. ring. }
  rewrite E, <- (IH (m + 1)%nat) by (intros k H; apply Hk; lia). replace (m + 1 + n)%nat with (m + S n)%nat by lia. ring.
Qed.
Variables (d : nat) (w : nat -> F).
Hypothesis Hw : forall i, i < d -> w i <> 0.
Variables (a Fval Uval : F) (highest_rank : nat) (aM : nat -> nat -> F) (P p : nat -> nat -> F).
Notation T := (nat * nat)%type.
(** the value of the numerator returned for one term *)
Definition numerator_value (l : list (summand F)) (e : nat -> nat) : F :=
  sumF (map (fun s => coef s * tensor_value F d w (metrics s) (vectors s) e) l).
(** the components of the factors: k_i^mu has mean (aM Q)_i^mu, two of them are paired to aM_ij g^mu^nu *)
Definition mean (e : nat -> nat) (x : T) : F := P (fst x) (e (snd x)).
Definition cov (e : nat -> nat) (x y : T) : F := aM (fst x) (fst y) * metric F w (e (snd x)) (e (snd y)).
(** 356-368 with r = 2 m *)
Definition pair_weight (m : nat) : F := npow (fdiv 1 (- (1 + 1))) m * npow Fval m * reduce_gamma F a (Nat.div2 highest_rank - m) m.
Definition term_spec (loop_tensor external : list T) (remainder : F) (e : nat -> nat) : F :=
  remainder * npow Uval (highest_rank - length loop_tensor) *
  contract_sum F d w (dummies (map snd loop_tensor ++ map snd external)) e
    (fun e => isserlis F T (mean e) (cov e) pair_weight loop_tensor * prodF (map (fun q => p (fst q) (e (snd q))) external)).
Notation PT := (pair_term F (natF d) a Fval Uval highest_rank aM P p).
Notation TN := (term_numerator F (natF d) a Fval Uval highest_rank aM P p).
Lemma eqb2_spec x y : eqb2 x y = true <-> x = y.
Proof. destruct x, y. unfold eqb2. cbn. rewrite andb_true_iff, !Nat.eqb_eq. split; [intros [-> ->]; reflexivity|intros H; injection H; auto]. Qed.
Definition Vs (e : nat -> nat) (s : summand F) : F := coef s * tensor_value F d w (metrics s) (vectors s) e.
Definition inner_sum (lt ext : list T) (r : F) (e : nat -> nat) (A : list T) : F :=
  match missing eqb2 lt A, all_pairs A with
  | Some P_indices, Some pairings => sumF (map (fun q => Vs e (PT q P_indices ext (length A) (length lt) r)) pairings)
  | _, _ => 0 end.
Lemma TN_sum lt ext r l e : TN lt ext r = Some l -> exists L, powerset lt 0 2 = Some L /\ numerator_value l e = sumF (map (inner_sum lt ext r e) L).
Proof.
  unfold term_numerator. destruct (powerset lt 0 2) as [L|]; [|discriminate]. intros H. exists L. split; [reflexivity|].
  revert l H. induction L as [|A L IH]; intros l H; cbn [fold_right] in H; [injection H as <-; reflexivity|].
  cbn [map sumF]. unfold inner_sum at 1. destruct (missing eqb2 lt A) as [Pi|]; [|discriminate]. destruct (all_pairs A) as [ps|]; [|discriminate].
  destruct (fold_right _ _ L) as [l'|] eqn:E; [|discriminate]. injection H as <-. unfold numerator_value. rewrite map_app, sumF_app, map_map.
  rewrite <- (IH l' eq_refl). reflexivity.
Qed.
Lemma pair_value lt ext r e A Pi pr k n : in_range d e -> at_most_twice (map snd lt ++ map snd ext) -> Permutation lt (A ++ Pi) -> is_matching pr A ->
  Vs e (PT pr Pi ext k n r) = r * npow Uval (highest_rank - n) *
    contract_sum F d w (dummies (map snd lt ++ map snd ext)) e
     (fun e => scalar_factor F a Fval highest_rank k * (pairprod F T (cov e) pr * prodF (map (mean e) Pi)) * prodF (map (fun q => p (fst q) (e (snd q))) ext)).
Proof.
  intros He Ha HP HM. unfold Vs, pair_term. cbn [coef metrics vectors].
  set (ms := map (fun q : T * T => (snd (fst q), snd (snd q))) pr). set (vp := map (fun q : T => (P (fst q), snd q)) Pi).
  set (ve := map (fun q : T => (p (fst q), snd q)) ext).
  assert (Pocc : Permutation (occurrences F ms (vp ++ ve)) (map snd lt ++ map snd ext)).
  { unfold occurrences. rewrite map_app, app_assoc. unfold vp, ve. rewrite !map_map. cbn [snd]. apply Permutation_app; [|reflexivity].
    assert (E : flat_map (fun q : nat * nat => [fst q; snd q]) ms = map snd (unpair pr)).
    { unfold ms, unpair. clear. induction pr as [|q pr IH]; [reflexivity|]. cbn [map flat_map app fst snd]. rewrite IH. reflexivity. }
    rewrite E, HM, <- map_app. apply Permutation_map. symmetry. exact HP. }
  assert (Ha' : at_most_twice (occurrences F ms (vp ++ ve))) by (intros x; rewrite (perm_cnt _ _ Pocc); apply Ha).
  pose proof (contract_value F d w Hw ms vp ve e He Ha') as V. cbv zeta in V.
  set (c := contract F (natF d) ms vp ve) in *.
  set (S0 := scalar_factor F a Fval highest_rank k). set (U0 := npow Uval (highest_rank - n)). set (M0 := prodF (map (fun q : T * T => aM (fst (fst q)) (fst (snd q))) pr)).
  replace (S0 * U0 * r * M0 * coef c * tensor_value F d w (metrics c) (vectors c) e) with (r * U0 * (S0 * M0 * (coef c * tensor_value F d w (metrics c) (vectors c) e))) by ring.
  rewrite <- V. f_equal. unfold tensor_value.
  rewrite (cs_perm F d w _ _ (dummies_perm _ _ (perm_cnt _ _ Pocc)) e _ He (fac_resp F w ms (vp ++ ve))). rewrite <- cs_scale.
  apply cs_ext; try assumption; [reflexivity|]. intros x y Hx Hy Exy.
  rewrite (fac_resp F w ms (vp ++ ve) x y Exy). unfold FnumSpec.factors, pairprod, cov, mean. rewrite map_app, prodF_app.
  rewrite prodF_mul. unfold M0, ms, vp, ve. rewrite !map_map. cbn [fst snd]. ring.
Qed.
Lemma inner_value lt ext r e A P0 : in_range d e -> at_most_twice (map snd lt ++ map snd ext) -> Permutation lt (A ++ P0) -> Nat.even (length A) = true ->
  inner_sum lt ext r e A = r * npow Uval (highest_rank - length lt) *
    contract_sum F d w (dummies (map snd lt ++ map snd ext)) e
     (fun e => split_term F T (mean e) (cov e) pair_weight 0 (A, P0) * prodF (map (fun q => p (fst q) (e (snd q))) ext)).
Proof.
  intros He Ha HP HE. unfold inner_sum. destruct (missing_total eqb2 eqb2_spec A lt P0 HP) as [Pi EPi]. rewrite EPi.
  apply missing_perm in EPi; [|exact eqb2_spec]. unfold all_pairs. rewrite HE.
  assert (PP : Permutation Pi P0). { apply (Permutation_app_inv_l A). rewrite <- EPi. exact HP. }
  rewrite (sumF_map_ext F _ (fun q => r * npow Uval (highest_rank - length lt) *
     contract_sum F d w (dummies (map snd lt ++ map snd ext)) e
     (fun e => scalar_factor F a Fval highest_rank (length A) * (pairprod F T (cov e) q * prodF (map (mean e) Pi)) * prodF (map (fun q => p (fst q) (e (snd q))) ext)))).
  2:{ intros q Hq. apply pair_value with (A := A); try assumption. eapply all_pairs_rec_sound; [|exact HE|exact Hq]. lia. }
  rewrite (sum_scale F). f_equal. rewrite <- cs_sum. apply cs_ext; try assumption; [reflexivity|].
  intros x y Hx Hy Exy. unfold split_term. cbn [fst snd]. unfold h. rewrite HE. cbn [Nat.add]. fold (scalar_factor F a Fval highest_rank (length A)).
  assert (Em : forall q, mean x q = mean y q) by (intros q; unfold mean; rewrite Exy; reflexivity).
  assert (Ec : forall q s, cov x q s = cov y q s) by (intros q s; unfold cov; rewrite !Exy; reflexivity).
  unfold pairsum.
  rewrite (sumF_map_ext F _ (fun q => scalar_factor F a Fval highest_rank (length A) * prodF (map (mean y) P0) * prodF (map (fun q => p (fst q) (y (snd q))) ext) * pairprod F T (cov y) q)).
  2:{ intros q _. rewrite (prodF_perm F (map (mean y) P0) (map (mean y) Pi)) by (apply Permutation_map; symmetry; exact PP).
      unfold pairprod. rewrite (prodF_map_ext F (mean x) (mean y)) by (intros; apply Em).
      rewrite (prodF_map_ext F (fun q0 => cov x (fst q0) (snd q0)) (fun q0 => cov y (fst q0) (snd q0))) by (intros; apply Ec).
      rewrite (prodF_map_ext F (fun q0 : T => p (fst q0) (x (snd q0))) (fun q0 => p (fst q0) (y (snd q0)))) by (intros; rewrite Exy; reflexivity). ring. }
  rewrite (sum_scale F). unfold pair_weight, scalar_factor. ring.
Qed.
Lemma even_sub (A s : list T) : sublist A s -> (exists k, length A = 0 + k * 2)%nat -> Nat.even (length A) = true /\ exists rest, Permutation s (A ++ rest).
Proof.
  intros H [k Hk]. split; [apply Nat.even_spec; exists k; lia|]. clear k Hk. induction H as [|x A s H [rest IH]|x A s H [rest IH]].
  - exists []. reflexivity.
  - exists rest. cbn [app]. constructor. exact IH.
  - exists (x :: rest). rewrite <- Permutation_middle. constructor. exact IH.
Qed.
(** the numerator of one term is Isserlis' formula contracted with the external momenta; it always exists *)
Theorem C76_numerator_is_isserlis (loop_tensor external : list T) (remainder : F) (e : nat -> nat) :
  in_range d e -> at_most_twice (map snd loop_tensor ++ map snd external) ->
  exists l, TN loop_tensor external remainder = Some l /\ numerator_value l e = term_spec loop_tensor external remainder e.
Proof.
  intros He Ha. assert (HT : exists l, TN loop_tensor external remainder = Some l).
  { unfold term_numerator. rewrite powerset_some by lia.
    set (L := flat_map _ _). assert (HL : Forall (fun A => Nat.even (length A) = true /\ exists rest, Permutation loop_tensor (A ++ rest)) L).
    { apply Forall_forall. intros A HA. pose proof (proj1 (powerset_in loop_tensor 0 2 L (Nat.lt_0_succ 1) (powerset_some loop_tensor 0 2 (Nat.lt_0_succ 1)) A) HA) as [X Y]. apply even_sub; assumption. }
    clearbody L. induction HL as [|A L [HE [rest HR]] HL IH]; cbn [fold_right]; [eexists; reflexivity|].
    destruct (missing_total eqb2 eqb2_spec A loop_tensor rest HR) as [Pi EPi]. rewrite EPi.
    assert (EA : all_pairs A = Some (all_pairs_rec (length A) A)) by (unfold all_pairs; rewrite HE; reflexivity). rewrite EA.
    destruct IH as [l' E]. rewrite E. eexists. reflexivity. }
  destruct HT as [l Hl]. exists l. split; [exact Hl|]. destruct (TN_sum _ _ _ _ e Hl) as (L & HL & ->).
  rewrite (powerset_sum F T (inner_sum loop_tensor external remainder e) loop_tensor L HL). unfold term_spec.
  set (rU := remainder * npow Uval (highest_rank - length loop_tensor)).
  rewrite (sumF_map_ext F _ (fun q => rU * contract_sum F d w (dummies (map snd loop_tensor ++ map snd external)) e
     (fun e => split_term F T (mean e) (cov e) pair_weight 0 q * prodF (map (fun q => p (fst q) (e (snd q))) external)))).
  - rewrite (sum_scale F). f_equal. rewrite <- cs_sum. apply cs_ext; try assumption; [reflexivity|]. intros x y Hx Hy Exy.
    unfold isserlis. rewrite wick_split by lia. unfold split_sum.
    rewrite (sumF_map_ext F _ (fun q => prodF (map (fun q => p (fst q) (y (snd q))) external) * split_term F T (mean y) (cov y) pair_weight 0 q)).
    + rewrite (sum_scale F). ring.
    + intros q _. unfold split_term, pairsum, pairprod.
      rewrite (prodF_map_ext F (fun q0 : T => p (fst q0) (x (snd q0))) (fun q0 => p (fst q0) (y (snd q0)))) by (intros; rewrite Exy; reflexivity).
      rewrite (prodF_map_ext F (mean x) (mean y)) by (intros; unfold mean; rewrite Exy; reflexivity).
      rewrite (sumF_map_ext F (fun p0 => prodF (map (fun q0 => cov x (fst q0) (snd q0)) p0)) (fun p0 => prodF (map (fun q0 => cov y (fst q0) (snd q0)) p0))).
      * ring.
      * intros s _. apply prodF_map_ext. intros z _. unfold cov. rewrite !Exy. reflexivity.
  - intros (A, P0) Hq. pose proof (splits_perm T loop_tensor) as HS. rewrite Forall_forall in HS. specialize (HS _ Hq). cbn [fst snd] in *.
    destruct (Nat.even (length A)) eqn:HE; [apply inner_value; assumption|].
    rewrite <- (cs_scale F). rewrite (cs_ext F d w _ e e _ (fun _ => 0 * 0) He He (fun _ => eq_refl)).
    + rewrite cs_scale. ring.
    + intros x y _ _ _. unfold split_term. cbn [fst snd]. unfold h. rewrite HE. ring.
Qed.
(** the order of the factors (of the loop momenta, of the external momenta: the order of [Lorentz_indices]) does not matter *)
Theorem C76_order_of_factors (lt lt' ext ext' : list T) (r : F) (e : nat -> nat) l l' :
  (forall i j, aM i j = aM j i) -> in_range d e -> at_most_twice (map snd lt ++ map snd ext) -> Permutation lt lt' -> Permutation ext ext' ->
  TN lt ext r = Some l -> TN lt' ext' r = Some l' -> numerator_value l e = numerator_value l' e.
Proof.
  intros Hs He Ha P1 P2 H1 H2.
  assert (PN : Permutation (map snd lt ++ map snd ext) (map snd lt' ++ map snd ext')) by (apply Permutation_app; apply Permutation_map; assumption).
  assert (Ha' : at_most_twice (map snd lt' ++ map snd ext')) by (intros n; rewrite <- (perm_cnt _ _ PN); apply Ha).
  destruct (C76_numerator_is_isserlis lt ext r e He Ha) as (l0 & E0 & V0).
  destruct (C76_numerator_is_isserlis lt' ext' r e He Ha') as (l1 & E1 & V1).
  rewrite H1 in E0. injection E0 as <-. rewrite H2 in E1. injection E1 as <-. rewrite V0, V1. unfold term_spec.
  rewrite (Permutation_length P1). f_equal.
  set (f := fun e : nat -> nat => isserlis F T (mean e) (cov e) pair_weight lt * prodF (map (fun q => p (fst q) (e (snd q))) ext)).
  assert (Hr : forall x y, (forall n, x n = y n) -> f x = f y).
  { intros x y Exy. unfold f. f_equal; [|apply prodF_map_ext; intros; rewrite Exy; reflexivity].
    unfold isserlis. rewrite !wick_split by lia. unfold split_sum. apply sumF_map_ext. intros q _. unfold split_term. f_equal; [f_equal|].
    - unfold pairsum. apply sumF_map_ext. intros s _. apply prodF_map_ext. intros z _. unfold cov. rewrite !Exy. reflexivity.
    - apply prodF_map_ext. intros z _. unfold mean. rewrite Exy. reflexivity. }
  rewrite (cs_perm F d w _ _ (dummies_perm _ _ (perm_cnt _ _ PN)) e f He Hr).
  apply cs_ext; try assumption; [reflexivity|]. intros x y Hx Hy Exy. rewrite (Hr x y Exy). unfold f. f_equal.
  - apply isserlis_perm; [|exact P1]. intros u v. unfold cov. rewrite Hs. f_equal. apply gm_sym.
  - apply prodF_perm. apply Permutation_map. exact P2.
Qed.
(** k_1(mu) k_1(mu): the mean squared and, from the pair, the dimension times aM_11 *)
Example C76_k_squared_hypotheses : at_most_twice (map snd [(1%nat, 7%nat); (1%nat, 7%nat)] ++ map snd (@nil T)).
Proof. intros n. unfold map, app, snd. cbn [count_occ]. destruct (Nat.eq_dec 7 n); lia. Qed.
Theorem C76_k_squared (r : F) (e : nat -> nat) : in_range d e -> exists l, TN [(1%nat, 7%nat); (1%nat, 7%nat)] [] r = Some l /\
  numerator_value l e = r * npow Uval (highest_rank - 2) *
    (pair_weight 0%nat * sumF (map (fun i => w i * (P 1%nat i * P 1%nat i)) (seq 0 d)) + pair_weight 1%nat * (natF d * aM 1%nat 1%nat)).
Proof.
  intros He. destruct (C76_numerator_is_isserlis [(1%nat, 7%nat); (1%nat, 7%nat)] [] r e He C76_k_squared_hypotheses) as (l & E & V).
  exists l. split; [exact E|]. rewrite V. unfold term_spec. cbn [length map app dummies snd nodup in_dec filter count_occ]. f_equal.
  unfold dummies. cbn [nodup in_dec list_rect Nat.eq_dec nat_rect filter count_occ Nat.eqb sumbool_rec sumbool_rect nat_rec f_equal contract_sum]. cbn.
  rewrite <- (sum_trace F d w Hw). 
  rewrite (sumF_map_ext F _ (fun i => pair_weight 0%nat * (w i * (P 1%nat i * P 1%nat i)) + pair_weight 1%nat * aM 1%nat 1%nat * (w i * metric F w i i))).
  - rewrite (sum_add F), !(sum_scale F). ring.
  - intros i _. unfold mean, cov. cbn [fst snd]. rewrite !set_same. ring.
Qed.
End Num.
