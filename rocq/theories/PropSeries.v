(** Property C54: arithmetic of secdecutil::Series. *)
From Coq Require Import QArith Qcanon.
From Verif Require Import SeriesSpec SeriesProofs SeriesProofs2.
Close Scope Q_scope. Close Scope Qc_scope.
Local Open Scope Z_scope.
Local Open Scope fld_scope.

(** * sums, differences, negation, scalars *)
(** The sum of what the operands stand for is what the result stands for, whatever the unknown coefficients are. *)
Theorem C54_add : forall (F : Fld) (s t : series F), good s -> good t -> par s = par t ->
  exists r, add s t = Ok r /\ good r /\ omin r = Z.min (omin s) (omin t) /\ trunc r = (trunc s || trunc t)%bool /\ par r = par s /\
  forall f g, stands_for s f -> stands_for t g -> stands_for r (fun k => f k + g k).
Proof. intros F s t G1 G2 P. destruct (add_ok s t G1 G2 P) as (r & H1 & H2 & H3 & _ & H4 & H5 & H6). eauto 10. Qed.
Theorem C54_sub : forall (F : Fld) (s t : series F), good s -> good t -> par s = par t ->
  exists r, sub s t = Ok r /\ good r /\ omin r = Z.min (omin s) (omin t) /\ trunc r = (trunc s || trunc t)%bool /\ par r = par s /\
  forall f g, stands_for s f -> stands_for t g -> stands_for r (fun k => f k - g k).
Proof. intros F s t G1 G2 P. destruct (sub_ok s t G1 G2 P) as (r & H1 & H2 & H3 & _ & H4 & H5 & H6). eauto 10. Qed.
Theorem C54_neg : forall (F : Fld) (s : series F), good s -> exists r, neg s = Ok r /\ good r /\ omin r = omin s /\ omax r = omax s /\ trunc r = trunc s /\ par r = par s /\
  forall f, stands_for s f -> stands_for r (fun k => - f k).
Proof. intros F. exact (@neg_ok F). Qed.
Theorem C54_scale : forall (F : Fld) left (s : series F) c, good s -> exists r, scale left s c = Ok r /\ good r /\ omin r = omin s /\ omax r = omax s /\ trunc r = trunc s /\ par r = par s /\
  forall f, stands_for s f -> stands_for r (fun k => c * f k).
Proof. intros F l. exact (@scale_ok F l). Qed.
Theorem C54_unscale : forall (F : Fld) (s : series F) c, good s -> c <> 0 -> exists r, unscale s c = Ok r /\ good r /\ omin r = omin s /\ omax r = omax s /\ trunc r = trunc s /\ par r = par s /\
  forall f, stands_for s f -> stands_for r (fun k => f k / c).
Proof. intros F. exact (@unscale_ok F). Qed.
(** a scalar is the constant series *)
Theorem C54_scalar : forall (F : Fld) (c : F) p, good (scalar c p) /\ forall f, stands_for (scalar c p) f <-> forall k, f k = if Z.eqb k 0 then c else 0.
Proof.
  intros F c p. split; [split; cbn; lia|]. intros f. unfold stands_for, scalar. cbn [omin omax cont trunc length]. split.
  - intros (H1 & H2 & H3) k. destruct (Z.eqb_spec k 0) as [->|N]; [exact (H2 0%nat ltac:(lia))|]. destruct (Z_lt_le_dec k 0); [apply H1; assumption|apply H3; [reflexivity|lia]].
  - intros H. split; [intros k Hk; rewrite H; destruct (Z.eqb_spec k 0); [lia|reflexivity]|]. split; [|intros _ k Hk; rewrite H; destruct (Z.eqb_spec k 0); [lia|reflexivity]]. intros n Hn. replace n with 0%nat by lia. rewrite H. reflexivity.
Qed.
(** * products and quotients *)
Theorem C54_mul : forall (F : Fld) (s t : series F), good s -> good t -> par s = par t ->
  exists r, mul s t = Ok r /\ good r /\ omin r = (omin s + omin t)%Z /\ trunc r = (trunc s || trunc t)%bool /\ par r = par s /\
  forall f g h, stands_for s f -> stands_for t g -> is_product f g h -> stands_for r h.
Proof. intros F s t G1 G2 P. destruct (mul_ok s t G1 G2 P) as (r & H1 & H2 & H3 & _ & H4 & H5 & H6). eauto 10. Qed.
(** f = g * q: the result stands for the quotient of the series; it is exact only for a one-term exact denominator and an exact numerator *)
Theorem C54_div : forall (F : Fld) (s t : series F), good s -> good t -> par s = par t -> nth 0 (cont t) 0 <> 0 ->
  exists r, div s t = Ok r /\ good r /\ omin r = (omin s - omin t)%Z /\ (trunc r = false <-> trunc s = false /\ trunc t = false /\ omin t = omax t) /\ par r = par s /\
  forall f g q, stands_for s f -> stands_for t g -> is_product g q f -> stands_for r q.
Proof.
  intros F s t G1 G2 P N. destruct (div_ok s t G1 G2 P N) as (r & H1 & H2 & H3 & _ & H4 & H5 & H6). exists r. split; [exact H1|]. split; [exact H2|]. split; [exact H3|]. split; [|split; assumption].
  rewrite H4. unfold div_trunc. destruct (Z.eqb_spec (omin t) (omax t)) as [E|E]; [rewrite orb_false_iff; tauto|]. split; [discriminate|]. intros (_ & _ & X). contradiction.
Qed.
(** products and quotients of Laurent series exist and are unique *)
Theorem C54_product_exists : forall (F : Fld) (s t : series F) f g, stands_for s f -> stands_for t g -> exists h, is_product f g h /\ forall h', is_product f g h' -> forall k, h' k = h k.
Proof.
  intros F s t f g Hf Hg. exists (conv (omin s) (omin t) f g). split; [apply conv_product; [exact (proj1 Hf)|exact (proj1 Hg)]|]. intros h' H' k. apply product_conv; [exact (proj1 Hf)|exact (proj1 Hg)|exact H'].
Qed.
Theorem C54_quotient_exists : forall (F : Fld) (s t : series F) f g, good t -> stands_for s f -> stands_for t g -> nth 0 (cont t) 0 <> 0 -> exists q, is_product g q f.
Proof.
  intros F s t f g G Hf Hg N. exists (quotient f g (omin s) (omin t)). apply quotient_ok; [exact (proj1 Hf)|exact (proj1 Hg)|]. pose proof G as [G1 G2]. intros E. apply N. rewrite <- (known_nth t g 0 G Hg) by (left; lia). rewrite Z.add_0_r. exact E.
Qed.
(** * the order range cannot be larger *)
Section Largest.
Context {F : Fld}.
Add Field FldPropSeries : (@f_th F).
Definition stored (s : series F) (k : Z) : F := if has_term s k then at_ s k else 0.
Definition unknown (s : series F) (d : F) (k : Z) : F := if Z.eqb k (omax s + 1) then d else stored s k.
Lemma stored_for (s : series F) : good s -> stands_for s (stored s).
Proof.
  intros [G1 G2]. unfold stored. split; [intros k Hk; destruct (has_term s k) eqn:E; [apply has_spec in E; lia|reflexivity]|]. split; [|intros _ k Hk; destruct (has_term s k) eqn:E; [apply has_spec in E; lia|reflexivity]].
  intros n Hn. replace (has_term s (omin s + Z.of_nat n)) with true by (symmetry; apply has_spec; lia). unfold at_. f_equal. lia.
Qed.
Lemma unknown_for (s : series F) d : good s -> trunc s = true -> stands_for s (unknown s d).
Proof.
  intros G T. pose proof G as [G1 G2]. destruct (stored_for s G) as (H1 & H2 & _). split; [|split; [|congruence]].
  - intros k Hk. unfold unknown. destruct (Z.eqb_spec k (omax s + 1)); [lia|]. apply H1, Hk.
  - intros n Hn. unfold unknown. destruct (Z.eqb_spec (omin s + Z.of_nat n) (omax s + 1)); [lia|]. apply H2, Hn.
Qed.
Lemma differ_l (b : F) : 0 + b <> 1 + b. Proof. intros X. apply (F1_neq_0 F). transitivity (1 + b - b); [ring|]. rewrite <- X. ring. Qed.
Lemma differ_r (b : F) : b + 0 <> b + 1. Proof. intros X. apply (F1_neq_0 F). transitivity (b + 1 - b); [ring|]. rewrite <- X. ring. Qed.
Lemma sub_differ_l (b : F) : 0 - b <> 1 - b. Proof. intros X. apply (F1_neq_0 F). transitivity (1 - b + b); [ring|]. rewrite <- X. ring. Qed.
Lemma sub_differ_r (b : F) : b - 0 <> b - 1. Proof. intros X. apply (F1_neq_0 F). transitivity (b - (b - 1)); [ring|]. rewrite <- X. ring. Qed.
(** changing the first unknown coefficient of one factor changes the coefficient after the last known one of the product *)
Lemma product_next (m n : Z) (f f' g : laurent F) (M : Z) : (m <= M + 1)%Z -> (forall k, (k <= M)%Z -> f k = f' k) -> g n <> 0 -> f (M + 1)%Z <> f' (M + 1)%Z -> conv m n f g (M + 1 + n) <> conv m n f' g (M + 1 + n).
Proof.
  intros L E N D X. apply D. unfold conv in X. set (d := Z.to_nat (M + 1 - m)). replace (Z.to_nat (M + 1 + n - m - n + 1)) with (S d) in X by (unfold d; lia). cbn [upto] in X.
  rewrite (upto_ext d (fun j => f (m + Z.of_nat j)%Z * g (M + 1 + n - m - Z.of_nat j)%Z) (fun j => f' (m + Z.of_nat j)%Z * g (M + 1 + n - m - Z.of_nat j)%Z)) in X by (intros j Hj; rewrite E by (unfold d in Hj; lia); reflexivity).
  replace (m + Z.of_nat d)%Z with (M + 1)%Z in X by (unfold d; lia). replace (M + 1 + n - m - Z.of_nat d)%Z with n in X by (unfold d; lia). apply (mul_cancel _ _ (g n) N). set (U := upto d _) in X.
  transitivity (U + f (M + 1)%Z * g n - U); [ring|]. rewrite X. ring.
Qed.
Lemma unknown_eq (s : series F) d d' k : (k <= omax s)%Z -> unknown s d k = unknown s d' k. Proof. intros H. unfold unknown. destruct (Z.eqb_spec k (omax s + 1)); [lia|reflexivity]. Qed.
Lemma unknown_at (s : series F) d : unknown s d (omax s + 1) = d. Proof. unfold unknown. rewrite Z.eqb_refl. reflexivity. Qed.
Lemma stored_first (s : series F) : good s -> stored s (omin s) = nth 0 (cont s) 0.
Proof. intros [G1 G2]. unfold stored, at_. replace (has_term s (omin s)) with true by (symmetry; apply has_spec; lia). rewrite Z.sub_diag. reflexivity. Qed.
End Largest.
Theorem C54_add_largest : forall (F : Fld) (s t r : series F), good s -> good t -> par s = par t -> add s t = Ok r ->
  (trunc r = false -> omax r = Z.max (omax s) (omax t)) /\
  (trunc r = true -> exists f g f' g', stands_for s f /\ stands_for t g /\ stands_for s f' /\ stands_for t g' /\ f (omax r + 1)%Z + g (omax r + 1)%Z <> f' (omax r + 1)%Z + g' (omax r + 1)%Z).
Proof.
  intros F s t r G1 G2 P E. destruct (add_ok s t G1 G2 P) as (r' & E' & _ & _ & M & T & _). rewrite E in E'. injection E' as <-. destruct (sum_max_facts s t G1 G2) as (_ & _ & _ & M4 & M5). rewrite M, T.
  split; [intros H; apply orb_false_iff in H as [A B]; apply M4; assumption|]. intros H. apply orb_true_iff in H. destruct (M5 H) as [[A B]|[A B]].
  - exists (unknown s 0), (stored t), (unknown s 1), (stored t). split; [apply unknown_for; assumption|]. split; [apply stored_for; assumption|]. split; [apply unknown_for; assumption|]. split; [apply stored_for; assumption|]. rewrite B, !unknown_at. apply differ_l.
  - exists (stored s), (unknown t 0), (stored s), (unknown t 1). split; [apply stored_for; assumption|]. split; [apply unknown_for; assumption|]. split; [apply stored_for; assumption|]. split; [apply unknown_for; assumption|]. rewrite B, !unknown_at. apply differ_r.
Qed.
Theorem C54_sub_largest : forall (F : Fld) (s t r : series F), good s -> good t -> par s = par t -> sub s t = Ok r ->
  (trunc r = false -> omax r = Z.max (omax s) (omax t)) /\
  (trunc r = true -> exists f g f' g', stands_for s f /\ stands_for t g /\ stands_for s f' /\ stands_for t g' /\ f (omax r + 1)%Z - g (omax r + 1)%Z <> f' (omax r + 1)%Z - g' (omax r + 1)%Z).
Proof.
  intros F s t r G1 G2 P E. destruct (sub_ok s t G1 G2 P) as (r' & E' & _ & _ & M & T & _). rewrite E in E'. injection E' as <-. destruct (sum_max_facts s t G1 G2) as (_ & _ & _ & M4 & M5). rewrite M, T.
  split; [intros H; apply orb_false_iff in H as [A B]; apply M4; assumption|]. intros H. apply orb_true_iff in H. destruct (M5 H) as [[A B]|[A B]].
  - exists (unknown s 0), (stored t), (unknown s 1), (stored t). split; [apply unknown_for; assumption|]. split; [apply stored_for; assumption|]. split; [apply unknown_for; assumption|]. split; [apply stored_for; assumption|]. rewrite B, !unknown_at. apply sub_differ_l.
  - exists (stored s), (unknown t 0), (stored s), (unknown t 1). split; [apply stored_for; assumption|]. split; [apply unknown_for; assumption|]. split; [apply stored_for; assumption|]. split; [apply unknown_for; assumption|]. rewrite B, !unknown_at. apply sub_differ_r.
Qed.
(** for products: if the leading coefficients do not vanish *)
Theorem C54_mul_largest : forall (F : Fld) (s t r : series F), good s -> good t -> par s = par t -> mul s t = Ok r -> nth 0 (cont s) 0 <> 0 -> nth 0 (cont t) 0 <> 0 ->
  (trunc r = false -> omax r = (omax s + omax t)%Z) /\
  (trunc r = true -> exists f g h f' g' h', stands_for s f /\ stands_for t g /\ is_product f g h /\ stands_for s f' /\ stands_for t g' /\ is_product f' g' h' /\ h (omax r + 1)%Z <> h' (omax r + 1)%Z).
Proof.
  intros F s t r G1 G2 P E N1 N2. destruct (mul_ok s t G1 G2 P) as (r' & E' & _ & _ & M & T & _). rewrite E in E'. injection E' as <-. destruct (mul_max_facts s t G1 G2) as (_ & _ & _ & M4 & M5). rewrite M, T. pose proof G1 as [G11 _]. pose proof G2 as [G21 _].
  split; [intros H; apply orb_false_iff in H as [A B]; apply M4; assumption|]. intros H. apply orb_true_iff in H. rewrite <- (stored_first s G1) in N1. rewrite <- (stored_first t G2) in N2. destruct (M5 H) as [[A B]|[A B]].
  - pose proof (unknown_for s 0 G1 A) as U0. pose proof (unknown_for s 1 G1 A) as U1. pose proof (stored_for t G2) as V.
    exists (unknown s 0), (stored t), (conv (omin s) (omin t) (unknown s 0) (stored t)), (unknown s 1), (stored t), (conv (omin s) (omin t) (unknown s 1) (stored t)).
    split; [exact U0|]. split; [exact V|]. split; [apply conv_product; [exact (proj1 U0)|exact (proj1 V)]|]. split; [exact U1|]. split; [exact V|]. split; [apply conv_product; [exact (proj1 U1)|exact (proj1 V)]|].
    rewrite B. replace (omax s + omin t + 1)%Z with (omax s + 1 + omin t)%Z by lia. apply product_next; [lia|intros k Hk; apply unknown_eq, Hk|exact N2|]. rewrite !unknown_at. intros X. apply (F1_neq_0 F). symmetry. exact X.
  - pose proof (unknown_for t 0 G2 A) as U0. pose proof (unknown_for t 1 G2 A) as U1. pose proof (stored_for s G1) as V.
    exists (stored s), (unknown t 0), (conv (omin t) (omin s) (unknown t 0) (stored s)), (stored s), (unknown t 1), (conv (omin t) (omin s) (unknown t 1) (stored s)).
    split; [exact V|]. split; [exact U0|]. split; [apply product_comm, conv_product; [exact (proj1 U0)|exact (proj1 V)]|]. split; [exact V|]. split; [exact U1|]. split; [apply product_comm, conv_product; [exact (proj1 U1)|exact (proj1 V)]|].
    rewrite B. replace (omin s + omax t + 1)%Z with (omax t + 1 + omin s)%Z by lia. apply product_next; [lia|intros k Hk; apply unknown_eq, Hk|exact N1|]. rewrite !unknown_at. intros X. apply (F1_neq_0 F). symmetry. exact X.
Qed.
(** * different expansion parameters *)
Theorem C54_mismatch : forall (F : Fld) (s t : series F), par s <> par t -> add s t = ParameterMismatch /\ sub s t = ParameterMismatch /\ mul s t = ParameterMismatch /\ div s t = ParameterMismatch.
Proof. intros F s t N. apply String.eqb_neq in N. unfold add, sub, mul, div. rewrite N. cbn [negb]. auto. Qed.
(** * comparison *)
Theorem C54_equal : forall (F : Fld) (s t : series F), good s -> good t -> (equal s t = true <-> s = t).
Proof.
  intros F [a b c u p] [a' b' c' u' p'] [G1 G2] [G3 G4]. unfold equal. cbn [omin omax cont trunc par] in *. split.
  - intros H. apply andb_true_iff in H as [H H5]. apply andb_true_iff in H as [H H4]. apply andb_true_iff in H as [H H3]. apply andb_true_iff in H as [H1 H2]. apply String.eqb_eq in H1. apply Z.eqb_eq in H2, H3. apply Bool.eqb_prop in H4. subst. f_equal.
    apply (nth_ext _ _ 0 0); [lia|]. intros n Hn. rewrite forallb_forall in H5. apply feqb_spec, H5, in_seq. lia.
  - intros E. injection E as -> -> -> -> ->. rewrite String.eqb_refl, !Z.eqb_refl, Bool.eqb_reflx. cbn [andb]. apply forallb_forall. intros n _. apply feqb_refl.
Qed.
(** * concrete cases *)
Definition s1 : series Qc_Fld := @mkS Qc_Fld (-1) 1 ([Q2Qc 1; Q2Qc 2; Q2Qc 3] : list Qc) true "eps"%string.
Definition s2 : series Qc_Fld := @mkS Qc_Fld (-2) 0 ([Q2Qc 2; Q2Qc 0; Q2Qc 5] : list Qc) true "eps"%string.
Example C54_ex : good s1 /\ good s2 /\ par s1 = par s2 /\ nth 0 (cont s1) (f0 : Qc_Fld) <> f0 /\ nth 0 (cont s2) (f0 : Qc_Fld) <> f0 /\ mul_max s1 s2 = (-1)%Z /\ div_max s1 s2 = 3%Z /\ sum_max s1 s2 = 0%Z.
Proof. repeat split; try (cbn; lia); try discriminate. Qed.
Print Assumptions C54_mul.
Print Assumptions C54_div.
