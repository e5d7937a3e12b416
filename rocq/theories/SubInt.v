(** Analysis for the subtraction routines: Taylor subtraction and integration by parts of the continued integral. *)
From Coq Require Import FunctionalExtensionality.
From Coquelicot Require Import Coquelicot.
From Verif Require Import ExprSpec ExprSmooth ExprMixed ExprArith ContSpec ContProofs ContJ SubModel SubSpec.
Local Open Scope R_scope.

(** ** the box *)
Definition over_box (L : list nat) (x y : point) : Prop := (forall k, ~ In k L -> y k = x k) /\ forall k, In k L -> 0 <= y k <= 1.
Lemma box_cube L (U : point -> Prop) : forall x, box L U x <-> forall y, over_box L x y -> U y.
Proof.
  induction L as [|i L IH]; intros x; cbn [box].
  - split; [intros H y [Hy _]|intros H; apply H; split; [auto|intros k []]]. replace y with x; [exact H|]. apply functional_extensionality. intros k. symmetry. apply Hy. auto.
  - unfold seg. split.
    + intros H y [H1 H2]. specialize (H (y i) (H2 i (or_introl eq_refl))). rewrite IH in H. apply H. split; [|intros k Hk; apply H2; right; exact Hk]. intros k Hk. unfold upd. destruct (Nat.eqb_spec k i) as [->|N]; [reflexivity|]. apply H1. intros [->|Hk']; auto.
    + intros H t Ht. apply IH. intros y [H1 H2]. apply H. split.
      * intros k Hk. rewrite H1 by (intros Hk'; apply Hk; right; exact Hk'). apply upd_other. intros ->. apply Hk. left. reflexivity.
      * intros k [<-|Hk]; [|apply H2, Hk]. destruct (in_dec Nat.eq_dec i L) as [Hi|Hi]; [apply H2, Hi|]. rewrite H1 by exact Hi. rewrite upd_at. exact Ht.
Qed.
Lemma over_box_upd L x y j t : In j L -> 0 <= t <= 1 -> over_box L x y -> over_box L x (upd y j t).
Proof.
  intros Hj Ht [H1 H2]. split; intros k Hk.
  - rewrite upd_other; [apply H1, Hk|]. intros ->. contradiction.
  - unfold upd. destruct (Nat.eqb k j); [exact Ht|apply H2, Hk].
Qed.
Definition both_at (U : point -> Prop) (j : nat) (v : R) : point -> Prop := fun y => U y /\ U (upd y j v).
Lemma both_opens U j v : opens U -> opens (both_at U j v). Proof. intros H. apply opens_and; [exact H|apply upd_opens, H]. Qed.
Lemma both_box L U j v x : In j L -> 0 <= v <= 1 -> box L U x -> box L (both_at U j v) x.
Proof. intros Hj Hv H. rewrite box_cube in *. intros y Hy. split; [apply H, Hy|apply H, over_box_upd; assumption]. Qed.
Lemma upd_box L U j v x : In j L -> 0 <= v <= 1 -> box L U x -> box L (fun y => U (upd y j v)) x.
Proof. intros Hj Hv H. eapply box_sub; [|apply (both_box L U j v x Hj Hv H)]. intros y [_ Hy]. exact Hy. Qed.

(** ** higher derivatives *)
Lemma dN_smooth (U : point -> Prop) q j G : opens U -> smooth U G -> smooth U (dN q j G).
Proof. intros HU HG. induction q as [|q IH]; [exact HG|]. apply d_smooth; assumption. Qed.
Lemma dN_ext (U : point -> Prop) q j G H : opens U -> (forall y, U y -> G y = H y) -> forall x, U x -> dN q j G x = dN q j H x.
Proof. intros HU E. induction q as [|q IH]; [exact E|]. intros x Hx. cbn [dN]. apply (d_ext U); [exact HU|exact IH|exact Hx]. Qed.
Lemma dN_upd q j i v G : j <> i -> forall x, dN q j (fun y => G (upd y i v)) x = dN q j G (upd x i v).
Proof.
  intros N. induction q as [|q IH]; intros x; [reflexivity|]. cbn [dN]. rewrite <- (d_upd j i v (dN q j G) x N). f_equal. apply functional_extensionality, IH.
Qed.
Lemma dN_d (U : point -> Prop) q j i G : opens U -> smooth U G -> forall x, U x -> dN q j (d i G) x = d i (dN q j G) x.
Proof.
  intros HU HG. induction q as [|q IH]; intros x Hx; [reflexivity|]. cbn [dN]. rewrite (d_ext U j _ (d i (dN q j G)) x HU IH Hx). apply (d_comm U); [exact HU|apply dN_smooth; assumption|exact Hx].
Qed.
Lemma dN_lin (U : point -> Prop) q j G H a b : opens U -> smooth U G -> smooth U H -> forall x, U x -> dN q j (fun y => a * G y + b * H y) x = a * dN q j G x + b * dN q j H x.
Proof.
  intros HU HG HH. induction q as [|q IH]; intros x Hx; [reflexivity|]. cbn [dN]. rewrite (d_ext U j _ (fun y => a * dN q j G y + b * dN q j H y) x HU IH Hx). apply (d_lin U); [apply dN_smooth; assumption|apply dN_smooth; assumption|exact Hx].
Qed.
Lemma dN_mul q j K G : (forall y t, K (upd y j t) = K y) -> forall x, dN q j (fun y => K y * G y) x = K x * dN q j G x.
Proof.
  intros HK. induction q as [|q IH]; intros x; [reflexivity|]. cbn [dN]. rewrite <- (d_mul_indep j K (dN q j G) x HK). f_equal. apply functional_extensionality, IH.
Qed.
(** ** powers *)
Definition pw (p j : nat) : point -> R := fun y => / INR (fact p) * y j ^ p.
Lemma smooth_pw U p j : smooth U (pw p j). Proof. intros k. apply (Ck_mult k U (fun _ => / INR (fact p))); [apply Ck_const|apply smooth_pow]. Qed.
Lemma d_pw p j x : d j (pw p j) x = match p with O => 0 | Datatypes.S p => pw p j x end.
Proof.
  unfold pw. rewrite (d_mul_indep j (fun _ => / INR (fact p)) (fun y => y j ^ p) x (fun _ _ => eq_refl)), d_pow. destruct p as [|p]; [cbn; ring|]. cbn [pred]. rewrite fact_simpl, mult_INR. pose proof (INR_fact_neq_0 p). pose proof (not_0_INR (Datatypes.S p) ltac:(lia)). field. split; assumption.
Qed.
Lemma dN_pw q : forall p j x, dN q j (pw p j) x = if Nat.leb q p then pw (p - q) j x else 0.
Proof.
  induction q as [|q IH]; intros p j x; [cbn; rewrite Nat.sub_0_r; reflexivity|]. cbn [dN].
  replace (dN q j (pw p j)) with (fun y => if Nat.leb q p then pw (p - q) j y else 0) by (apply functional_extensionality; intros y; symmetry; apply IH). destruct (Nat.leb_spec q p) as [L|L].
  - rewrite d_pw. destruct (Nat.leb_spec (Datatypes.S q) p) as [L'|L']; [|replace (p - q)%nat with 0%nat by lia; reflexivity]. destruct (p - q)%nat eqn:E; [lia|]. f_equal. lia.
  - destruct (Nat.leb_spec (Datatypes.S q) p); [lia|]. apply pd_d, pd_const.
Qed.
Lemma dN_pw_0 q p j x : x j = 0 -> dN q j (pw p j) x = if Nat.eqb q p then 1 else 0.
Proof.
  intros H. rewrite dN_pw. unfold pw. rewrite H. destruct (Nat.eqb_spec q p) as [->|N].
  - rewrite Nat.leb_refl, Nat.sub_diag. cbn. field.
  - destruct (Nat.leb_spec q p); [|reflexivity]. rewrite pow_i by lia. ring.
Qed.
(** ** Taylor subtraction *)
Definition at0 (p j : nat) (G : point -> R) : point -> R := fun y => dN p j G (upd y j 0).
Fixpoint remainder (q j : nat) (G : point -> R) : point -> R :=
  match q with O => G | Datatypes.S q => fun y => remainder q j G y - pw q j y * at0 q j G y end.
Lemma at0_indep p j G y t : at0 p j G (upd y j t) = at0 p j G y. Proof. unfold at0. rewrite upd_upd. reflexivity. Qed.
Lemma at0_smooth U p j G : opens U -> smooth U G -> smooth (fun y => U (upd y j 0)) (at0 p j G).
Proof. intros HU HG. apply (upd_smooth U (dN p j G) j 0); [apply dN_smooth; assumption|exact HU]. Qed.
Lemma rem_smooth U q j G : opens U -> smooth U G -> smooth (both_at U j 0) (remainder q j G).
Proof.
  intros HU HG. induction q as [|q IH]; [apply (smooth_sub U); [intros y [H _]; exact H|exact HG]|]. cbn [remainder]. intros k.
  apply (Ck_ext k _ (fun y => 1 * remainder q j G y + (-1) * (pw q j y * at0 q j G y))); [apply both_opens, HU|intros; ring|]. apply (smooth_lin _ _ _ 1 (-1)); [exact IH|]. intros k'. apply Ck_mult; [apply smooth_pw|]. apply (smooth_sub (fun y => U (upd y j 0))); [intros y [_ H]; exact H|]. apply at0_smooth; assumption.
Qed.
Section Split.
Variables (A B : list (nat * R)) (j : nat) (E : R).
Notation T e := (A ++ (j, e) :: B).
Hypothesis ND : NoDup (ixs (T E)).
Hypothesis HR : reg (T E).
Lemma ixs_T e : ixs (T e) = ixs (T E). Proof. rewrite !map_app. reflexivity. Qed.
Lemma reg_T e : regular e -> reg (T e).
Proof. intros He. apply Forall_app in HR as [R1 R2]. apply Forall_cons_iff in R2 as [_ R2]. apply Forall_app. split; [exact R1|]. constructor; [exact He|exact R2]. Qed.
Lemma reg_E : regular E. Proof. apply Forall_app in HR as [_ R2]. apply Forall_cons_iff in R2 as [R2 _]. exact R2. Qed.
Lemma reg_AB : reg (A ++ B). Proof. apply Forall_app in HR as [R1 R2]. apply Forall_cons_iff in R2 as [_ R2]. apply Forall_app. split; assumption. Qed.
Lemma regular_zero : regular 0. Proof. intros k H. pose proof (pos_INR k). lra. Qed.
(** a function that does not depend on x_j *)
Lemma contI_pow U K p x : opens U -> smooth U K -> (forall y t, K (upd y j t) = K y) -> box (ixs (T E)) U x ->
  contI (T E) (fun y => K y * y j ^ p) x = / (E + INR p + 1) * contI (T 0) K x.
Proof.
  intros HU HK Ki Hx. assert (SK : smooth U (fun y => K y * y j ^ p)) by (intros k; apply Ck_mult; [apply HK|apply smooth_pow]).
  destruct (contI_in A B j E U (fun y => K y * y j ^ p) x ND HR HU SK Hx) as [E1 Bx]. rewrite E1.
  assert (Hx0 : box (ixs (T 0)) U x) by (rewrite ixs_T; exact Hx). assert (ND0 : NoDup (ixs (T 0))) by (rewrite ixs_T; exact ND).
  destruct (contI_in A B j 0 U K x ND0 (reg_T 0 regular_zero) HU HK Hx0) as [E0 _]. rewrite E0.
  assert (SO : opens (seg U j)) by apply seg_opens, HU.
  rewrite (contI_ext (A ++ B) (seg U j) (J E j (fun y => K y * y j ^ p)) (fun y => / (E + INR p + 1) * J 0 j K y) x SO); [|intros y Hy|exact Bx].
  - apply (contI_mul (A ++ B) (seg U j) (fun _ => / (E + INR p + 1))); [exact reg_AB|exact SO|apply J_smooth; [exact regular_zero|exact HU|exact HK]|reflexivity|exact Bx].
  - rewrite (J_mono E j U K p y reg_E Ki). rewrite (J_ext 0 j U K (fun y => K y * y j ^ 0) y HU); [|intros z _; cbn; ring|exact Hy]. rewrite (J_mono 0 j U K 0 y regular_zero Ki). cbn [INR]. replace (0 + 0 + 1) with 1 by ring. rewrite Rinv_1. ring.
Qed.
Lemma regular_p p : E + INR p + 1 <> 0. Proof. apply reg_E. Qed.
Fixpoint sumto (q : nat) (f : nat -> R) : R := match q with O => 0 | Datatypes.S q => sumto q f + f q end.
Lemma in_T : In j (ixs (T E)). Proof. rewrite map_app. apply in_or_app. right. left. reflexivity. Qed.
Theorem taylor_split U G q x : opens U -> smooth U G -> box (ixs (T E)) U x ->
  contI (T E) G x = sumto q (fun p => / ((E + INR p + 1) * INR (fact p)) * contI (T 0) (at0 p j G) x) + contI (T E) (remainder q j G) x.
Proof.
  intros HU HG Hx. induction q as [|q IH]; [cbn; ring|]. rewrite IH. cbn [sumto]. rewrite Rplus_assoc. f_equal. clear IH.
  set (V := both_at U j 0). assert (HV : opens V) by apply both_opens, HU. assert (Bx : box (ixs (T E)) V x) by (apply both_box; [exact in_T|lra|exact Hx]).
  assert (SA : smooth V (at0 q j G)) by (apply (smooth_sub (fun y => U (upd y j 0))); [intros y [_ H]; exact H|]; apply at0_smooth; assumption).
  assert (SP : smooth V (fun y => at0 q j G y * y j ^ q)) by (intros k; apply Ck_mult; [apply SA|apply smooth_pow]).
  rewrite (contI_ext (T E) V (remainder q j G) (fun y => 1 * remainder (Datatypes.S q) j G y + / INR (fact q) * (at0 q j G y * y j ^ q)) x HV); [|intros y _; cbn [remainder]; unfold pw; ring|exact Bx].
  rewrite (contI_lin (T E) V); [|exact HR|exact HV|apply rem_smooth; assumption|exact SP|exact Bx]. rewrite (contI_pow V (at0 q j G) q x HV SA (at0_indep q j G) Bx).
  rewrite Rinv_mult_distr; [ring|apply regular_p|apply INR_fact_neq_0].
Qed.
Theorem parts_split U G x : opens U -> smooth U G -> box (ixs (T E)) U x ->
  contI (T E) G x = / (E + 1) * (contI (T 0) (fun y => G (upd y j 1)) x - contI (T (E + 1)) (d j G) x).
Proof.
  intros HU HG Hx. set (V := both_at U j 1). assert (HV : opens V) by apply both_opens, HU. assert (Bx : box (ixs (T E)) V x) by (apply both_box; [exact in_T|lra|exact Hx]).
  assert (SG : smooth V G) by (apply (smooth_sub U); [intros y [H _]; exact H|exact HG]). assert (S1 : smooth V (fun y => G (upd y j 1))) by (apply (smooth_sub (fun y => U (upd y j 1))); [intros y [_ H]; exact H|]; apply upd_smooth; assumption). assert (SD : smooth V (d j G)) by (apply d_smooth; assumption).
  destruct (contI_in A B j E V G x ND HR HV SG Bx) as [E1 BB]. rewrite E1.
  destruct (contI_in A B j 0 V (fun y => G (upd y j 1)) x ltac:(rewrite ixs_T; exact ND) (reg_T 0 regular_zero) HV S1 ltac:(rewrite ixs_T; exact Bx)) as [E2 _]. rewrite E2.
  pose proof (regular_S E reg_E) as RS. destruct (contI_in A B j (E + 1) V (d j G) x ltac:(rewrite ixs_T; exact ND) (reg_T (E + 1) RS) HV SD ltac:(rewrite ixs_T; exact Bx)) as [E3 _]. rewrite E3.
  assert (SO : opens (seg V j)) by apply seg_opens, HV.
  rewrite (contI_ext (A ++ B) (seg V j) (J E j G) (fun y => / (E + 1) * J 0 j (fun y => G (upd y j 1)) y + - / (E + 1) * J (E + 1) j (d j G) y) x SO); [|intros y Hy|exact BB].
  - rewrite (contI_lin (A ++ B) (seg V j)); [ring|exact reg_AB|exact SO|apply J_smooth; [exact regular_zero|exact HV|exact S1]|apply J_smooth; [exact RS|exact HV|exact SD]|exact BB].
  - rewrite (J_parts E j V G y reg_E HV SG Hy). rewrite (J_ext 0 j V (fun y => G (upd y j 1)) (fun y => G (upd y j 1) * y j ^ 0) y HV); [|intros z _; cbn; ring|exact Hy].
    rewrite (J_mono 0 j V (fun y => G (upd y j 1)) 0 y regular_zero); [|intros z t; rewrite upd_upd; reflexivity]. cbn [INR]. replace (0 + 0 + 1) with 1 by ring. rewrite Rinv_1. ring.
Qed.
End Split.

(** ** functions with vanishing derivatives: the q-th derivative in direction j, for q in Q, where x_j is in Z *)
Definition nul (Q : nat -> Prop) (Z : R -> Prop) (V : point -> Prop) (j : nat) (G : point -> R) : Prop := forall q x, Q q -> V x -> Z (x j) -> dN q j G x = 0.
Section Nul.
Variables (Q : nat -> Prop) (Z : R -> Prop).
Lemma nul_ext (V : point -> Prop) j G H : opens V -> (forall y, V y -> G y = H y) -> nul Q Z V j G -> nul Q Z V j H.
Proof. intros HV E N q x Hq Hx Hz. rewrite <- (dN_ext V q j G H HV E x Hx). apply N; assumption. Qed.
Lemma nul_sub (U V : point -> Prop) j G : (forall y, V y -> U y) -> nul Q Z U j G -> nul Q Z V j G.
Proof. intros H N q x Hq Hx Hz. apply N; auto. Qed.
Lemma nul_d (V : point -> Prop) j i G : opens V -> smooth V G -> i <> j -> nul Q Z V j G -> nul Q Z V j (d i G).
Proof.
  intros HV HG Nij N q x Hq Hx Hz. rewrite (dN_d V q j i G HV HG x Hx). unfold d. rewrite <- (Derive_const 0 (x i)). apply Derive_ext_loc. destruct (HV x Hx) as (e & He & B). exists (mkposreal e He). intros t Ht. apply N; [exact Hq|apply B, near_upd; [exact Ht|exact He]|]. rewrite upd_other by auto. exact Hz.
Qed.
Lemma nul_dN (V : point -> Prop) j i G p : opens V -> smooth V G -> i <> j -> nul Q Z V j G -> nul Q Z V j (dN p i G).
Proof. intros HV HG Nij N. induction p as [|p IH]; [exact N|]. cbn [dN]. apply nul_d; [exact HV|apply dN_smooth; assumption|exact Nij|exact IH]. Qed.
Lemma nul_upd (V : point -> Prop) j i v G : i <> j -> nul Q Z V j G -> nul Q Z (fun y => V (upd y i v)) j (fun y => G (upd y i v)).
Proof. intros Nij N q x Hq Hx Hz. rewrite dN_upd by auto. apply N; [exact Hq|exact Hx|]. rewrite upd_other by auto. exact Hz. Qed.
Lemma nul_mul (V : point -> Prop) j K G : (forall y t, K (upd y j t) = K y) -> nul Q Z V j G -> nul Q Z V j (fun y => K y * G y).
Proof. intros HK N q x Hq Hx Hz. rewrite (dN_mul q j K G HK x), (N q x Hq Hx Hz). ring. Qed.
Lemma nul_lin (V : point -> Prop) j G H a b : opens V -> smooth V G -> smooth V H -> nul Q Z V j G -> nul Q Z V j H -> nul Q Z V j (fun y => a * G y + b * H y).
Proof. intros HV HG HH N1 N2 q x Hq Hx Hz. rewrite (dN_lin V q j G H a b HV HG HH x Hx), (N1 q x Hq Hx Hz), (N2 q x Hq Hx Hz). ring. Qed.
Lemma nul_at0 (V : point -> Prop) j i G p : opens V -> smooth V G -> i <> j -> nul Q Z V j G -> nul Q Z (fun y => V (upd y i 0)) j (at0 p i G).
Proof. intros HV HG Nij N. apply (nul_upd V j i 0 (dN p i G) Nij). apply nul_dN; assumption. Qed.
Lemma nul_rem (V : point -> Prop) j i G p : opens V -> smooth V G -> i <> j -> nul Q Z V j G -> nul Q Z (both_at V i 0) j (remainder p i G).
Proof.
  intros HV HG Nij N. induction p as [|p IH]; [apply (nul_sub V); [intros y [H _]; exact H|exact N]|]. cbn [remainder].
  apply (nul_ext _ j (fun y => 1 * remainder p i G y + (-1) * (pw p i y * at0 p i G y))); [apply both_opens, HV|intros; ring|].
  assert (SA : smooth (both_at V i 0) (at0 p i G)) by (apply (smooth_sub (fun y => V (upd y i 0))); [intros y [_ H]; exact H|]; apply at0_smooth; assumption).
  apply nul_lin; [apply both_opens, HV|apply rem_smooth; assumption| |exact IH|].
  - intros k. apply Ck_mult; [apply smooth_pw|apply SA].
  - apply nul_mul; [intros y t; unfold pw; rewrite upd_other by auto; reflexivity|]. apply (nul_sub (fun y => V (upd y i 0))); [intros y [_ H]; exact H|]. apply nul_at0; assumption.
Qed.
End Nul.
Lemma rem_dN (U : point -> Prop) P j G : opens U -> smooth U G -> forall q x, both_at U j 0 x -> x j = 0 -> dN q j (remainder P j G) x = if Nat.ltb q P then 0 else dN q j G x.
Proof.
  intros HU HG q x Hx H0. set (V := both_at U j 0) in *. assert (HV : opens V) by apply both_opens, HU. induction P as [|P IH]; [reflexivity|]. cbn [remainder].
  assert (SA : smooth V (at0 P j G)) by (apply (smooth_sub (fun y => U (upd y j 0))); [intros y [_ H]; exact H|]; apply at0_smooth; assumption).
  rewrite (dN_ext V q j _ (fun y => 1 * remainder P j G y + (-1) * (at0 P j G y * pw P j y)) HV) by (try exact Hx; intros; ring).
  rewrite (dN_lin V); [|exact HV|apply rem_smooth; assumption|intros k; apply Ck_mult; [apply SA|apply smooth_pw]|exact Hx].
  rewrite (dN_mul q j (at0 P j G) (pw P j) (at0_indep P j G) x), (dN_pw_0 q P j x H0), IH. unfold at0. replace (upd x j 0) with x by (rewrite <- H0; symmetry; apply upd_same).
  destruct (Nat.eqb_spec q P) as [Eq|N]; destruct (Nat.ltb_spec q P) as [L|L]; destruct (Nat.ltb_spec q (Datatypes.S P)) as [L'|L']; try (exfalso; lia); rewrite ?Eq; ring.
Qed.
Lemma rem_nul (U : point -> Prop) P j G : opens U -> smooth U G -> nul (fun q => (q < P)%nat) (fun t => t = 0) (both_at U j 0) j (remainder P j G).
Proof. intros HU HG q x Hq Hx H0. rewrite (rem_dN U P j G HU HG q x Hx H0). apply Nat.ltb_lt in Hq. rewrite Hq. reflexivity. Qed.
Lemma indep_nul (V : point -> Prop) j G : (forall y t, G (upd y j t) = G y) -> nul (fun q => q = 1%nat) (fun _ => True) V j G.
Proof. intros H q x -> _ _. apply pd_d, pd_indep. intros t. apply H. Qed.
