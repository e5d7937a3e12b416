(** The analytically continued integral J: smoothness, linearity, order of the variables, the recursion by parts, monomials,
    and the iterated integral contI. *)
From Coq Require Import FunctionalExtensionality.
From Coquelicot Require Import Coquelicot.
From Verif Require Import ExprSpec ExprSmooth ExprMixed ContSpec ContProofs.
Local Open Scope R_scope.

Definition ok (n : nat) (E : R) : Prop := 0 < E + INR n /\ regular E.
Lemma regular_S E : regular E -> regular (E + 1).
Proof. intros H k. specialize (H (Datatypes.S k)). rewrite S_INR in H. intros C. apply H. lra. Qed.
Lemma regular_0 E : regular E -> E + 1 <> 0.
Proof. intros H. specialize (H 0%nat). cbn in H. intros C. apply H. lra. Qed.
Lemma ok_S n E : ok (Datatypes.S n) E -> ok n (E + 1) /\ E + 1 <> 0.
Proof. intros [H1 H2]. rewrite S_INR in H1. split; [split; [lra|apply regular_S, H2]|apply regular_0, H2]. Qed.
Lemma ok_0 E : ok 0 E -> 0 < E. Proof. intros [H _]. cbn in H. lra. Qed.
Lemma ok_mono n E : ok n E -> ok (Datatypes.S n) E. Proof. intros [H H2]. split; [rewrite S_INR; lra|exact H2]. Qed.
Lemma ok_shift E : regular E -> ok (shift E) E.
Proof.
  intros H. split; [|exact H]. unfold shift. destruct (archimed (- E)) as [A _]. destruct (Z_le_dec 0 (up (- E))) as [Z|Z].
  - rewrite INR_IZR_INZ, Z2Nat.id by exact Z. lra.
  - replace (Z.to_nat (up (- E))) with 0%nat by lia. cbn. assert (Z0 : (up (- E) < 0)%Z) by lia. apply (IZR_lt _ 0) in Z0. lra.
Qed.
(** J_E[F(.,1)] term *)
Lemma Jn_ext n : forall E i (U : point -> Prop) G H x, opens U -> (forall y, U y -> G y = H y) -> seg U i x -> Jn n E i G x = Jn n E i H x.
Proof.
  induction n as [|n IH]; intros E i U G H x HU He Hx; cbn [Jn].
  - apply RInt_extU. intros t Ht. rewrite (He _ (Hx t Ht)). reflexivity.
  - rewrite (He _ (Hx 1 ltac:(lra))). rewrite (IH (E + 1) i U (d i G) (d i H) x HU); [reflexivity| |exact Hx]. intros y Hy. apply (d_ext U); assumption.
Qed.
Lemma Jn_indep n : forall E i G x t, Jn n E i G (upd x i t) = Jn n E i G x.
Proof.
  induction n as [|n IH]; intros E i G x t; cbn [Jn]; [apply RInt_extR; intros s; rewrite upd_upd; reflexivity|]. rewrite upd_upd, IH. reflexivity.
Qed.
Lemma seg_one (U : point -> Prop) i x : seg U i x -> U (upd x i 1). Proof. intros H. apply H. lra. Qed.
Lemma smooth_sub (U V : point -> Prop) G : (forall x, V x -> U x) -> smooth U G -> smooth V G.
Proof. intros H S k. apply (Ck_sub k U V G H (S k)). Qed.
Lemma smooth_ext (U : point -> Prop) F G : opens U -> (forall x, U x -> F x = G x) -> smooth U F -> smooth U G.
Proof. intros H E S k. apply (Ck_ext k U F G H E (S k)). Qed.
Lemma Jn_step_form n E i G x : Jn (Datatypes.S n) E i G x = / (E + 1) * G (upd x i 1) + - / (E + 1) * Jn n (E + 1) i (d i G) x.
Proof. cbn [Jn]. unfold Rdiv. ring. Qed.
Lemma Jn_smooth n : forall E i (U : point -> Prop) G, ok n E -> opens U -> smooth U G -> smooth (seg U i) (Jn n E i G).
Proof.
  induction n as [|n IH]; intros E i U G Ho HU HG.
  - apply (smooth_ext _ (fun x => W E i G x)); [apply seg_opens, HU|intros x _; symmetry; apply J0_W|]. apply W_smooth; [exact HU|apply ok_0, Ho|exact HG].
  - destruct (ok_S _ _ Ho) as [Ho' N]. replace (Jn (Datatypes.S n) E i G) with (fun x => / (E + 1) * G (upd x i 1) + - / (E + 1) * Jn n (E + 1) i (d i G) x) by (apply functional_extensionality; intros x; symmetry; apply Jn_step_form).
    apply smooth_lin; [|apply IH; [exact Ho'|exact HU|apply d_smooth; assumption]]. apply (smooth_sub (fun x => U (upd x i 1))); [intros x Hx; apply seg_one, Hx|]. apply upd_smooth; assumption.
Qed.
Lemma d_upd m i v G x : m <> i -> d m (fun y => G (upd y i v)) x = d m G (upd x i v).
Proof. intros H. unfold d. rewrite upd_other by exact H. apply Derive_ext. intros t. rewrite upd_comm by exact H. reflexivity. Qed.
Lemma Jn_pd n : forall E i m (U : point -> Prop) G x, ok n E -> opens U -> smooth U G -> m <> i -> seg U i x -> pd m (Jn n E i G) x (Jn n E i (d m G) x).
Proof.
  induction n as [|n IH]; intros E i m U G x Ho HU HG Hm Hx.
  - rewrite J0_W. apply (pd_ext (seg U i) m (fun y => W E i G y)); [apply seg_opens, HU|exact Hx|intros y _; symmetry; apply J0_W|]. apply (W_pd U); try assumption. apply ok_0, Ho.
  - destruct (ok_S _ _ Ho) as [Ho' N]. rewrite Jn_step_form. replace (Jn (Datatypes.S n) E i G) with (fun x => / (E + 1) * G (upd x i 1) + - / (E + 1) * Jn n (E + 1) i (d i G) x) by (apply functional_extensionality; intros y; symmetry; apply Jn_step_form).
    assert (S1 : smooth (seg U i) (fun y => G (upd y i 1))) by (apply (smooth_sub (fun x => U (upd x i 1))); [intros y Hy; apply seg_one, Hy|apply upd_smooth; assumption]).
    assert (S2 : smooth (seg U i) (Jn n (E + 1) i (d i G))) by (apply Jn_smooth; [exact Ho'|exact HU|apply d_smooth; assumption]).
    pose proof (d_pd (seg U i) m _ x (smooth_lin _ _ _ (/ (E + 1)) (- / (E + 1)) S1 S2) Hx) as P. cbv beta in P. rewrite (d_lin (seg U i) m _ _ _ _ x S1 S2 Hx) in P. rewrite d_upd in P by exact Hm.
    rewrite (pd_d m _ x _ (IH (E + 1) i m U (d i G) x Ho' HU (d_smooth U i G HU HG) Hm Hx)) in P.
    rewrite (Jn_ext n (E + 1) i U (d i (d m G)) (d m (d i G)) x HU); [exact P| |exact Hx]. intros y Hy. apply (d_comm U); assumption.
Qed.
Lemma Jn_d n E i m (U : point -> Prop) G x : ok n E -> opens U -> smooth U G -> m <> i -> seg U i x -> d m (Jn n E i G) x = Jn n E i (d m G) x.
Proof. intros. apply pd_d. apply (Jn_pd n E i m U); assumption. Qed.
Lemma Jn_lin n : forall E i (U : point -> Prop) G H a b x, ok n E -> opens U -> smooth U G -> smooth U H -> seg U i x -> Jn n E i (fun y => a * G y + b * H y) x = a * Jn n E i G x + b * Jn n E i H x.
Proof.
  induction n as [|n IH]; intros E i U G H a b x Ho HU HG HH Hx.
  - rewrite !J0_W. apply (W_lin U); [apply ok_0, Ho|apply (Ck_cont 0), HG|apply (Ck_cont 0), HH|exact Hx].
  - destruct (ok_S _ _ Ho) as [Ho' N]. rewrite !Jn_step_form. rewrite (Jn_ext n (E + 1) i U _ (fun y => a * d i G y + b * d i H y) x HU); [|intros y Hy; apply (d_lin U); assumption|exact Hx]. rewrite (IH (E + 1) i U) by (try assumption; apply d_smooth; assumption). ring.
Qed.
Lemma d_mul_indep i K G x : (forall y t, K (upd y i t) = K y) -> d i (fun y => K y * G y) x = K x * d i G x.
Proof.
  intros HK. unfold d. rewrite <- Derive_scal. apply Derive_ext. intros t. rewrite HK. reflexivity.
Qed.
Lemma Jn_mul n : forall E i (U : point -> Prop) K G x, ok n E -> opens U -> smooth U G -> (forall y t, K (upd y i t) = K y) -> seg U i x -> Jn n E i (fun y => K y * G y) x = K x * Jn n E i G x.
Proof.
  induction n as [|n IH]; intros E i U K G x Ho HU HG HK Hx.
  - rewrite !J0_W. rewrite <- RInt_mul by (apply (W_ex U); [apply ok_0, Ho|apply (Ck_cont 0), HG|exact Hx]). apply RInt_extR. intros t. rewrite HK. ring.
  - destruct (ok_S _ _ Ho) as [Ho' N]. rewrite !Jn_step_form. replace (d i (fun y => K y * G y)) with (fun y => K y * d i G y) by (apply functional_extensionality; intros y; symmetry; apply d_mul_indep, HK). rewrite (IH (E + 1) i U) by (try assumption; apply d_smooth; assumption). rewrite HK. ring.
Qed.
Lemma Jn_upd n : forall E i j v G x, i <> j -> Jn n E i G (upd x j v) = Jn n E i (fun y => G (upd y j v)) x.
Proof.
  induction n as [|n IH]; intros E i j v G x Hij; cbn [Jn].
  - apply RInt_extR. intros t. rewrite upd_comm by congruence. reflexivity.
  - rewrite (IH (E + 1) i j v (d i G) x Hij). rewrite upd_comm by congruence. replace (d i (fun y => G (upd y j v))) with (fun y => d i G (upd y j v)) by (apply functional_extensionality; intros y; symmetry; apply d_upd, Hij). reflexivity.
Qed.
Lemma seg_comm (U : point -> Prop) i j x : i <> j -> seg (seg U j) i x -> seg (seg U i) j x.
Proof. intros N H s Hs t Ht. rewrite upd_comm by congruence. apply (H t Ht s Hs). Qed.
Lemma comm_step n E i m D j (U : point -> Prop) : i <> j -> ok (Datatypes.S n) E -> ok m D -> opens U ->
  (forall G x, smooth U G -> seg (seg U j) i x -> Jn n (E + 1) i (Jn m D j G) x = Jn m D j (Jn n (E + 1) i G) x) ->
  forall G x, smooth U G -> seg (seg U j) i x -> Jn (Datatypes.S n) E i (Jn m D j G) x = Jn m D j (Jn (Datatypes.S n) E i G) x.
Proof.
  intros Nij Ho Hm HU IH G x HG Hx. destruct (ok_S _ _ Ho) as [Ho' N]. rewrite Jn_step_form. rewrite (Jn_ext n (E + 1) i (seg U j) _ (Jn m D j (d i G)) x (seg_opens U j HU)); [| |exact Hx].
  2:{ intros y Hy. apply (Jn_d m D j i U); assumption. }
  rewrite (IH (d i G) x (d_smooth U i G HU HG) Hx). rewrite Jn_upd by congruence.
  replace (Jn (Datatypes.S n) E i G) with (fun x => / (E + 1) * G (upd x i 1) + - / (E + 1) * Jn n (E + 1) i (d i G) x) by (apply functional_extensionality; intros y; symmetry; apply Jn_step_form).
  rewrite (Jn_lin m D j (seg U i)); [reflexivity|exact Hm|apply seg_opens, HU| | |apply seg_comm; assumption].
  - apply (smooth_sub (fun x => U (upd x i 1))); [intros y Hy; apply seg_one, Hy|apply upd_smooth; assumption].
  - apply Jn_smooth; [exact Ho'|exact HU|apply d_smooth; assumption].
Qed.
Lemma Jn_comm n : forall E i m D j (U : point -> Prop) G x, i <> j -> ok n E -> ok m D -> opens U -> smooth U G -> seg (seg U j) i x -> Jn n E i (Jn m D j G) x = Jn m D j (Jn n E i G) x.
Proof.
  induction n as [|n IH].
  - intros E i m. induction m as [|m IHm]; intros D j U G x Nij Ho Hm HU HG Hx.
    + rewrite !J0_W. transitivity (W E i (fun y => W D j G y) x); [apply RInt_extR; intros t; rewrite J0_W; reflexivity|]. rewrite (W_comm U) by (try assumption; try (apply ok_0; assumption); apply (Ck_cont 0), HG). apply RInt_extR. intros t. rewrite J0_W. reflexivity.
    + symmetry. apply (comm_step m D j 0 E i U); try assumption; [congruence| |apply seg_comm; assumption]. intros H y HH Hy. symmetry. apply (IHm (D + 1) j U); try assumption. apply ok_S in Hm. apply Hm. apply seg_comm; [congruence|exact Hy].
  - intros E i m D j U G x Nij Ho Hm HU HG Hx. apply (comm_step n E i m D j U); try assumption. intros H y HH Hy. apply (IH (E + 1) i m D j U); try assumption. apply ok_S in Ho. apply Ho.
Qed.
Lemma Jn_succ n : forall E i (U : point -> Prop) G x, ok n E -> opens U -> smooth U G -> seg U i x -> Jn (Datatypes.S n) E i G x = Jn n E i G x.
Proof.
  induction n as [|n IH]; intros E i U G x Ho HU HG Hx.
  - rewrite Jn_step_form, !J0_W. rewrite (W_parts U E) by (try assumption; apply ok_0, Ho). unfold Rdiv. ring.
  - destruct (ok_S _ _ Ho) as [Ho' N]. rewrite Jn_step_form, (Jn_step_form n E). rewrite (IH (E + 1) i U) by (try assumption; apply d_smooth; assumption). reflexivity.
Qed.
Lemma Jn_le n m E i (U : point -> Prop) G x : (n <= m)%nat -> ok n E -> opens U -> smooth U G -> seg U i x -> Jn m E i G x = Jn n E i G x.
Proof.
  intros L Ho HU HG Hx. induction L as [|m L IH]; [reflexivity|]. rewrite (Jn_succ m E i U); try assumption. destruct Ho as [H1 H2]. split; [|exact H2]. apply le_INR in L. lra.
Qed.
Lemma J_Jn n E i (U : point -> Prop) G x : ok n E -> opens U -> smooth U G -> seg U i x -> J E i G x = Jn n E i G x.
Proof.
  intros Ho HU HG Hx. unfold J. assert (Hs := ok_shift E (proj2 Ho)). destruct (Nat.le_ge_cases n (shift E)) as [L|L]; [apply (Jn_le n (shift E) E i U); assumption|symmetry; apply (Jn_le (shift E) n E i U); assumption].
Qed.
(** ** the interface *)
Lemma J_ext E i (U : point -> Prop) G H x : opens U -> (forall y, U y -> G y = H y) -> seg U i x -> J E i G x = J E i H x.
Proof. apply Jn_ext. Qed.
Lemma J_smooth E i (U : point -> Prop) G : regular E -> opens U -> smooth U G -> smooth (seg U i) (J E i G).
Proof. intros H. apply Jn_smooth, ok_shift, H. Qed.
Lemma J_indep E i G x t : J E i G (upd x i t) = J E i G x. Proof. apply Jn_indep. Qed.
Lemma J_lin E i (U : point -> Prop) G H a b x : regular E -> opens U -> smooth U G -> smooth U H -> seg U i x -> J E i (fun y => a * G y + b * H y) x = a * J E i G x + b * J E i H x.
Proof. intros HE. apply Jn_lin, ok_shift, HE. Qed.
Lemma J_mul E i (U : point -> Prop) K G x : regular E -> opens U -> smooth U G -> (forall y t, K (upd y i t) = K y) -> seg U i x -> J E i (fun y => K y * G y) x = K x * J E i G x.
Proof. intros HE. apply Jn_mul, ok_shift, HE. Qed.
Lemma J_upd E i j v G x : i <> j -> J E i G (upd x j v) = J E i (fun y => G (upd y j v)) x. Proof. apply Jn_upd. Qed.
Lemma J_comm E i D j (U : point -> Prop) G x : i <> j -> regular E -> regular D -> opens U -> smooth U G -> seg (seg U j) i x -> J E i (J D j G) x = J D j (J E i G) x.
Proof. intros N HE HD. apply Jn_comm; [exact N|apply ok_shift, HE|apply ok_shift, HD]. Qed.
Lemma J_d E i m (U : point -> Prop) G x : regular E -> opens U -> smooth U G -> m <> i -> seg U i x -> d m (J E i G) x = J E i (d m G) x.
Proof. intros HE. apply Jn_d, ok_shift, HE. Qed.
Lemma J_parts E i (U : point -> Prop) G x : regular E -> opens U -> smooth U G -> seg U i x -> J E i G x = / (E + 1) * (G (upd x i 1) - J (E + 1) i (d i G) x).
Proof.
  intros HE HU HG Hx. rewrite (J_Jn (Datatypes.S (shift (E + 1))) E i U G x); try assumption.
  - cbn [Jn]. unfold J, Rdiv. ring.
  - destruct (ok_shift (E + 1) (regular_S E HE)) as [A _]. split; [rewrite S_INR; lra|exact HE].
Qed.
(** ** monomials *)
Lemma J_zero E i x : J E i (fun _ => 0) x = 0.
Proof.
  unfold J. generalize (shift E) as n. intros n. revert E x. induction n as [|n IH]; intros E x; cbn [Jn].
  - rewrite (RInt_extR _ (fun _ => 0)); [rewrite RInt_const; apply Rmult_0_r|intros t; ring].
  - replace (d i (fun _ => 0)) with (fun _ : point => 0) by (apply functional_extensionality; intros y; unfold d; rewrite Derive_const; reflexivity). rewrite IH. unfold Rdiv. ring.
Qed.
Lemma smooth_pow U i p : smooth U (fun x => x i ^ p).
Proof. intros k. induction p as [|p IH]; [apply (Ck_const k U 1)|]. apply (Ck_mult k U (fun x => x i)); [apply Ck_coord|exact IH]. Qed.
Lemma d_pow i p x : d i (fun y => y i ^ p) x = INR p * x i ^ pred p.
Proof.
  apply pd_d. unfold pd. apply (dlim_ext (fun t => t ^ p) _ _ _ 1 Rlt_0_1); [|apply derivable_pt_lim_pow]. intros t _. rewrite upd_at. reflexivity.
Qed.
Lemma J_pow p : forall E i x, regular E -> J E i (fun y => y i ^ p) x = / (E + INR p + 1).
Proof.
  assert (T : opens (fun _ : point => True)) by (intros x _; exists 1; split; [lra|auto]).
  induction p as [|p IH]; intros E i x HE; rewrite (J_parts E i (fun _ => True) _ x HE T (smooth_pow _ _ _) ltac:(intros t _; exact I)); rewrite upd_at, pow1.
  - rewrite (J_ext (E + 1) i (fun _ => True) _ (fun _ => 0) x T); [|intros y _; rewrite d_pow; cbn; ring|intros t _; exact I]. rewrite J_zero. cbn [INR]. rewrite Rminus_0_r, Rmult_1_r. f_equal. ring.
  - rewrite (J_ext (E + 1) i (fun _ => True) _ (fun y => INR (Datatypes.S p) * y i ^ p + 0 * y i ^ p) x T); [|intros y _; rewrite d_pow; cbn [pred]; ring|intros t _; exact I].
    rewrite (J_lin (E + 1) i (fun _ => True)); [|apply regular_S, HE|exact T|apply smooth_pow|apply smooth_pow|intros t _; exact I]. rewrite (IH (E + 1) i x (regular_S E HE)).
    pose proof (HE (Datatypes.S p)) as H1. pose proof (HE 0%nat) as H0. rewrite S_INR in *. cbn [INR] in H0. field. split; intros C; first [apply H1; lra|apply H0; lra].
Qed.
(** x_i^p times a function that does not depend on x_i *)
Lemma J_mono E i (U : point -> Prop) K p x : regular E -> (forall y t, K (upd y i t) = K y) -> J E i (fun y => K y * y i ^ p) x = K x * / (E + INR p + 1).
Proof.
  intros HE HK. rewrite (J_mul E i (fun _ => True)); [rewrite J_pow by exact HE; reflexivity|exact HE| |apply smooth_pow|exact HK|intros t _; exact I]. intros y _. exists 1. split; [lra|auto].
Qed.
(** ** the iterated integral *)
Notation ixs S := (map fst S).
Lemma box_opens L U : opens U -> opens (box L U).
Proof. intros H. induction L as [|i L IH]; [exact H|]. apply seg_opens, IH. Qed.
Lemma box_app L M U : box (L ++ M) U = box L (box M U).
Proof. induction L as [|i L IH]; [reflexivity|]. cbn [box app]. rewrite IH. reflexivity. Qed.
Lemma box_sub L (U V : point -> Prop) : (forall x, U x -> V x) -> forall x, box L U x -> box L V x.
Proof. intros H. induction L as [|i L IH]; [exact H|]. intros x Hx t Ht. apply IH, Hx, Ht. Qed.
Lemma box_swap i j U x : box [i; j] U x -> box [j; i] U x.
Proof. destruct (Nat.eq_dec i j) as [->|N]; [auto|]. apply seg_comm, N. Qed.
Lemma box_perm L M U : Permutation L M -> forall x, box L U x -> box M U x.
Proof.
  induction 1 as [|i L M P IH|i j L|L M N P IH P' IH']; [auto| | |auto].
  - intros x Hx t Ht. apply IH, Hx, Ht.
  - apply (box_swap j i (box L U)).
Qed.
Definition reg (S : list (nat * R)) : Prop := Forall (fun q => regular (snd q)) S.
Lemma contI_ext S : forall (U : point -> Prop) G H x, opens U -> (forall y, U y -> G y = H y) -> box (ixs S) U x -> contI S G x = contI S H x.
Proof.
  induction S as [|[i E] S IH]; intros U G H x HU He Hx; [apply He, Hx|]. cbn [contI]. apply (J_ext E i (box (ixs S) U)); [apply box_opens, HU| |exact Hx]. intros y Hy. apply (IH U); assumption.
Qed.
Lemma contI_smooth S : forall (U : point -> Prop) G, reg S -> opens U -> smooth U G -> smooth (box (ixs S) U) (contI S G).
Proof.
  induction S as [|[i E] S IH]; intros U G HS HU HG; [exact HG|]. apply Forall_cons_iff in HS as [H1 HS]. apply J_smooth; [exact H1|apply box_opens, HU|apply IH; assumption].
Qed.
Lemma contI_lin S : forall (U : point -> Prop) G H a b x, reg S -> opens U -> smooth U G -> smooth U H -> box (ixs S) U x -> contI S (fun y => a * G y + b * H y) x = a * contI S G x + b * contI S H x.
Proof.
  induction S as [|[i E] S IH]; intros U G H a b x HS HU HG HH Hx; [reflexivity|]. apply Forall_cons_iff in HS as [H1 HS]. cbn [contI].
  rewrite (J_ext E i (box (ixs S) U) _ (fun y => a * contI S G y + b * contI S H y) x); [|apply box_opens, HU|intros y Hy; apply (IH U); assumption|exact Hx].
  apply (J_lin E i (box (ixs S) U)); [exact H1|apply box_opens, HU|apply contI_smooth; assumption|apply contI_smooth; assumption|exact Hx].
Qed.
Lemma contI_mul S : forall (U : point -> Prop) K G x, reg S -> opens U -> smooth U G -> (forall i, In i (ixs S) -> forall y t, K (upd y i t) = K y) -> box (ixs S) U x -> contI S (fun y => K y * G y) x = K x * contI S G x.
Proof.
  induction S as [|[i E] S IH]; intros U K G x HS HU HG HK Hx; [reflexivity|]. apply Forall_cons_iff in HS as [H1 HS]. cbn [contI].
  rewrite (J_ext E i (box (ixs S) U) _ (fun y => K y * contI S G y) x); [|apply box_opens, HU|intros y Hy; apply (IH U); try assumption; intros j Hj; apply HK; right; exact Hj|exact Hx].
  apply (J_mul E i (box (ixs S) U)); [exact H1|apply box_opens, HU|apply contI_smooth; assumption|apply HK; left; reflexivity|exact Hx].
Qed.
Lemma contI_app S : forall T G, contI (S ++ T) G = contI S (contI T G).
Proof. induction S as [|[i E] S IH]; intros T G; [reflexivity|]. cbn [app contI]. rewrite IH. reflexivity. Qed.
Lemma reg_perm S T : Permutation S T -> reg S -> reg T. Proof. apply Permutation_Forall. Qed.
Lemma contI_perm S T : Permutation S T -> forall (U : point -> Prop) G x, NoDup (ixs S) -> reg S -> opens U -> smooth U G -> box (ixs S) U x -> contI S G x = contI T G x.
Proof.
  induction 1 as [|[i E] S T P IH|[i E] [j D] S|S T V P IH P' IH']; intros U G x ND HS HU HG Hx.
  - reflexivity.
  - cbn [contI map fst] in *. inversion ND as [|? ? _ ND']; subst. apply Forall_cons_iff in HS as [H1 HS]. apply (J_ext E i (box (ixs S) U)); [apply box_opens, HU| |exact Hx]. intros y Hy. apply (IH U); assumption.
  - cbn [contI map fst] in *. inversion ND as [|? ? N1 ND']; subst. apply Forall_cons_iff in HS as [H1 HS]. apply Forall_cons_iff in HS as [H2 HS]. cbn [snd] in *. apply (J_comm D j E i (box (ixs S) U)); try assumption; [|apply box_opens, HU|apply contI_smooth; assumption]. intros ->. apply N1. left. reflexivity.
  - rewrite (IH U) by assumption. apply (IH' U); try assumption; [apply (Permutation_NoDup (Permutation_map fst P) ND)|apply (reg_perm _ _ P HS)|apply (box_perm _ _ U (Permutation_map fst P) x Hx)].
Qed.
(** the variable i innermost *)
Lemma contI_in S T i E (U : point -> Prop) G x : NoDup (ixs (S ++ (i, E) :: T)) -> reg (S ++ (i, E) :: T) -> opens U -> smooth U G -> box (ixs (S ++ (i, E) :: T)) U x ->
  contI (S ++ (i, E) :: T) G x = contI (S ++ T) (J E i G) x /\ box (ixs (S ++ T)) (seg U i) x.
Proof.
  intros ND HS HU HG Hx. assert (P : Permutation (S ++ (i, E) :: T) ((S ++ T) ++ [(i, E)])). { rewrite <- Permutation_middle. apply Permutation_cons_append. }
  split.
  - rewrite (contI_perm _ _ P U) by assumption. rewrite contI_app. reflexivity.
  - pose proof (box_perm _ _ U (Permutation_map fst P) x Hx) as B. rewrite map_app, box_app in B. exact B.
Qed.
(** ** for E > -1 this is the improper integral *)
Lemma unit_bounded (U : point -> Prop) G i x : cont U G -> seg U i x -> exists M, 0 < M /\ forall t, 0 <= t <= 1 -> Rabs (G (upd x i t)) <= M.
Proof.
  intros HG Hx. destruct (unit_compact (fun t e => Rabs (G (upd x i t)) <= / e)) as (e & He & H).
  - intros t a b H [Hb Hle]. apply Rle_trans with (/ a); [exact H|]. apply Rinv_le_contravar; assumption.
  - intros t Ht. destruct (HG _ (Hx t Ht) 1 ltac:(lra)) as (e & He & H). set (B := Rabs (G (upd x i t)) + 1). assert (HB : 0 < B) by (unfold B; pose proof (Rabs_pos (G (upd x i t))); lra).
    exists (Rmin e (/ B)). split; [apply Rmin_pos; [exact He|apply Rinv_0_lt_compat, HB]|]. intros s Hs Hd. assert (A : Rabs (G (upd x i s) - G (upd x i t)) < 1). { apply H, near_self; [|exact He]. eapply Rlt_le_trans; [exact Hd|apply Rmin_l]. }
    apply Rle_trans with B. + unfold B. replace (G (upd x i s)) with ((G (upd x i s) - G (upd x i t)) + G (upd x i t)) by ring. eapply Rle_trans; [apply Rabs_triang|]. lra.
    + rewrite <- (Rinv_inv B) at 1. apply Rinv_le_contravar; [apply Rmin_pos; [exact He|apply Rinv_0_lt_compat, HB]|apply Rmin_r].
  - exists (/ e). split; [apply Rinv_0_lt_compat, He|]. exact H.
Qed.
Lemma w_deriv_pos E (t : R) : 0 < t -> is_derive (w (E + 1)) t ((E + 1) * w E t).
Proof.
  intros Ht. rewrite w_pos by exact Ht. apply (is_derive_ext_loc (fun s => Rpower s (E + 1))).
  - apply loc_R. exists t. split; [exact Ht|]. intros s Hs. apply Rabs_def2 in Hs. symmetry. apply w_pos. lra.
  - apply is_derive_Reals. replace (Rpower t E) with (Rpower t (E + 1 - 1)) by (f_equal; ring). apply derivable_pt_lim_power, Ht.
Qed.
Lemma w_cont_pos E (t : R) : 0 < t -> continuous (w E) t.
Proof. intros Ht. apply (ex_derive_continuous (w E)). eexists. replace E with (E - 1 + 1) at 1 by ring. apply w_deriv_pos, Ht. Qed.
Lemma J_improper E i (U : point -> Prop) G x : -1 < E -> opens U -> smooth U G -> seg U i x ->
  forall eps, 0 < eps -> exists e, 0 < e /\ forall a, 0 < a < e -> a < 1 -> ex_RInt (fun t => Rpower t E * G (upd x i t)) a 1 /\ Rabs (RInt (fun t => Rpower t E * G (upd x i t)) a 1 - J E i G x) < eps.
Proof.
  intros HE HU HG Hx eps Heps. assert (RE : regular E) by (intros k C; pose proof (pos_INR k); lra).
  assert (CG := Ck_cont _ _ _ (HG 0%nat)). assert (CD := Ck_cont _ _ _ (d_smooth U i G HU HG 0%nat)).
  destruct (unit_bounded U G i x CG Hx) as (M & HM & BM). destruct (unit_bounded U (d i G) i x CD Hx) as (M' & HM' & BM').
  set (eta := eps * (E + 1) / (2 * (M + M'))). assert (Heta : 0 < eta) by (apply Rdiv_lt_0_compat; [apply Rmult_lt_0_compat; lra|lra]).
  destruct (w_small (E + 1) ltac:(lra) eta Heta) as (e1 & He1 & H1). exists (Rmin e1 eta). split; [apply Rmin_pos; assumption|]. intros a [Ha0 Ha] Ha1.
  assert (L1 : a < e1) by (eapply Rlt_le_trans; [exact Ha|apply Rmin_l]). assert (L2 : a < eta) by (eapply Rlt_le_trans; [exact Ha|apply Rmin_r]).
  assert (Dg : forall t, 0 <= t <= 1 -> is_derive (fun t => G (upd x i t)) t (d i G (upd x i t))). { intros t Ht. pose proof (d_pd U i G _ HG (Hx t Ht)) as H. unfold pd in H. apply is_derive_Reals in H. rewrite upd_at in H. eapply is_derive_ext; [|exact H]. intros s. cbv beta. rewrite upd_upd. reflexivity. }
  set (df := fun t => (E + 1) * w E t * G (upd x i t) + w (E + 1) t * d i G (upd x i t)).
  assert (C1 : forall t, a <= t <= 1 -> continuous (fun t => w E t * G (upd x i t)) t). { intros t Ht. apply (continuous_mult (w E)); [apply w_cont_pos; lra|apply (seg_cont U); [exact CG|apply Hx; lra]]. }
  assert (C2 : forall t, a <= t <= 1 -> continuous (fun t => w (E + 1) t * d i G (upd x i t)) t). { intros t Ht. apply (continuous_mult (w (E + 1))); [apply w_cont_pos; lra|apply (seg_cont U); [exact CD|apply Hx; lra]]. }
  assert (X1 : ex_RInt (fun t => w E t * G (upd x i t)) a 1). { apply (@ex_RInt_continuous R_CompleteNormedModule). intros t Ht. rewrite Rmin_left, Rmax_right in Ht by lra. apply C1, Ht. }
  assert (X2 : ex_RInt (fun t => w (E + 1) t * d i G (upd x i t)) a 1). { apply (@ex_RInt_continuous R_CompleteNormedModule). intros t Ht. rewrite Rmin_left, Rmax_right in Ht by lra. apply C2, Ht. }
  assert (A : is_RInt df a 1 (w (E + 1) 1 * G (upd x i 1) - w (E + 1) a * G (upd x i a))).
  { apply (@is_RInt_derive R_CompleteNormedModule (fun t => w (E + 1) t * G (upd x i t)) df a 1).
    - intros t Ht. rewrite Rmin_left, Rmax_right in Ht by lra. apply (is_derive_mult (w (E + 1)) (fun t => G (upd x i t)) t ((E + 1) * w E t) (d i G (upd x i t))); [apply w_deriv_pos; lra|apply Dg; lra|]. intros u v. apply Rmult_comm.
    - intros t Ht. rewrite Rmin_left, Rmax_right in Ht by lra. unfold df. apply (continuous_plus (fun t => (E + 1) * w E t * G (upd x i t))); [|apply C2, Ht].
      apply (continuous_ext (fun t => (E + 1) * (w E t * G (upd x i t)))); [intros s; symmetry; apply Rmult_assoc|]. apply (continuous_scal_r (E + 1) (fun t => w E t * G (upd x i t))), C1, Ht. }
  rewrite w_one, Rmult_1_l in A. apply (@is_RInt_unique R_CompleteNormedModule) in A.
  assert (B : RInt df a 1 = (E + 1) * RInt (fun t => w E t * G (upd x i t)) a 1 + 1 * RInt (fun t => w (E + 1) t * d i G (upd x i t)) a 1).
  { rewrite <- RInt_lin by assumption. apply RInt_extR. intros t. unfold df. ring. }
  assert (Y : forall p q, 0 <= p <= q -> q <= 1 -> ex_RInt (fun t => w (E + 1) t * d i G (upd x i t)) p q). { intros p q Hp Hq. apply (@ex_RInt_continuous R_CompleteNormedModule). intros t Ht. rewrite Rmin_left, Rmax_right in Ht by lra. apply (continuous_mult (w (E + 1))); [apply w_cont; lra|apply (seg_cont U); [exact CD|apply Hx; lra]]. }
  assert (Z : W (E + 1) i (d i G) x = RInt (fun t => w (E + 1) t * d i G (upd x i t)) 0 a + RInt (fun t => w (E + 1) t * d i G (upd x i t)) a 1). { symmetry. apply (@RInt_Chasles R_CompleteNormedModule); apply Y; lra. }
  assert (Q : RInt (fun t => Rpower t E * G (upd x i t)) a 1 = RInt (fun t => w E t * G (upd x i t)) a 1). { apply RInt_ext. intros t Ht. rewrite Rmin_left in Ht by lra. rewrite w_pos by lra. reflexivity. }
  split. { eapply ex_RInt_ext; [|exact X1]. intros t Ht. rewrite Rmin_left in Ht by lra. cbv beta. rewrite w_pos by lra. reflexivity. }
  rewrite Q, (J_parts E i U G x RE HU HG Hx). unfold J at 1. change (Jn (shift (E + 1)) (E + 1) i (d i G) x) with (J (E + 1) i (d i G) x).
  rewrite (J_Jn 0 (E + 1) i U (d i G) x); [|split; [cbn; lra|apply regular_S, RE]|exact HU|apply d_smooth; assumption|exact Hx]. rewrite J0_W, Z.
  set (I1 := RInt (fun t => w E t * G (upd x i t)) a 1) in *. set (I2 := RInt (fun t => w (E + 1) t * d i G (upd x i t)) a 1) in *. set (I0 := RInt (fun t => w (E + 1) t * d i G (upd x i t)) 0 a) in *.
  replace (I1 - / (E + 1) * (G (upd x i 1) - (I0 + I2))) with (/ (E + 1) * (I0 - w (E + 1) a * G (upd x i a))). 2:{ apply Rmult_eq_reg_l with (E + 1); [|lra]. assert (F : (E + 1) * / (E + 1) = 1) by (apply Rinv_r; lra). set (c := / (E + 1)) in *. transitivity (I0 - w (E + 1) a * G (upd x i a)); [transitivity ((E + 1) * c * (I0 - w (E + 1) a * G (upd x i a))); [ring|rewrite F; ring]|]. transitivity ((E + 1) * I1 - (E + 1) * c * (G (upd x i 1) - (I0 + I2))); [rewrite F; lra|ring]. }
  assert (B0 : Rabs I0 <= a * M'). { replace (a * M') with ((a - 0) * M') by ring. apply abs_RInt_le_const; [lra|apply Y; lra|]. intros t Ht. rewrite Rabs_mult. pose proof (w_range (E + 1) t ltac:(lra) ltac:(lra)) as [P1 P2]. rewrite (Rabs_pos_eq (w (E + 1) t)) by exact P1. specialize (BM' t ltac:(lra)). pose proof (Rabs_pos (d i G (upd x i t))). nra. }
  assert (B1 : Rabs (w (E + 1) a * G (upd x i a)) <= eta * M). { rewrite Rabs_mult. specialize (H1 a ltac:(rewrite Rabs_pos_eq; lra)). specialize (BM a ltac:(lra)). pose proof (Rabs_pos (w (E + 1) a)). pose proof (Rabs_pos (G (upd x i a))). nra. }
  rewrite Rabs_mult, (Rabs_pos_eq (/ (E + 1))) by (left; apply Rinv_0_lt_compat; lra).
  apply Rle_lt_trans with (/ (E + 1) * (eta * (M + M'))).
  - apply Rmult_le_compat_l; [left; apply Rinv_0_lt_compat; lra|]. unfold Rminus. eapply Rle_trans; [apply Rabs_triang|]. rewrite Rabs_Ropp. nra.
  - unfold eta. replace (/ (E + 1) * (eps * (E + 1) / (2 * (M + M')) * (M + M'))) with (eps / 2) by (field; lra). lra.
Qed.
