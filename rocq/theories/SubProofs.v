(** One variable: the pole part and the integration by parts. *)
From Coq Require Import FunctionalExtensionality.
From Coquelicot Require Import Coquelicot.
From Verif Require Import SortProofs ExprSpec ExprSmooth ExprMixed ExprArith ExprOrd ExprSimp ExprDerive ExprMore PropExpr CalmSpec CalmProofs ContSpec ContProofs ContJ SubModel SubSpec SubInt SubReg.
Local Open Scope R_scope.

Section One.
Variables (nv : nat) (rho : point) (S : list nat) (z : expr -> bool).
Hypothesis Hz : sound z.
Hypothesis NS : NoDup S.
Hypothesis HS : forall j, In j S -> (j < nv)%nat.
Notation wf := (wf nv).
Notation calm := (calm (agree rho S)).
Notation both := (both nv (agree rho S)).
Notation regpol := (regpol nv S).
Notation shape := (shape nv rho S).
Notation defined := (defined rho S).
Notation cube := (cube rho S).
Notation mons_ok := (mons_ok nv S).
Definition fn (pp : pprod) : point -> R := fun y => eval y (Prod (rest pp)).
Definition dm (pp : pprod) : point -> Prop := fun y => dom y (Prod (rest pp)).
Lemma dm_open pp : opens (dm pp). Proof. apply (all_good (Prod (rest pp))). Qed.
Lemma fn_smooth pp : smooth (dm pp) (fn pp). Proof. apply (all_good (Prod (rest pp))). Qed.
Lemma shape_mons pp : shape pp -> mons_ok (mons pp) /\ mons pp <> []. Proof. intros (H1 & H2 & _). split; assumption. Qed.
Lemma shape_both pp : shape pp -> both (Prod (rest pp)).
Proof.
  intros (_ & _ & _ & N & H). split; [split; [exact N|]; apply allP_Forall|apply calm_list]; (eapply Forall_impl; [|exact H]); intros e [A B]; assumption.
Qed.
Lemma box_cube' (V : point -> Prop) : box S V rho <-> forall x, cube x -> V x.
Proof. rewrite box_cube. split; intros H x Hx; apply H; exact Hx. Qed.
Lemma cube_rho_box (V : point -> Prop) : (forall x, cube x -> V x) -> box S V rho. Proof. apply box_cube'. Qed.
Lemma cube_upd x j v : In j S -> 0 <= v <= 1 -> cube x -> cube (upd x j v). Proof. intros Hj Hv Hx. exact (over_box_upd S rho x j v Hj Hv Hx). Qed.
Lemma mk_shape m p r : mons_ok m -> m <> [] -> regpol p -> both r -> shape (mkPP m p [r]).
Proof. intros H1 H2 H3 [H4 H5]. split; [exact H2|]. split; [exact H1|]. split; [exact H3|]. split; [discriminate|]. constructor; [split; assumption|constructor]. Qed.
Lemma fn1 m p r y : fn (mkPP m p [r]) y = eval y r. Proof. unfold fn. cbn. ring. Qed.
Lemma dm1 m p r y : dm (mkPP m p [r]) y <-> dom y r. Proof. unfold dm. cbn. tauto. Qed.
Lemma both_list l : Forall both l -> l <> [] -> both (Sum l) /\ both (Prod l).
Proof.
  intros H N. assert (W : allP wf l) by (apply allP_Forall; eapply Forall_impl; [|exact H]; intros e [A _]; exact A). assert (C : allP calm l) by (apply calm_list; eapply Forall_impl; [|exact H]; intros e [_ A]; exact A). split; split; try exact C; split; assumption.
Qed.
Lemma both_simp e : both e -> exists e', ev (fun n => simplify nv n e = Some e') /\ both e' /\ same e e'.
Proof.
  intros [W C]. destruct (C07_simplify nv e W) as (e' & (n0 & E) & W' & V). exists e'. split; [exists n0; exact E|]. split; [|exact V]. split; [exact W'|]. apply (simplify_calm nv (agree rho S) n0 e e' W C), E. lia.
Qed.
Lemma both_derive j e : (j < nv)%nat -> both e -> exists e', ev (fun n => derive nv z j n e = Some e') /\ both e' /\ forall x, dom x e -> dom x e' /\ pd j (fun y => eval y e) x (eval x e').
Proof.
  intros Hj [W C]. destruct (C06_derive nv z j e Hz Hj W) as (e' & (n0 & E) & W' & V). exists e'. split; [exists n0; exact E|]. split; [|exact V]. split; [exact W'|]. apply (derive_calm nv (agree rho S) z Hz j Hj n0 e e' W C), E. lia.
Qed.
Lemma both_replace j v e : In j S -> both e -> exists e', replace nv j v e = Some e' /\ both e' /\ repres j v e e'.
Proof.
  intros Hj [W C]. destruct (replace_ok nv j v (HS j Hj) e W (or_intror (calm_flat (agree rho S) e C))) as (e' & E & R). exists e'. split; [exact E|]. split; [|exact R]. apply (replace_both nv (agree rho S) j v (HS j Hj) (fun x => agree_upd rho S j x v Hj) (agree_ne rho S) e e' W C E).
Qed.
(** ** conditions that later steps do not destroy *)
Definition keeps (C : (list Z -> R) -> Prop) (Q : nat -> Prop) (Z : R -> Prop) (i : nat) (t : pprod) : Prop :=
  exists V, opens V /\ (forall y, V y -> dm t y) /\ box S V rho /\ C (power_coef (mons t) i) /\ nul Q Z V i (fn t).
Definition same_coef (j : nat) (t pp : pprod) : Prop := forall i, i <> j -> power_coef (mons t) i = power_coef (mons pp) i.
Definition keeper (j : nat) (pp t : pprod) : Prop := forall C Q Z i, In i S -> i <> j -> keeps C Q Z i pp -> keeps C Q Z i t.

Section J.
Variables (pp : pprod) (j : nat).
Hypothesis Hs : shape pp.
Hypothesis Hj : In j S.
Notation G := (fn pp).
Notation V := (dm pp).
Notation m := (mons pp).
Let E := power m j rho.
(** the exponents around x_j *)
Lemma split_S : exists A B, S = A ++ j :: B /\ ~ In j A /\ ~ In j B.
Proof. apply in_split in Hj as (A & B & ->). exists A, B. split; [reflexivity|]. pose proof (NoDup_remove_2 _ _ _ NS) as H. split; intros K; apply H, in_or_app; auto. Qed.
Definition expo (m : list (list Z * terms_t)) : list (nat * R) := map (fun i => (i, power m i rho)) S.
Lemma ixs_expo m' : ixs (expo m') = S. Proof. unfold expo. rewrite map_map. cbn. apply map_id. Qed.
Lemma expo_split : exists A B, expo m = A ++ (j, E) :: B /\ forall m' e, power m' j rho = e -> (forall i, i <> j -> power m' i rho = power m i rho) -> expo m' = A ++ (j, e) :: B.
Proof.
  destruct split_S as (A & B & ES & NA & NB). exists (map (fun i => (i, power m i rho)) A), (map (fun i => (i, power m i rho)) B). unfold expo. rewrite ES. split; [rewrite map_app; reflexivity|]. intros m' e <- H. rewrite map_app. cbn [map]. f_equal; [|f_equal]; apply map_ext_in; intros i Hi; f_equal; apply H; intros ->; contradiction.
Qed.
Lemma reg_expo : defined pp -> reg (expo m).
Proof. intros (_ & _ & _ & _ & R). unfold reg, expo. rewrite Forall_map. apply Forall_forall. intros i Hi. apply R, Hi. Qed.
Lemma nd_expo m' : NoDup (ixs (expo m')). Proof. rewrite ixs_expo. exact NS. Qed.
Lemma box_V : defined pp -> box S V rho. Proof. intros (D & _). apply cube_rho_box, D. Qed.
Lemma reg_agree x : cube x -> forall i, ~ In i S -> rho i = x i. Proof. intros [A _] i Hi. symmetry. apply A, Hi. Qed.

(** ** pieces at an end point:  K * H (x_j = v) with a factor K of the regulators *)
Definition endpiece (K : point -> R) (v : R) (H : point -> R) (t : pprod) : Prop :=
  shape t /\ mons t = set_to_one j m /\ exists W, opens W /\ (forall i, In i S -> forall y s, K (upd y i s) = K y) /\ (forall y, cube y -> W rho -> W y) /\ (defined pp -> W rho) /\
    forall y, W y -> V (upd y j v) -> dm t y /\ fn t y = K y * H (upd y j v).
Lemma end_coef K v H t : endpiece K v H t -> same_coef j t pp.
Proof. intros (_ & M & _) i Hi. apply functional_extensionality. intros k. rewrite M, (one_coef nv S j (HS j Hj) Hj m i k (proj1 (shape_mons pp Hs))). apply Nat.eqb_neq in Hi. rewrite Hi. reflexivity. Qed.
Lemma end_keeps K v q t : 0 <= v <= 1 -> defined pp -> endpiece K v (dN q j G) t -> keeper j pp t.
Proof.
  intros Hv D HE C Q Z i Hi Nij (U & U1 & U2 & U3 & U4 & U5). pose proof (end_coef K v _ t HE i Nij) as CE. destruct HE as (_ & M & W & W1 & W2 & W3 & W4 & W5). exists (fun y => U (upd y j v) /\ W y).
  assert (SU : smooth U G) by (apply (smooth_sub V); [exact U2|apply fn_smooth]).
  assert (O : opens (fun y => U (upd y j v) /\ W y)) by (apply opens_and; [apply upd_opens, U1|exact W1]). split; [exact O|].
  split; [intros y [Y1 Y2]; apply W5; [exact Y2|apply U2, Y1]|]. split; [apply cube_rho_box; intros x Hx; split; [|apply W3; auto]; rewrite box_cube' in U3; apply U3, cube_upd; assumption|]. split; [rewrite CE; exact U4|].
  apply (nul_ext Q Z _ i (fun y => K y * dN q j G (upd y j v))); [exact O|intros y [Y1 Y2]; symmetry; apply W5; [exact Y2|apply U2, Y1]|]. apply nul_mul; [intros y s; apply W2; assumption|]. apply (nul_sub Q Z (fun y => U (upd y j v))); [intros y [Y _]; exact Y|]. apply (nul_upd Q Z U i j v (dN q j G) ltac:(auto)). apply nul_dN; auto.
Qed.
Lemma end_nul K v H t : 0 <= v <= 1 -> defined pp -> endpiece K v H t -> keeps (fun c => forall k, c k = 0) (fun q => q = 1%nat) (fun _ => True) j t.
Proof.
  intros Hv D HE. destruct HE as (_ & M & W & W1 & W2 & W3 & W4 & W5). exists (fun y => V (upd y j v) /\ W y). assert (O : opens (fun y => V (upd y j v) /\ W y)) by (apply opens_and; [apply upd_opens, dm_open|exact W1]). split; [exact O|].
  split; [intros y [Y1 Y2]; apply W5; assumption|]. split; [apply cube_rho_box; intros x Hx; split; [|apply W3; auto]; apply D, cube_upd; assumption|]. split; [intros k; rewrite M, (one_coef nv S j (HS j Hj) Hj m j k (proj1 (shape_mons pp Hs))), Nat.eqb_refl; reflexivity|].
  apply (nul_ext _ _ _ j (fun y => K y * H (upd y j v))); [exact O|intros y [Y1 Y2]; symmetry; apply W5; assumption|]. apply indep_nul. intros y s. rewrite (W2 j Hj y s), upd_upd. reflexivity.
Qed.
(** definedness and value, given the pole factor *)
Lemma end_defined K v H t : 0 <= v <= 1 -> defined pp -> endpiece K v H t -> dom rho (Pol (pole t)) -> eval rho (Pol (pole t)) <> 0 -> defined t.
Proof.
  intros Hv D (_ & M & W & W1 & W2 & W3 & W4 & W5) P1 P2. destruct D as (D1 & D2 & D3 & D4 & D5). destruct (shape_mons pp Hs) as [MO _].
  split; [intros x Hx; apply W5; [apply W3; [exact Hx|apply W4; repeat split; assumption]|apply D1, cube_upd; assumption]|]. split; [exact P1|]. split; [exact P2|]. rewrite M. split; [apply (one_ok nv S j Hj m MO), D4|]. intros i Hi. rewrite (one_power nv S j (HS j Hj) Hj m i rho MO). destruct (Nat.eqb i j); [exact regular_zero|apply D5, Hi].
Qed.
Lemma end_smooth v q : smooth (fun y => V (upd y j v)) (fun y => dN q j G (upd y j v)).
Proof. apply (upd_smooth V (dN q j G) j v); [apply dN_smooth; [apply dm_open|apply fn_smooth]|apply dm_open]. Qed.
Lemma end_value K v q t A B : 0 <= v <= 1 -> defined pp -> endpiece K v (dN q j G) t -> expo m = A ++ (j, E) :: B ->
  (forall m' e, power m' j rho = e -> (forall i, i <> j -> power m' i rho = power m i rho) -> expo m' = A ++ (j, e) :: B) ->
  value S t rho = / eval rho (Pol (pole t)) * (K rho * contI (A ++ (j, 0) :: B) (fun y => dN q j G (upd y j v)) rho).
Proof.
  intros Hv D (_ & M & W & W1 & W2 & W3 & W4 & W5) EA EB. destruct (shape_mons pp Hs) as [MO _]. unfold value. f_equal. fold (expo (mons t)). 
  assert (E0 : expo (mons t) = A ++ (j, 0) :: B). { apply EB; [|intros i Hi]; rewrite M, (one_power nv S j (HS j Hj) Hj m _ rho MO); [rewrite Nat.eqb_refl; reflexivity|]. apply Nat.eqb_neq in Hi. rewrite Hi. reflexivity. }
  assert (IX : ixs (A ++ (j, 0) :: B) = S) by (rewrite <- E0; apply ixs_expo). rewrite E0.
  set (U := fun y => V (upd y j v) /\ W y). assert (O : opens U) by (apply opens_and; [apply upd_opens, dm_open|exact W1]). assert (BX : box S U rho) by (apply cube_rho_box; intros x Hx; split; [apply D, cube_upd; assumption|apply W3; auto]).
  rewrite (contI_ext _ U _ (fun y => K y * dN q j G (upd y j v)) rho O); [|intros y [Y1 Y2]; apply W5; assumption|rewrite IX; exact BX].
  apply (contI_mul _ U); [|exact O|apply (smooth_sub (fun y => V (upd y j v))); [intros y [Y _]; exact Y|apply end_smooth]|rewrite IX; exact W2|rewrite IX; exact BX].
  pose proof (reg_expo D) as R. rewrite EA in R. apply (reg_T A B j E R 0 regular_zero).
Qed.
(** ** the pole part *)
Lemma den_ok p : exists f, denominator nv pp j p = f /\ regpol f /\ (forall x, eval x (Pol f) = (power m j x + INR p + 1) * INR (fact p)) /\ forall x, mdom x m -> dom x (Pol f).
Proof.
  destruct (shape_mons pp Hs) as [MO MN]. unfold denominator. destruct (full_reg nv S m j MN MO) as (f & -> & F1 & _ & F3 & F4). destruct (add_reg_num nv S f (INR p + 1) F1) as (r & -> & _ & R1 & _ & _ & R4 & R5). destruct (mul_reg_num nv S r (INR (fact p)) R1) as (g & -> & G1 & _ & G3 & G4). exists g. split; [reflexivity|]. split; [exact G1|]. split; [intros x; rewrite G3, R4, F3; ring|]. intros x D. apply G4, R5, F4, D.
Qed.
Lemma opens_all_dom e : opens (fun y => dom y e). Proof. apply (all_good e). Qed.
Lemma epol_m1 x p : dom x (EPol p (Num (-1))) <-> dom x (Pol p) /\ eval x (Pol p) <> 0.
Proof.
  rewrite dom_epol, dom_pol, eval_pol. split; [intros (H1 & H2 & _); split; [exact H1|apply (base_nz _ _ H2)]|]. intros [H1 H2]. split; [exact H1|]. split; [|exact I]. destruct (Rlt_dec 0 (tval x p)); [left; assumption|right]. split; [exact H2|]. exists (-1)%Z. reflexivity.
Qed.
Lemma eval_m1 x p : eval x (EPol p (Num (-1))) = / eval x (Pol p).
Proof. rewrite eval_epol, eval_pol. cbn [eval]. rewrite (gpow_int _ (-1)). change (powerRZ (tval x p) (-1)) with (/ (tval x p * 1)). rewrite Rmult_1_r. reflexivity. Qed.
Lemma pole_term_ok p d0 : both d0 -> (forall y, V (upd y j 0) -> dom y d0 /\ eval y d0 = at0 p j G y) ->
  exists t K, ev (fun n => pole_term nv n pp j p d0 = Some t) /\ endpiece K 0 (dN p j G) t /\
    (defined pp -> dom rho (Pol (pole t)) /\ eval rho (Pol (pole t)) <> 0 /\ / eval rho (Pol (pole t)) * K rho = / eval rho (Pol (pole pp)) * / ((E + INR p + 1) * INR (fact p))).
Proof.
  intros B0 V0. destruct (shape_mons pp Hs) as [MO MN]. destruct (one_ok nv S j Hj m MO) as (O1 & O2 & O3). specialize (O2 MN). destruct (den_ok p) as (f & Ef & F1 & F2 & F3). pose proof Hs as (_ & _ & SP & _ & _). unfold pole_term. rewrite Ef.
  assert (NZ : defined pp -> eval rho (Pol f) <> 0). { intros (_ & _ & _ & _ & R). rewrite F2. apply Rmult_integral_contrapositive_currified; [apply (R j Hj)|apply INR_fact_neq_0]. }
  destruct (Req_EM_T (exponent_constant_term m j + INR p + 1) 0) as [Z|Z].
  - destruct (mul_reg nv S (pole pp) f SP F1) as (r & Er & R1 & R2). rewrite Er. cbn [coeffs_of]. exists (mkPP (set_to_one j m) r [d0]), (fun _ => 1). split; [apply ev_now; reflexivity|]. split.
    + split; [apply mk_shape; assumption|]. split; [reflexivity|]. exists (fun _ => True). split; [exact opens_true|]. split; [reflexivity|]. split; [auto|]. split; [auto|]. intros y _ Hy. destruct (V0 y Hy) as [H1 H2]. split; [apply dm1, H1|]. rewrite fn1, H2. unfold at0. ring.
    + intros D. pose proof (NZ D) as N. destruct D as (D1 & D2 & D3 & D4 & D5). destruct (R2 rho D2 (F3 rho D4)) as [R3 R4]. cbn [pole]. split; [exact R3|]. rewrite R4. split; [apply Rmult_integral_contrapositive_currified; assumption|]. rewrite Rinv_mult_distr by assumption. rewrite F2. fold E. ring.
  - assert (BE : both (EPol f (Num (-1)))).
    { split; [apply wf_epol; split; [apply (reg_tok nv S f F1)|]; split; [right; apply (frac_fractional (agree rho S) (agree_ne rho S)), m1_frac|left; reflexivity]|]. split; [apply F1|]. split; [apply m1_frac|exact I]. }
    destruct (both_list [d0; EPol f (Num (-1))]) as [_ BP]; [constructor; [exact B0|constructor; [exact BE|constructor]]|discriminate|]. destruct (both_simp _ BP) as (last & EL & BL & SL).
    exists (mkPP (set_to_one j m) (pole pp) [last]), (fun y => / eval y (Pol f)). split; [revert EL; apply ev_imp; intros n ->; reflexivity|]. split.
    + split; [apply mk_shape; assumption|]. split; [reflexivity|]. exists (fun y => dom y (EPol f (Num (-1)))). split; [apply opens_all_dom|]. split; [intros i Hi y s; rewrite (reg_upd nv S f y i s F1 Hi); reflexivity|].
      split; [intros y Hy; rewrite !epol_m1; destruct (reg_eval nv S f rho y F1 (reg_agree y Hy)) as [R1 R2]; rewrite R1; intros [H1 H2]; split; [apply R2, H1|exact H2]|]. split; [intros D; apply epol_m1; split; [apply F3, D|apply NZ, D]|].
      intros y Hy Hv. destruct (V0 y Hv) as [H1 H2]. destruct (SL y) as [S1 S2]; [cbn; auto|]. split; [apply dm1, S1|]. rewrite fn1, S2. change (eval y (Prod [d0; EPol f (Num (-1))])) with (eval y d0 * (eval y (EPol f (Num (-1))) * 1)). rewrite eval_m1, H2. unfold at0. ring.
    + intros D. pose proof (NZ D) as N. destruct D as (D1 & D2 & D3 & D4 & D5). cbn [pole]. split; [exact D2|]. split; [exact D3|]. rewrite F2. reflexivity.
Qed.
Definition sumseq (p count : nat) (f : nat -> R) : R := sumR (map f (seq p count)).
Lemma sumseq_S p count f : sumseq p (Datatypes.S count) f = f p + sumseq (Datatypes.S p) count f. Proof. reflexivity. Qed.
Lemma sumseq_last p count f : sumseq p (Datatypes.S count) f = sumseq p count f + f (p + count)%nat.
Proof. unfold sumseq. rewrite seq_S, map_app, sumR_app. cbn. ring. Qed.
Lemma sumseq_to count f : sumseq 0 count f = sumto count f.
Proof. induction count as [|c IH]; [reflexivity|]. rewrite sumseq_last, IH. reflexivity. Qed.
Lemma remainder_sum q y : remainder q j G y = G y - sumseq 0 q (fun p => pw p j y * at0 p j G y).
Proof. induction q as [|q IH]; [cbn; unfold sumseq; cbn; ring|]. rewrite sumseq_last. cbn [remainder]. rewrite IH, Nat.add_0_l. ring. Qed.
Lemma minus_ok p d0 : both d0 -> (forall y, V (upd y j 0) -> dom y d0 /\ eval y d0 = at0 p j G y) ->
  both (minus_term nv j p d0) /\ forall y, V (upd y j 0) -> dom y (minus_term nv j p d0) /\ eval y (minus_term nv j p d0) = - (pw p j y * at0 p j G y).
Proof.
  intros [B1 B2] V0. unfold minus_term. pose proof (HS j Hj) as Hn. assert (L : length (unit_row nv j (Z.of_nat p)) = nv) by (unfold unit_row; rewrite setk_len; apply repeat_length). set (P := Pol _). assert (WP : wf P) by (apply wf_pol; split; [discriminate|]; constructor; [split; [exact L|apply good_num]|constructor]).
  split; [split; [split; [discriminate|]; split; [exact WP|]; split; [exact B1|exact I]|apply calm2p; [constructor; [reflexivity|constructor]|exact B2]]|]. intros y Hy. destruct (V0 y Hy) as [H1 H2].
  assert (RM : row_ok y 0 (unit_row nv j (Z.of_nat p)) /\ mono y 0 (unit_row nv j (Z.of_nat p)) = y j ^ p).
  { unfold unit_row, zeros. clear - Hn. assert (GG : forall n j o, (j < n)%nat -> row_ok y o (setk j (Z.of_nat p) (repeat 0%Z n)) /\ mono y o (setk j (Z.of_nat p) (repeat 0%Z n)) = y (o + j)%nat ^ p).
    { induction n as [|n IH]; intros k o Hk; [lia|]. destruct k as [|k]; cbn [repeat setk row_ok mono].
      - split; [split; [left; lia|apply row_ok_zeros]|]. rewrite mono_zeros, Rmult_1_r, Nat.add_0_r. symmetry. apply pow_powerRZ.
      - destruct (IH k (Datatypes.S o) ltac:(lia)) as [I1 I2]. split; [split; [left; lia|exact I1]|]. rewrite I2. cbn [powerRZ]. replace (Datatypes.S o + k)%nat with (o + Datatypes.S k)%nat by lia. ring. }
    apply (GG nv j 0%nat Hn). }
  destruct RM as [RM1 RM2]. split; [cbn [dom allP fold_right]; split; [unfold P; apply dom_pol; constructor; [split; [exact I|exact RM1]|constructor]|auto]|]. cbn [eval map prodR fold_right sumR P]. rewrite RM2, H2. unfold pw. field. apply INR_fact_neq_0.
Qed.
Lemma pole_loop_ok count : forall p cur dI, ev (fun n => cur n = Some dI) -> both dI -> (forall y, V y -> dom y dI /\ eval y dI = dN p j G y) ->
  exists ts ms, ev (fun n => pole_loop nv z n pp j count p (cur n) = Some (ts, ms)) /\ Forall both ms /\
    (forall y, V (upd y j 0) -> Forall (dom y) ms /\ sumR (map (eval y) ms) = - sumseq p count (fun q => pw q j y * at0 q j G y)) /\
    Forall (fun t => exists K q, endpiece K 0 (dN q j G) t) ts /\
    (defined pp -> Forall defined ts /\ forall A B, expo m = A ++ (j, E) :: B ->
       (forall m' e, power m' j rho = e -> (forall i, i <> j -> power m' i rho = power m i rho) -> expo m' = A ++ (j, e) :: B) ->
       sumR (map (fun t => value S t rho) ts) = / eval rho (Pol (pole pp)) * sumseq p count (fun q => / ((E + INR q + 1) * INR (fact q)) * contI (A ++ (j, 0) :: B) (at0 q j G) rho)).
Proof.
  induction count as [|count IH]; intros p cur dI EC BI VI.
  { exists [], []. split; [apply ev_now; reflexivity|]. split; [constructor|]. split; [intros y _; split; [constructor|unfold sumseq; cbn; ring]|]. split; [constructor|]. intros _. split; [constructor|]. intros A B _ _. unfold sumseq. cbn. ring. }
  destruct (both_replace j 0 dI Hj BI) as (d0 & E0 & B0 & R0).
  assert (V0 : forall y, V (upd y j 0) -> dom y d0 /\ eval y d0 = at0 p j G y). { intros y Hy. destruct (VI _ Hy) as [I1 I2]. destruct (R0 y I1) as [H1 H2]. split; [exact H1|]. rewrite H2, I2. reflexivity. }
  destruct (pole_term_ok p d0 B0 V0) as (t & K & ET & PT & DT). destruct (both_derive j dI (HS j Hj) BI) as (dd & ED & BD & VD).
  destruct (IH (Datatypes.S p) (fun n => derive nv z j n dI) dd ED BD) as (ts & ms & EL & M1 & M2 & M3 & M4).
  { intros y Hy. destruct (VI y Hy) as [I1 _]. destruct (VD y I1) as [H1 H2]. split; [exact H1|]. cbn [dN]. symmetry. apply pd_d. apply (pd_ext V j (fun y => eval y dI) (dN p j G) y _ (dm_open pp) Hy); [|exact H2]. intros u Hu. apply VI, Hu. }
  destruct (minus_ok p d0 B0 V0) as [MB MV]. exists (t :: ts), (minus_term nv j p d0 :: ms). split.
  { generalize (ev_and _ _ EC (ev_and _ _ ET EL)). apply ev_imp. intros n (H1 & H2 & H3). cbn [pole_loop]. rewrite H1, E0, H2, H3. reflexivity. }
  split; [constructor; assumption|]. split.
  { intros y Hy. destruct (M2 y Hy) as [N1 N2]. destruct (MV y Hy) as [N3 N4]. split; [constructor; assumption|]. cbn [map]. rewrite sumR_cons, N2, N4, sumseq_S. ring. }
  split; [constructor; [exists K, p; exact PT|exact M3]|]. intros D. destruct (M4 D) as [N1 N2]. destruct (DT D) as (D1 & D2 & D3). split; [constructor; [apply (end_defined K 0 (dN p j G) t); try assumption; lra|exact N1]|]. intros A B EA EB. cbn [map]. rewrite sumR_cons, (N2 A B EA EB), sumseq_S. rewrite (end_value K 0 p t A B ltac:(lra) D PT EA EB). rewrite <- Rmult_assoc, D3. unfold at0. ring.
Qed.
(** ** the remainder *)
Definition rempiece (P : nat) (t : pprod) : Prop :=
  shape t /\ mons t = m /\ pole t = pole pp /\ forall y, both_at V j 0 y -> dm t y /\ fn t y = remainder P j G y.
Lemma rem_keeps P t : rempiece P t -> keeper j pp t.
Proof.
  intros (_ & M & _ & R) C Q Z i Hi Nij (U & U1 & U2 & U3 & U4 & U5). exists (both_at U j 0). pose proof (both_opens U j 0 U1) as O. split; [exact O|]. assert (K : forall y, both_at U j 0 y -> both_at V j 0 y) by (intros y [Y1 Y2]; split; apply U2; assumption).
  split; [intros y Hy; apply R, K, Hy|]. split; [apply both_box; [exact Hj|lra|exact U3]|]. split; [rewrite M; exact U4|]. apply (nul_ext Q Z _ i (remainder P j G)); [exact O|intros y Hy; symmetry; apply R, K, Hy|]. apply nul_rem; [exact U1|apply (smooth_sub V); [exact U2|apply fn_smooth]|auto|exact U5].
Qed.
Lemma rem_here P t : defined pp -> rempiece P t -> keeps (fun c => c = power_coef m j) (fun q => (q < P)%nat) (fun s => s = 0) j t.
Proof.
  intros D (_ & M & _ & R). exists (both_at V j 0). pose proof (both_opens V j 0 (dm_open pp)) as O. split; [exact O|]. split; [intros y Hy; apply R, Hy|]. split; [apply both_box; [exact Hj|lra|apply box_V, D]|]. split; [rewrite M; reflexivity|].
  apply (nul_ext _ _ _ j (remainder P j G)); [exact O|intros y Hy; symmetry; apply R, Hy|]. apply rem_nul; [apply dm_open|apply fn_smooth].
Qed.
Lemma rem_defined P t : defined pp -> rempiece P t -> defined t.
Proof.
  intros (D1 & D2 & D3 & D4 & D5) (_ & M & L & R). unfold SubSpec.defined. rewrite M, L. split; [intros x Hx; apply R; split; apply D1; [exact Hx|apply cube_upd; [exact Hj|lra|exact Hx]]|]. auto.
Qed.
Lemma rem_value P t : defined pp -> rempiece P t -> value S t rho = / eval rho (Pol (pole pp)) * contI (expo m) (remainder P j G) rho.
Proof.
  intros D (_ & M & L & R). unfold value. rewrite M, L. f_equal. fold (expo m). apply (contI_ext _ (both_at V j 0)); [apply both_opens, dm_open|intros y Hy; apply R, Hy|]. rewrite ixs_expo. apply both_box; [exact Hj|lra|apply box_V, D].
Qed.
(** ** one variable *)
Definition order_of (a : R) : nat := Z.to_nat (Int_part (- a)).
Lemma order_enough a : a < 0 -> a + INR (order_of a) > -1.
Proof.
  intros H. unfold order_of. destruct (base_Int_part (- a)) as [B1 B2]. assert (0 <= Int_part (- a))%Z by (apply le_IZR; assert (IZR (Int_part (- a)) > -1) by lra; apply IZR_le; apply Z.lt_succ_r; apply lt_IZR; rewrite succ_IZR; lra). rewrite INR_IZR_INZ, Z2Nat.id by assumption. lra.
Qed.
(** what one step guarantees for its results; [St] describes what is achieved for x_j *)
Definition step_ok (St : ((list Z -> R) -> Prop) -> (nat -> Prop) -> (R -> Prop) -> Prop) (o : outcome) : Prop :=
  match o with
  | Ok l => ~ no_regulator nv m j /\ l <> [] /\ Forall (fun t => shape t /\ same_coef j t pp) l /\
            (defined pp -> Forall (fun t => defined t /\ keeper j pp t /\ exists C Q Z, St C Q Z /\ keeps C Q Z j t) l /\ value S pp rho = sumR (map (fun t => value S t rho) l))
  | ValueError => no_regulator nv m j
  | _ => False
  end.
Definition finite_at_0 (C : (list Z -> R) -> Prop) (Q : nat -> Prop) (Z : R -> Prop) : Prop :=
  (forall c, C c -> 0 <= c (zeros nv)) \/ exists P : nat, (forall c, C c -> -1 < c (zeros nv) + INR P) /\ (forall q, (q < P)%nat -> Q q) /\ Z 0.
Lemma self_keeper : keeper j pp pp. Proof. intros C Q Z i _ _ H. exact H. Qed.
Lemma self_here (C : (list Z -> R) -> Prop) : defined pp -> C (power_coef m j) -> keeps C (fun _ => False) (fun _ => False) j pp.
Proof. intros D H. exists V. split; [apply dm_open|]. split; [auto|]. split; [apply box_V, D|]. split; [exact H|]. intros q x []. Qed.
Theorem pole_single : exists o, ev (fun n => pole_part_single nv z n pp j = o) /\ step_ok finite_at_0 o.
Proof.
  destruct (shape_mons pp Hs) as [MO MN]. pose proof (unregulated_spec nv S m j MN MO) as UR. unfold pole_part_single. destruct (unregulated nv m j); [exists ValueError; split; [apply ev_now; reflexivity|apply UR; reflexivity]|].
  assert (NR : ~ no_regulator nv m j) by (intros H; apply UR in H; discriminate). rewrite (constant_power nv S m j MO). destruct (Rle_dec 0 (power_at_0 nv m j)) as [L|L].
  { exists (Ok [pp]). split; [apply ev_now; reflexivity|]. split; [exact NR|]. split; [discriminate|]. split; [constructor; [split; [exact Hs|intros i _; reflexivity]|constructor]|]. intros D. split; [constructor; [|constructor]|cbn; ring]. split; [exact D|]. split; [exact self_keeper|].
    exists (fun c => 0 <= c (zeros nv)), (fun _ => False), (fun _ => False). split; [left; auto|apply self_here; [exact D|exact L]]. }
  set (P := order_of (power_at_0 nv m j)). assert (EP : subtractions pp j = P) by (unfold subtractions, P, order_of; rewrite (constant_power nv S m j MO); reflexivity). rewrite EP.
  pose proof (shape_both pp Hs) as BI. destruct (pole_loop_ok P 0 (fun _ => Some (Prod (rest pp))) (Prod (rest pp))) as (ts & ms & EL & M1 & M2 & M3 & M4); [apply ev_now; reflexivity|exact BI|intros y Hy; split; [exact Hy|reflexivity]|].
  destruct (both_list (Prod (rest pp) :: ms)) as [BS _]; [constructor; assumption|discriminate|]. destruct (both_simp _ BS) as (r & ER & BR & SR). set (t := mkPP m (pole pp) [r]).
  assert (RP : rempiece P t).
  { split; [apply mk_shape; try assumption; apply Hs|]. split; [reflexivity|]. split; [reflexivity|]. intros y [Y1 Y2]. destruct (M2 y Y2) as [N1 N2]. destruct (SR y) as [S1 S2]; [cbn [dom allP fold_right]; split; [exact Y1|apply allP_Forall, N1]|]. split; [apply dm1, S1|]. unfold t. rewrite fn1, S2. change (eval y (Sum (Prod (rest pp) :: ms))) with (G y + sumR (map (eval y) ms)). rewrite N2, remainder_sum. ring. }
  exists (Ok (ts ++ [t])). split; [generalize (ev_and _ _ EL ER); apply ev_imp; intros n [H1 H2]; rewrite H1, H2; reflexivity|]. split; [exact NR|]. split; [destruct ts; discriminate|]. split.
  { apply Forall_app. split; [|constructor; [split; [apply RP|intros i _; reflexivity]|constructor]]. eapply Forall_impl; [|exact M3]. cbv beta. intros u (K & q & H). split; [apply H|apply (end_coef K 0 _ u H)]. }
  intros D. destruct (M4 D) as [N1 N2]. split.
  { apply Forall_app. split.
    - eapply Forall_impl; [|apply (Forall_and' _ _ _ M3 N1)]. cbv beta. intros u [(K & q & H) Du]. split; [exact Du|]. split; [apply (end_keeps K 0 q u ltac:(lra) D H)|]. exists (fun c => forall k, c k = 0), (fun q => q = 1%nat), (fun _ => True). split; [left; intros c Hc; rewrite Hc; lra|]. apply (end_nul K 0 _ u ltac:(lra) D H).
    - constructor; [|constructor]. split; [apply (rem_defined P t D RP)|]. split; [apply (rem_keeps P t RP)|]. exists (fun c => c = power_coef m j), (fun q => (q < P)%nat), (fun s => s = 0). split; [|apply (rem_here P t D RP)]. right. exists P. split; [|auto]. intros c ->. fold (power_at_0 nv m j). pose proof (order_enough (power_at_0 nv m j)). unfold P. lra. }
  destruct expo_split as (A & B & EA & EB). rewrite map_app, sumR_app, (N2 A B EA EB). cbn [map sumR fold_right]. rewrite (rem_value P t D RP), sumseq_to. unfold value. change (fun y : point => eval y (Prod (rest pp))) with G. fold (expo m). rewrite EA. pose proof (reg_expo D) as RE. rewrite EA in RE.
  assert (IX : ixs (A ++ (j, E) :: B) = S) by (rewrite <- EA; apply ixs_expo). rewrite (taylor_split A B j E ltac:(rewrite IX; exact NS) RE V G P rho (dm_open pp) (fn_smooth pp) ltac:(rewrite IX; apply box_V, D)). ring.
Qed.
(** ** integration by parts *)
Definition decpiece (t : pprod) : Prop := shape t /\ mons t = increase_power nv j m /\ forall y, V y -> dm t y /\ fn t y = - d j G y.
Lemma dec_coef t i k : decpiece t -> power_coef (mons t) i k = power_coef m i k + if Nat.eqb i j then (if roweqb (zeros nv) k then 1 else 0) else 0.
Proof. intros (_ & M & _). rewrite M. apply (increase_ok nv S j (HS j Hj) m (proj1 (shape_mons pp Hs))). Qed.
Lemma dec_same t : decpiece t -> same_coef j t pp.
Proof. intros H i Hi. apply functional_extensionality. intros k. rewrite (dec_coef t i k H). apply Nat.eqb_neq in Hi. rewrite Hi. ring. Qed.
Lemma dec_keeps t : decpiece t -> keeper j pp t.
Proof.
  intros H C Q Z i Hi Nij (U & U1 & U2 & U3 & U4 & U5). pose proof (dec_same t H i Nij) as CE. destruct H as (_ & M & R). exists U. split; [exact U1|]. split; [intros y Hy; apply R, U2, Hy|]. split; [exact U3|]. split; [rewrite CE; exact U4|].
  apply (nul_ext Q Z U i (fun y => (-1) * d j G y) (fn t) U1); [intros y Hy; destruct (R y (U2 y Hy)) as [_ ->]; ring|]. apply (nul_mul Q Z U i (fun _ => -1) (d j G)); [reflexivity|]. apply nul_d; [exact U1|apply (smooth_sub V); [exact U2|apply fn_smooth]|auto|exact U5].
Qed.
Lemma dec_defined t : defined pp -> decpiece t -> dom rho (Pol (pole t)) -> eval rho (Pol (pole t)) <> 0 -> defined t.
Proof.
  intros (D1 & D2 & D3 & D4 & D5) (_ & M & R) P1 P2. destruct (increase_ok nv S j (HS j Hj) m (proj1 (shape_mons pp Hs))) as (I1 & I2 & I3 & I4 & I5). split; [intros x Hx; apply R, D1, Hx|]. split; [exact P1|]. split; [exact P2|]. rewrite M. split; [apply I3, D4|]. intros i Hi. rewrite I4. destruct (Nat.eqb i j); [apply regular_S, D5, Hi|]. rewrite Rplus_0_r. apply D5, Hi.
Qed.
Lemma dec_value t A B : defined pp -> decpiece t -> expo m = A ++ (j, E) :: B ->
  (forall m' e, power m' j rho = e -> (forall i, i <> j -> power m' i rho = power m i rho) -> expo m' = A ++ (j, e) :: B) ->
  value S t rho = / eval rho (Pol (pole t)) * - contI (A ++ (j, E + 1) :: B) (d j G) rho.
Proof.
  intros D (_ & M & R) EA EB. destruct (increase_ok nv S j (HS j Hj) m (proj1 (shape_mons pp Hs))) as (I1 & I2 & I3 & I4 & I5). unfold value. f_equal. fold (expo (mons t)).
  assert (E1 : expo (mons t) = A ++ (j, E + 1) :: B). { apply EB; [|intros i Hi]; rewrite M, I4; [rewrite Nat.eqb_refl; reflexivity|]. apply Nat.eqb_neq in Hi. rewrite Hi. ring. }
  assert (IX : ixs (A ++ (j, E + 1) :: B) = S) by (rewrite <- E1; apply ixs_expo). rewrite E1. pose proof (reg_expo D) as RE. rewrite EA in RE.
  rewrite (contI_ext _ V _ (fun y => (-1) * d j G y) rho (dm_open pp)); [|intros y Hy; destruct (R y Hy) as [_ K]; unfold fn in K at 1; rewrite K; ring|rewrite IX; apply box_V, D].
  rewrite (contI_mul _ V (fun _ => -1)); [ring|apply (reg_T A B j E RE), regular_S, (reg_E A B j E RE)|apply dm_open|apply d_smooth; [apply dm_open|apply fn_smooth]|reflexivity|rewrite IX; apply box_V, D].
Qed.
Lemma parts_pieces : exists pole' c1 dc, let t1 := mkPP (set_to_one j m) pole' [c1] in let t2 := mkPP (increase_power nv j m) pole' [dc] in
  ev (fun n => coeffs_of (mul nv (Pol (pole pp)) (add nv (full_exponent nv m j) (Num 1))) = pole' /\
     exists c1' d', replace nv j 1 (Prod (rest pp)) = Some c1' /\ derive nv z j n (Prod (rest pp)) = Some d' /\ simplify nv n c1' = Some c1 /\ simplify nv n (Prod [cst nv (-1); d']) = Some dc) /\
  endpiece (fun _ => 1) 1 (dN 0 j G) t1 /\ decpiece t2 /\
  (defined pp -> defined t1 /\ defined t2 /\ value S pp rho = value S t1 rho + value S t2 rho).
Proof.
  destruct (shape_mons pp Hs) as [MO MN]. pose proof Hs as (_ & _ & SP & _ & _). destruct (full_reg nv S m j MN MO) as (f & -> & F1 & _ & F3 & F4). destruct (add_reg_num nv S f 1 F1) as (r & -> & _ & R1 & _ & _ & R4 & R5). destruct (mul_reg nv S (pole pp) r SP R1) as (p' & -> & P1 & P2).
  pose proof (shape_both pp Hs) as BI. destruct (both_replace j 1 _ Hj BI) as (c1' & EC & BC & RC). destruct (both_simp c1' BC) as (c1 & EC1 & BC1 & SC1). destruct (both_derive j _ (HS j Hj) BI) as (d' & ED & BD & VD).
  destruct (both_list [cst nv (-1); d']) as [_ BM]; [constructor; [split; [apply wf_cst|apply calm_cst]|constructor; [exact BD|constructor]]|discriminate|]. destruct (both_simp _ BM) as (dc & EM & BDC & SM).
  exists p', c1, dc. cbv zeta. destruct (one_ok nv S j Hj m MO) as (O1 & O2 & O3). destruct (increase_ok nv S j (HS j Hj) m MO) as (I1 & I2 & _). split.
  { generalize (ev_and _ _ EC1 (ev_and _ _ ED EM)). apply ev_imp. intros n (H1 & H2 & H3). split; [reflexivity|]. exists c1', d'. auto. }
  assert (T1 : endpiece (fun _ => 1) 1 (dN 0 j G) (mkPP (set_to_one j m) p' [c1])).
  { split; [apply mk_shape; auto|]. split; [reflexivity|]. exists (fun _ => True). split; [exact opens_true|]. split; [reflexivity|]. split; [auto|]. split; [auto|]. intros y _ Hy. destruct (RC y Hy) as [H1 H2]. destruct (SC1 y H1) as [H3 H4]. split; [apply dm1, H3|]. rewrite fn1, H4, H2. cbn [dN]. unfold fn. ring. }
  assert (T2 : decpiece (mkPP (increase_power nv j m) p' [dc])).
  { split; [apply mk_shape; auto|]. split; [reflexivity|]. intros y Hy. destruct (VD y Hy) as [H1 H2]. destruct (SM y) as [H3 H4]; [cbn [dom allP fold_right]; split; [apply (dom_cst nv y (-1))|auto]|]. split; [apply dm1, H3|]. rewrite fn1, H4. change (eval y (Prod [cst nv (-1); d'])) with (eval y (cst nv (-1)) * (eval y d' * 1)). rewrite eval_cst. rewrite (pd_d j G y (eval y d') H2). ring. }
  split; [exact T1|]. split; [exact T2|]. intros D. pose proof D as (D1 & D2 & D3 & D4 & D5).
  destruct (P2 rho D2 (R5 rho (F4 rho D4))) as [Q1 Q2]. rewrite R4, F3 in Q2. fold E in Q2. assert (NE : E + 1 <> 0) by (pose proof (D5 j Hj 0%nat) as H; cbn [INR] in H; unfold E; lra).
  assert (NP : eval rho (Pol p') <> 0) by (rewrite Q2; apply Rmult_integral_contrapositive_currified; assumption).
  split; [apply (end_defined _ 1 _ _ ltac:(lra) D T1 Q1 NP)|]. split; [apply (dec_defined _ D T2 Q1 NP)|]. destruct expo_split as (A & B & EA & EB). rewrite (end_value _ 1 0 _ A B ltac:(lra) D T1 EA EB), (dec_value _ A B D T2 EA EB). cbn [pole dN].
  unfold value. change (fun y : point => eval y (Prod (rest pp))) with G. fold (expo m). rewrite EA. pose proof (reg_expo D) as RE. rewrite EA in RE. assert (IX : ixs (A ++ (j, E) :: B) = S) by (rewrite <- EA; apply ixs_expo).
  rewrite (parts_split A B j E ltac:(rewrite IX; exact NS) RE V G rho (dm_open pp) (fn_smooth pp) ltac:(rewrite IX; apply box_V, D)). rewrite Q2, Rinv_mult_distr by assumption. ring.
Qed.
End J.
Definition at_least (g : R) (C : (list Z -> R) -> Prop) (Q : nat -> Prop) (Z : R -> Prop) : Prop :=
  (forall c, C c -> g <= c (zeros nv)) \/ (forall c, C c -> forall k, c k = 0) /\ Q 1%nat /\ forall s, Z s.
Theorem parts_single g j : In j S -> forall N pp, shape pp -> g - power_at_0 nv (mons pp) j <= INR N ->
  exists o, ev (fun n => forall k, (N < k)%nat -> by_parts_single nv z n k g j pp = o) /\ step_ok pp j (at_least g) o.
Proof.
  intros Hj. induction N as [|N IH]; intros pp Hs HN; destruct (shape_mons pp Hs) as [MO MN]; pose proof (unregulated_spec nv S (mons pp) j MN MO) as UR.
  all: destruct (unregulated nv (mons pp) j) eqn:EU; [exists ValueError; split; [apply ev_now; intros n [|k] Hk; [lia|]; cbn [by_parts_single]; rewrite EU; reflexivity|apply UR; reflexivity]|].
  all: assert (NR : ~ no_regulator nv (mons pp) j) by (intros H; apply UR in H; discriminate).
  all: destruct (Rle_dec g (power_at_0 nv (mons pp) j)) as [L|L].
  all: try (exists (Ok [pp]); split; [apply ev_now; intros n [|k] Hk; [lia|]; cbn [by_parts_single]; rewrite EU, (constant_power nv S _ j MO); destruct (Rle_dec g (power_at_0 nv (mons pp) j)); [reflexivity|contradiction]|]; 
    split; [exact NR|]; split; [discriminate|]; split; [constructor; [split; [exact Hs|intros i _; reflexivity]|constructor]|]; intros D; split; [constructor; [|constructor]|cbn; ring]; split; [exact D|]; split; [apply self_keeper|];
    exists (fun c => g <= c (zeros nv)), (fun _ => False), (fun _ => False); split; [left; auto|apply self_here; [exact D|exact L]]).
  { cbn [INR] in HN. lra. }
  destruct (parts_pieces pp j Hs Hj) as (p' & c1 & dc & EV & T1 & T2 & TV). set (t1 := mkPP _ p' [c1]) in *. set (t2 := mkPP _ p' [dc]) in *.
  assert (A2 : power_at_0 nv (mons t2) j = power_at_0 nv (mons pp) j + 1) by (unfold power_at_0; rewrite (dec_coef pp j Hs Hj t2 j (zeros nv) T2), Nat.eqb_refl, roweqb_refl; reflexivity).
  destruct (IH t2 (proj1 T2)) as (o & EO & SO); [rewrite A2; rewrite S_INR in HN; lra|].
  assert (NR2 : ~ no_regulator nv (mons t2) j).
  { intros [H1 H2]. apply NR. split; [lra|]. intros k Hk. specialize (H2 k Hk). rewrite (dec_coef pp j Hs Hj t2 j k T2), Nat.eqb_refl in H2. destruct (roweqb (zeros nv) k) eqn:Er; [apply roweqb_spec in Er; congruence|]. lra. }
  destruct o as [| | |l]; cbn [step_ok] in SO; try contradiction. destruct SO as (_ & NL & SL & DL). exists (Ok (t1 :: l)). split.
  { generalize (ev_and _ _ EV EO). apply ev_imp. intros n [(H1 & c1' & d' & H2 & H3 & H4 & H5) H6] [|k] Hk; [lia|]. cbn [by_parts_single]. rewrite EU, (constant_power nv S _ j MO). destruct (Rle_dec g (power_at_0 nv (mons pp) j)); [contradiction|]. rewrite H1, H2, H3, H4, H5. fold t1 t2. rewrite (H6 k ltac:(lia)). reflexivity. }
  split; [exact NR|]. split; [discriminate|]. split.
  { constructor; [split; [apply T1|apply (end_coef pp j Hs Hj _ _ _ t1 T1)]|]. eapply Forall_impl; [|exact SL]. cbv beta. intros u [U1 U2]. split; [exact U1|]. intros i Hi. rewrite (U2 i Hi). apply (dec_same pp j Hs Hj t2 T2 i Hi). }
  intros D. destruct (TV D) as (D1 & D2 & VV). destruct (DL D2) as [K1 K2]. split.
  { constructor.
    - split; [exact D1|]. split; [apply (end_keeps pp j Hs Hj _ 1 0 t1 ltac:(lra) D T1)|]. exists (fun c => forall k, c k = 0), (fun q => q = 1%nat), (fun _ => True). split; [right; auto|]. apply (end_nul pp j Hs Hj _ 1 _ t1 ltac:(lra) D T1).
    - eapply Forall_impl; [|exact K1]. cbv beta. intros u (U1 & U2 & U3). split; [exact U1|]. split; [|exact U3]. intros C Q Z i Hi Nij H. apply U2; [exact Hi|exact Nij|]. apply (dec_keeps pp j Hs Hj t2 T2); assumption. }
  cbn [map]. rewrite sumR_cons, VV, K2. reflexivity.
Qed.
End One.
