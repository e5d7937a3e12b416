(** Proofs for [expand_Taylor]. *)
From Coq Require Import FunctionalExtensionality.
From Coquelicot Require Import Coquelicot.
From Verif Require Import SortProofs ExprSpec ExprSmooth ExprMixed ExprArith ExprOrd ExprSimp ExprDerive ExprMore PropExpr CalmSpec CalmProofs ContSpec ContProofs ContJ SubModel SubSpec SubInt SubReg ExpModel ExpSpec PropFlat.
Local Open Scope R_scope.

(** ** Taylor's theorem with Peano's remainder *)
Lemma peano n : forall (U : point -> Prop) j G x, opens U -> smooth U G -> U (upd x j 0) -> (forall q, (q <= n)%nat -> dN q j G (upd x j 0) = 0) ->
  forall eps, 0 < eps -> exists del, 0 < del /\ forall t, Rabs t < del -> U (upd x j t) /\ Rabs (G (upd x j t)) <= eps * Rabs t ^ n.
Proof.
  induction n as [|n IH]; intros U j G x HU HG Hx HN eps He.
  - destruct (HU _ Hx) as (d1 & D1 & N1). destruct (proj1 (HG 0%nat) _ Hx eps He) as (d2 & D2 & N2). exists (Rmin d1 d2). split; [apply Rmin_glb_lt; assumption|]. intros t Ht.
    assert (NE : forall m, Rabs t < m -> near m (upd x j 0) (upd x j t)). { intros m Hm i. unfold upd. destruct (Nat.eqb i j); [rewrite Rminus_0_r; exact Hm|rewrite Rminus_diag_eq, Rabs_R0 by reflexivity; pose proof (Rabs_pos t); lra]. }
    pose proof (Rmin_l d1 d2). pose proof (Rmin_r d1 d2). split; [apply N1, NE; lra|]. specialize (N2 _ (NE d2 ltac:(lra))). specialize (HN 0%nat (le_n 0)). cbn [dN] in HN. rewrite HN, Rminus_0_r in N2. cbn. lra.
  - destruct (IH U j (d j G) x HU (d_smooth U j G HU HG) Hx) with (eps := eps) as (del & Hd & HB); [|exact He|].
    { intros q Hq. rewrite (dN_d U q j j G HU HG _ Hx). apply (HN (S q)). lia. }
    exists del. split; [exact Hd|]. intros t Ht. split; [apply HB, Ht|].
    destruct (MVT_abs (fun s => G (upd x j s)) (fun s => d j G (upd x j s)) 0 t) as (c & Hc & Rc).
    { intros c Hc. assert (Rabs c < del). { unfold Rmin, Rmax in Hc. destruct (Rle_dec 0 t); apply Rabs_def1; apply Rabs_def2 in Ht; lra. }
      pose proof (d_pd U j G (upd x j c) HG (proj1 (HB c H))) as P. unfold pd in P. rewrite upd_at in P. eapply (dlim_ext _ _ _ _ 1 Rlt_0_1); [|exact P]. intros s _. cbv beta. rewrite upd_upd. reflexivity. }
    assert (AC : Rabs c <= Rabs t). { unfold Rmin, Rmax in Rc. destruct (Rle_dec 0 t); [rewrite !Rabs_pos_eq by lra; lra|rewrite !Rabs_left1 by lra; lra]. }
    pose proof (HN 0%nat ltac:(lia)) as H0. cbn [dN] in H0. rewrite H0, !Rminus_0_r in Hc. rewrite Hc. destruct (HB c ltac:(lra)) as [_ B]. cbn [pow]. rewrite (Rmult_comm (Rabs t)), <- Rmult_assoc. apply Rmult_le_compat_r; [apply Rabs_pos|]. eapply Rle_trans; [exact B|]. apply Rmult_le_compat_l; [lra|]. apply pow_incr. split; [apply Rabs_pos|exact AC].
Qed.
Lemma taylor_sum (U : point -> Prop) j G x n : opens U -> smooth U G -> U (upd x j 0) ->
  forall eps, 0 < eps -> exists del, 0 < del /\ forall t, Rabs t < del -> U (upd x j t) /\
    Rabs (G (upd x j t) - sumR (map (fun p => / INR (fact p) * dN p j G (upd x j 0) * t ^ p) (seq 0 (S n)))) <= eps * Rabs t ^ n.
Proof.
  intros HU HG Hx eps He. assert (HB : both_at U j 0 (upd x j 0)) by (split; [exact Hx|rewrite upd_upd; exact Hx]).
  destruct (peano n (both_at U j 0) j (remainder (S n) j G) x (both_opens U j 0 HU) (rem_smooth U (S n) j G HU HG) HB) with (eps := eps) as (del & Hd & HP); [|exact He|].
  { intros q Hq. rewrite (rem_dN U (S n) j G HU HG q _ HB (upd_at x j 0)). destruct (Nat.ltb_spec q (S n)); [reflexivity|lia]. }
  exists del. split; [exact Hd|]. intros t Ht. destruct (HP t Ht) as [[U1 _] H]. split; [exact U1|]. match goal with |- Rabs ?a <= _ => replace a with (remainder (S n) j G (upd x j t)); [exact H|] end.
  assert (RS : forall q y, remainder q j G y = G y - sumR (map (fun p => pw p j y * at0 p j G y) (seq 0 q))). { intros q. induction q as [|q IHq]; intros y; [cbn; ring|]. cbn [remainder]. rewrite seq_S, map_app, sumR_app, IHq. cbn [map Nat.add]. rewrite sumR_cons. change (sumR []) with 0. ring. }
  rewrite RS. f_equal. f_equal. apply map_ext. intros p. unfold pw, at0. rewrite upd_at, upd_upd. ring.
Qed.

(** ** one variable *)
Section Step.
Variables (nv : nat) (z : expr -> bool) (at_pt : point -> Prop).
Hypothesis Hz : sound z.
Notation wf := (wf nv).
Notation both := (both nv at_pt).
Lemma simp_both e : both e -> exists e', ev (fun n => simplify nv n e = Some e') /\ both e' /\ same e e'.
Proof.
  intros [W C]. destruct (C07_simplify nv e W) as (e' & (n0 & E) & W' & V). exists e'. split; [exists n0; exact E|]. split; [|exact V]. split; [exact W'|]. apply (simplify_calm nv at_pt n0 e e' W C), E. lia.
Qed.
Lemma derive_both j e : (j < nv)%nat -> both e -> exists e', ev (fun n => derive nv z j n e = Some e') /\ both e' /\ forall x, dom x e -> dom x e' /\ pd j (fun y => eval y e) x (eval x e').
Proof.
  intros Hj [W C]. destruct (C06_derive nv z j e Hz Hj W) as (e' & (n0 & E) & W' & V). exists e'. split; [exists n0; exact E|]. split; [|exact V]. split; [exact W'|]. apply (derive_calm nv at_pt z Hz j Hj n0 e e' W C), E. lia.
Qed.
Definition closed_at (j : nat) : Prop := (forall x, at_pt x -> at_pt (upd x j 0)) /\ exists x, at_pt x.
Lemma replace_zero j e : (j < nv)%nat -> both e -> exists e', replace nv j 0 e = Some e' /\ (closed_at j -> both e') /\ repres j 0 e e'.
Proof.
  intros Hj [W C]. destruct (replace_ok nv j 0 Hj e W (or_intror (calm_flat at_pt e C))) as (e' & E & R). exists e'. split; [exact E|]. split; [|exact R]. intros [H1 H2]. exact (replace_both nv at_pt j 0 Hj H1 H2 e e' W C E).
Qed.
Lemma mul_both c r : both c -> both (mul nv c (Num r)).
Proof.
  intros [W C]. split; [|apply mul_calm; [exact C|exact I]]. destruct (mul_ok nv c (Num r) (good_wf nv c W) (good_num nv r)) as (_ & _ & H). apply H. left. apply (wf_not_num nv c W).
Qed.
Lemma mul_val c r x : dom x c -> dom x (mul nv c (Num r)) /\ eval x (mul nv c (Num r)) = eval x c * r.
Proof. intros D. unfold mul. destruct (mul_num_any nv (Nat.max (depth c) (depth (Num r))) c r x) as [M1 M2]. auto. Qed.
Variable j : nat.
Hypothesis Hj : (j < nv)%nat.
Variables (U : point -> Prop) (F : point -> R).
Hypothesis HU : opens U.
Hypothesis HF : smooth U F.
Definition coefficient (q : nat) (c : expr) : Prop := (closed_at j -> both c) /\ forall y, U (upd y j 0) -> dom y c /\ eval y c = / INR (fact q) * dN q j F (upd y j 0).
Lemma loop_ok count : forall p inv cur, inv = / INR (fact p) -> both cur -> (forall y, U y -> dom y cur /\ eval y cur = dN p j F y) ->
  exists r, ev (fun n => taylor_loop nv z n j count p inv cur = Some r) /\ Forall2 coefficient (seq (S p) count) r.
Proof.
  induction count as [|count IH]; intros p inv cur Ei B V; [exists []; split; [apply ev_now; reflexivity|constructor]|].
  destruct (simp_both cur B) as (s & Es & Bs & Ss). destruct (derive_both j s Hj Bs) as (e & Ee & Be & De). destruct (replace_zero j e Hj Be) as (c & Ec & Bc & Rc).
  assert (VE : forall y, U y -> dom y e /\ eval y e = dN (S p) j F y).
  { intros y Hy. destruct (V y Hy) as [V1 V2]. destruct (Ss y V1) as [S1 S2]. destruct (De y S1) as [D1 D2]. split; [exact D1|]. cbn [dN]. symmetry. apply pd_d. apply (pd_ext U j (fun y => eval y s)); [exact HU|exact Hy| |exact D2]. intros w Hw. destruct (V w Hw) as [W1 W2]. destruct (Ss w W1) as [_ W3]. rewrite W3, W2. reflexivity. }
  assert (EI : inv / (INR p + 1) = / INR (fact (S p))). { rewrite Ei, fact_simpl, mult_INR, S_INR. pose proof (INR_fact_neq_0 p). pose proof (pos_INR p). field. split; [exact H|lra]. }
  destruct (IH (S p) (inv / (INR p + 1)) e EI Be VE) as (r & Er & Fr). exists (mul nv c (Num (inv / (INR p + 1))) :: r). split.
  - eapply ev_imp; [|apply (ev_and _ _ Es (ev_and _ _ Ee Er))]. cbv beta. intros n (H1 & H2 & H3). cbn [taylor_loop]. cbv zeta. rewrite H1, H2, Ec, H3. reflexivity.
  - cbn [seq]. constructor; [|exact Fr]. split; [intros HC; apply mul_both, Bc, HC|]. intros y Hy. destruct (VE _ Hy) as [V1 V2]. destruct (Rc y V1) as [R1 R2]. destruct (mul_val c (inv / (INR p + 1)) y R1) as [M1 M2]. split; [exact M1|]. rewrite M2, R2, V2, EI. ring.
Qed.
Lemma Forall2_combine {A B C} (P : A -> B -> Prop) (g : A -> C) l : forall m, Forall2 P l m -> Forall2 (fun a t => snd t = g a /\ P a (fst t)) l (combine m (map g l)).
Proof. intros m. induction 1; cbn; constructor; auto. Qed.
Lemma step_ok e o : (0 <= o)%Z -> both e -> (forall y, U y -> dom y e /\ eval y e = F y) ->
  exists p, ev (fun n => taylor_step nv z n e j o = Done p) /\ Forall2 (fun q t => snd t = row nv j (Z.of_nat q) /\ coefficient q (fst t)) (seq 0 (S (Z.to_nat o))) p.
Proof.
  intros Ho B V. destruct (replace_zero j e Hj B) as (c & Ec & Bc & Rc). destruct (loop_ok (Z.to_nat o) 0 1 e) as (r & Er & Fr); [cbn; field|exact B|exact V|].
  eexists. split.
  - eapply ev_imp; [|exact Er]. cbv beta. intros n H. unfold taylor_step. destruct (Z.ltb_spec o 0); [lia|]. rewrite Ec, H. reflexivity.
  - apply (Forall2_combine coefficient (fun i => row nv j (Z.of_nat i))). cbn [seq]. constructor; [|exact Fr]. split; [exact Bc|]. intros y Hy. destruct (V _ Hy) as [V1 V2]. destruct (Rc y V1) as [R1 R2]. split; [exact R1|]. rewrite R2, V2. cbn. field.
Qed.
End Step.

(** ** several variables *)
Lemma zeroed_cons j js x : zeroed (j :: js) x = upd (zeroed js x) j 0.
Proof.
  apply functional_extensionality. intros i. unfold zeroed, upd. destruct (Nat.eqb_spec i j) as [->|N]; destruct (in_dec Nat.eq_dec _ (j :: js)) as [H|H]; try reflexivity; try (exfalso; apply H; left; reflexivity).
  - destruct H as [H|H]; [congruence|]. destruct (in_dec Nat.eq_dec i js); [reflexivity|contradiction].
  - destruct (in_dec Nat.eq_dec i js) as [H'|H']; [exfalso; apply H; right; exact H'|reflexivity].
Qed.
Lemma dmulti_ext js : forall ks (U : point -> Prop) G H, opens U -> (forall y, U y -> G y = H y) -> forall x, U x -> dmulti js ks G x = dmulti js ks H x.
Proof. induction js as [|j js IH]; intros [|k ks] U G H HU E x Hx; cbn; auto. apply (IH ks U); [exact HU|intros y Hy; apply (dN_ext U); assumption|exact Hx]. Qed.
Lemma dmulti_upd js : forall ks j v G, ~ In j js -> forall x, dmulti js ks (fun y => G (upd y j v)) x = dmulti js ks G (upd x j v).
Proof.
  induction js as [|i js IH]; intros [|k ks] j v G Hj x; cbn [dmulti]; auto. rewrite <- IH by (intros H; apply Hj; right; exact H). f_equal. apply functional_extensionality. intros y. apply dN_upd. intros ->. apply Hj. left. reflexivity.
Qed.
Lemma dmulti_scal js : forall ks c G x, dmulti js ks (fun y => c * G y) x = c * dmulti js ks G x.
Proof.
  induction js as [|i js IH]; intros [|k ks] c G x; cbn [dmulti]; auto. rewrite <- IH. f_equal. apply functional_extensionality. intros y. apply (dN_mul k i (fun _ => c) G). reflexivity.
Qed.
Section Multi.
Variables (nv : nat) (z : expr -> bool) (at_pt : point -> Prop).
Hypothesis Hz : sound z.
Notation both := (both nv at_pt).
Lemma row_exp j k : (j < nv)%nat -> length (row nv j k) = nv /\ forall i, getk i (row nv j k) = if Nat.eqb i j then k else 0%Z.
Proof.
  intros Hj. unfold row. split; [rewrite setk_len; apply repeat_length|]. intros i. rewrite getk_setk by (unfold zeros; rewrite repeat_length; exact Hj). destruct (Nat.eqb i j); [reflexivity|]. apply nth_repeat.
Qed.
Lemma exponents_cons j js k ks r : (j < nv)%nat -> ~ In j js -> exponents nv js ks r -> exponents nv (j :: js) (k :: ks) (addk (row nv j k) r).
Proof.
  intros Hj Nj (L & H1 & H2). destruct (row_exp j k Hj) as [L' R]. assert (LL : length (row nv j k) = length r) by congruence. split; [rewrite addk_len; lia|]. split.
  - intros [|m] Hm; cbn [nth]; rewrite (getk_addk _ _ _ LL), R.
    + rewrite Nat.eqb_refl, (H2 j Nj). lia.
    + cbn in Hm. assert (Hin : In (nth m js 0%nat) js) by (apply nth_In; lia). destruct (Nat.eqb_spec (nth m js 0%nat) j) as [E|_]; [rewrite E in Hin; contradiction|]. rewrite H1 by lia. lia.
  - intros i Hi. rewrite (getk_addk _ _ _ LL), R, H2 by (intros H; apply Hi; right; exact H). destruct (Nat.eqb_spec i j) as [->|_]; [exfalso; apply Hi; left; reflexivity|reflexivity].
Qed.
(** what is left of the nested result after [flatten], for [len] variables *)
Definition flat_terms (len : nat) (p : terms_t) : terms_t := match len with O | 1%nat => p | S d => flat_map (flat_term (Some d)) p end.
Lemma flat_step len c q k : c = Pol q -> (1 <= len)%nat -> flat_term (Some len) (c, k) = map (fun u => (fst u, addk k (snd u))) (flat_terms len q).
Proof. intros -> L. destruct len as [|[|len]]; [lia|reflexivity|]. reflexivity. Qed.
Lemma for_coeffs_ok (f : nat -> expr -> result expr) (R : nat * expr -> expr -> Prop) qs : forall p, Forall2 (fun q t => exists c', ev (fun n => f n (fst t) = Done c') /\ R (q, fst t) c') qs p ->
  exists p', ev (fun n => for_coeffs (f n) p = Done p') /\ Forall2 (fun qt u => snd u = snd (snd qt) /\ R (fst qt, fst (snd qt)) (fst u)) (combine qs p) p'.
Proof.
  intros p. induction 1 as [|q [c k] qs p (c' & E & HR) _ (p' & E' & F')]; [exists []; split; [apply ev_now; reflexivity|constructor]|].
  exists ((c', k) :: p'). split; [|cbn; constructor; [split; [reflexivity|exact HR]|exact F']]. eapply ev_imp; [|apply (ev_and _ _ E E')]. cbv beta. intros n [H1 H2]. cbn [for_coeffs bind fst] in *. rewrite H1. cbn [bind]. rewrite H2. reflexivity.
Qed.
Definition term_ok (e : expr) (js : list nat) (ks : list nat) (t : expr * list Z) : Prop := exponents nv js (map Z.of_nat ks) (snd t) /\ taylor_coefficient e js ks (fst t).
Lemma Forall2_app' {A B} (P : A -> B -> Prop) l l' m m' : Forall2 P l m -> Forall2 P l' m' -> Forall2 P (l ++ l') (m ++ m').
Proof. intros H H'. induction H; cbn; [exact H'|constructor; assumption]. Qed.
Lemma expand_ok js : forall os e, length js = length os -> js <> [] -> NoDup js -> (forall j, In j js -> (j < nv)%nat) -> Forall (fun o => (0 <= o)%Z) os ->
  (length js = 1%nat \/ forall j, In j js -> closed_at at_pt j) -> both e ->
  exists p, ev (fun n => recursive_expansion (taylor_step nv z n) (combine js os) e = Done (Pol p)) /\ Forall2 (term_ok e js) (multi os) (flat_terms (length js) p).
Proof.
  induction js as [|j js IH]; intros os e L N ND Hj HO HC B; [congruence|]. destruct os as [|o os]; [discriminate|]. apply NoDup_cons_iff in ND as [Nj ND]. apply Forall_cons_iff in HO as [Ho HO]. cbn in L.
  destruct (all_good e) as [OE SE]. destruct (step_ok nv z at_pt Hz j (Hj j (or_introl eq_refl)) (fun y => dom y e) (fun y => eval y e) OE e o Ho B) as (p & Ep & Fp); [auto|].
  destruct js as [|j2 js].
  - destruct os; [|discriminate]. exists p. split.
    + eapply ev_imp; [|exact Ep]. cbv beta. intros n H. cbn [combine recursive_expansion]. rewrite H. reflexivity.
    + cbn [length flat_terms multi]. revert Fp. generalize (seq 0 (S (Z.to_nat o))). clear - Hj. intros l F. induction F as [|q t l p (Ht & _ & Hc) _ IH]; [constructor|]. cbn [flat_map map app]. constructor; [|exact IH]. destruct (row_exp j (Z.of_nat q) (Hj j (or_introl eq_refl))) as [R1 R2]. split.
      * rewrite Ht. split; [exact R1|]. cbn [map length]. split; [intros [|m] Hm; [|lia]; cbn [nth]; rewrite R2, Nat.eqb_refl; reflexivity|]. intros i Hi. rewrite R2. destruct (Nat.eqb_spec i j) as [->|_]; [exfalso; apply Hi; left; reflexivity|reflexivity].
      * intros x Dx. rewrite zeroed_cons in *. assert (Z : zeroed [] x = x) by (apply functional_extensionality; intros i; unfold zeroed; destruct (in_dec Nat.eq_dec i []) as [[]|_]; reflexivity). rewrite Z in *. destruct (Hc x Dx) as [C1 C2]. split; [exact C1|]. rewrite C2. cbn [facts dmulti]. rewrite Rmult_1_r. reflexivity.
  - remember (j2 :: js) as js' eqn:Ejs. assert (N' : js' <> []) by (rewrite Ejs; discriminate). assert (HC' : forall i, In i (j :: js') -> closed_at at_pt i) by (destruct HC as [H|H]; [rewrite Ejs in H; discriminate|exact H]).
    destruct (for_coeffs_ok (fun n => recursive_expansion (taylor_step nv z n) (combine js' os)) (fun qc c' => exists pc, c' = Pol pc /\ Forall2 (term_ok (snd qc) js') (multi os) (flat_terms (length js') pc)) (seq 0 (S (Z.to_nat o))) p) as (p' & E' & F').
    { eapply Forall2_imp; [|exact Fp]. cbv beta. intros q [c k] (_ & Bc & _). cbn [fst] in *. destruct (IH os c ltac:(lia) N' ND ltac:(intros i Hi; apply Hj; right; exact Hi) HO ltac:(right; intros i Hi; apply HC'; right; exact Hi) (Bc (HC' j (or_introl eq_refl)))) as (pc & Ec & Fc). exists (Pol pc). split; [exact Ec|]. exists pc. split; [reflexivity|exact Fc]. }
    exists p'. split.
    + eapply ev_imp; [|apply (ev_and _ _ Ep E')]. cbv beta. intros n [H1 H2]. rewrite Ejs in *. cbn [combine] in *. cbn [recursive_expansion] in *. destruct os as [|o2 os]; [discriminate|]. rewrite H1. cbn [bind]. rewrite H2. reflexivity.
    + cbn [length]. assert (LL : exists m, length js' = S m) by (rewrite Ejs; eexists; reflexivity). destruct LL as [m Em]. assert (FT : flat_terms (S (length js')) p' = flat_map (flat_term (Some (length js'))) p') by (rewrite Em; reflexivity). rewrite FT. cbn [multi]. clear FT E' Ep.
      revert F' Fp. generalize (seq 0 (S (Z.to_nat o))). intros l. revert p p'. induction l as [|q l IHl]; intros p p' F' Fp; inversion Fp as [|q0 t l0 p0 (Ht & Bt & Ct) Fp' E1 E2]; subst; cbn [combine] in F'; inversion F' as [|qt u lq p1 (Hu & pc & Eu & Fu) F'' E3 E4]; subst; [constructor|].
      cbn [flat_map]. apply Forall2_app'; [|apply (IHl p0); assumption]. destruct u as [c k]. cbn [fst snd] in *. subst c k. rewrite (flat_step (length (j2 :: js)) _ pc _ eq_refl) by (cbn; lia).
      clear - Fu Ht Ct Nj Hj OE SE. revert Fu. generalize (flat_terms (length (j2 :: js)) pc) as l. generalize (multi os) as mi. set (js1 := j2 :: js) in *. clearbody js1. clear js. rename js1 into js. intros mi l Fu. induction Fu as [|ks u mi0 l0 [H1 H2] _ IHF]; [constructor|]. cbn [map]. constructor; [|exact IHF]. split; cbn [fst snd map].
      * rewrite Ht. apply exponents_cons; [apply Hj; left; reflexivity|exact Nj|exact H1].
      * intros x Dx. rewrite zeroed_cons in *. set (V := fun y => dom (upd y j 0) e). assert (HV : opens V) by (exact (upd_opens (fun y => dom y e) j 0 OE)). destruct (Ct (zeroed js x) Dx) as [C1 _]. destruct (H2 x C1) as [D1 D2]. split; [exact D1|]. rewrite D2. cbn [facts dmulti].
        rewrite (dmulti_ext js ks V (fun y => eval y (fst t)) (fun y => / INR (fact q) * dN q j (fun y => eval y e) (upd y j 0)) HV (fun y Hy => proj2 (Ct y Hy)) (zeroed js x) Dx).
        rewrite dmulti_scal, (dmulti_upd js ks j 0 (dN q j (fun y => eval y e)) Nj). rewrite Rinv_mult_distr; [ring|apply INR_fact_neq_0|]. clear. induction ks as [|k ks IH]; [cbn; lra|]. cbn. apply Rmult_integral_contrapositive_currified; [apply INR_fact_neq_0|exact IH].
Qed.
End Multi.
