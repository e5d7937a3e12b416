(** Proofs for [expand_singular]. *)
From Coq Require Import FunctionalExtensionality.
From Coquelicot Require Import Coquelicot.
From Verif Require Import SortProofs ExprSpec ExprSmooth ExprMixed ExprArith ExprOrd ExprSimp ExprDerive ExprMore PropExpr CalmSpec CalmProofs ContSpec ContProofs ContJ SubModel SubSpec SubInt SubReg SubProofs ExpModel ExpSpec PropFlat ExpTaylor SingSpec.
Local Open Scope R_scope.

Section Sing.
Variables (nv : nat) (z : expr -> bool) (j : nat).
Hypothesis Hz : sound z.
Hypothesis Hj : (j < nv)%nat.
Notation poly := (poly nv).
Definition nonneg (p : terms_t) : Prop := Forall (fun t => (0 <= getk j (snd t))%Z) p.
Definition reduced (p : terms_t) : Prop := p = [(Num 0, zeros nv)] \/ (NoDup (map snd p) /\ Forall (fun t => is_const 0 (fst t) = false) p).

Lemma poly_reg p : poly p <-> regpol nv [] p.
Proof.
  unfold SingSpec.poly, regpol. split; intros (H1 & H2 & H3); (split; [exact H1|split; [exact H2|]]); (eapply Forall_impl; [|exact H3]); cbv beta; [intros t Ht; split; [exact Ht|intros i []]|intros t [Ht _]; exact Ht].
Qed.
Lemma free_reg p : free_poly nv j p <-> regpol nv [j] p.
Proof.
  unfold free_poly, SingSpec.poly, regpol. split.
  - intros [(H1 & H2 & H3) H4]. split; [exact H1|]. split; [exact H2|]. eapply Forall_impl; [|apply (Forall_and' _ _ _ H3 H4)]. cbv beta. intros t [Ht Hk]. split; [exact Ht|]. intros i [<-|[]]. exact Hk.
  - intros (H1 & H2 & H3). split; [split; [exact H1|split; [exact H2|]]|]; (eapply Forall_impl; [|exact H3]); cbv beta; intros t [Ht Hk]; [exact Ht|apply Hk; left; reflexivity].
Qed.
Lemma tidy_reduced ad p : (forall r s, ad (Num r) (Num s) = Num (r + s)) -> numeric p -> reduced (tidy nv ad p).
Proof.
  intros Had H. destruct (tidy_nodup nv ad Had p H) as [N _]. unfold tidy, merged in *. destruct (filter _ _) as [|t l] eqn:E; [left; reflexivity|right]. split; [exact N|]. rewrite <- E. apply Forall_forall. intros u Hu. apply filter_In in Hu as [_ Hu]. destruct (is_const 0 (fst u)); [discriminate|reflexivity].
Qed.
Lemma nonneg_zeros : (0 <= getk j (zeros nv))%Z. Proof. unfold zeros. rewrite getk_zeros. lia. Qed.
Lemma mul_full p q : poly p -> poly q -> poly (mul_pol nv p q) /\ reduced (mul_pol nv p q) /\ (nonneg p -> nonneg q -> nonneg (mul_pol nv p q)) /\ mul nv (Pol p) (Pol q) = Pol (mul_pol nv p q) /\
  forall x, dom x (Pol p) -> dom x (Pol q) -> dom x (Pol (mul_pol nv p q)) /\ eval x (Pol (mul_pol nv p q)) = eval x (Pol p) * eval x (Pol q).
Proof.
  intros Hp Hq. pose proof (proj1 (poly_reg p) Hp) as Rp. pose proof (proj1 (poly_reg q) Hq) as Rq. unfold mul_pol. destruct (mul_reg nv [] p q Rp Rq) as (r & E & Rr & V). rewrite E. cbn [coeffs_of].
  split; [apply poly_reg, Rr|]. unfold mul in E. destruct (Nat.max (depth (Pol p)) (depth (Pol q))) as [|m] eqn:Em; [rewrite !depth_pol in Em; lia|]. cbn [mulc] in E. injection E as E. destruct Hp as (_ & P1 & P2). destruct Hq as (_ & Q1 & Q2). unfold numeric in *. rewrite Forall_forall in P1, P2, Q1, Q2.
  split; [rewrite <- E; apply tidy_reduced; [intros a b; apply addc_num|]|split; [|split; [reflexivity|exact V]]].
  - apply Forall_forall. intros t Ht. apply in_flat_map in Ht as (u & Hu & Ht). apply in_map_iff in Ht as (w & <- & Hw). cbn [fst]. apply mulc_is_num; auto.
  - intros NP NQ. rewrite <- E. apply (tidy_rows nv (add nv) (fun k => (0 <= getk j k)%Z)); [exact nonneg_zeros|]. unfold nonneg in *. rewrite Forall_forall in NP, NQ. apply Forall_forall. intros t Ht. apply in_flat_map in Ht as (u & Hu & Ht). apply in_map_iff in Ht as (w & <- & Hw). cbn [snd]. rewrite getk_addk by (rewrite (P2 u Hu), (Q2 w Hw); reflexivity). specialize (NP u Hu). specialize (NQ w Hw). lia.
Qed.
Lemma neg_ok q : poly q -> let q' := map (fun t => (mul nv (fst t) (Num (-1)), snd t)) q in poly q' /\ (nonneg q -> nonneg q') /\ forall x, (dom x (Pol q) -> dom x (Pol q')) /\ eval x (Pol q') = - eval x (Pol q).
Proof.
  intros (N & H1 & H2). cbv zeta. assert (E : map (fun t => (mul nv (fst t) (Num (-1)), snd t)) q = map (fun t => (Num (num_of (fst t) * -1), snd t)) q).
  { apply map_ext_in. intros t Ht. unfold numeric in H1. rewrite Forall_forall in H1. rewrite (num_of_num _ (H1 t Ht)) at 1. reflexivity. }
  rewrite E. split; [split; [destruct q; [congruence|discriminate]|]; split; [unfold numeric; rewrite Forall_map; apply Forall_forall; reflexivity|rewrite Forall_map; exact H2]|]. split; [unfold nonneg; rewrite Forall_map; auto|]. intros x. split.
  - rewrite !dom_pol. unfold tdom. rewrite Forall_map. intros H. eapply Forall_impl; [|exact H]. cbv beta. intros t [_ R]. split; [exact I|exact R].
  - rewrite !eval_pol. clear - H1. induction H1 as [|t p Ht H1 IH]; [unfold tval; cbn; ring|]. cbn [map]. rewrite !tval_cons, IH. cbn [fst snd eval]. rewrite (num_of_num _ Ht) at 2. cbn [eval]. ring.
Qed.
Lemma sub_full p q : poly p -> poly q -> poly (sub_pol nv p q) /\ (nonneg p -> nonneg q -> nonneg (sub_pol nv p q)) /\
  forall x, dom x (Pol p) -> dom x (Pol q) -> dom x (Pol (sub_pol nv p q)) /\ eval x (Pol (sub_pol nv p q)) = eval x (Pol p) - eval x (Pol q).
Proof.
  intros Hp Hq. destruct (neg_ok q Hq) as (N1 & N2 & N3). unfold sub_pol. set (q' := map _ q) in *. destruct (add_reg nv [] p q' (proj1 (poly_reg p) Hp) (proj1 (poly_reg q') N1)) as (r & E & Rr & _ & _ & V & D). rewrite E. cbn [coeffs_of]. split; [apply poly_reg, Rr|]. split.
  - intros NP NQ. unfold add in E. destruct (Nat.max (depth (Pol p)) (depth (Pol q'))) as [|m] eqn:Em; [rewrite !depth_pol in Em; lia|]. cbn [addc] in E. injection E as <-. apply (tidy_rows nv (addc nv m) (fun k => (0 <= getk j k)%Z)); [exact nonneg_zeros|]. apply Forall_app. split; [exact NP|apply N2, NQ].
  - intros x Dp Dq. destruct (N3 x) as [M1 M2]. split; [apply D; auto|]. rewrite V, M2. ring.
Qed.
Lemma derive_full n p : poly p -> poly (poly_derive nv z n j p) /\ (nonneg p -> nonneg (poly_derive nv z n j p)) /\
  forall x, dom x (Pol p) -> dom x (Pol (poly_derive nv z n j p)) /\ pd j (fun y => eval y (Pol p)) x (eval x (Pol (poly_derive nv z n j p))).
Proof.
  intros (N & H1 & H2). pose proof (poly_reg p) as [PR _]. pose proof (PR (conj N (conj H1 H2))) as Rp. destruct (reg_tok nv [] p Rp) as [_ T].
  destruct (pol_derive_ok nv z j Hj p N T) as (q & (n0 & E) & Wq & V). { eapply Forall_impl; [|exact H1]. cbv beta. intros t Ht W. apply wf_not_num in W. congruence. }
  assert (Q : forall der, pol_derive nv j der p = Some (Pol q)).
  { intros der. specialize (E n0 (le_n n0)). unfold pol_derive in *. replace (existsb (fun t => negb (is_num (fst t))) p) with false in *; [exact E|]. symmetry. clear - H1. induction H1 as [|t p H F IH]; [reflexivity|]. cbn [existsb]. rewrite H, IH. reflexivity. }
  unfold poly_derive. rewrite Q. cbn [coeffs_of]. split; [|split].
  - apply wf_pol in Wq as [Nq Tq]. split; [exact Nq|]. split; [exact (pol_derive_calm nv (fun _ => True) j _ p (Pol q) H1 (Q (fun _ => None)))|exact (tok_len nv q Tq)].
  - intros NN. specialize (Q (fun _ => None)). unfold pol_derive in Q. replace (existsb (fun t => negb (is_num (fst t))) p) with false in Q by (symmetry; clear - H1; induction H1 as [|t p H F IH]; [reflexivity|]; cbn [existsb]; rewrite H, IH; reflexivity).
    set (s1 := map _ (filter _ p)) in Q. assert (K : nonneg s1).
    { unfold s1, nonneg. rewrite Forall_map. apply Forall_forall. intros t Ht. apply filter_In in Ht as [Ht Hk]. cbn [snd]. unfold nonneg in NN. rewrite Forall_forall in NN, H2. specialize (NN t Ht). rewrite getk_setk by (rewrite (H2 t Ht); exact Hj). rewrite Nat.eqb_refl. destruct (Z.eqb_spec (getk j (snd t)) 0); [discriminate|]. lia. }
    destruct s1 as [|u s1]; injection Q as <-; [constructor; [exact nonneg_zeros|constructor]|exact K].
  - intros x D. rewrite dom_pol in *. destruct (V x D) as [V1 V2]. split; [exact V1|]. eapply (pd_ext (fun _ => True)); [intros y _; exists 1; split; [lra|auto]|exact I| |rewrite eval_pol; exact V2]. intros w _. rewrite eval_pol. reflexivity.
Qed.
(** the coefficients at x_j = 0 *)
Definition at_zero (p : terms_t) : terms_t := map (fun t => (if Z.eqb (getk j (snd t)) 0 then fst t else Num 0, setk j 0 (snd t))) p.
Lemma low_full p : poly p -> let r := tidy nv (add nv) (at_zero p) in (forall n, low nv (S n) j p = Some r) /\ free_poly nv j r /\ NoDup (map snd r) /\ (forall k, coef k r = coef k (at_zero p)) /\
  (nonneg p -> forall y, dom (upd y j 0) (Pol p) -> dom y (Pol r) /\ eval y (Pol r) = eval (upd y j 0) (Pol p)).
Proof.
  intros HP. destruct HP as (N & H1 & H2). cbv zeta. assert (NZ : numeric (at_zero p)). { unfold numeric, at_zero in *. rewrite Forall_map. eapply Forall_impl; [|exact H1]. cbv beta. intros t Ht. cbn [fst]. destruct (Z.eqb _ 0); [exact Ht|reflexivity]. }
  assert (LZ : Forall (fun t => length (snd t) = nv /\ forall i, In i [j] -> getk i (snd t) = 0%Z) (at_zero p)).
  { unfold at_zero. rewrite Forall_map. eapply Forall_impl; [|exact H2]. cbv beta. intros t Ht. cbn [snd]. split; [rewrite setk_len; exact Ht|]. intros i [<-|[]]. rewrite getk_setk by (rewrite Ht; exact Hj). rewrite Nat.eqb_refl. reflexivity. }
  destruct (reg_tidy nv [j] (add nv) (at_zero p) (fun r s => eq_refl) NZ LZ) as (T1 & T2 & T3). split; [|split; [apply free_reg, T1|split; [exact T2|split; [exact T3|]]]].
  - intros n. unfold low. cbn [replace]. assert (E : pol_replace nv j 0 (replace nv j 0) p = Some (at_zero p)).
    { unfold pol_replace, at_zero. clear. induction p as [|t p IH]; [reflexivity|]. cbn [map]. apply option_all_cons; [|exact IH]. destruct (Req_EM_T 0 0); [reflexivity|congruence]. }
    rewrite E. match goal with |- context [simplify nv (S n) (Pol ?q)] => change (simplify nv (S n) (Pol q)) with (match pol_simplify nv (simplify nv n) q with Some w => Some (Pol w) | None => None end) end. unfold pol_simplify. rewrite deep_numeric; [reflexivity|]. eapply Permutation_Forall; [apply Permutation_sym, sort_by_perm|exact NZ].
  - intros NN y D. rewrite dom_pol in *. rewrite !eval_pol.
    assert (TK : tok nv (at_zero p)) by (unfold tok; eapply Forall_impl; [|apply (Forall_and' _ _ _ LZ NZ)]; cbv beta; intros t [[A _] B]; split; [exact A|left; exact B]).
    assert (NE : at_zero p <> []) by (destruct p; [congruence|discriminate]).
    destruct (add_tidy nv (at_zero p) TK) as (I1 & I2 & I3 & I4 & I5 & I6).
    assert (DZ : tdom y (at_zero p) /\ tval y (at_zero p) = tval (upd y j 0) p).
    { clear - D H2 H1 NN Hj. unfold tdom in *. induction p as [|t p IH]; [split; [constructor|reflexivity]|]. apply Forall_cons_iff in D as [[_ D1] D], H1 as [T1 H1], H2 as [L H2], NN as [N1 NN]. destruct (IH H1 H2 NN D) as [I1 I2]. destruct (mono_set nv j 0 Hj (snd t) y 0 j ltac:(rewrite L; exact Hj)) as [M1 M2]. cbn [at_zero map]. fold (at_zero p). split.
      - constructor; [|exact I1]. cbn [fst snd]. split; [|apply M2, D1]. destruct (Z.eqb _ 0); [rewrite (num_of_num _ T1)|]; exact I.
      - rewrite !tval_cons, I2. cbn [fst snd]. f_equal. cbn [Nat.add] in M1. rewrite M1. rewrite (num_of_num _ T1). cbn [eval]. destruct (Z.eqb_spec (getk j (snd t)) 0) as [->|Ne]; [cbn [eval powerRZ]; ring|]. replace (powerRZ 0 (getk j (snd t))) with 0; [cbn [eval]; ring|]. destruct (getk j (snd t)) as [|q|q]; [congruence| |lia]. cbn [powerRZ]. rewrite pow_i by apply Pos2Nat.is_pos. reflexivity. }
    destruct DZ as [Z1 Z2]. split; [apply I4, Z1|]. rewrite I3, Z2. reflexivity.
Qed.
(** ** pulling out the lowest power *)
Lemma row_ok_far k : forall x o o' t, (o < o')%nat -> row_ok (upd x o t) o' k <-> row_ok x o' k.
Proof. induction k as [|a k IH]; intros x o o' t L; [tauto|]. cbn [row_ok]. rewrite upd_other by lia. rewrite IH by lia. tauto. Qed.
Lemma row_ok_set k : forall x o i t, (i < length k)%nat -> row_ok (upd x (o + i) t) o k <-> row_ok x o (setk i 0 k) /\ ((0 <= getk i k)%Z \/ t <> 0).
Proof.
  induction k as [|a k IH]; intros x o [|i] t L; cbn [length] in L; try lia; cbn [setk row_ok].
  - rewrite Nat.add_0_r, upd_at, row_ok_far by lia. unfold getk. cbn [nth]. intuition lia.
  - replace (o + S i)%nat with (S o + i)%nat by lia. rewrite upd_other by lia. rewrite (IH x (S o) i t) by lia. change (getk (S i) (a :: k)) with (getk i k). tauto.
Qed.
Lemma setk_setk (k : list Z) a b : forall i, setk i a (setk i b k) = setk i a k.
Proof. induction k as [|c k IH]; intros [|i]; cbn [setk]; try reflexivity. rewrite IH. reflexivity. Qed.
Lemma dom_set p x t : poly p -> dom (upd x j t) (Pol p) <-> Forall (fun u => row_ok x 0 (setk j 0 (snd u)) /\ ((0 <= getk j (snd u))%Z \/ t <> 0)) p.
Proof.
  intros (_ & H1 & H2). rewrite dom_pol. unfold tdom. rewrite !Forall_forall. unfold numeric in H1. rewrite Forall_forall in H1, H2. split; intros H u Hu; specialize (H u Hu); specialize (H1 u Hu); specialize (H2 u Hu); rewrite (row_ok_set (snd u) x 0 j t) in * by lia.
  - apply H.
  - split; [rewrite (num_of_num _ H1); exact I|exact H].
Qed.
Lemma dom_nonneg p x s t : poly p -> nonneg p -> dom (upd x j s) (Pol p) -> dom (upd x j t) (Pol p).
Proof.
  intros P N. rewrite !dom_set by exact P. intros H. unfold nonneg in N. eapply Forall_impl; [|apply (Forall_and' _ _ _ N H)]. cbv beta. intros u [A [B _]]. auto.
Qed.
Lemma pull_poly m p : poly p -> poly (pull j m p).
Proof.
  intros (N & H1 & H2). unfold pull. split; [destruct p; [congruence|discriminate]|]. unfold numeric in *. rewrite !Forall_map. split; [exact H1|]. eapply Forall_impl; [|exact H2]. cbv beta. intros t Ht. cbn [snd]. rewrite setk_len. exact Ht.
Qed.
Lemma pull_dom m p x t : poly p -> t <> 0 -> dom (upd x j t) (Pol p) <-> dom (upd x j t) (Pol (pull j m p)).
Proof.
  intros P Nt. rewrite (dom_set p x t P), (dom_set (pull j m p) x t (pull_poly m p P)). unfold pull. rewrite Forall_map. rewrite !Forall_forall. split; intros H u Hu; specialize (H u Hu); cbn [snd] in *; rewrite setk_setk in *; tauto.
Qed.
Lemma pull_val m p x t : poly p -> t <> 0 -> eval (upd x j t) (Pol p) = powerRZ t m * eval (upd x j t) (Pol (pull j m p)).
Proof.
  intros (_ & _ & H2) Nt. rewrite !eval_pol. induction H2 as [|u p L H2 IH]; [unfold tval; cbn; ring|]. cbn [pull map]. rewrite !tval_cons. fold (pull j m p). rewrite IH. cbn [fst snd].
  assert (E : mono (upd x j t) 0 (snd u) = powerRZ t m * mono (upd x j t) 0 (setk j (getk j (snd u) - m) (snd u))).
  { destruct (mono_set nv j t Hj (snd u) x 0 j ltac:(lia)) as [M1 _]. destruct (mono_set nv j t Hj (setk j (getk j (snd u) - m) (snd u)) x 0 j ltac:(rewrite setk_len; lia)) as [M2 _]. cbn [Nat.add] in *. rewrite M1, M2, setk_setk, getk_setk, Nat.eqb_refl by lia. rewrite <- Rmult_assoc, <- powerRZ_add by exact Nt. replace (m + (getk j (snd u) - m))%Z with (getk j (snd u)) by lia. reflexivity. }
  rewrite E. ring.
Qed.
Lemma min_exp_spec p : p <> [] -> Forall (fun t => (min_exp j p <= getk j (snd t))%Z) p /\ exists t, In t p /\ getk j (snd t) = min_exp j p.
Proof.
  destruct p as [|t p]; [congruence|]. intros _. cbn [min_exp].
  assert (G : forall p m, let m' := fold_left (fun m u => Z.min m (getk j (snd u))) p m in (m' <= m)%Z /\ Forall (fun t : expr * list Z => (m' <= getk j (snd t))%Z) p /\ (m' = m \/ exists t, In t p /\ getk j (snd t) = m')).
  { clear. induction p as [|u p IH]; intros m; cbn [fold_left]; [split; [lia|]; split; [constructor|left; reflexivity]|]. destruct (IH (Z.min m (getk j (snd u)))) as (I1 & I2 & I3). cbv zeta in *. split; [lia|]. split; [constructor; [lia|exact I2]|]. destruct I3 as [I3|(w & Hw & Ew)]; [|right; exists w; split; [right; exact Hw|exact Ew]]. rewrite I3. destruct (Z.min_spec m (getk j (snd u))) as [[_ ->]|[_ ->]]; [left; reflexivity|right; exists u; split; [left; reflexivity|reflexivity]]. }
  destruct (G p (getk j (snd t))) as (I1 & I2 & I3). cbv zeta in *. split; [constructor; [exact I1|exact I2]|]. destruct I3 as [I3|(w & Hw & Ew)]; [exists t; split; [left; reflexivity|symmetry; exact I3]|exists w; split; [right; exact Hw|exact Ew]].
Qed.
Lemma pull_nonneg p : poly p -> nonneg (pull j (min_exp j p) p).
Proof.
  intros (N & _ & H2). destruct (min_exp_spec p N) as [M _]. unfold nonneg, pull. rewrite Forall_map. rewrite Forall_forall in *. intros t Ht. cbn [snd]. rewrite getk_setk, Nat.eqb_refl by (rewrite (H2 t Ht); exact Hj). specialize (M t Ht). lia.
Qed.
Lemma setk_inj k l : length k = length l -> getk j k = getk j l -> setk j 0 k = setk j 0 l -> k = l.
Proof.
  clear. revert j l. induction k as [|a k IH]; intros [|j] [|b l] L G E; try discriminate; try reflexivity; cbn [setk] in E; injection E; unfold getk in *; cbn [nth] in *.
  - intros ->. congruence.
  - intros E' ->. f_equal. apply (IH j l); [cbn in L; lia|exact G|exact E'].
Qed.
(** the leading coefficient is not zero *)
Lemma lead_coef p : poly p -> reduced p -> p = [(Num 0, zeros nv)] \/ exists k, coef k (at_zero (pull j (min_exp j p) p)) <> 0.
Proof.
  intros P [R|[R1 R2]]; [left; exact R|right]. destruct P as (N & H1 & H2). destruct (min_exp_spec p N) as (_ & t & Ht & Et). set (m := min_exp j p) in *. exists (setk j 0 (snd t)).
  assert (G : forall q, (forall u, In u q -> In u p) -> NoDup (map snd q) -> coef (setk j 0 (snd t)) (at_zero (pull j m q)) = if in_dec (list_eq_dec Z.eq_dec) (snd t) (map snd q) then num_of (fst t) else 0).
  { intros q. induction q as [|u q IH]; intros Sub ND; [reflexivity|]. cbn [map] in ND. apply NoDup_cons_iff in ND as [Nu ND]. cbn [pull at_zero map]. fold (pull j m q) (at_zero (pull j m q)). rewrite coef_cons, IH by (try exact ND; intros w Hw; apply Sub; right; exact Hw). cbn [fst snd]. rewrite setk_setk.
    rewrite Forall_forall in H2. assert (Lu : length (snd u) = nv) by (apply H2, Sub; left; reflexivity). rewrite getk_setk, Nat.eqb_refl by (rewrite Lu; exact Hj).
    destruct (list_eq_dec Z.eq_dec (snd u) (snd t)) as [E|NE].
    - rewrite E, roweqb_refl, Et, Z.sub_diag. cbn [Z.eqb].
      assert (EU : u = t). { clear - R1 E Ht Sub. assert (Hu : In u p) by (apply Sub; left; reflexivity). clear Sub. induction p as [|w p IH]; [destruct Hu|]. cbn [map] in R1. apply NoDup_cons_iff in R1 as [R0 R1]. destruct Hu as [->|Hu], Ht as [->|Ht]; [reflexivity| | |apply IH; assumption]; exfalso; apply R0; [rewrite E|rewrite <- E]; apply in_map; assumption. }
      rewrite EU. destruct (in_dec (list_eq_dec Z.eq_dec) (snd t) (map snd q)) as [Hin|_]; [rewrite <- E in Hin; contradiction|]. match goal with |- context [in_dec ?d ?a ?l] => destruct (in_dec d a l) as [_|Hn] end; [lra|exfalso; apply Hn; left; congruence].
    - replace (if roweqb (setk j 0 (snd u)) (setk j 0 (snd t)) then _ else 0) with 0.
      + destruct (in_dec (list_eq_dec Z.eq_dec) (snd t) (map snd q)) as [Hi|Hn]; match goal with |- context [in_dec ?d ?a ?l] => destruct (in_dec d a l) as [Hi'|Hn'] end; [lra|exfalso; apply Hn'; right; exact Hi|destruct Hi' as [E|Hi']; contradiction|lra].
      + symmetry. destruct (roweqb (setk j 0 (snd u)) (setk j 0 (snd t))) eqn:ER; [|reflexivity]. apply roweqb_spec in ER. destruct (Z.eqb_spec (getk j (snd u) - m) 0) as [E0|_]; [|reflexivity]. exfalso. apply NE. apply setk_inj; [rewrite Lu, (H2 t Ht); reflexivity|lia|exact ER]. }
  rewrite (G p (fun u H => H) R1). destruct (in_dec (list_eq_dec Z.eq_dec) (snd t) (map snd p)) as [_|Hn]; [|exfalso; apply Hn, in_map, Ht]. unfold numeric in H1. rewrite Forall_forall in H1, R2. specialize (R2 t Ht). rewrite (num_of_num _ (H1 t Ht)) in R2. intros E0. rewrite E0 in R2. unfold is_const in R2. destruct (Req_EM_T 0 0); [discriminate|congruence].
Qed.
(** ** the loop over the orders *)
Section Loop.
Variables (num den : terms_t).
Hypothesis Pn : poly num.
Hypothesis Pd : poly den.
Hypothesis Nn : nonneg num.
Hypothesis Nd : nonneg den.
Definition quo : expr := Prod [Pol num; EPol den (Num (-1))].
Definition UU (y : point) : Prop := dom y quo.
Definition FF (y : point) : R := eval y quo.
Lemma UU_spec y : UU y <-> dom y (Pol num) /\ dom y (Pol den) /\ eval y (Pol den) <> 0.
Proof. unfold UU, quo. cbn [dom allP fold_right]. change (dom y (Pol num) /\ dom y (EPol den (Num (-1))) /\ True <-> dom y (Pol num) /\ dom y (Pol den) /\ eval y (Pol den) <> 0). rewrite epol_m1. tauto. Qed.
Lemma FF_spec y : FF y = eval y (Pol num) / eval y (Pol den).
Proof. unfold FF, quo. change (eval y (Pol num) * (eval y (EPol den (Num (-1))) * 1) = eval y (Pol num) / eval y (Pol den)). rewrite eval_m1. unfold Rdiv. ring. Qed.
Lemma UU_open : opens UU. Proof. exact (proj1 (all_good quo)). Qed.
Lemma FF_smooth : smooth UU FF. Proof. exact (proj2 (all_good quo)). Qed.
(** a coefficient of order q *)
Definition scoef (q : nat) (c : expr) : Prop := quotient nv c /\ forall y, UU (upd y j 0) -> dom y c /\ eval y c = / INR (fact q) * dN q j FF (upd y j 0).
Definition szero (c : expr) : Prop := forall y, eval y c = 0.
(** num' / den' is the i-th derivative *)
Definition stage (i : nat) (num' den' : terms_t) : Prop :=
  poly num' /\ poly den' /\ nonneg num' /\ nonneg den' /\ forall y, UU y -> dom y (Pol num') /\ dom y (Pol den') /\ eval y (Pol den') <> 0 /\ dN i j FF y = eval y (Pol num') / eval y (Pol den').
Lemma stage0 : stage 0 num den.
Proof. split; [exact Pn|]. split; [exact Pd|]. split; [exact Nn|]. split; [exact Nd|]. intros y Hy. apply UU_spec in Hy as (H1 & H2 & H3). split; [exact H1|]. split; [exact H2|]. split; [exact H3|]. apply FF_spec. Qed.
Lemma stage_next n i num' den' : stage i num' den' -> stage (S i) (derive_num nv z n j num' den') (mul_pol nv den' den').
Proof.
  intros (P1 & P2 & N1 & N2 & V). unfold derive_num. destruct (derive_full n num' P1) as (D1 & D2 & D3). destruct (derive_full n den' P2) as (E1 & E2 & E3). set (dn := poly_derive nv z n j num') in *. set (dd := poly_derive nv z n j den') in *.
  destruct (mul_full dn den' D1 P2) as (M1 & _ & M2 & _ & M3). destruct (mul_full dd num' E1 P1) as (L1 & _ & L2 & _ & L3). destruct (mul_full den' den' P2 P2) as (Q1 & _ & Q2 & _ & Q3). destruct (sub_full _ _ M1 L1) as (S1 & S2 & S3).
  split; [exact S1|]. split; [exact Q1|]. split; [auto|]. split; [auto|]. intros y Hy. destruct (V y Hy) as (V1 & V2 & V3 & V4). destruct (D3 y V1) as [D4 D5]. destruct (E3 y V2) as [E4 E5]. destruct (M3 y D4 V2) as [M4 M5]. destruct (L3 y E4 V1) as [L4 L5]. destruct (S3 y M4 L4) as [S4 S5]. destruct (Q3 y V2 V2) as [Q4 Q5].
  split; [exact S4|]. split; [exact Q4|]. split; [rewrite Q5; apply Rmult_integral_contrapositive_currified; exact V3|]. cbn [dN]. apply pd_d. rewrite S5, M5, L5, Q5.
  apply (pd_ext UU j (fun y => eval y (Pol num') / eval y (Pol den'))); [exact UU_open|exact Hy|intros w Hw; destruct (V w Hw) as (_ & _ & _ & V5); symmetry; exact V5|].
  replace ((eval y (Pol dn) * eval y (Pol den') - eval y (Pol dd) * eval y (Pol num')) / (eval y (Pol den') * eval y (Pol den'))) with ((eval y (Pol dn) * eval y (Pol den') - eval y (Pol dd) * eval y (Pol num')) / (Rsqr (eval y (Pol den')))) by (unfold Rsqr; reflexivity).
  unfold pd in *. assert (EQ : upd y j (y j) = y) by (apply functional_extensionality; intros i0; unfold upd; destruct (Nat.eqb_spec i0 j) as [->|]; reflexivity).
  pose proof (derivable_pt_lim_div _ _ _ _ _ D5 E5) as H. cbv beta in H. rewrite !EQ in H. specialize (H V3). exact H.
Qed.
Lemma loop_sing count : forall i f num' den' zs, f = INR (fact i) -> stage i num' den' ->
  exists cs r drop, (forall n, singular_loop nv z (S n) j count i f num' den' zs = Some r) /\ Forall2 scoef (seq (S i) count) cs /\ zs ++ cs = r ++ drop /\ (Forall szero zs -> Forall szero drop).
Proof.
  induction count as [|count IH]; intros i f num' den' zs Ef St; [exists [], [], zs; split; [reflexivity|]; split; [constructor|]; split; [apply app_nil_r|auto]|].
  assert (IN : forall n m, derive_num nv z n j num' den' = derive_num nv z m j num' den').
  { intros n m. unfold derive_num, poly_derive. destruct St as ((_ & P1 & _) & (_ & P2 & _) & _). assert (K : forall p, numeric p -> forall der der', pol_derive nv j der p = pol_derive nv j der' p). { intros p Hp der der'. unfold pol_derive. replace (existsb (fun t => negb (is_num (fst t))) p) with false; [reflexivity|]. symmetry. clear - Hp. induction Hp as [|t p H F IHp]; [reflexivity|]. cbn [existsb]. rewrite H, IHp. reflexivity. }
    rewrite (K num' P1 _ (derive nv z j m)), (K den' P2 _ (derive nv z j m)). reflexivity. }
  pose proof (stage_next 0 i num' den' St) as St'. set (num2 := derive_num nv z 0 j num' den') in *. set (den2 := mul_pol nv den' den') in *.
  assert (Ef' : f * (INR i + 1) = INR (fact (S i))). { rewrite Ef, fact_simpl, mult_INR, S_INR. ring. }
  pose proof St' as (P1 & P2 & N1 & N2 & V). destruct (low_full num2 P1) as (L1 & L2 & L3 & _ & L5). set (ln := tidy nv (add nv) (at_zero num2)) in *. destruct (low_full den2 P2) as (M1 & M2 & M3 & _ & M5). set (ld := tidy nv (add nv) (at_zero den2)) in *. specialize (L5 N1). specialize (M5 N2).
  assert (FN : 0 < INR (fact (S i))) by apply INR_fact_lt_0.
  destruct (all_coeffs 0 ln) eqn:EZ.
  - assert (SZ : szero (Prod [Pol ln])). { intros y. change (eval y (Pol ln) * 1 = 0). rewrite eval_pol, (all_coeffs0 ln y EZ). ring. }
    destruct (IH (S i) (f * (INR i + 1)) num2 den2 (zs ++ [Prod [Pol ln]]) Ef' St') as (cs & r & drop & E & F & A & ZD). exists (Prod [Pol ln] :: cs), r, drop. split; [|split; [|split]].
    + intros n. cbn [singular_loop]. cbv zeta. rewrite (IN (S n) 0%nat). fold num2 den2. rewrite L1, EZ. apply E.
    + cbn [seq]. constructor; [|exact F]. split; [exists [Pol ln]; split; [reflexivity|constructor; [apply L2|constructor]]|]. intros y Hy. destruct (V _ Hy) as (V1 & V2 & V3 & V4). destruct (L5 y V1) as [L6 L7]. split; [change (dom y (Pol ln) /\ True); auto|]. rewrite V4, <- L7, SZ. pose proof (SZ y) as SZ'. change (eval y (Pol ln) * 1 = 0) in SZ'. replace (eval y (Pol ln)) with 0 by lra. unfold Rdiv. ring.
    + rewrite <- A, <- app_assoc. reflexivity.
    + intros H. apply ZD, Forall_app. split; [exact H|]. constructor; [exact SZ|constructor].
  - destruct (IH (S i) (f * (INR i + 1)) num2 den2 [] Ef' St') as (cs & r & drop & E & F & A & ZD). cbn [app] in A.
    set (c := Prod [Pol ln; EPol (map (fun t => (mul nv (fst t) (Num (f * (INR i + 1))), snd t)) ld) (Num (-1))]). exists (c :: cs), (zs ++ c :: r), drop. split; [|split; [|split]].
    + intros n. cbn [singular_loop]. cbv zeta. rewrite (IN (S n) 0%nat). fold num2 den2. rewrite L1, EZ, M1, E. reflexivity.
    + cbn [seq]. constructor; [|exact F]. destruct M2 as [(B1 & B2 & B3) B4].
      assert (EM : map (fun t => (mul nv (fst t) (Num (f * (INR i + 1))), snd t)) ld = map (fun t => (Num (num_of (fst t) * (f * (INR i + 1))), snd t)) ld).
      { apply map_ext_in. intros t Ht. unfold numeric in B2. rewrite Forall_forall in B2. rewrite (num_of_num _ (B2 t Ht)) at 1. reflexivity. }
      assert (EV : forall y, eval y (Pol (map (fun t => (mul nv (fst t) (Num (f * (INR i + 1))), snd t)) ld)) = INR (fact (S i)) * eval y (Pol ld) /\ (dom y (Pol ld) -> dom y (Pol (map (fun t => (mul nv (fst t) (Num (f * (INR i + 1))), snd t)) ld)))).
      { intros y. rewrite EM, Ef'. split.
        - rewrite !eval_pol. clear - B2. induction B2 as [|t p Ht H1 IH]; [unfold tval; cbn; ring|]. cbn [map]. rewrite !tval_cons, IH. cbn [fst snd eval]. rewrite (num_of_num _ Ht) at 2. cbn [eval]. ring.
        - rewrite !dom_pol. unfold tdom. rewrite Forall_map. intros H. eapply Forall_impl; [|exact H]. cbv beta. intros t [_ R]. split; [exact I|exact R]. }
      split.
      * eexists. split; [reflexivity|]. constructor; [apply L2|constructor; [|constructor]]. split; [|reflexivity]. rewrite EM. split; [destruct ld; [congruence|discriminate]|]. unfold numeric. rewrite !Forall_map. split; [apply Forall_forall; reflexivity|exact B3].
      * intros y Hy. destruct (V _ Hy) as (V1 & V2 & V3 & V4). destruct (L5 y V1) as [L6 L7]. destruct (M5 y V2) as [M6 M7]. destruct (EV y) as [X1 X2]. split.
        -- change (dom y (Pol ln) /\ dom y (EPol (map (fun t => (mul nv (fst t) (Num (f * (INR i + 1))), snd t)) ld) (Num (-1))) /\ True). split; [exact L6|]. split; [|exact I]. apply epol_m1. split; [auto|]. rewrite X1, M7. apply Rmult_integral_contrapositive_currified; lra.
        -- unfold c. match goal with |- eval y (Prod [?a; ?b]) = _ => change (eval y (Prod [a; b])) with (eval y a * (eval y b * 1)) end. rewrite eval_m1, X1, V4, L7, M7. field. split; lra.
    + rewrite A. rewrite <- app_assoc. reflexivity.
    + intros _. apply ZD. constructor.
Qed.
End Loop.
(** ** numerator and denominator *)
Lemma gather_ok fs : Forall (factor_ok nv) fs -> forall num den, poly num -> poly den -> reduced num -> reduced den ->
  exists num' den', gather nv fs num den = Done (num', den') /\ poly num' /\ poly den' /\ reduced num' /\ reduced den' /\
    forall x, dom x (Pol num) -> dom x (Pol den) -> Forall (fun f => match f with Pol p | EPol p _ => dom x (Pol p) | _ => True end) fs ->
      dom x (Pol num') /\ dom x (Pol den') /\ eval x (Pol num') = eval x (Pol num) * upper fs x /\ eval x (Pol den') = eval x (Pol den) * lower fs x.
Proof.
  induction 1 as [|f fs Hf _ IH]; intros num den Pn Pd Rn Rd.
  { exists num, den. split; [reflexivity|]. do 4 (split; [assumption|]). intros x Dn Dd _. split; [exact Dn|]. split; [exact Dd|]. unfold upper, lower. cbn. split; ring. }
  assert (UL : forall x, upper (f :: fs) x = (match f with Pol p => eval x (Pol p) | _ => 1 end) * upper fs x /\ lower (f :: fs) x = (match f with EPol p _ => eval x (Pol p) | _ => 1 end) * lower fs x) by (intros x; unfold upper, lower; cbn [map]; rewrite !prodR_cons; split; reflexivity).
  destruct f as [r|p|p a|p|l|l|terms cache|b a|a|a]; cbn [factor_ok] in Hf; try contradiction; cbn [gather].
  - destruct (mul_full num p Pn Hf) as (M1 & M2 & _ & _ & M4). destruct (IH (mul_pol nv num p) den M1 Pd M2 Rd) as (n' & d' & E & A & B & C & D & V). exists n', d'. split; [exact E|]. do 4 (split; [assumption|]). intros x Dn Dd F. apply Forall_cons_iff in F as [F1 F]. destruct (M4 x Dn F1) as [M5 M6]. destruct (V x M5 Dd F) as (V1 & V2 & V3 & V4). split; [exact V1|]. split; [exact V2|]. destruct (UL x) as [-> ->]. rewrite V3, V4, M6. split; ring.
  - destruct Hf as [Hf ->]. unfold is_const. destruct (Req_EM_T (-1) (-1)); [|congruence]. destruct (mul_full den p Pd Hf) as (M1 & M2 & _ & _ & M4). destruct (IH num (mul_pol nv den p) Pn M1 Rn M2) as (n' & d' & E & A & B & C & D & V). exists n', d'. split; [exact E|]. do 4 (split; [assumption|]). intros x Dn Dd F. apply Forall_cons_iff in F as [F1 F]. destruct (M4 x Dd F1) as [M5 M6]. destruct (V x Dn M5 F) as (V1 & V2 & V3 & V4). split; [exact V1|]. split; [exact V2|]. destruct (UL x) as [-> ->]. rewrite V3, V4, M6. split; ring.
Qed.
Lemma eval_quotient fs x : Forall (factor_ok nv) fs -> eval x (Prod fs) = upper fs x / lower fs x.
Proof.
  unfold Rdiv. intros H. change (eval x (Prod fs)) with (prodR (map (eval x) fs)). unfold upper, lower. induction H as [|f fs Hf _ IH]; [cbn; rewrite Rinv_1; ring|]. cbn [map]. rewrite !prodR_cons, IH, Rinv_mult. destruct f; try contradiction; [rewrite Rinv_1; ring|]. destruct Hf as [_ ->]. rewrite eval_m1. ring.
Qed.
Lemma lead_ok fs (G : point -> R) p : poly p -> reduced p -> (forall x t, t <> 0 -> defined_at j fs x -> dom (upd x j t) (Pol p) /\ eval (upd x j t) (Pol p) = G (upd x j t)) ->
  leads nv j fs G (min_exp j p) (tidy nv (add nv) (at_zero (pull j (min_exp j p) p))).
Proof.
  intros P R V. set (m := min_exp j p) in *. pose proof (pull_poly m p P) as P'. pose proof (pull_nonneg p P) as NN. fold m in NN. set (q := pull j m p) in *. destruct (low_full q P') as (_ & L2 & _ & L4 & L5). set (A := tidy nv (add nv) (at_zero q)) in *. split; [exact L2|]. split.
  - intros x D. destruct (V x 1 R1_neq_R0 D) as [V1 _]. apply (pull_dom m p x 1 P R1_neq_R0) in V1. pose proof (dom_nonneg q x 1 0 P' NN V1) as D0. destruct (L5 NN x D0) as [L6 L7]. split; [exact L6|]. intros eps He.
    destruct (all_good (Pol q)) as [OQ SQ]. destruct (taylor_sum (fun y => dom y (Pol q)) j (fun y => eval y (Pol q)) x 0 OQ SQ D0 eps He) as (del & Hd & HT). exists del. split; [exact Hd|]. intros t Nt Ht. destruct (HT t Ht) as [_ B]. cbn [seq map dN fact INR pow] in B. rewrite sumR_cons in B. change (sumR []) with 0 in B. rewrite Rinv_1, Rmult_1_r, Rmult_1_l, Rmult_1_r, Rplus_0_r in B.
    destruct (V x t Nt D) as [_ <-]. rewrite (pull_val m p x t P Nt). fold q. rewrite L7. replace (powerRZ t m * eval (upd x j t) (Pol q) - eval (upd x j 0) (Pol q) * powerRZ t m) with (powerRZ t m * (eval (upd x j t) (Pol q) - eval (upd x j 0) (Pol q))) by ring. rewrite Rabs_mult, Rmult_comm. apply Rmult_le_compat_r; [apply Rabs_pos|exact B].
  - destruct (lead_coef p P R) as [E|[k Hk]]; [right|left; exists k; rewrite L4; exact Hk]. split.
    + unfold m. rewrite E. cbn [min_exp fold_left snd]. unfold zeros. apply getk_zeros.
    + intros x t D Nt. destruct (V x t Nt D) as [_ <-]. rewrite E. apply (eval_cst nv).
Qed.
Theorem sing_ok fs : Forall (factor_ok nv) fs -> exists a A b B, leads nv j fs (upper fs) a A /\ leads nv j fs (lower fs) b B /\
  (forall n order, (order < a - b)%Z -> singular_step nv z n (Prod fs) j order = OrderError) /\
  (forall order, (a - b <= order)%Z -> exists p, (forall n, singular_step nv z (S n) (Prod fs) j order = Done p) /\ laurent nv j fs B (a - b) order p).
Proof.
  intros HF. assert (P1 : poly [(Num 1, zeros nv)]) by (split; [discriminate|]; split; [constructor; [reflexivity|constructor]|constructor; [apply repeat_length|constructor]]).
  assert (R1 : reduced [(Num 1, zeros nv)]). { right. split; [constructor; [intros []|constructor]|]. constructor; [|constructor]. cbn [fst]. unfold is_const. destruct (Req_EM_T 1 0); [lra|reflexivity]. }
  destruct (gather_ok fs HF _ _ P1 P1 R1 R1) as (num & den & Eg & Pn & Pd & Rn & Rd & V).
  assert (V' : forall x t, t <> 0 -> defined_at j fs x -> dom (upd x j t) (Pol num) /\ dom (upd x j t) (Pol den) /\ eval (upd x j t) (Pol num) = upper fs (upd x j t) /\ eval (upd x j t) (Pol den) = lower fs (upd x j t)).
  { intros x t Nt D. destruct (V (upd x j t) (dom_cst nv _ 1) (dom_cst nv _ 1)) as (V1 & V2 & V3 & V4).
    - unfold defined_at in D. eapply Forall_impl; [|apply (Forall_and' _ _ _ HF D)]. cbv beta. intros f [Hf Df]. destruct f; try exact I; [|destruct Hf as [Hf _]]; rewrite (dom_set _ x 1 Hf) in Df; rewrite (dom_set _ x t Hf); (eapply Forall_impl; [|exact Df]); cbv beta; intros u [U1 _]; auto.
    - change [(Num 1, zeros nv)] with [(Num 1, zeros nv)] in V3. split; [exact V1|]. split; [exact V2|]. change (Pol [(Num 1, zeros nv)]) with (cst nv 1) in V3, V4. rewrite eval_cst, Rmult_1_l in V3, V4. split; assumption. }
  exists (min_exp j num), (tidy nv (add nv) (at_zero (pull j (min_exp j num) num))), (min_exp j den), (tidy nv (add nv) (at_zero (pull j (min_exp j den) den))).
  split; [apply lead_ok; [exact Pn|exact Rn|intros x t Nt D; destruct (V' x t Nt D) as (A & _ & B & _); auto]|]. split; [apply lead_ok; [exact Pd|exact Rd|intros x t Nt D; destruct (V' x t Nt D) as (_ & A & _ & B); auto]|].
  set (a := min_exp j num) in *. set (b := min_exp j den) in *. set (N := pull j a num). set (D := pull j b den).
  pose proof (pull_poly a num Pn) as PN. pose proof (pull_nonneg num Pn) as NN. pose proof (pull_poly b den Pd) as PD. pose proof (pull_nonneg den Pd) as ND. fold a in NN. fold b in ND. fold N in PN, NN. fold D in PD, ND.
  split.
  - intros n order Ho. unfold singular_step, rational. rewrite Eg. cbn [bind]. cbv zeta. fold a b. destruct (Z.ltb_spec order (- (- a + b))); [reflexivity|lia].
  - intros order Ho. destruct (low_full N PN) as (LN1 & LN2 & _ & _ & LN5). destruct (low_full D PD) as (LD1 & LD2 & _ & _ & LD5). set (A := tidy nv (add nv) (at_zero N)) in *. set (B := tidy nv (add nv) (at_zero D)) in *. specialize (LN5 NN). specialize (LD5 ND).
    set (cnt := Z.to_nat (order + (- a + b))). assert (EC : Z.of_nat cnt = (order - (a - b))%Z) by (unfold cnt; lia).
    destruct (loop_sing N D cnt 0 1 N D []) as (cs & r & drop & El & Fl & Al & Zl); [reflexivity|apply stage0; assumption|]. cbn [app] in Al. specialize (Zl (Forall_nil _)).
    set (c0 := Prod [Pol A; EPol B (Num (-1))]). set (F := FF N D). set (U := UU N D).
    assert (C0 : scoef N D 0 c0).
    { split; [eexists; split; [reflexivity|]; constructor; [apply LN2|constructor; [split; [apply LD2|reflexivity]|constructor]]|]. intros y Hy. apply UU_spec in Hy as (H1 & H2 & H3). destruct (LN5 y H1) as [X1 X2]. destruct (LD5 y H2) as [Y1 Y2]. split.
      - change (dom y (Pol A) /\ dom y (EPol B (Num (-1))) /\ True). rewrite epol_m1, Y2. auto.
      - unfold c0. change (eval y (Pol A) * (eval y (EPol B (Num (-1))) * 1) = / INR (fact 0) * FF N D (upd y j 0)). rewrite eval_m1, X2, Y2, FF_spec. cbn [fact INR]. unfold Rdiv. rewrite Rinv_1. ring. }
    assert (FC : Forall2 (scoef N D) (seq 0 (S cnt)) (c0 :: cs)) by (cbn [seq]; constructor; assumption).
    assert (LL : length (c0 :: cs) = S cnt) by (rewrite <- (Forall2_len _ _ _ FC), seq_length; reflexivity).
    assert (LR : (length r <= cnt)%nat) by (pose proof (f_equal (@length _) Al) as H; rewrite app_length in H; cbn in LL; lia).
    set (len := S (length r)). set (rowf := fun i => row nv j (Z.of_nat i - (- a + b))).
    exists (combine (c0 :: r) (map rowf (seq 0 (S cnt)))).
    assert (CB : combine (c0 :: r) (map rowf (seq 0 (S cnt))) = combine (c0 :: r) (map rowf (seq 0 len))).
    { assert (CA : forall (l : list expr) (q q' : list (list Z)), length q = length l -> combine l (q ++ q') = combine l q) by (induction l as [|u l IHl]; intros [|w q] q' Hl; try discriminate; [destruct q'; reflexivity|]; cbn [app combine]; rewrite IHl by (cbn in Hl; lia); reflexivity).
      replace (S cnt) with (len + (S cnt - len))%nat by (unfold len; lia). rewrite seq_app, map_app, CA; [reflexivity|]. rewrite map_length, seq_length. reflexivity. }
    split; [|split; [|split]].
    + intros n. unfold singular_step, rational. rewrite Eg. cbn [bind]. cbv zeta. fold a b. fold N D. destruct (Z.ltb_spec order (- (- a + b))); [lia|]. fold cnt. rewrite LN1, LD1, El. reflexivity.
    + exists len. split; [unfold len; lia|]. split; [unfold len; lia|]. rewrite CB. clear - Hj. unfold rowf. cut (forall l q, length q = length l -> Forall2 (fun i (t : expr * list Z) => exponents nv [j] [(a - b + Z.of_nat i)%Z] (snd t)) l (combine q (map (fun i => row nv j (Z.of_nat i - (- a + b))) l))); [intros G; apply G; rewrite seq_length; reflexivity|].
      induction l as [|i l IH]; intros [|u q] Hl; try discriminate; cbn [map combine]; constructor; [|apply IH; cbn in Hl; lia]. cbn [snd]. destruct (row_exp nv j (Z.of_nat i - (- a + b)) Hj) as [R1 R2]. split; [exact R1|]. split; [intros [|k] Hk; [|cbn in Hk; lia]; cbn [nth]; rewrite R2, Nat.eqb_refl; lia|]. intros w Hw. rewrite R2. destruct (Nat.eqb_spec w j) as [->|_]; [exfalso; apply Hw; left; reflexivity|reflexivity].
    + apply Forall_forall. intros t Ht. assert (In (fst t) (c0 :: cs)). { destruct t as [c k]. apply in_combine_l in Ht. cbn [fst]. destruct Ht as [->|Ht]; [left; reflexivity|right]. rewrite Al. apply in_or_app. left. exact Ht. }
      clear - FC H. induction FC as [|q c l m [Hq _] _ IH]; [destruct H|]. destruct H as [<-|H]; [exact Hq|apply IH, H].
    + intros x Dx NB. destruct (V' x 1 R1_neq_R0 Dx) as (W1 & W2 & _ & _). apply (pull_dom a num x 1 Pn R1_neq_R0) in W1. apply (pull_dom b den x 1 Pd R1_neq_R0) in W2. fold N in W1. fold D in W2. pose proof (dom_nonneg N x 1 0 PN NN W1) as X1. pose proof (dom_nonneg D x 1 0 PD ND W2) as X2. destruct (LD5 x X2) as [Y1 Y2].
      assert (HU : U (upd x j 0)) by (apply UU_spec; split; [exact X1|]; split; [exact X2|]; rewrite <- Y2; exact NB).
      assert (KC : Forall2 (fun q c => dom x c /\ forall s, eval (upd x j s) c = / INR (fact q) * dN q j F (upd x j 0)) (seq 0 (S cnt)) (c0 :: cs)).
      { eapply Forall2_imp; [|exact FC]. cbv beta. intros q c [_ Hc]. split; [apply Hc, HU|]. intros s. destruct (Hc (upd x j s)) as [_ E]; [rewrite upd_upd; exact HU|]. rewrite E, upd_upd. reflexivity. }
      split.
      * rewrite CB. apply Forall_forall. intros [c k] Ht. apply in_combine_l in Ht. cbn [fst]. assert (Hc : In c (c0 :: cs)) by (destruct Ht as [->|Ht]; [left; reflexivity|right; rewrite Al; apply in_or_app; left; exact Ht]). clear - KC Hc. induction KC as [|q u l m [K1 K2] _ IH]; [destruct Hc|]. destruct Hc as [<-|Hc]; [|apply IH, Hc]. split; [exact K1|]. intros s. rewrite K2. assert (EQ : upd x j (x j) = x) by (apply functional_extensionality; intros i0; unfold upd; destruct (Nat.eqb_spec i0 j) as [->|]; reflexivity). rewrite <- (K2 (x j)), EQ. reflexivity.
      * intros eps He. destruct (taylor_sum U j F x cnt (UU_open N D) (FF_smooth N D) HU eps He) as (del & Hd & HT). exists del. split; [exact Hd|]. intros t Nt Ht. destruct (HT t Ht) as [UT BT].
        rewrite (eval_quotient fs _ HF). destruct (V' x t Nt Dx) as (_ & _ & <- & <-). rewrite (pull_val a num x t Pn Nt), (pull_val b den x t Pd Nt). fold N D.
        apply UU_spec in UT as (_ & _ & UT). assert (Pa : powerRZ t a <> 0) by (apply powerRZ_NOR, Nt). assert (Pb : powerRZ t b <> 0) by (apply powerRZ_NOR, Nt).
        assert (E1 : powerRZ t a * eval (upd x j t) (Pol N) / (powerRZ t b * eval (upd x j t) (Pol D)) = powerRZ t (a - b) * F (upd x j t)).
        { unfold F. rewrite FF_spec. unfold Z.sub. rewrite powerRZ_add, powerRZ_neg' by exact Nt. field. split; assumption. }
        rewrite E1.
        assert (E2 : eval (upd x j t) (Pol (combine (c0 :: r) (map rowf (seq 0 (S cnt))))) = powerRZ t (a - b) * sumR (map (fun p => / INR (fact p) * dN p j F (upd x j 0) * t ^ p) (seq 0 (S cnt)))).
        { rewrite eval_pol. assert (MR : forall i, mono (upd x j t) 0 (rowf i) = powerRZ t (a - b) * t ^ i).
          { intros i. unfold rowf, row. destruct (mono_set nv j t Hj (setk j (Z.of_nat i - (- a + b)) (zeros nv)) x 0 j ltac:(rewrite setk_len; unfold zeros; rewrite repeat_length; exact Hj)) as [M1 _]. cbn [Nat.add] in M1. rewrite M1, setk_setk, getk_setk, Nat.eqb_refl by (unfold zeros; rewrite repeat_length; exact Hj). replace (mono x 0 (setk j 0 (zeros nv))) with 1.
            - replace (Z.of_nat i - (- a + b))%Z with ((a - b) + Z.of_nat i)%Z by lia. rewrite powerRZ_add, <- pow_powerRZ by exact Nt. ring.
            - symmetry. replace (setk j 0 (zeros nv)) with (zeros nv); [apply mono_zeros|]. unfold zeros. clear. revert j. induction nv as [|k IH]; intros [|i]; cbn [repeat setk]; try reflexivity. rewrite <- IH. reflexivity. }
          rewrite <- sumR_scal, map_map. change (c0 :: r) with ([] ++ c0 :: r). assert (AL : c0 :: cs = (c0 :: r) ++ drop) by (cbn [app]; rewrite Al; reflexivity). rewrite AL in KC. clear - KC Zl MR. cbn [app].
          revert KC. generalize (c0 :: r) as l. generalize (seq 0 (S cnt)) as qs. induction qs as [|q qs IH]; intros l K.
          - inversion K as [E|]. destruct l as [|u l]; [reflexivity|discriminate].
          - destruct l as [|u l]; cbn [app] in K.
            + cbn [combine]. unfold tval. cbn [map]. change (sumR []) with 0. rewrite sumR_cons. inversion K as [|q0 c l0 m0 [_ K1] K2 E1 E2]. subst. apply Forall_cons_iff in Zl as [Z1 Z2]. specialize (K1 0). rewrite Z1 in K1. rewrite <- K1.
              assert (ZZ : forall qs drop, Forall szero drop -> Forall2 (fun q c => dom x c /\ forall s, eval (upd x j s) c = / INR (fact q) * dN q j F (upd x j 0)) qs drop -> sumR (map (fun q => powerRZ t (a - b) * (/ INR (fact q) * dN q j F (upd x j 0) * t ^ q)) qs) = 0).
              { clear. intros qs drop HZ HK. induction HK as [|q c qs drop [_ K1] _ IH]; [reflexivity|]. apply Forall_cons_iff in HZ as [Z1 HZ]. cbn [map]. rewrite sumR_cons, (IH HZ). specialize (K1 0). rewrite Z1 in K1. rewrite <- K1. ring. }
              rewrite (ZZ qs _ Z2 K2). ring.
            + inversion K as [|q0 c l0 m0 [_ K1] K2 E1 E2]. subst. cbn [map combine]. rewrite tval_cons, sumR_cons, (IH l K2). cbn [fst snd]. rewrite K1, MR. ring. }
        rewrite E2, <- Rmult_minus_distr_l, Rabs_mult. replace order with ((a - b) + Z.of_nat cnt)%Z by lia. rewrite powerRZ_add, Rabs_mult, <- pow_powerRZ, <- RPow_abs by exact Nt. rewrite (Rmult_comm eps), Rmult_assoc. apply Rmult_le_compat_l; [apply Rabs_pos|]. rewrite Rmult_comm. exact BT.
Qed.
End Sing.
