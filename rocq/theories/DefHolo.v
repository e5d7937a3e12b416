(** Sums, products and quotients of complex differentiable functions. *)
From Coq Require Import Lia Lra.
From Verif Require Import DefSpec DefCont.
From Coquelicot Require Import Coquelicot.
Local Open Scope R_scope.
Lemma mult_close (a b : C) eps : 0 < eps -> exists d, 0 < d /\ forall a' b', Cmod (Cminus a' a) < d -> Cmod (Cminus b' b) < d -> Cmod (Cminus (Cmult a' b') (Cmult a b)) < eps.
Proof.
  intros He. set (M := Cmod a + Cmod b + 1 + eps). pose proof (Cmod_ge_0 a) as P1. pose proof (Cmod_ge_0 b) as P2.
  assert (HM : 0 < M) by (unfold M; lra). set (e0 := eps / (2 * M)). assert (He0 : 0 < e0) by (apply Rdiv_lt_0_compat; lra).
  assert (Ee : e0 * M = eps / 2) by (unfold e0; field; lra). assert (HM1 : M >= 1) by (unfold M; lra).
  assert (e0 <= eps / 2) by nra. exists e0. split; [exact He0|]. intros a' b' A B.
  replace (Cminus (Cmult a' b') (Cmult a b)) with (Cplus (Cmult (Cminus a' a) (Cminus b' b)) (Cplus (Cmult a (Cminus b' b)) (Cmult (Cminus a' a) b))) by ring.
  eapply Rle_lt_trans; [apply Cmod_triangle|]. rewrite Cmod_mult. eapply Rle_lt_trans; [apply Rplus_le_compat_l, Cmod_triangle|]. rewrite !Cmod_mult.
  pose proof (Cmod_ge_0 (Cminus a' a)) as P3. pose proof (Cmod_ge_0 (Cminus b' b)) as P4.
  set (u := Cmod (Cminus a' a)) in *. set (v := Cmod (Cminus b' b)) in *.
  assert (u * v <= e0 * e0) by nra. assert (Cmod a * v <= Cmod a * e0) by nra. assert (u * Cmod b <= e0 * Cmod b) by nra.
  assert (e0 * e0 + Cmod a * e0 + e0 * Cmod b = e0 * (e0 + Cmod a + Cmod b)) by ring.
  assert (e0 * (e0 + Cmod a + Cmod b) <= e0 * M) by (apply Rmult_le_compat_l; unfold M; lra). lra.
Qed.
Lemma inv_close (a : C) eps : a <> RtoC 0 -> 0 < eps -> exists d, 0 < d /\ forall a', Cmod (Cminus a' a) < d -> Cmod a' >= Cmod a / 2 /\ Cmod (Cminus (Cinv a') (Cinv a)) < eps.
Proof.
  intros Ha He. assert (Hm : 0 < Cmod a) by (apply Cmod_gt_0, Ha). set (e0 := Rmin (Cmod a / 2) (eps * (Cmod a * Cmod a) / 4)).
  assert (0 < e0). { apply Rmin_glb_lt; [lra|]. assert (0 < Cmod a * Cmod a) by nra. assert (0 < eps * (Cmod a * Cmod a)) by nra. lra. }
  exists e0. split; [assumption|]. intros a' H'. pose proof (Rmin_l (Cmod a / 2) (eps * (Cmod a * Cmod a) / 4)). pose proof (Rmin_r (Cmod a / 2) (eps * (Cmod a * Cmod a) / 4)). fold e0 in H0, H1.
  assert (L : Cmod a' >= Cmod a / 2).
  { assert (T : Cmod a <= Cmod a' + Cmod (Cminus a' a)). { replace a with (Cplus a' (Copp (Cminus a' a))) at 1 by ring. eapply Rle_trans; [apply Cmod_triangle|]. rewrite Cmod_opp. lra. } lra. }
  split; [exact L|]. assert (Ha' : a' <> RtoC 0). { intros E. rewrite E, Cmod_0 in L. lra. }
  replace (Cminus (Cinv a') (Cinv a)) with (Copp (Cdiv (Cminus a' a) (Cmult a a'))) by (field; auto). rewrite Cmod_opp, Cmod_div by (apply Cmult_neq_0; assumption). rewrite Cmod_mult.
  apply Rmult_lt_reg_r with (Cmod a * Cmod a'); [nra|]. unfold Rdiv. rewrite Rmult_assoc, Rinv_l, Rmult_1_r by nra.
  assert (Cmod a * (Cmod a / 2) <= Cmod a * Cmod a') by (apply Rmult_le_compat_l; lra).
  apply Rlt_le_trans with (eps * (Cmod a * Cmod a) / 4); [lra|]. 
  apply Rle_trans with (eps * (Cmod a * (Cmod a / 2))); [|apply Rmult_le_compat_l; lra]. assert (0 <= eps * (Cmod a * Cmod a)) by (apply Rmult_le_pos; nra). 
  replace (eps * (Cmod a * (Cmod a / 2))) with (eps * (Cmod a * Cmod a) / 2) by field. lra.
Qed.
Section H.
Variable n : nat.
Variable z : list C.
Lemma cclose_weaken d e w : d <= e -> cclose n d w z -> cclose n e w z.
Proof. intros H [L Q]. split; [exact L|]. intros j Hj. eapply Rlt_le_trans; [apply Q, Hj|exact H]. Qed.
Lemma cc_const c : ccontinuous_at n (fun _ => c) z.
Proof. intros eps He. exists 1. split; [lra|]. intros w _. replace (Cminus c c) with (RtoC 0) by ring. rewrite Cmod_0. exact He. Qed.
Lemma cc_plus f g : ccontinuous_at n f z -> ccontinuous_at n g z -> ccontinuous_at n (fun w => Cplus (f w) (g w)) z.
Proof.
  intros Hf Hg eps He. destruct (Hf (eps / 2) ltac:(lra)) as (d & Hd & A), (Hg (eps / 2) ltac:(lra)) as (e & He' & B). exists (Rmin d e). split; [apply Rmin_glb_lt; assumption|].
  intros w Hw. specialize (A w (cclose_weaken _ _ _ (Rmin_l d e) Hw)). specialize (B w (cclose_weaken _ _ _ (Rmin_r d e) Hw)).
  replace (Cminus (Cplus (f w) (g w)) (Cplus (f z) (g z))) with (Cplus (Cminus (f w) (f z)) (Cminus (g w) (g z))) by ring.
  eapply Rle_lt_trans; [apply Cmod_triangle|]. lra.
Qed.
Lemma cc_mult f g : ccontinuous_at n f z -> ccontinuous_at n g z -> ccontinuous_at n (fun w => Cmult (f w) (g w)) z.
Proof.
  intros Hf Hg eps He. destruct (mult_close (f z) (g z) eps He) as (c & Hc & M).
  destruct (Hf c Hc) as (d & Hd & A), (Hg c Hc) as (e & He' & B). exists (Rmin d e). split; [apply Rmin_glb_lt; assumption|].
  intros w Hw. apply M; [apply (A w (cclose_weaken _ _ _ (Rmin_l d e) Hw))|apply (B w (cclose_weaken _ _ _ (Rmin_r d e) Hw))].
Qed.
Lemma cc_inv f : f z <> RtoC 0 -> ccontinuous_at n f z -> ccontinuous_at n (fun w => Cinv (f w)) z.
Proof.
  intros H0 Hf eps He. destruct (inv_close (f z) eps H0 He) as (c & Hc & M). destruct (Hf c Hc) as (d & Hd & A). exists d. split; [exact Hd|]. intros w Hw. apply M, A, Hw.
Qed.
Lemma dist1_pos w : 0 <= dist1 n w z.
Proof. induction n; cbn [dist1]; [lra|]. pose proof (Cmod_ge_0 (Cminus (cpt w n0) (cpt z n0))). lra. Qed.
Lemma csum_lin (f g : nat -> C) (a b : C) (u : nat -> C) m : csum m (fun j => Cmult (Cplus (Cmult (f j) b) (Cmult a (g j))) (u j)) = Cplus (Cmult b (csum m (fun j => Cmult (f j) (u j)))) (Cmult a (csum m (fun j => Cmult (g j) (u j)))).
Proof. induction m as [|m IH]; cbn [csum]; [ring|]. rewrite IH. ring. Qed.
Lemma csum_scal (f : nat -> C) (a : C) (u : nat -> C) m : csum m (fun j => Cmult (Cmult a (f j)) (u j)) = Cmult a (csum m (fun j => Cmult (f j) (u j))).
Proof. induction m as [|m IH]; cbn [csum]; [ring|]. rewrite IH. ring. Qed.
Lemma holo_const c : holomorphic_at n (fun _ => c) (fun _ _ => RtoC 0) z.
Proof.
  split; [|intros; apply cc_const]. intros eps He. exists 1. split; [lra|]. intros w _.
  replace (csum n _) with (RtoC 0). { replace (Cminus (Cminus c c) (RtoC 0)) with (RtoC 0) by ring. rewrite Cmod_0. pose proof (dist1_pos w). nra. }
  induction n; cbn [csum]; [reflexivity|]. rewrite <- IHn0. ring.
Qed.
Definition dcoord (i j : nat) : C := if Nat.eqb j i then RtoC 1 else RtoC 0.
Lemma csum_single (u : nat -> C) i m : csum m (fun j => Cmult (dcoord i j) (u j)) = if Nat.ltb i m then u i else RtoC 0.
Proof.
  induction m as [|m IH]; cbn [csum]; [reflexivity|]. rewrite IH. unfold dcoord. destruct (Nat.eqb_spec m i) as [->|N].
  - rewrite (proj2 (Nat.ltb_ge i i) (le_n i)), (proj2 (Nat.ltb_lt i (S i)) (Nat.lt_succ_diag_r i)). ring.
  - destruct (Nat.ltb_spec i m); destruct (Nat.ltb_spec i (S m)); try lia; ring.
Qed.
Lemma holo_coord i : (i < n)%nat -> holomorphic_at n (fun w => cpt w i) (fun j _ => dcoord i j) z.
Proof.
  intros Hi. split; [|intros; apply cc_const]. intros eps He. exists 1. split; [lra|]. intros w _.
  rewrite csum_single. rewrite (proj2 (Nat.ltb_lt i n) Hi). replace (Cminus _ _) with (RtoC 0) by ring. rewrite Cmod_0. pose proof (dist1_pos w). nra.
Qed.
Lemma holo_plus G1 D1 G2 D2 : holomorphic_at n G1 D1 z -> holomorphic_at n G2 D2 z -> holomorphic_at n (fun w => Cplus (G1 w) (G2 w)) (fun j w => Cplus (D1 j w) (D2 j w)) z.
Proof.
  intros [A1 B1] [A2 B2]. split; [|intros j Hj; apply cc_plus; [apply B1, Hj|apply B2, Hj]].
  intros eps He. destruct (A1 (eps / 2) ltac:(lra)) as (d & Hd & P), (A2 (eps / 2) ltac:(lra)) as (e & He' & Q). exists (Rmin d e). split; [apply Rmin_glb_lt; assumption|].
  intros w Hw. specialize (P w (cclose_weaken _ _ _ (Rmin_l d e) Hw)). specialize (Q w (cclose_weaken _ _ _ (Rmin_r d e) Hw)).
  rewrite (csum_ext n _ (fun j => Cmult (Cplus (Cmult (D1 j z) (RtoC 1)) (Cmult (RtoC 1) (D2 j z))) (Cminus (cpt w j) (cpt z j)))) by (intros; ring).
  rewrite csum_lin. set (S1 := csum n (fun j => Cmult (D1 j z) (Cminus (cpt w j) (cpt z j)))) in *. set (S2 := csum n (fun j => Cmult (D2 j z) (Cminus (cpt w j) (cpt z j)))) in *.
  match goal with |- Cmod ?X <= _ => replace X with (Cplus (Cminus (Cminus (G1 w) (G1 z)) S1) (Cminus (Cminus (G2 w) (G2 z)) S2)) by ring end.
  eapply Rle_trans; [apply Cmod_triangle|]. replace (eps * dist1 n w z) with (eps / 2 * dist1 n w z + eps / 2 * dist1 n w z) by field. apply Rplus_le_compat; assumption.
Qed.
(** Lipschitz near [z] *)
Lemma holo_lip G DG : holomorphic_at n G DG z -> exists K d, 0 < K /\ 0 < d /\ forall w, cclose n d w z -> Cmod (Cminus (G w) (G z)) <= K * dist1 n w z.
Proof.
  intros [H _]. destruct (H 1 ltac:(lra)) as (d & Hd & Q). destruct (max_bound n (fun j => DG j z)) as (K & HK & B). exists (1 + K), d. split; [lra|]. split; [exact Hd|].
  intros w Hw. specialize (Q w Hw). pose proof (csum_mod n (fun j => DG j z) K w z B) as HS. set (S := csum n _) in *.
  replace (Cminus (G w) (G z)) with (Cplus (Cminus (Cminus (G w) (G z)) S) S) by ring. eapply Rle_trans; [apply Cmod_triangle|]. rewrite Rmult_plus_distr_r. apply Rplus_le_compat; assumption.
Qed.
Lemma holo_mult G1 D1 G2 D2 : holomorphic_at n G1 D1 z -> holomorphic_at n G2 D2 z ->
  holomorphic_at n (fun w => Cmult (G1 w) (G2 w)) (fun j w => Cplus (Cmult (D1 j w) (G2 w)) (Cmult (G1 w) (D2 j w))) z.
Proof.
  intros H1 H2. pose proof (holo_cont _ _ _ _ H1) as C1. pose proof (holo_cont _ _ _ _ H2) as C2. pose proof (holo_lip _ _ H1) as (K & dk & HK & Hdk & LK).
  destruct H1 as [A1 B1], H2 as [A2 B2]. split; [|intros j Hj; apply cc_plus; apply cc_mult; auto].
  intros eps He. set (a := Cmod (G1 z)). set (b := Cmod (G2 z)). pose proof (Cmod_ge_0 (G1 z)) as Pa. pose proof (Cmod_ge_0 (G2 z)) as Pb. fold a in Pa. fold b in Pb.
  destruct (A1 (eps / 3 / (b + 1))) as (d1 & Hd1 & Q1); [apply Rdiv_lt_0_compat; lra|].
  destruct (A2 (eps / 3 / (a + 1))) as (d2 & Hd2 & Q2); [apply Rdiv_lt_0_compat; lra|].
  destruct (C2 (eps / 3 / K)) as (d3 & Hd3 & Q3); [apply Rdiv_lt_0_compat; lra|].
  exists (Rmin (Rmin d1 d2) (Rmin d3 dk)). split; [repeat apply Rmin_glb_lt; assumption|]. intros w Hw.
  specialize (Q1 w (cclose_weaken _ _ _ (Rle_trans _ _ _ (Rmin_l _ _) (Rmin_l d1 d2)) Hw)). specialize (Q2 w (cclose_weaken _ _ _ (Rle_trans _ _ _ (Rmin_l _ _) (Rmin_r d1 d2)) Hw)).
  specialize (Q3 w (cclose_weaken _ _ _ (Rle_trans _ _ _ (Rmin_r _ _) (Rmin_l d3 dk)) Hw)). specialize (LK w (cclose_weaken _ _ _ (Rle_trans _ _ _ (Rmin_r _ _) (Rmin_r d3 dk)) Hw)).
  rewrite csum_lin. set (S1 := csum n (fun j => Cmult (D1 j z) (Cminus (cpt w j) (cpt z j)))) in *. set (S2 := csum n (fun j => Cmult (D2 j z) (Cminus (cpt w j) (cpt z j)))) in *. pose proof (dist1_pos w) as D0. set (D := dist1 n w z) in *.
  match goal with |- Cmod ?X <= _ => replace X with (Cplus (Cmult (Cminus (Cminus (G1 w) (G1 z)) S1) (G2 z)) (Cplus (Cmult (G1 z) (Cminus (Cminus (G2 w) (G2 z)) S2)) (Cmult (Cminus (G1 w) (G1 z)) (Cminus (G2 w) (G2 z))))) by ring end.
  eapply Rle_trans; [apply Cmod_triangle|]. eapply Rle_trans; [apply Rplus_le_compat_l, Cmod_triangle|]. rewrite !Cmod_mult. fold a b.
  assert (T1 : Cmod (Cminus (Cminus (G1 w) (G1 z)) S1) * b <= eps / 3 * D).
  { apply Rle_trans with (eps / 3 / (b + 1) * D * (b + 1)); [|right; field; lra]. pose proof (Cmod_ge_0 (Cminus (Cminus (G1 w) (G1 z)) S1)). apply Rmult_le_compat; lra. }
  assert (T2 : a * Cmod (Cminus (Cminus (G2 w) (G2 z)) S2) <= eps / 3 * D).
  { apply Rle_trans with ((a + 1) * (eps / 3 / (a + 1) * D)); [|right; field; lra]. pose proof (Cmod_ge_0 (Cminus (Cminus (G2 w) (G2 z)) S2)). apply Rmult_le_compat; lra. }
  assert (T3 : Cmod (Cminus (G1 w) (G1 z)) * Cmod (Cminus (G2 w) (G2 z)) <= eps / 3 * D).
  { apply Rle_trans with (K * D * (eps / 3 / K)); [|right; field; lra]. apply Rmult_le_compat; try apply Cmod_ge_0; lra. }
  lra.
Qed.
Lemma holo_inv G DG : G z <> RtoC 0 -> holomorphic_at n G DG z ->
  holomorphic_at n (fun w => Cinv (G w)) (fun j w => Cmult (Copp (Cmult (Cinv (G w)) (Cinv (G w)))) (DG j w)) z.
Proof.
  intros H0 H. pose proof (holo_cont _ _ _ _ H) as C1. pose proof (cc_inv _ H0 C1) as Ci1. pose proof (holo_lip _ _ H) as (K & dk & HK & Hdk & LK). destruct H as [A B]. split.
  2: { intros j Hj. apply cc_mult; [|apply B, Hj]. intros eps He. destruct (cc_mult _ _ Ci1 Ci1 eps He) as (d & Hd & Q). exists d. split; [exact Hd|]. intros w Hw. specialize (Q w Hw).
       replace (Cminus _ _) with (Copp (Cminus (Cmult (Cinv (G w)) (Cinv (G w))) (Cmult (Cinv (G z)) (Cinv (G z))))) by ring. rewrite Cmod_opp. exact Q. }
  intros eps He. assert (Hm : 0 < Cmod (G z)) by (apply Cmod_gt_0, H0). set (m := Cmod (G z)) in *. assert (Hm2 : 0 < m * m) by nra.
  destruct (A (eps / 2 * (m * m))) as (d1 & Hd1 & Q1); [nra|].
  destruct (C1 (eps / 2 * (m * m) / K * (m / 2))) as (d2 & Hd2 & Q2). { apply Rmult_lt_0_compat; [|lra]. apply Rdiv_lt_0_compat; [nra|lra]. }
  destruct (inv_close (G z) 1 H0 ltac:(lra)) as (c & Hc & M). destruct (C1 c Hc) as (d3 & Hd3 & Q3).
  exists (Rmin (Rmin d1 d2) (Rmin d3 dk)). split; [repeat apply Rmin_glb_lt; assumption|]. intros w Hw.
  specialize (Q1 w (cclose_weaken _ _ _ (Rle_trans _ _ _ (Rmin_l _ _) (Rmin_l d1 d2)) Hw)). specialize (Q2 w (cclose_weaken _ _ _ (Rle_trans _ _ _ (Rmin_l _ _) (Rmin_r d1 d2)) Hw)).
  specialize (Q3 w (cclose_weaken _ _ _ (Rle_trans _ _ _ (Rmin_r _ _) (Rmin_l d3 dk)) Hw)). specialize (LK w (cclose_weaken _ _ _ (Rle_trans _ _ _ (Rmin_r _ _) (Rmin_r d3 dk)) Hw)).
  destruct (M _ Q3) as [L _]. fold m in L. assert (Hw0 : G w <> RtoC 0). { intros E. rewrite E, Cmod_0 in L. lra. }
  rewrite csum_scal. set (S := csum n _) in *. pose proof (dist1_pos w) as D0. set (D := dist1 n w z) in *.
  replace (Cminus _ _) with (Cplus (Copp (Cdiv (Cminus (Cminus (G w) (G z)) S) (Cmult (G z) (G z)))) (Cdiv (Cmult (Cminus (G w) (G z)) (Cminus (G w) (G z))) (Cmult (Cmult (G z) (G z)) (G w)))) by (field; auto).
  eapply Rle_trans; [apply Cmod_triangle|]. rewrite Cmod_opp, !Cmod_div by (repeat apply Cmult_neq_0; assumption). rewrite !Cmod_mult. fold m.
  assert (T1 : Cmod (Cminus (Cminus (G w) (G z)) S) / (m * m) <= eps / 2 * D).
  { apply Rmult_le_reg_r with (m * m); [exact Hm2|]. unfold Rdiv at 1. rewrite Rmult_assoc, Rinv_l, Rmult_1_r by lra. lra. }
  assert (T2 : Cmod (Cminus (G w) (G z)) * Cmod (Cminus (G w) (G z)) / (m * m * Cmod (G w)) <= eps / 2 * D).
  { apply Rmult_le_reg_r with (m * m * Cmod (G w)); [nra|]. unfold Rdiv at 1. rewrite Rmult_assoc, Rinv_l, Rmult_1_r by nra.
    apply Rle_trans with (K * D * (eps / 2 * (m * m) / K * (m / 2))); [apply Rmult_le_compat; try apply Cmod_ge_0; lra|].
    replace (K * D * (eps / 2 * (m * m) / K * (m / 2))) with (eps / 2 * D * (m * m * (m / 2))) by (field; lra).
    apply Rmult_le_compat_l; [apply Rmult_le_pos; lra|]. apply Rmult_le_compat_l; lra. }
  lra.
Qed.
End H.
Lemma holo_ext n G1 D1 G2 D2 z : (forall w, length w = n -> G1 w = G2 w) -> (forall j w, length w = n -> (j < n)%nat -> D1 j w = D2 j w) -> length z = n -> holomorphic_at n G1 D1 z -> holomorphic_at n G2 D2 z.
Proof.
  intros EG ED L [A B]. split.
  - intros eps He. destruct (A eps He) as (d & Hd & Q). exists d. split; [exact Hd|]. intros w Hw. rewrite <- !EG by (try apply Hw; exact L).
    rewrite (csum_ext n _ (fun j => Cmult (D1 j z) (Cminus (cpt w j) (cpt z j)))) by (intros j Hj; rewrite ED by assumption; reflexivity). apply Q, Hw.
  - intros j Hj eps He. destruct (B j Hj eps He) as (d & Hd & Q). exists d. split; [exact Hd|]. intros w Hw. rewrite <- !ED; try assumption; [|apply Hw]. apply Q, Hw.
Qed.
