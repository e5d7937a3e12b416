(** Symmetry of second derivatives; mixed derivatives do not depend on the order. *)
From Coq Require Import FunctionalExtensionality Permutation.
From Verif Require Import ExprSpec ExprSmooth.
Local Open Scope R_scope.

Section Schwarz.
Variables (x : point) (i j : nat).
Hypothesis Hij : i <> j.
Let pt (s t : R) : point := upd (upd x i s) j t.
Lemma pt_i s t : pt s t i = s. Proof. unfold pt. rewrite upd_other by exact Hij. apply upd_at. Qed.
Lemma pt_j s t : pt s t j = t. Proof. apply upd_at. Qed.
Lemma pd_pt_i F s t l : pd i F (pt s t) l -> derivable_pt_lim (fun u => F (pt u t)) s l.
Proof.
  unfold pd. rewrite pt_i. apply (dlim_ext _ _ _ _ 1 Rlt_0_1). intros u _. f_equal. unfold pt. rewrite (upd_comm _ j i) by congruence. rewrite upd_upd. reflexivity.
Qed.
Lemma pd_pt_j F s t l : pd j F (pt s t) l -> derivable_pt_lim (fun u => F (pt s u)) t l.
Proof. unfold pd. rewrite pt_j. apply (dlim_ext _ _ _ _ 1 Rlt_0_1). intros u _. f_equal. unfold pt. apply upd_upd. Qed.
Lemma pt_near d s t : x i <= s < x i + d -> x j <= t < x j + d -> near d x (pt s t).
Proof.
  intros Hs Ht k. unfold pt, upd. destruct (Nat.eqb_spec k j) as [->|]; [apply Rabs_def1; lra|]. destruct (Nat.eqb_spec k i) as [->|]; [apply Rabs_def1; lra|]. replace (x k - x k) with 0 by ring. rewrite Rabs_R0. lra.
Qed.
Lemma schwarz_half (U : point -> Prop) F Fi Fij d h : (forall y, near d x y -> U y) -> 0 < h < d ->
  (forall y, U y -> pd i F y (Fi y)) -> (forall y, U y -> pd j Fi y (Fij y)) ->
  exists y, near d x y /\ F (pt (x i + h) (x j + h)) - F (pt (x i + h) (x j)) - F (pt (x i) (x j + h)) + F (pt (x i) (x j)) = Fij y * (h * h).
Proof.
  intros HU Hh H1 H2.
  destruct (MVT_cor2 (fun s => F (pt s (x j + h)) - F (pt s (x j))) (fun s => Fi (pt s (x j + h)) - Fi (pt s (x j))) (x i) (x i + h)) as (c & E1 & Hc); [lra| |].
  { intros c Hc. apply (derivable_pt_lim_minus (fun s => F (pt s (x j + h))) (fun s => F (pt s (x j)))); apply pd_pt_i, H1, HU, pt_near; lra. }
  destruct (MVT_cor2 (fun t => Fi (pt c t)) (fun t => Fij (pt c t)) (x j) (x j + h)) as (c' & E2 & Hc'); [lra| |].
  { intros t Ht. apply pd_pt_j, H2, HU, pt_near; lra. }
  exists (pt c c'). split; [apply pt_near; lra|]. rewrite E2 in E1. replace (x i + h - x i) with h in E1 by ring. replace (x j + h - x j) with h in E1 by ring. lra.
Qed.
End Schwarz.
Lemma schwarz (U : point -> Prop) F i j Fi Fj Fij Fji : opens U -> cont U Fij -> cont U Fji ->
  (forall y, U y -> pd i F y (Fi y)) -> (forall y, U y -> pd j Fi y (Fij y)) ->
  (forall y, U y -> pd j F y (Fj y)) -> (forall y, U y -> pd i Fj y (Fji y)) -> forall x, U x -> Fij x = Fji x.
Proof.
  intros HU C1 C2 H1 H2 H3 H4 x Hx. destruct (Nat.eq_dec i j) as [<-|Hij].
  { apply (pd_unique i Fi x); [apply H2, Hx|]. apply (pd_ext U i Fj); [exact HU|exact Hx| |apply H4, Hx]. intros y Hy. apply (pd_unique i F y); [apply H3, Hy|apply H1, Hy]. }
  destruct (HU x Hx) as (d0 & D0 & N0). apply cond_eq. intros eps He.
  destruct (C1 x Hx (eps / 2) ltac:(lra)) as (d1 & D1 & N1). destruct (C2 x Hx (eps / 2) ltac:(lra)) as (d2 & D2 & N2).
  set (d := Rmin d0 (Rmin d1 d2)). assert (Hd : 0 < d) by (repeat apply Rmin_pos; assumption).
  assert (L0 : d <= d0) by apply Rmin_l. assert (L1 : d <= d1) by (eapply Rle_trans; [apply Rmin_r|apply Rmin_l]). assert (L2 : d <= d2) by (eapply Rle_trans; [apply Rmin_r|apply Rmin_r]).
  assert (HN : forall y, near d x y -> U y) by (intros y Hy; apply N0, (near_le _ _ _ _ L0 Hy)).
  destruct (schwarz_half x i j Hij U F Fi Fij d (d / 2) HN ltac:(lra) H1 H2) as (y & Y1 & Y2).
  destruct (schwarz_half x j i (not_eq_sym Hij) U F Fj Fji d (d / 2) HN ltac:(lra) H3 H4) as (z & Z1 & Z2).
  rewrite !(upd_comm x j i) in Z2 by congruence.
  assert (E : Fij y = Fji z). { apply (Rmult_eq_reg_r (d / 2 * (d / 2))); [lra|]. apply Rmult_integral_contrapositive; lra. }
  assert (A1 := N1 y (near_le _ _ _ _ L1 Y1)). assert (A2 := N2 z (near_le _ _ _ _ L2 Z1)).
  apply Rabs_def2 in A1, A2. apply Rabs_def1; lra.
Qed.

(** ** derivatives along a list of directions *)
Lemma smooth_ext (U : point -> Prop) F G : opens U -> (forall x, U x -> F x = G x) -> smooth U F -> smooth U G.
Proof. intros HU E H k. apply (Ck_ext k U F); auto. Qed.
Lemma smooth_pd (U : point -> Prop) G i : opens U -> smooth U G -> exists H, (forall x, U x -> pd i G x (H x)) /\ smooth U H.
Proof.
  intros HU HG. destruct (HG 1%nat) as [_ H1]. destruct (H1 i) as (H & H2 & _). exists H. split; [exact H2|]. intros k. destruct (HG (S k)) as [_ H3]. destruct (H3 i) as (H' & H4 & H5). apply (Ck_ext k U H'); [exact HU| |exact H5]. intros x Hx. apply (pd_unique i G x); auto.
Qed.
Section Along.
Variables (U : point -> Prop) (F : point -> R).
Hypothesis HU : opens U.
Hypothesis HF : smooth U F.
Lemma along_exists p : exists G, along U F p G /\ smooth U G.
Proof. induction p as [|i p (G & H1 & H2)]; [exists F; split; [intros x _; reflexivity|exact HF]|]. destruct (smooth_pd U G i HU H2) as (H & H3 & H4). exists H. split; [exists G; auto|exact H4]. Qed.
Lemma along_fun p : forall G G', along U F p G -> along U F p G' -> forall x, U x -> G x = G' x.
Proof.
  induction p as [|i p IH]; intros G G' H H' x Hx; [rewrite H, H' by exact Hx; reflexivity|]. destruct H as (K & K1 & K2), H' as (K' & K1' & K2'). apply (pd_unique i K x); [apply K2, Hx|]. apply (pd_ext U i K'); [exact HU|exact Hx| |apply K2', Hx]. apply IH; assumption.
Qed.
Lemma along_ext p G G' : (forall x, U x -> G x = G' x) -> along U F p G -> along U F p G'.
Proof. intros E. destruct p as [|i p]; cbn [along]; [intros H x Hx; rewrite <- E by exact Hx; apply H, Hx|]. intros (H & H1 & H2). exists H. split; [exact H1|]. intros x Hx. rewrite <- E by exact Hx. apply H2, Hx. Qed.
Lemma along_smooth p G : along U F p G -> smooth U G.
Proof. intros H. destruct (along_exists p) as (G' & H1 & H2). apply (smooth_ext U G'); [exact HU| |exact H2]. apply (along_fun p); assumption. Qed.
Lemma along_swap i j p G : along U F (i :: j :: p) G -> along U F (j :: i :: p) G.
Proof.
  intros HG. pose proof (along_smooth _ _ HG) as SG. destruct HG as (Hj & (H & H1 & H2) & H3). pose proof (along_smooth _ _ H1) as SH.
  destruct (smooth_pd U H i HU SH) as (Hi & H4 & S4). destruct (smooth_pd U Hi j HU S4) as (K & H5 & S5).
  exists Hi. split; [exists H; split; assumption|]. intros x Hx. replace (G x) with (K x); [apply H5, Hx|].
  apply (schwarz U H i j Hi Hj K G); try assumption; [apply (Ck_cont 0), S5|apply (Ck_cont 0), SG].
Qed.
Lemma along_perm p q : Permutation p q -> forall G, along U F p G -> along U F q G.
Proof.
  induction 1 as [|i p q HP IH|i j p|p q r H1 IH1 H2 IH2]; intros G HG; [exact HG| |apply along_swap, HG|apply IH2, IH1, HG].
  destruct HG as (H & H1 & H2). exists H. split; [apply IH, H1|exact H2].
Qed.
Variable nv : nat.
Lemma mixed_unique n G G' : mixed nv U F n G -> mixed nv U F n G' -> forall x, U x -> G x = G' x.
Proof.
  intros (_ & p & Hp & Cp & A) (_ & q & Hq & Cq & B). apply (along_fun p); [exact A|]. apply (along_perm q); [|exact B]. apply (Permutation_count_occ Nat.eq_dec). intros k. specialize (Cp k). specialize (Cq k). lia.
Qed.
Lemma setk_len i v (k : list Z) : length (setk i v k) = length k.
Proof. revert i. induction k as [|y k IH]; intros [|i]; cbn; [reflexivity|reflexivity|reflexivity|rewrite IH; reflexivity]. Qed.
Lemma getk_setk i v (k : list Z) j : (i < length k)%nat -> getk j (setk i v k) = if Nat.eqb j i then v else getk j k.
Proof.
  revert i j. induction k as [|y k IH]; intros [|i] [|j] H; cbn in H; try lia; try reflexivity. unfold getk in *. cbn [setk nth Nat.eqb]. apply IH. lia.
Qed.
Lemma mixed_step i n G G' : (i < nv)%nat -> mixed nv U F n G -> (forall x, U x -> pd i G x (G' x)) -> mixed nv U F (setk i (getk i n + 1) n) G'.
Proof.
  intros Hi (Hl & p & Hp & Cp & A) HG. split; [rewrite setk_len; exact Hl|]. exists (i :: p). split; [constructor; assumption|]. split; [|exists G; split; assumption].
  intros k. rewrite getk_setk by lia. cbn [count_occ]. destruct (Nat.eq_dec i k) as [<-|N]; [rewrite Nat.eqb_refl, Cp; lia|]. destruct (Nat.eqb_spec k i); [congruence|]. apply Cp.
Qed.
Lemma mixed_deriv i n G G' : (i < nv)%nat -> mixed nv U F n G -> mixed nv U F (setk i (getk i n + 1) n) G' -> forall x, U x -> pd i G x (G' x).
Proof.
  intros Hi HG HG' x Hx. assert (S : smooth U G) by (destruct HG as (_ & p & _ & _ & A); apply (along_smooth p), A).
  destruct (smooth_pd U G i HU S) as (H & H1 & _). rewrite (mixed_unique _ _ _ HG' (mixed_step i n G H Hi HG H1) x Hx). apply H1, Hx.
Qed.
Lemma mixed_ext n G G' : (forall x, U x -> G x = G' x) -> mixed nv U F n G -> mixed nv U F n G'.
Proof. intros E (Hl & p & Hp & Cp & A). split; [exact Hl|]. exists p. split; [exact Hp|]. split; [exact Cp|]. apply (along_ext p G); assumption. Qed.
Lemma mixed_zero : mixed nv U F (zeros nv) F.
Proof.
  split; [apply repeat_length|]. exists []. split; [constructor|]. split; [|intros x _; reflexivity]. intros k. unfold getk, zeros. cbn. destruct (nth_in_or_default k (repeat 0%Z nv) 0%Z) as [H|H]; [apply repeat_spec in H; exact H|exact H].
Qed.
Lemma mixed_nonneg n G : mixed nv U F n G -> forall k, (0 <= getk k n)%Z.
Proof. intros (_ & p & _ & Cp & _) k. rewrite Cp. lia. Qed.
End Along.
Lemma along_sub (U V : point -> Prop) F p G : (forall x, V x -> U x) -> along U F p G -> along V F p G.
Proof. intros HS. revert G. induction p as [|i p IH]; cbn [along]; intros G; [auto|]. intros (H & H1 & H2). exists H. split; [apply IH, H1|]. auto. Qed.
