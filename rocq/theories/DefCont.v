(** Complex functions of real variables: derivatives, continuity on the cube. *)
From Coq Require Import Lia Lra ClassicalEpsilon.
From Verif Require Import PolyModel TransProofs DefSpec.
From Coquelicot Require Import Coquelicot.
Local Open Scope R_scope.
Lemma Cmod_le_sum (z : C) : Cmod z <= Rabs (fst z) + Rabs (snd z).
Proof.
  destruct z as [a b]. cbn [fst snd]. replace (a, b) with (Cplus (RtoC a) (Cmult Ci (RtoC b))) by (apply injective_projections; cbn; ring).
  eapply Rle_trans; [apply Cmod_triangle|]. rewrite Cmod_mult, !Cmod_R. replace (Cmod Ci) with 1; [lra|]. unfold Cmod, Ci; cbn. replace (0 * (0 * 1) + 1 * (1 * 1)) with 1 by ring. symmetry. apply sqrt_1.
Qed.
Lemma re_le_Cmod (z : C) : Rabs (fst z) <= Cmod z. Proof. eapply Rle_trans; [apply Rmax_l|apply Rmax_Cmod]. Qed.
Lemma im_le_Cmod (z : C) : Rabs (snd z) <= Cmod z. Proof. eapply Rle_trans; [apply Rmax_r|apply Rmax_Cmod]. Qed.
(** ** derivatives *)
Definition isd (f : R -> C) (x : R) (l : C) : Prop := is_derive (fun v => fst (f v)) x (fst l) /\ is_derive (fun v => snd (f v)) x (snd l).
Lemma isd_ext f g x l : (forall v, f v = g v) -> isd f x l -> isd g x l.
Proof. intros E [A B]. split; (eapply is_derive_ext; [|eassumption]); intros; cbv beta; rewrite E; reflexivity. Qed.
Lemma isd_const c x : isd (fun _ => c) x (RtoC 0).
Proof. split; cbn; apply is_derive_Reals, derivable_pt_lim_const. Qed.
Lemma isd_plus f g x l m : isd f x l -> isd g x m -> isd (fun v => Cplus (f v) (g v)) x (Cplus l m).
Proof. intros [A B] [A' B']. split; cbn; apply (is_derive_plus (V := R_NormedModule)); assumption. Qed.
Lemma isd_minus f g x l m : isd f x l -> isd g x m -> isd (fun v => Cminus (f v) (g v)) x (Cminus l m).
Proof. intros [A B] [A' B']. split; cbn; apply (is_derive_minus (V := R_NormedModule)); assumption. Qed.
Lemma isd_mult f g x l m : isd f x l -> isd g x m -> isd (fun v => Cmult (f v) (g v)) x (Cplus (Cmult l (g x)) (Cmult (f x) m)).
Proof.
  intros [A B] [A' B']. split; cbn.
  - replace (fst l * fst (g x) - snd l * snd (g x) + (fst (f x) * fst m - snd (f x) * snd m)) with
      ((fst l * fst (g x) + fst (f x) * fst m) - (snd l * snd (g x) + snd (f x) * snd m)) by ring.
    apply (is_derive_minus (V := R_NormedModule) (fun v => fst (f v) * fst (g v)) (fun v => snd (f v) * snd (g v))).
    + apply (is_derive_mult (K := R_AbsRing) (fun v => fst (f v)) (fun v => fst (g v))); try assumption. exact Rmult_comm.
    + apply (is_derive_mult (K := R_AbsRing) (fun v => snd (f v)) (fun v => snd (g v))); try assumption. exact Rmult_comm.
  - replace (fst l * snd (g x) + snd l * fst (g x) + (fst (f x) * snd m + snd (f x) * fst m)) with
      ((fst l * snd (g x) + fst (f x) * snd m) + (snd l * fst (g x) + snd (f x) * fst m)) by ring.
    apply (is_derive_plus (V := R_NormedModule) (fun v => fst (f v) * snd (g v)) (fun v => snd (f v) * fst (g v))).
    + apply (is_derive_mult (K := R_AbsRing) (fun v => fst (f v)) (fun v => snd (g v))); try assumption. exact Rmult_comm.
    + apply (is_derive_mult (K := R_AbsRing) (fun v => snd (f v)) (fun v => fst (g v))); try assumption. exact Rmult_comm.
Qed.
Lemma isd_csum n (f : nat -> R -> C) x l : (forall j, (j < n)%nat -> isd (f j) x (l j)) -> isd (fun v => csum n (fun j => f j v)) x (csum n l).
Proof. induction n; intros H; cbn [csum]; [apply isd_const|]. apply isd_plus; [apply IHn; intros; apply H; lia|apply H; lia]. Qed.
(** approximation *)
Lemma deriv_small (f : R -> R) x : (forall eps, 0 < eps -> exists d, 0 < d /\ forall v, Rabs (v - x) < d -> Rabs (f v - f x) <= eps * Rabs (v - x)) -> is_derive f x 0.
Proof.
  intros H. apply is_derive_Reals. intros eps He. destruct (H (eps / 2) ltac:(lra)) as (d & Hd & Q). exists (mkposreal d Hd). intros h Hh Hl. cbn in Hl.
  rewrite Rminus_0_r. unfold Rdiv. rewrite Rabs_mult, Rabs_inv. specialize (Q (x + h)). replace (x + h - x) with h in Q by ring. specialize (Q Hl).
  pose proof (Rabs_pos_lt h Hh) as Hp. apply Rmult_lt_reg_r with (Rabs h); [exact Hp|]. rewrite Rmult_assoc, Rinv_l, Rmult_1_r by lra.
  eapply Rle_lt_trans; [exact Q|]. nra.
Qed.
Lemma deriv_lip (f : R -> R) x l : is_derive f x l -> exists d, 0 < d /\ forall v, Rabs (v - x) < d -> Rabs (f v - f x) <= (Rabs l + 1) * Rabs (v - x).
Proof.
  intros H. apply is_derive_Reals in H. destruct (H 1 ltac:(lra)) as (d & Q). exists d. split; [apply cond_pos|]. intros v Hv.
  destruct (Req_dec v x) as [->|Hn]; [rewrite !Rminus_eq_0, Rabs_R0; lra|].
  specialize (Q (v - x) ltac:(lra) Hv). replace (x + (v - x)) with v in Q by ring.
  assert (Hp : 0 < Rabs (v - x)) by (apply Rabs_pos_lt; lra).
  replace (f v - f x) with (((f v - f x) / (v - x) - l + l) * (v - x)) by (field; lra). rewrite Rabs_mult.
  apply Rmult_le_compat_r; [lra|]. eapply Rle_trans; [apply Rabs_triang|]. lra.
Qed.
Lemma isd_small f x : (forall eps, 0 < eps -> exists d, 0 < d /\ forall v, Rabs (v - x) < d -> Cmod (Cminus (f v) (f x)) <= eps * Rabs (v - x)) -> isd f x (RtoC 0).
Proof.
  intros H. split; cbn; apply deriv_small; intros eps He; destruct (H eps He) as (d & Hd & Q); exists d; split; try exact Hd; intros v Hv;
    (eapply Rle_trans; [|apply (Q v Hv)]).
  - apply (re_le_Cmod (Cminus (f v) (f x))).
  - apply (im_le_Cmod (Cminus (f v) (f x))).
Qed.
Lemma isd_lip f x l : isd f x l -> exists K d, 0 < K /\ 0 < d /\ forall v, Rabs (v - x) < d -> Cmod (Cminus (f v) (f x)) <= K * Rabs (v - x).
Proof.
  intros [A B]. destruct (deriv_lip _ _ _ A) as (d & Hd & Q), (deriv_lip _ _ _ B) as (e & He & P).
  exists (Rabs (fst l) + 1 + (Rabs (snd l) + 1)), (Rmin d e). pose proof (Rabs_pos (fst l)). pose proof (Rabs_pos (snd l)). split; [lra|]. split; [apply Rmin_glb_lt; assumption|].
  intros v Hv. eapply Rle_trans; [apply Cmod_le_sum|].
  change (Rabs (fst (f v) - fst (f x)) + Rabs (snd (f v) - snd (f x)) <= (Rabs (fst l) + 1 + (Rabs (snd l) + 1)) * Rabs (v - x)).
  pose proof (Rmin_l d e). pose proof (Rmin_r d e). specialize (Q v ltac:(lra)). specialize (P v ltac:(lra)).
  cbv beta in Q, P. set (X := Rabs (fst (f v) - fst (f x))) in *. set (Y := Rabs (snd (f v) - snd (f x))) in *. lra.
Qed.
(** the chain rule *)
Lemma cpt_map n (w : nat -> C) j : (j < n)%nat -> cpt (map w (seq 0 n)) j = w j.
Proof. intros H. unfold cpt. rewrite (nth_indep _ (RtoC 0) (w 0%nat)) by (rewrite map_length, seq_length; exact H). rewrite map_nth, seq_nth by exact H. reflexivity. Qed.
Lemma csum_ext n f g : (forall j, (j < n)%nat -> f j = g j) -> csum n f = csum n g.
Proof. induction n; intros H; cbn [csum]; [reflexivity|]. rewrite IHn by (intros; apply H; lia). rewrite H by lia. reflexivity. Qed.
Lemma csum_minus n f g : Cminus (csum n f) (csum n g) = csum n (fun j => Cminus (f j) (g j)).
Proof. induction n; cbn [csum]; [ring|]. rewrite <- IHn. ring. Qed.
Lemma lip_all n (w : nat -> R -> C) x (l : nat -> C) : (forall j, (j < n)%nat -> isd (w j) x (l j)) ->
  exists K d, 0 < K /\ 0 < d /\ forall v, Rabs (v - x) < d -> (forall j, (j < n)%nat -> Cmod (Cminus (w j v) (w j x)) <= K * Rabs (v - x)) /\
     dist1 n (map (fun j => w j v) (seq 0 n)) (map (fun j => w j x) (seq 0 n)) <= K * Rabs (v - x).
Proof.
  intros H.
  assert (G : forall m, (m <= n)%nat -> exists K d, 0 < K /\ 0 < d /\ forall v, Rabs (v - x) < d -> (forall j, (j < m)%nat -> Cmod (Cminus (w j v) (w j x)) <= K * Rabs (v - x)) /\
     dist1 m (map (fun j => w j v) (seq 0 n)) (map (fun j => w j x) (seq 0 n)) <= K * Rabs (v - x)).
  { induction m as [|m IH]; intros Hm.
    - exists 1, 1. split; [lra|]. split; [lra|]. intros v _. split; [intros; lia|]. cbn [dist1]. pose proof (Rabs_pos (v - x)). lra.
    - destruct (IH ltac:(lia)) as (K & d & HK & Hd & Q). destruct (isd_lip _ _ _ (H m ltac:(lia))) as (K' & d' & HK' & Hd' & Q').
      exists (K + K'), (Rmin d d'). split; [lra|]. split; [apply Rmin_glb_lt; assumption|]. intros v Hv.
      pose proof (Rmin_l d d'). pose proof (Rmin_r d d'). destruct (Q v ltac:(lra)) as [Q1 Q2]. specialize (Q' v ltac:(lra)). pose proof (Rabs_pos (v - x)) as Hp. split.
      + intros j Hj. destruct (Nat.eq_dec j m) as [->|]; [nra|]. specialize (Q1 j ltac:(lia)). nra.
      + cbn [dist1]. rewrite !cpt_map by lia. nra. }
  apply (G n (le_n n)).
Qed.
Lemma isd_chain n G DG (w : nat -> R -> C) x (l : nat -> C) : holomorphic_at n G DG (map (fun j => w j x) (seq 0 n)) ->
  (forall j, (j < n)%nat -> isd (w j) x (l j)) ->
  isd (fun v => G (map (fun j => w j v) (seq 0 n))) x (csum n (fun j => Cmult (DG j (map (fun j => w j x) (seq 0 n))) (l j))).
Proof.
  intros [HG _] H. set (z := map (fun j => w j x) (seq 0 n)) in *.
  set (L := fun v => csum n (fun j => Cmult (DG j z) (w j v))).
  assert (DL : isd L x (csum n (fun j => Cmult (DG j z) (l j)))).
  { unfold L. apply isd_csum. intros j Hj. replace (Cmult (DG j z) (l j)) with (Cplus (Cmult (RtoC 0) (w j x)) (Cmult (DG j z) (l j))) by ring.
    apply (isd_mult (fun _ => DG j z) (w j)); [apply isd_const|apply H, Hj]. }
  assert (DR : isd (fun v => Cminus (G (map (fun j => w j v) (seq 0 n))) (L v)) x (RtoC 0)).
  { apply isd_small. intros eps He. destruct (lip_all n w x l H) as (K & d & HK & Hd & Q).
    destruct (HG (eps / K) ltac:(apply Rdiv_lt_0_compat; lra)) as (e & Hpe & P). exists (Rmin d (e / K)).
    split; [apply Rmin_glb_lt; [exact Hd|apply Rdiv_lt_0_compat; lra]|]. intros v Hv. pose proof (Rmin_l d (e / K)). pose proof (Rmin_r d (e / K)).
    destruct (Q v ltac:(lra)) as [Q1 Q2].
    assert (HKv : K * Rabs (v - x) < e). { apply Rmult_lt_reg_r with (/ K); [apply Rinv_0_lt_compat; lra|]. replace (K * Rabs (v - x) * / K) with (Rabs (v - x)) by (field; lra). unfold Rdiv in *. lra. }
    specialize (P (map (fun j => w j v) (seq 0 n))). 
    match type of P with ?A -> _ => assert (PA : A) end.
    { split; [rewrite map_length, seq_length; reflexivity|]. intros j Hj. unfold z. rewrite !cpt_map by exact Hj. eapply Rle_lt_trans; [apply Q1, Hj|exact HKv]. }
    specialize (P PA). eapply Rle_trans; [|eapply Rle_trans; [exact P|]].
    - right. f_equal. fold z. unfold L.
      rewrite (csum_ext n (fun j => Cmult (DG j z) (Cminus (cpt (map (fun j0 => w j0 v) (seq 0 n)) j) (cpt z j))) (fun j => Cminus (Cmult (DG j z) (w j v)) (Cmult (DG j z) (w j x)))).
      + rewrite <- csum_minus. ring.
      + intros j Hj. unfold z. rewrite !cpt_map by exact Hj. ring.
    - apply Rle_trans with (eps / K * (K * Rabs (v - x))); [|right; field; lra]. apply Rmult_le_compat_l; [apply Rlt_le, Rdiv_lt_0_compat; lra|exact Q2]. }
  eapply isd_ext; [|replace (csum n (fun j => Cmult (DG j z) (l j))) with (Cplus (RtoC 0) (csum n (fun j => Cmult (DG j z) (l j)))) by ring; apply (isd_plus _ _ _ _ _ DR DL)].
  intros v. cbv beta. ring.
Qed.
(** ** continuity on the cube *)
Definition ccat (n : nat) (f : list R -> C) (p : list R) : Prop :=
  forall eps, 0 < eps -> exists d, 0 < d /\ forall q, in_cube n q -> List.Forall2 (fun a b => Rabs (a - b) < d) p q -> Cmod (Cminus (f q) (f p)) < eps.
Lemma F2_weaken d d' (p q : list R) : d <= d' -> List.Forall2 (fun a b => Rabs (a - b) < d) p q -> List.Forall2 (fun a b => Rabs (a - b) < d') p q.
Proof. intros H. induction 1; constructor; auto. lra. Qed.
Lemma ccat_const n c p : ccat n (fun _ => c) p.
Proof. intros eps He. exists 1. split; [lra|]. intros q _ _. replace (Cminus c c) with (RtoC 0) by ring. rewrite Cmod_0. exact He. Qed.
Lemma ccat_plus n f g p : ccat n f p -> ccat n g p -> ccat n (fun x => Cplus (f x) (g x)) p.
Proof.
  intros Hf Hg eps He. destruct (Hf (eps / 2) ltac:(lra)) as (d & Hd & A), (Hg (eps / 2) ltac:(lra)) as (e & He' & B). exists (Rmin d e). split; [apply Rmin_glb_lt; assumption|].
  intros q Hq Hc. specialize (A q Hq (F2_weaken _ _ _ _ (Rmin_l d e) Hc)). specialize (B q Hq (F2_weaken _ _ _ _ (Rmin_r d e) Hc)).
  replace (Cminus (Cplus (f q) (g q)) (Cplus (f p) (g p))) with (Cplus (Cminus (f q) (f p)) (Cminus (g q) (g p))) by ring.
  eapply Rle_lt_trans; [apply Cmod_triangle|]. lra.
Qed.
Lemma ccat_mult n f g p : ccat n f p -> ccat n g p -> ccat n (fun x => Cmult (f x) (g x)) p.
Proof.
  intros Hf Hg eps He. set (M := Cmod (f p) + Cmod (g p) + 1 + eps).
  pose proof (Cmod_ge_0 (f p)) as P1. pose proof (Cmod_ge_0 (g p)) as P2.
  assert (HM : 0 < M) by (unfold M; lra).
  set (e0 := eps / (2 * M)). assert (He0 : 0 < e0) by (apply Rdiv_lt_0_compat; lra).
  assert (Ee : e0 * M = eps / 2) by (unfold e0; field; lra).
  assert (HM1 : M >= 1) by (unfold M; lra).
  assert (e0 <= eps / 2) by nra. assert (e0 < M) by (unfold M in *; lra).
  destruct (Hf e0 He0) as (d & Hd & A), (Hg e0 He0) as (e & He' & B). exists (Rmin d e). split; [apply Rmin_glb_lt; assumption|].
  intros q Hq Hc. specialize (A q Hq (F2_weaken _ _ _ _ (Rmin_l d e) Hc)). specialize (B q Hq (F2_weaken _ _ _ _ (Rmin_r d e) Hc)).
  replace (Cminus (Cmult (f q) (g q)) (Cmult (f p) (g p))) with
    (Cplus (Cmult (Cminus (f q) (f p)) (Cminus (g q) (g p))) (Cplus (Cmult (f p) (Cminus (g q) (g p))) (Cmult (Cminus (f q) (f p)) (g p)))) by ring.
  eapply Rle_lt_trans; [apply Cmod_triangle|]. rewrite Cmod_mult.
  eapply Rle_lt_trans; [apply Rplus_le_compat_l, Cmod_triangle|]. rewrite !Cmod_mult.
  pose proof (Cmod_ge_0 (Cminus (f q) (f p))) as P3. pose proof (Cmod_ge_0 (Cminus (g q) (g p))) as P4.
  set (a := Cmod (Cminus (f q) (f p))) in *. set (b := Cmod (Cminus (g q) (g p))) in *. 
  assert (a * b <= e0 * e0) by nra. assert (Cmod (f p) * b <= Cmod (f p) * e0) by nra. assert (a * Cmod (g p) <= e0 * Cmod (g p)) by nra.
  assert (e0 * e0 + Cmod (f p) * e0 + e0 * Cmod (g p) = e0 * (e0 + Cmod (f p) + Cmod (g p))) by ring.
  assert (e0 * (e0 + Cmod (f p) + Cmod (g p)) <= e0 * M) by (apply Rmult_le_compat_l; unfold M; lra). lra.
Qed.
Lemma ccat_csum n m (f : nat -> list R -> C) p : (forall j, (j < m)%nat -> ccat n (f j) p) -> ccat n (fun x => csum m (fun j => f j x)) p.
Proof. induction m; intros H; cbn [csum]; [apply ccat_const|]. apply ccat_plus; [apply IHm; intros; apply H; lia|apply H; lia]. Qed.
Lemma ccat_ext n f g p : (forall x, in_cube n x -> f x = g x) -> in_cube n p -> ccat n f p -> ccat n g p.
Proof. intros E Hp H eps He. destruct (H eps He) as (d & Hd & Q). exists d. split; [exact Hd|]. intros q Hq Hc. rewrite <- !E by assumption. apply Q; assumption. Qed.
Lemma ccat_coord n i p : in_cube n p -> ccat n (fun x => RtoC (nth i x 0)) p.
Proof.
  intros _ eps He. exists eps. split; [exact He|]. intros q _ Hc. replace (Cminus (RtoC (nth i q 0)) (RtoC (nth i p 0))) with (RtoC (nth i q 0 - nth i p 0)) by (apply injective_projections; cbn; ring).
  rewrite Cmod_R. revert i. induction Hc as [|a b p q H Hc IH]; intros i; [destruct i; cbn; rewrite Rminus_eq_0, Rabs_R0; exact He|].
  destruct i as [|i]; cbn [nth]; [rewrite Rabs_minus_sym; exact H|apply IH].
Qed.
Lemma ccat_all n m (w : nat -> list R -> C) p : (forall j, (j < m)%nat -> ccat n (w j) p) -> forall eps, 0 < eps -> exists d, 0 < d /\
   forall q, in_cube n q -> List.Forall2 (fun a b => Rabs (a - b) < d) p q -> forall j, (j < m)%nat -> Cmod (Cminus (w j q) (w j p)) < eps.
Proof.
  intros H eps He. induction m as [|m IH]; [exists 1; split; [lra|]; intros; lia|].
  destruct (IH ltac:(intros; apply H; lia)) as (d & Hd & Q). destruct (H m ltac:(lia) eps He) as (e & Hpe & P). exists (Rmin d e). split; [apply Rmin_glb_lt; assumption|].
  intros q Hq Hc j Hj. destruct (Nat.eq_dec j m) as [->|]; [apply P; [exact Hq|exact (F2_weaken _ _ _ _ (Rmin_r d e) Hc)]|apply Q; [exact Hq|exact (F2_weaken _ _ _ _ (Rmin_l d e) Hc)|lia]].
Qed.
Lemma ccat_comp n m G (w : nat -> list R -> C) p : ccontinuous_at m G (map (fun j => w j p) (seq 0 m)) -> (forall j, (j < m)%nat -> ccat n (w j) p) ->
  ccat n (fun x => G (map (fun j => w j x) (seq 0 m))) p.
Proof.
  intros HG H eps He. destruct (HG eps He) as (d & Hd & Q). destruct (ccat_all n m w p H d Hd) as (e & Hpe & P). exists e. split; [exact Hpe|].
  intros q Hq Hc. apply Q. split; [rewrite map_length, seq_length; reflexivity|]. intros j Hj. rewrite !cpt_map by exact Hj. apply P; assumption.
Qed.
Lemma csum_mod n (f : nat -> C) K (w z : list C) : (forall j, (j < n)%nat -> Cmod (f j) <= K) -> 
  Cmod (csum n (fun j => Cmult (f j) (Cminus (cpt w j) (cpt z j)))) <= K * dist1 n w z.
Proof.
  induction n as [|n IH]; intros H; cbn [csum dist1]; [rewrite Cmod_0; lra|]. eapply Rle_trans; [apply Cmod_triangle|]. rewrite Cmod_mult.
  specialize (IH ltac:(intros; apply H; lia)). pose proof (H n ltac:(lia)). pose proof (Cmod_ge_0 (Cminus (cpt w n) (cpt z n))). nra.
Qed.
Lemma max_bound n (f : nat -> C) : exists K, 0 < K /\ forall j, (j < n)%nat -> Cmod (f j) <= K.
Proof.
  induction n as [|n (K & HK & IH)]; [exists 1; split; [lra|]; intros; lia|]. exists (K + Cmod (f n)). pose proof (Cmod_ge_0 (f n)). split; [lra|]. intros j Hj.
  destruct (Nat.eq_dec j n) as [->|]; [lra|]. specialize (IH j ltac:(lia)). lra.
Qed.
Lemma dist1_le n d w z : (forall j, (j < n)%nat -> Cmod (Cminus (cpt w j) (cpt z j)) < d) -> dist1 n w z <= INR n * d.
Proof. induction n as [|n IH]; intros H; cbn [dist1]; [cbn; lra|]. rewrite S_INR. specialize (IH ltac:(intros; apply H; lia)). pose proof (H n ltac:(lia)). nra. Qed.
Lemma holo_cont n G DG z : holomorphic_at n G DG z -> ccontinuous_at n G z.
Proof.
  intros [H _] eps He. destruct (H 1 ltac:(lra)) as (d & Hd & Q). destruct (max_bound n (fun j => DG j z)) as (K & HK & B).
  set (e := eps / ((K + 1) * (INR n + 1))). pose proof (pos_INR n) as Pn. assert (Hpe : 0 < e) by (apply Rdiv_lt_0_compat; [lra|nra]).
  exists (Rmin d e). split; [apply Rmin_glb_lt; assumption|]. intros w [L Hw]. 
  assert (Hd' : dist1 n w z <= INR n * e). { apply dist1_le. intros j Hj. eapply Rlt_le_trans; [apply Hw, Hj|apply Rmin_r]. }
  assert (C1 : cclose n d w z). { split; [exact L|]. intros j Hj. eapply Rlt_le_trans; [apply Hw, Hj|apply Rmin_l]. }
  specialize (Q w C1). set (S := csum n _) in Q. pose proof (csum_mod n (fun j => DG j z) K w z B) as HS. fold S in HS.
  replace (Cminus (G w) (G z)) with (Cplus (Cminus (Cminus (G w) (G z)) S) S) by ring. eapply Rle_lt_trans; [apply Cmod_triangle|].
  assert (D0 : 0 <= dist1 n w z). { clear. induction n; cbn [dist1]; [lra|]. pose proof (Cmod_ge_0 (Cminus (cpt w n) (cpt z n))). lra. }
  apply Rle_lt_trans with ((K + 1) * dist1 n w z); [replace ((K + 1) * dist1 n w z) with (1 * dist1 n w z + K * dist1 n w z) by ring; apply Rplus_le_compat; [exact Q|exact HS]|]. apply Rle_lt_trans with ((K + 1) * (INR n * e)); [apply Rmult_le_compat_l; lra|].
  assert (E : (K + 1) * ((INR n + 1) * e) = eps) by (unfold e; field; split; lra). nra.
Qed.
(** pointwise continuity on the compact cube is uniform *)
Fixpoint tl_ (n : nat) : Tn n R -> list R := match n with O => fun _ => [] | S m => fun t => fst t :: tl_ m (snd t) end.
Fixpoint lt_ (n : nat) (p : list R) : Tn n R := match n with O => tt | S m => (nth 0 p 0, lt_ m (tl p)) end.
Fixpoint cst (n : nat) (c : R) : Tn n R := match n with O => tt | S m => (c, cst m c) end.
Lemma tl_lt n : forall p, length p = n -> tl_ n (lt_ n p) = p.
Proof. induction n; intros [|a p] H; try discriminate; [reflexivity|]. cbn [lt_ tl_ fst snd nth tl]. rewrite IHn by (cbn in H; lia). reflexivity. Qed.
Lemma bounded_cube n : forall t, bounded_n n (cst n 0) (cst n 1) t -> in_cube n (tl_ n t).
Proof. induction n; intros t H; [split; [reflexivity|constructor]|]. destruct t as [a t]. cbn in H. destruct H as [H1 H2]. apply in_cube_cons; [exact H1|apply IHn, H2]. Qed.
Lemma cube_bounded n : forall p, in_cube n p -> bounded_n n (cst n 0) (cst n 1) (lt_ n p).
Proof. induction n; intros p [L F]; [exact I|]. destruct p as [|a p]; [discriminate|]. inversion F; subst. cbn. split; [assumption|]. apply IHn. split; [cbn in L; lia|assumption]. Qed.
Lemma close_F2 n d : forall p t, length p = n -> close_n n d (lt_ n p) t -> List.Forall2 (fun a b => Rabs (a - b) < d) (tl_ n t) p.
Proof. induction n; intros p t L H; [destruct p; [constructor|discriminate]|]. destruct p as [|a p]; [discriminate|]. destruct t as [b t]. cbn in H. destruct H as [H1 H2]. cbn [tl_ fst snd]. constructor; [rewrite Rabs_minus_sym; exact H1|]. apply IHn; [cbn in L; lia|exact H2]. Qed.
Lemma F2_trans d e : forall (p q r : list R), List.Forall2 (fun a b => Rabs (a - b) < d) p q -> List.Forall2 (fun a b => Rabs (a - b) < e) q r -> List.Forall2 (fun a b => Rabs (a - b) < d + e) p r.
Proof. intros p q r H. revert r. induction H as [|a b p q H1 H IH]; intros r H2; inversion H2; subst; constructor; [|apply IH; assumption]. replace (a - y) with ((a - b) + (b - y)) by ring. eapply Rle_lt_trans; [apply Rabs_triang|]. lra. Qed.
Lemma ccat_uniform n f : (forall p, in_cube n p -> ccat n f p) -> forall eps, 0 < eps -> exists delta, 0 < delta /\
    forall x y, in_cube n x -> in_cube n y -> List.Forall2 (fun a b => Rabs (a - b) < delta) x y -> Cmod (Cminus (f x) (f y)) < eps.
Proof.
  intros H eps He.
  assert (X : forall t : Tn n R, exists d : posreal, in_cube n (tl_ n t) -> forall q, in_cube n q -> List.Forall2 (fun a b => Rabs (a - b) < 2 * d) (tl_ n t) q -> Cmod (Cminus (f q) (f (tl_ n t))) < eps / 2).
  { intros t. destruct (excluded_middle_informative (in_cube n (tl_ n t))) as [Hi|Hi].
    - destruct (H _ Hi (eps / 2) ltac:(lra)) as (d & Hd & Q). exists (mkposreal (d / 2) ltac:(lra)). intros _ q Hq Hc. apply Q; [exact Hq|]. eapply F2_weaken; [|exact Hc]. cbn. lra.
    - exists (mkposreal 1 Rlt_0_1). intros Hc. contradiction. }
  set (delta := fun t => proj1_sig (constructive_indefinite_description _ (X t))).
  assert (HD : forall t, in_cube n (tl_ n t) -> forall q, in_cube n q -> List.Forall2 (fun a b => Rabs (a - b) < 2 * delta t) (tl_ n t) q -> Cmod (Cminus (f q) (f (tl_ n t))) < eps / 2).
  { intros t. exact (proj2_sig (constructive_indefinite_description _ (X t))). }
  destruct (compactness_value n (cst n 0) (cst n 1) delta) as [d Q]. exists d. split; [apply cond_pos|]. intros x y Hx Hy Hxy.
  apply NNPP. intros HN. apply (Q (lt_ n x) (cube_bounded n x Hx)). intros (t & Ht & Hc & Hl). apply HN. clear HN.
  pose proof (bounded_cube n t Ht) as Hi. pose proof (close_F2 n _ x t (proj1 Hx) Hc) as C1. pose proof (cond_pos (delta t)) as Hp.
  pose proof (HD t Hi x Hx ltac:(eapply F2_weaken; [|exact C1]; lra)) as A1.
  assert (C2 : List.Forall2 (fun a b => Rabs (a - b) < 2 * delta t) (tl_ n t) y). { eapply F2_weaken; [|exact (F2_trans _ _ _ _ _ C1 Hxy)]. lra. }
  pose proof (HD t Hi y Hy C2) as A2.
  replace (Cminus (f x) (f y)) with (Cplus (Cminus (f x) (f (tl_ n t))) (Copp (Cminus (f y) (f (tl_ n t))))) by ring.
  eapply Rle_lt_trans; [apply Cmod_triangle|]. rewrite Cmod_opp. lra.
Qed.
Lemma ccat_coc n f : (forall p, in_cube n p -> ccat n f p) -> continuous_on_cube n (fun x => fst (f x)) /\ continuous_on_cube n (fun x => snd (f x)).
Proof.
  intros H. split; intros eps He; destruct (ccat_uniform n f H eps He) as (d & Hd & Q); exists d; split; try exact Hd; intros x y Hx Hy Hxy;
    (eapply Rle_lt_trans; [|apply (Q x y Hx Hy Hxy)]).
  - apply (re_le_Cmod (Cminus (f x) (f y))).
  - apply (im_le_Cmod (Cminus (f x) (f y))).
Qed.
