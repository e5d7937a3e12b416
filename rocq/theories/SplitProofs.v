(** Proofs about interval splitting. *)
From Coq Require Import ArithRing.
From Verif Require Import PolyProofs SectorProofs SectorInt.
From Verif Require Export SplitSpec.

Fixpoint pas (n k : nat) : nat :=
  match n, k with _, O => 1 | O, S _ => 0 | S m, S j => pas m j + pas m (S j) end.
Lemma pas_big n : forall k, (n < k)%nat -> pas n k = 0%nat.
Proof. induction n as [|n IH]; intros [|k] H; try lia; cbn; [reflexivity|]. rewrite !IH by lia. reflexivity. Qed.
Lemma pas_diag n : pas n n = 1%nat.
Proof. induction n as [|n IH]; [reflexivity|]. cbn. rewrite IH, pas_big by lia. reflexivity. Qed.
Lemma pas_fact n : forall k, (k <= n)%nat -> (fact n = pas n k * fact k * fact (n - k))%nat.
Proof.
  induction n as [|n IH]; intros [|k] H; try lia; try reflexivity.
  - cbn [pas fact]. replace (S n - 0)%nat with (S n) by lia. cbn [fact]. lia.
  - destruct (Nat.eq_dec k n) as [->|Hk].
    + rewrite pas_diag. replace (S n - S n)%nat with 0%nat by lia. cbn [fact]. lia.
    + pose proof (IH k ltac:(lia)) as H1. pose proof (IH (S k) ltac:(lia)) as H2. cbn [pas].
      replace (S n - S k)%nat with (S (n - S k)) by lia. replace (n - k)%nat with (S (n - S k)) in H1 by lia.
      change (fact (S n)) with (S n * fact n)%nat. change (fact (S (n - S k))) with (S (n - S k) * fact (n - S k))%nat in *.
      change (fact (S k)) with (S k * fact k)%nat in *. set (m := (n - S k)%nat) in *. replace (S n) with (S k + S m)%nat by (unfold m; lia).
      rewrite Nat.mul_add_distr_r. rewrite H1 at 1. rewrite H2. ring.
Qed.
Lemma binomcoeff_pas n k : (k <= n)%nat -> binomcoeff n k = ((-1) ^ Z.of_nat k * Z.of_nat (pas n k))%Z.
Proof.
  intros H. unfold binomcoeff. rewrite (pas_fact n k H) at 1. rewrite !Nat2Z.inj_mul.
  pose proof (lt_O_fact k). pose proof (lt_O_fact (n - k)). 
  replace ((-1) ^ Z.of_nat k * (Z.of_nat (pas n k) * Z.of_nat (fact k) * Z.of_nat (fact (n - k))))%Z with
    ((-1) ^ Z.of_nat k * Z.of_nat (pas n k) * Z.of_nat (fact k) * Z.of_nat (fact (n - k)))%Z by ring.
  rewrite !Z.div_mul by lia. reflexivity.
Qed.

Section P.
Variable F : Fld.
Local Open Scope fld_scope.
Add Field FldF : (f_th F).
Notation Poly := (poly F).

Definition bsum (x : F) (n N : nat) : F := sumF (map (fun k => zF ((-1) ^ Z.of_nat k * Z.of_nat (pas n k))%Z * npow x k) (seq 0 N)).
Lemma bsum_S x n N : bsum x n (S N) = bsum x n N + zF ((-1) ^ Z.of_nat N * Z.of_nat (pas n N))%Z * npow x N.
Proof. unfold bsum. rewrite seq_S, map_app, sumF_app. cbn [map sumF Nat.add]. match goal with |- ?a + (?b + _) = _ => set (A := a); set (B := b) end. ring. Qed.
Lemma bsum_rec x n N : bsum x (S n) (S N) = bsum x n (S N) - x * bsum x n N.
Proof.
  induction N as [|N IH].
  - unfold bsum. cbn [seq map sumF]. replace (pas n 0) with 1%nat by (destruct n; reflexivity). cbn [pas npow]. ring.
  - rewrite (bsum_S x (S n)), IH, (bsum_S x n (S N)), (bsum_S x n N). cbn [pas npow].
    rewrite Nat2Z.inj_succ, Z.pow_succ_r by lia. rewrite Nat2Z.inj_add, Z.mul_add_distr_l, zF_add.
    replace (-1 * (-1) ^ Z.of_nat N * Z.of_nat (pas n N))%Z with (- ((-1) ^ Z.of_nat N * Z.of_nat (pas n N)))%Z by ring.
    rewrite zF_opp. ring.
Qed.
Lemma bsum_pow x n : forall N, (n < N)%nat -> bsum x n N = npow (1 - x) n.
Proof.
  induction n as [|n IH]; intros [|N] H; try lia.
  - clear H. induction N as [|N IH]; [unfold bsum; cbn [seq map sumF pas npow]; change (zF ((-1) ^ Z.of_nat 0 * Z.of_nat 1)) with (1 + 0 : F); ring|]. rewrite bsum_S, IH. cbn [pas]. rewrite Z.mul_0_r. cbn [zF npow]. ring.
  - rewrite bsum_rec, !IH by lia. cbn [npow]. ring.
Qed.

(* binompoly *)
Lemma upd_zrow_ok (x : list F) i k : Forall2 pow_ok x (upd i (Z.of_nat k) (zrow (length x))).
Proof.
  revert i. induction x as [|a x IH]; intros [|i]; cbn; constructor; try apply pow_ok_0; try (right; lia).
  - apply Forall2_pow_ok_zrow.
  - apply IH.
Qed.
Lemma binompoly_def (x : list F) i n : pdef (binompoly (length x) i n) x.
Proof.
  split; [reflexivity|]. cbn [binompoly ptm]. apply Forall_map, Forall_forall. intros k _. cbn [fst]. apply upd_zrow_ok.
Qed.
Lemma binompoly_eval (x : list F) i n : (i < length x)%nat -> peval (binompoly (length x) i n) x = npow (1 - nth i x 0) n.
Proof.
  intros Hi. rewrite <- (bsum_pow _ n (n + 1)) by lia. unfold peval, bsum. cbn [binompoly ptm]. rewrite map_map. apply sumF_map_ext.
  intros k Hk. apply in_seq in Hk. cbn [fst snd]. rewrite binomcoeff_pas by lia. f_equal.
  rewrite meval_upd_exp by (rewrite ?zrow_length; lia || reflexivity). rewrite zpow_of_nat.
  replace (upd i 0%Z (zrow (length x))) with (zrow (length x)).
  2: { rewrite <- (upd_getZ i (zrow (length x))) at 1. f_equal. unfold getZ, zrow. apply nth_repeat. }
  rewrite meval_zrow. ring.
Qed.

Lemma loop_correct (x : list F) e ix : forall tp, Forall (fun i => (i < length x)%nat /\ (0 <= getZ i e)%Z) ix -> pnv tp = length x -> pdef tp x ->
  exists r, remap_term_loop (length x) e tp ix = Some r /\ pdef r x /\ pnv r = length x /\
    peval r x = peval tp x * prodF (map (fun i => zpow (1 - nth i x 0) (getZ i e)) ix).
Proof.
  induction ix as [|i ix IH]; intros tp Hix Hn Hd; cbn [remap_term_loop].
  - exists tp. split; [reflexivity|]. split; [exact Hd|]. split; [exact Hn|]. cbn [map prodF]. ring.
  - apply Forall_cons_iff in Hix as [[Hi He] Hix]. destruct (Z.ltb_spec (getZ i e) 0); [lia|].
    destruct (pmul_total F tp (binompoly (length x) i (Z.to_nat (getZ i e))) Hn) as [q Hq]. rewrite Hq.
    assert (Dq := pmul_def F _ _ _ x Hq Hd (binompoly_def x i _)).
    destruct (IH q Hix) as (r & R1 & R2 & R3 & R4); [rewrite (pmul_nv F _ _ _ Hq); exact Hn|exact Dq|].
    exists r. split; [exact R1|]. split; [exact R2|]. split; [exact R3|]. rewrite R4, (pmul_eval F _ _ _ x Hq Hd (binompoly_def x i _)), binompoly_eval by exact Hi.
    cbn [map prodF]. rewrite <- (zpow_of_nat F), Z2Nat.id by exact He. ring.
Qed.

Definition mask (ix : list nat) (n : nat) (e : list Z) : list Z := map (fun m => if existsb (Nat.eqb m) ix then 0%Z else getZ m e) (seq 0 n).
Lemma nth_mapseq {A} (f : nat -> A) n j d : (j < n)%nat -> nth j (map f (seq 0 n)) d = f j.
Proof. intros H. rewrite (nth_indep _ d (f 0%nat)) by (rewrite map_length, seq_length; exact H). rewrite map_nth, seq_nth by exact H. reflexivity. Qed.
Lemma flip_length ix (x : list F) : length (flip_coords ix x) = length x.
Proof. unfold flip_coords. rewrite map_length, seq_length. reflexivity. Qed.
Lemma flip_nil (x : list F) : flip_coords [] x = x.
Proof. apply (nth_ext _ _ 0 0); rewrite flip_length; [reflexivity|]. intros j Hj. unfold flip_coords. rewrite nth_mapseq by exact Hj. reflexivity. Qed.
Lemma flip_cons i ix (x : list F) : ~ In i ix -> flip_coords (i :: ix) x = upd i (1 - nth i x 0) (flip_coords ix x).
Proof.
  intros Hi. apply (nth_ext _ _ 0 0); rewrite ?upd_length, !flip_length; [reflexivity|]. intros j Hj. rewrite nth_upd, flip_length.
  unfold flip_coords. rewrite !nth_mapseq by exact Hj. cbn [existsb]. destruct (Nat.eqb_spec j i) as [->|E].
  - rewrite Nat.eqb_refl. destruct (Nat.ltb_spec i (length x)); [reflexivity|lia].
  - destruct (Nat.eqb_spec i j) as [->|_]; [congruence|]. reflexivity.
Qed.
Lemma meval_flip ix (x : list F) : NoDup ix -> Forall (fun i => (i < length x)%nat) ix -> forall e, length e = length x ->
  meval e (flip_coords ix x) = meval (mask ix (length x) e) x * prodF (map (fun i => zpow (1 - nth i x 0) (getZ i e)) ix).
Proof.
  induction ix as [|i ix IH]; intros Hn Hb e He.
  - rewrite flip_nil. cbn [map prodF]. replace (mask [] (length x) e) with e; [ring|].
    apply (nth_ext _ _ 0%Z 0%Z); [unfold mask; rewrite map_length, seq_length; exact He|]. intros j Hj. unfold mask. rewrite nth_mapseq by lia. reflexivity.
  - apply NoDup_cons_iff in Hn as [Hi Hn]. apply Forall_cons_iff in Hb as [Hb1 Hb]. rewrite flip_cons by exact Hi.
    rewrite meval_set_coord by (rewrite flip_length; lia). rewrite (IH Hn Hb) by (rewrite upd_length; exact He). cbn [map prodF].
    replace (mask (i :: ix) (length x) e) with (mask ix (length x) (upd i 0%Z e)).
    + replace (map (fun i0 => zpow (1 - nth i0 x 0) (getZ i0 (upd i 0%Z e))) ix) with (map (fun i0 => zpow (1 - nth i0 x 0) (getZ i0 e)) ix); [ring|].
      apply map_ext_in. intros j Hj. rewrite getZ_upd by lia. destruct (Nat.eqb_spec i j); [subst; contradiction|reflexivity].
    + unfold mask. apply map_ext_in. intros j Hj. apply in_seq in Hj. cbn [existsb]. rewrite getZ_upd by lia. rewrite (Nat.eqb_sym i j).
      destruct (Nat.eqb j i); cbn [orb]; [destruct (existsb _ ix); reflexivity|reflexivity].
Qed.
Lemma mask_ok ix (x : list F) e : Forall2 pow_ok x e -> Forall2 pow_ok x (mask ix (length x) e).
Proof.
  intros H. assert (G : forall j, (j < length x)%nat -> pow_ok (nth j x 0) (getZ j e)).
  { induction H as [|a k x e Ha H IH]; intros [|j] Hj; cbn in *; try lia; [exact Ha|apply IH; lia]. }
  clear H. assert (K : forall l : list Z, length l = length x -> (forall j, (j < length x)%nat -> pow_ok (nth j x 0) (getZ j l)) -> Forall2 pow_ok x l).
  { clear. induction x as [|a x IH]; intros [|k l] HL HG; cbn in HL; try discriminate; constructor.
    - apply (HG 0%nat); cbn; lia.
    - apply IH; [lia|]. intros j Hj. apply (HG (S j)). cbn; lia. }
  apply K; [unfold mask; rewrite map_length, seq_length; reflexivity|]. intros j Hj. unfold getZ at 1, mask. rewrite nth_mapseq by exact Hj.
  destruct (existsb _ ix); [apply pow_ok_0|apply G, Hj].
Qed.
Lemma remap_term_correct (x : list F) ix t : NoDup ix -> Forall (fun i => (i < length x)%nat /\ (0 <= getZ i (fst t))%Z) ix -> Forall2 pow_ok x (fst t) ->
  exists r, remap_term (length x) ix t = Some r /\ pdef r x /\ peval r x = snd t * meval (fst t) (flip_coords ix x).
Proof.
  intros Hn Hix Hd. unfold remap_term. fold (mask ix (length x) (fst t)).
  destruct (loop_correct x (fst t) ix (mkPoly (length x) [(mask ix (length x) (fst t), snd t)]) Hix eq_refl) as (r & R1 & R2 & _ & R4).
  - split; [reflexivity|]. repeat constructor. cbn [fst]. apply mask_ok, Hd.
  - exists r. split; [exact R1|]. split; [exact R2|]. rewrite R4, meval_flip; [|exact Hn|eapply Forall_impl; [|exact Hix]; cbn; tauto|symmetry; clear -Hd; induction Hd; cbn; congruence].
    unfold peval. cbn [ptm map sumF fst snd]. ring.
Qed.
Lemma remap_terms_correct (x : list F) ix ts : NoDup ix -> Forall (fun t => Forall (fun i => (i < length x)%nat /\ (0 <= getZ i (fst t))%Z) ix) ts ->
  Forall (fun t : term F => Forall2 pow_ok x (fst t)) ts ->
  exists rs, remap_terms (length x) ix ts = Some rs /\ Forall (fun t => Forall2 pow_ok x (fst t)) rs /\
    sumF (map (fun t => snd t * meval (fst t) x) rs) = sumF (map (fun t => snd t * meval (fst t) (flip_coords ix x)) ts).
Proof.
  intros Hn. induction ts as [|t ts IH]; intros Hix Hd; cbn [remap_terms].
  - exists []. repeat split; constructor.
  - apply Forall_cons_iff in Hix as [Hi Hix]. apply Forall_cons_iff in Hd as [Hd1 Hd].
    destruct (remap_term_correct x ix t Hn Hi Hd1) as (r & R1 & R2 & R3). rewrite R1. destruct (IH Hix Hd) as (rs & S1 & S2 & S3). rewrite S1.
    exists (ptm r ++ rs). split; [reflexivity|]. split; [apply Forall_app; split; [apply R2|exact S2]|].
    rewrite map_app, sumF_app, S3. cbn [map sumF]. f_equal. exact R3.
Qed.
Lemma remap_correct (p : Poly) ix x : pdef p x -> NoDup ix ->
  Forall (fun t => Forall (fun i => (i < pnv p)%nat /\ (0 <= getZ i (fst t))%Z) ix) (ptm p) ->
  exists q, remap_one_to_zero p ix = Some q /\ pnv q = pnv p /\ pdef q x /\ pnormal q /\ peval q x = peval p (flip_coords ix x).
Proof.
  intros [HL Hd] Hn Hix. unfold remap_one_to_zero. rewrite <- HL in *.
  destruct (remap_terms_correct x ix (ptm p) Hn Hix Hd) as (rs & S1 & S2 & S3). rewrite S1. eexists. split; [reflexivity|].
  rewrite psimplify_nv. repeat split; try apply psimplify_normal.
  - rewrite psimplify_nv. reflexivity.
  - apply (psimplify_rows F (fun r => Forall2 pow_ok x r)); [exact S2|apply Forall2_pow_ok_zrow].
  - rewrite psimplify_eval. exact S3.
Qed.
End P.
