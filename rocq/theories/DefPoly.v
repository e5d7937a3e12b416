(** Polynomial functions of real variables with complex values: derivatives and continuity. *)
From Coq Require Import Lia Lra.
From Verif Require Import PolyModel PolySpec DetModel CplxField DefSpec DefCont DefModel.
From Coquelicot Require Import Coquelicot.
Local Open Scope R_scope.
Inductive pe : Type := PC (c : C) | PV (i : nat) | PA (a b : pe) | PM (a b : pe) | PR (a : pe).
Fixpoint ev (p : list R) (e : pe) : C :=
  match e with PC c => c | PV i => RtoC (nth i p 0) | PA a b => Cplus (ev p a) (ev p b) | PM a b => Cmult (ev p a) (ev p b) | PR a => RtoC (fst (ev p a)) end.
Fixpoint dv (k : nat) (e : pe) : pe :=
  match e with PC _ => PC (RtoC 0) | PV i => PC (if Nat.eqb i k then RtoC 1 else RtoC 0) | PA a b => PA (dv k a) (dv k b) | PM a b => PA (PM (dv k a) b) (PM a (dv k b)) | PR a => PR (dv k a) end.
Lemma nth_upd_same (p : list R) k v : (k < length p)%nat -> nth k (upd k v p) 0 = v.
Proof. revert k. induction p as [|a p IH]; intros [|k] H; cbn in *; try lia; auto. apply IH. lia. Qed.
Lemma nth_upd_other (p : list R) k i v : i <> k -> nth i (upd k v p) 0 = nth i p 0.
Proof. revert k i. induction p as [|a p IH]; intros [|k] [|i] H; cbn; auto; try lia. Qed.
Lemma ev_isd e k p : (k < length p)%nat -> isd (fun v => ev (upd k v p) e) (nth k p 0) (ev p (dv k e)).
Proof.
  intros Hk. assert (Ep : upd k (nth k p 0) p = p). { clear -Hk. revert k Hk. induction p as [|a p IH]; intros [|k] H; cbn in *; try lia; auto. rewrite IH by lia. reflexivity. }
  induction e as [c|i|a IHa b IHb|a IHa b IHb|a IHa]; cbn [ev dv].
  - apply isd_const.
  - destruct (Nat.eqb_spec i k) as [->|N].
    + apply isd_ext with (f := fun v => RtoC v); [intros v; rewrite nth_upd_same by exact Hk; reflexivity|].
      split; cbn; [apply is_derive_Reals, derivable_pt_lim_id|apply is_derive_Reals, derivable_pt_lim_const].
    + apply isd_ext with (f := fun v => RtoC (nth i p 0)); [intros v; rewrite nth_upd_other by exact N; reflexivity|]. apply isd_const.
  - apply isd_plus; assumption.
  - pose proof (isd_mult _ _ _ _ _ IHa IHb) as X. cbv beta in X. rewrite Ep in X. exact X.
  - destruct IHa as [A B]. split; cbn; [exact A|apply is_derive_Reals, derivable_pt_lim_const].
Qed.
Lemma ev_sym e k l p : ev p (dv k (dv l e)) = ev p (dv l (dv k e)).
Proof. induction e as [c|i|a IHa b IHb|a IHa b IHb|a IHa]; cbn [ev dv]; try reflexivity; [rewrite IHa, IHb; reflexivity|rewrite IHa, IHb; ring|rewrite IHa; reflexivity]. Qed.
Lemma ccat_re n f p : ccat n f p -> ccat n (fun x => RtoC (fst (f x))) p.
Proof.
  intros H eps He. destruct (H eps He) as (d & Hd & Q). exists d. split; [exact Hd|]. intros q Hq Hc. eapply Rle_lt_trans; [|apply (Q q Hq Hc)].
  replace (Cminus (RtoC (fst (f q))) (RtoC (fst (f p)))) with (RtoC (fst (Cminus (f q) (f p)))) by (apply injective_projections; cbn; ring). rewrite Cmod_R. apply re_le_Cmod.
Qed.
Lemma ev_ccat n e p : in_cube n p -> ccat n (fun x => ev x e) p.
Proof.
  intros Hp. induction e as [c|i|a IHa b IHb|a IHa b IHb|a IHa]; cbn [ev]; [apply ccat_const|apply ccat_coord, Hp|apply ccat_plus; assumption|apply ccat_mult; assumption|apply ccat_re, IHa].
Qed.
(** ** the polynomials of the model *)
Fixpoint powP (e : pe) (m : nat) : pe := match m with O => PC (RtoC 1) | S k => PM e (powP e k) end.
Fixpoint monoP (s : nat) (e : list Z) : pe := match e with nil => PC (RtoC 1) | k :: e' => PM (powP (PV s) (Z.to_nat k)) (monoP (S s) e') end.
Fixpoint termsP (s : nat) (ts : list (list Z * C)) : pe := match ts with nil => PC (RtoC 0) | t :: ts' => PA (PM (PC (snd t)) (monoP s (fst t))) (termsP s ts') end.
Lemma ev_powP p e m : ev p (powP e m) = @npow C_Fld (ev p e) m.
Proof. induction m as [|m IH]; cbn [powP ev npow]; [reflexivity|]. rewrite IH. reflexivity. Qed.
Lemma zpow_npow (a : C) k : (0 <= k)%Z -> @zpow C_Fld a k = @npow C_Fld a (Z.to_nat k).
Proof. destruct k as [|q|q]; intros H; try reflexivity. lia. Qed.
Definition agree (s : nat) (P x : list R) : Prop := forall i, (i < length x)%nat -> nth (s + i) P 0 = nth i x 0.
Lemma agree_tl s P a x : agree s P (a :: x) -> agree (S s) P x.
Proof. intros H i Hi. specialize (H (S i) ltac:(cbn; lia)). cbn [nth] in H. rewrite <- H. f_equal. lia. Qed.
Lemma agree_hd s P a x : agree s P (a :: x) -> nth s P 0 = a.
Proof. intros H. specialize (H 0%nat ltac:(cbn; lia)). rewrite Nat.add_0_r in H. exact H. Qed.
Lemma ev_monoP P : forall e s x, length e = length x -> List.Forall (fun k => (0 <= k)%Z) e -> agree s P x -> ev P (monoP s e) = @meval C_Fld e (map RtoC x).
Proof.
  induction e as [|k e IH]; intros s [|a x] L N A; try discriminate; cbn [monoP ev meval map]; [reflexivity|].
  inversion N; subst. rewrite ev_powP, zpow_npow by assumption. cbn [ev]. rewrite (agree_hd _ _ _ _ A), (IH (S s) x); [reflexivity|cbn in L; lia|assumption|exact (agree_tl _ _ _ _ A)].
Qed.
Lemma dv_powP_other P s a m : s <> a -> ev P (dv a (powP (PV s) m)) = RtoC 0.
Proof. intros N. induction m as [|m IH]; cbn [powP dv ev]; [reflexivity|]. rewrite IH. destruct (Nat.eqb_spec s a); [contradiction|]. ring. Qed.
Lemma dv_monoP_other P a : forall e s, (a < s)%nat -> ev P (dv a (monoP s e)) = RtoC 0.
Proof.
  induction e as [|k e IH]; intros s H; cbn [monoP dv ev]; [reflexivity|]. rewrite IH by lia. rewrite dv_powP_other by lia. ring.
Qed.
Lemma natF_C m : @natF C_Fld (S m) = Cplus (RtoC 1) (@natF C_Fld m). Proof. reflexivity. Qed.
Lemma dv_powP_same P s m : ev P (dv s (powP (PV s) (S m))) = Cmult (@natF C_Fld (S m)) (@npow C_Fld (RtoC (nth s P 0)) m).
Proof.
  induction m as [|m IH].
  - cbn. rewrite Nat.eqb_refl. apply injective_projections; cbn; ring.
  - change (powP (PV s) (S (S m))) with (PM (PV s) (powP (PV s) (S m))). cbn [dv ev]. cbn [dv ev] in IH. rewrite Nat.eqb_refl. rewrite ev_powP. cbn [ev].
    set (X := ev P (dv s (powP (PV s) (S m)))) in *. rewrite IH. rewrite (natF_C (S m)).
    change (@npow C_Fld (RtoC (nth s P 0)) (S m)) with (Cmult (RtoC (nth s P 0)) (@npow C_Fld (RtoC (nth s P 0)) m)).
    set (Y := @npow C_Fld (RtoC (nth s P 0)) m). set (N := @natF C_Fld (S m)). ring.
Qed.
Lemma dv_monoP P : forall e s x i, length e = length x -> List.Forall (fun k => (0 <= k)%Z) e -> agree s P x -> (i < length x)%nat ->
  ev P (dv (s + i) (monoP s e)) = Cmult (@zF C_Fld (getZ i e)) (@meval C_Fld (upd i (getZ i e - 1)%Z e) (map RtoC x)).
Proof.
  induction e as [|k e IH]; intros s [|a x] i L N A Hi; try discriminate; [cbn in Hi; lia|]. inversion N; subst. pose proof (agree_hd _ _ _ _ A) as Ha. pose proof (agree_tl _ _ _ _ A) as A'.
  cbn [monoP dv ev]. destruct i as [|i].
  - rewrite Nat.add_0_r. rewrite dv_monoP_other by lia. rewrite (ev_monoP P e (S s) x) by (try assumption; cbn in L; lia). unfold getZ. cbn [nth upd meval map].
    destruct (Z.to_nat k) as [|m] eqn:Ek.
    + replace k with 0%Z by lia. cbn [powP dv ev zF]. change (@f0 C_Fld) with (RtoC 0). ring.
    + rewrite dv_powP_same. rewrite (zpow_npow (RtoC a) (k - 1)) by lia. replace (Z.to_nat (k - 1)) with m by lia. rewrite <- Ek at 1.
      replace (@zF C_Fld k) with (@natF C_Fld (Z.to_nat k)) by (rewrite <- (Z2Nat.id k) at 2 by lia; symmetry; apply zF_of_nat).
      rewrite Ha. change (@fmul C_Fld) with Cmult. ring.
  - replace (s + S i)%nat with (S s + i)%nat by lia. rewrite dv_powP_other by lia. rewrite (IH (S s) x i) by (try assumption; cbn in *; lia).
    rewrite ev_powP. cbn [ev]. unfold getZ. cbn [nth upd meval map]. rewrite zpow_npow by assumption. rewrite Ha. change (@fmul C_Fld) with Cmult. ring.
Qed.
Definition cpe (s : nat) (q : cpoly) : pe := termsP s (ptm q).
Definition proper (n : nat) (q : cpoly) : Prop := pnv q = n /\ pwf q /\ pnonneg q.
Lemma peval_cons (q : cpoly) t ts x : ptm q = t :: ts -> peval q x = Cplus (Cmult (snd t) (@meval C_Fld (fst t) x)) (peval (@mkPoly C_Fld (pnv q) ts) x).
Proof. intros E. unfold peval. rewrite E. reflexivity. Qed.
Lemma ev_termsP P s x : agree s P x -> forall ts, List.Forall (fun t => length (fst t) = length x) ts -> List.Forall (fun t => List.Forall (fun k => (0 <= k)%Z) (fst t)) ts ->
  ev P (termsP s ts) = @sumF C_Fld (map (fun t => Cmult (snd t) (@meval C_Fld (fst t) (map RtoC x))) ts).
Proof.
  intros A. induction ts as [|t ts IH]; intros L N; cbn [termsP ev map sumF]; [reflexivity|]. inversion L; inversion N; subst. rewrite IH by assumption. rewrite (ev_monoP P (fst t) s x) by assumption. reflexivity.
Qed.
Lemma ev_cpe n P s q x : proper n q -> length x = n -> agree s P x -> ev P (cpe s q) = peval q (map RtoC x).
Proof.
  intros (En & W & N) L A. unfold cpe. rewrite (ev_termsP P s x A); [reflexivity| |exact N]. rewrite L, <- En. exact W.
Qed.
Lemma dv_termsP P s x i : agree s P x -> (i < length x)%nat -> forall ts, List.Forall (fun t => length (fst t) = length x) ts -> List.Forall (fun t => List.Forall (fun k => (0 <= k)%Z) (fst t)) ts ->
  ev P (dv (s + i) (termsP s ts)) = @sumF C_Fld (map (fun t : list Z * C => Cmult (snd t) (@meval C_Fld (fst t) (map RtoC x)))
     (map (fun t : list Z * C => (upd i (getZ i (fst t) - 1)%Z (fst t), Cmult (snd t) (@zF C_Fld (getZ i (fst t))))) (filter (fun t => negb (Z.eqb (getZ i (fst t)) 0)) ts))).
Proof.
  intros A Hi. induction ts as [|t ts IH]; intros L N; cbn [termsP ev dv map sumF filter]; [reflexivity|]. inversion L; inversion N; subst. rewrite IH by assumption.
  rewrite (dv_monoP P (fst t) s x i) by assumption. destruct (Z.eqb_spec (getZ i (fst t)) 0) as [E|E]; cbn [negb map sumF fst snd].
  - rewrite E. cbn [zF]. change (@f0 C_Fld) with (RtoC 0). match goal with |- @eq _ ?a ?b => change (@eq C a b) end. ring.
  - change (@fadd C_Fld) with Cplus. match goal with |- @eq _ ?a ?b => change (@eq C a b) end. ring.
Qed.
Lemma dv_cpe n P s q x i : proper n q -> length x = n -> agree s P x -> (i < n)%nat -> ev P (dv (s + i) (cpe s q)) = peval (pderive q i) (map RtoC x).
Proof.
  intros (En & W & N) L A Hi. unfold cpe. rewrite (dv_termsP P s x i A); [|rewrite L; exact Hi|rewrite L, <- En; exact W|exact N].
  unfold pderive. change (filter (fun t : list Z * C => negb (getZ i (fst t) =? 0)%Z) (ptm q)) with (filter (fun t : list Z * C_Fld => negb (getZ i (fst t) =? 0)%Z) (ptm q)). destruct (filter _ (ptm q)) as [|t ts].
  - change (RtoC 0 = Cplus (Cmult (RtoC 0) (@meval C_Fld (zrow (pnv q)) (map RtoC x))) (RtoC 0)). ring.
  - reflexivity.
Qed.
Lemma upd_len {A} i (v : A) l : length (upd i v l) = length l.
Proof. revert i. induction l as [|a l IH]; intros [|i]; cbn; auto. Qed.
Lemma proper_derive n q i : proper n q -> proper n (pderive q i).
Proof.
  intros (En & W & N). unfold pderive. destruct (filter _ (ptm q)) as [|t0 ts0] eqn:E.
  - split; [exact En|]. split; unfold pwf, pnonneg, pconst, zrow; cbn; (constructor; [|constructor]); cbn; [rewrite repeat_length; reflexivity|]. apply Forall_forall. intros k Hk. apply repeat_spec in Hk. lia.
  - split; [exact En|]. rewrite <- E. clear E t0 ts0. split; apply Forall_forall; intros t' Ht'; cbn [ptm pnv] in Ht'; apply in_map_iff in Ht'; destruct Ht' as (t & <- & Ht); apply filter_In in Ht; destruct Ht as [Ht Hz]; cbn [fst].
    + rewrite upd_len. exact (proj1 (Forall_forall _ _) W t Ht).
    + pose proof (proj1 (Forall_forall _ _) N t Ht) as Hn. cbn beta in Hn. apply negb_true_iff, Z.eqb_neq in Hz. unfold getZ in *. clear -Hn Hz. revert i Hz. induction Hn as [|k l Hk Hl IH]; intros [|i] Hz; cbn in *; try constructor; auto; try lia. 
Qed.
(** ** translation of the expressions *)
Fixpoint tr (s : nat) (e : dexpr) : pe := match e with DPoly q => cpe s q | DSum a b => PA (tr s a) (tr s b) | DProd a b => PM (tr s a) (tr s b) | DReal a => PR (tr s a) end.
Fixpoint dproper (n : nat) (e : dexpr) : Prop := match e with DPoly q => proper n q | DSum a b | DProd a b => dproper n a /\ dproper n b | DReal a => dproper n a end.
Lemma dproper_derive n i e : dproper n e -> dproper n (dderive i e).
Proof. induction e; cbn; intros H; try tauto. apply proper_derive, H. Qed.
Lemma ev_tr n P s x : length x = n -> agree s P x -> forall e, dproper n e -> ev P (tr s e) = deval x e.
Proof.
  intros L A. induction e as [q|a IHa b IHb|a IHa b IHb|a IHa]; cbn [dproper tr ev deval]; intros H; [apply (ev_cpe n); assumption|rewrite IHa, IHb by tauto; reflexivity|rewrite IHa, IHb by tauto; reflexivity|rewrite IHa by exact H; reflexivity].
Qed.
Lemma dv_tr n P s x i : length x = n -> agree s P x -> (i < n)%nat -> forall e, dproper n e -> ev P (dv (s + i) (tr s e)) = deval x (dderive i e).
Proof.
  intros L A Hi. induction e as [q|a IHa b IHb|a IHa b IHb|a IHa]; cbn [dproper tr ev dv deval dderive]; intros H; [apply (dv_cpe n); assumption|rewrite IHa, IHb by tauto; reflexivity| |rewrite IHa by exact H; reflexivity].
  rewrite IHa, IHb by tauto. rewrite !(ev_tr n P s x L A) by tauto. reflexivity.
Qed.
