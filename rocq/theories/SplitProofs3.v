(** Proofs about [find_singular_sets_at_one]. *)
From Verif Require Import SortProofs PolyProofs MiscProofs SectorProofs SectorProofs2 SectorInt SplitProofs2.
From Verif Require Export SplitSpec.

Section P.
Variable F : Fld.
Local Open Scope fld_scope.
Add Field FldF : (f_th F).
Notation Poly := (poly F).

(** the point with ones at the parameters of the set and zeros elsewhere *)
Definition ones_at (set : list nat) (n : nat) : list F := map (fun j => if existsb (Nat.eqb j) set then 1 else 0) (seq 0 n).

Lemma normal_const_coeff (q : Poly) : pnormal q -> pwf q ->
  (negb (has_constant_term q None) || (match ptm q with [t] => feqb (snd t) 0 | _ => false end)) = true <-> coeff_at q (zrow (pnv q)) = 0.
Proof.
  intros [Hs Hc] Hw.
  assert (HZ : forall t, In t (ptm q) -> forallb (fun e => Z.eqb e 0) (fst t) = true <-> fst t = zrow (pnv q)).
  { intros t Ht. unfold pwf in Hw. rewrite Forall_forall in Hw. rewrite <- (Hw t Ht). clear. generalize (fst t). intros e. unfold zrow. induction e as [|k e IH]; cbn; [tauto|].
    rewrite andb_true_iff, Z.eqb_eq. split; [intros [-> H]; f_equal; apply IH, H|intros H; injection H as -> H; split; [reflexivity|apply IH, H]]. }
  destruct Hc as [[Hn Hne]|E].
  - assert (T2 : (match ptm q with [t] => feqb (snd t) 0 | _ => false end) = false).
    { destruct (ptm q) as [|t [|]]; try reflexivity. apply Forall_inv in Hn. apply feqb_false, Hn. }
    rewrite T2, orb_false_r. rewrite coeff_at_lin. unfold has_constant_term. clear T2 Hne Hw. revert Hs Hn HZ. induction (ptm q) as [|t ts IH]; intros Hs Hn HZ; [cbn; tauto|].
    inversion Hs as [|? ? Hs' Ht]; subst. apply Forall_cons_iff in Hn as [Hn1 Hn]. rewrite lin_cons. cbn [existsb].
    destruct (forallb (fun e => Z.eqb e 0) (fst t)) eqn:E; cbn [orb negb].
    + apply HZ in E; [|left; reflexivity]. rewrite <- E at 1. rewrite (proj2 (roweqb_spec (fst t) (fst t))) by reflexivity. rewrite (lin_ind_notin F (zrow (pnv q)) ts).
      * split; [discriminate|]. intros H. exfalso. apply Hn1. etransitivity; [|exact H]. ring.
      * rewrite <- E. eapply sorted_head_notin; [exact Ht|]. apply lexle_refl.
    + replace (roweqb (fst t) (zrow (pnv q))) with false.
      * rewrite IH; [|assumption..|intros u Hu; apply HZ; right; exact Hu]. split; intros H; [rewrite H; ring|]. etransitivity; [|exact H]. ring.
      * symmetry. destruct (roweqb _ _) eqn:R; [|reflexivity]. apply roweqb_spec in R. apply HZ in R; [congruence|left; reflexivity].
  - rewrite E. cbn [pconst ptm snd pnv]. rewrite feqb_refl, orb_true_r. split; [intros _; apply pconst_coeff0|reflexivity].
Qed.
Lemma meval_zeros_nonneg e : Forall (fun k => (0 <= k)%Z) e -> meval e (repeat (0 : F) (length e)) = if roweqb e (zrow (length e)) then 1 else 0.
Proof.
  intros H. destruct (roweqb e (zrow (length e))) eqn:E.
  - apply roweqb_spec in E. rewrite E at 1. apply meval_zrow.
  - assert (N : e <> zrow (length e)) by (intros K; apply roweqb_spec in K; congruence). clear E. induction H as [|k e Hk H IH]; [exfalso; apply N; reflexivity|]. cbn [length repeat meval].
    destruct (Z.eq_dec k 0) as [->|Hk0].
    + rewrite IH; [ring|]. intros K. apply N. cbn. unfold zrow in *. rewrite <- K. reflexivity.
    + rewrite <- (Z2Nat.id k Hk), zpow_of_nat, npow_0_l. destruct (Nat.eqb_spec (Z.to_nat k) 0); [lia|]. ring.
Qed.
Lemma coeff_zero_eval (q : Poly) : pwf q -> pnonneg q -> coeff_at q (zrow (pnv q)) = peval q (repeat 0 (pnv q)).
Proof.
  intros Hw Hn. rewrite coeff_at_lin, peval_lin. apply lin_ext. intros t Ht. unfold pwf, pnonneg in *. rewrite Forall_forall in *. rewrite <- (Hw t Ht). symmetry. apply meval_zeros_nonneg, Hn, Ht.
Qed.
Lemma zero_cols set : forall (p : Poly) n, pok F n p -> Forall (fun i => (i < n)%nat) set ->
  let q := fold_left (fun q i => zero_col i q) set p in pok F n q /\ forall x, length x = n -> peval q x = peval p (fold_right (fun i y => set_coord i 1 y) x set).
Proof.
  induction set as [|i set IH] using rev_ind; intros p n Hp Hi q.
  - split; [exact Hp|reflexivity].
  - apply Forall_app in Hi as [Hi Hi1]. apply Forall_inv in Hi1. unfold q. rewrite fold_left_app. cbn [fold_left]. destruct (IH p n Hp Hi) as [Hq He]. set (q0 := fold_left _ set p) in *.
    destruct Hq as (E & W & N & Q). split.
    + split; [exact E|]. split; [apply zero_col_wf, W|]. split; [intros H; apply map_eq_nil in H; contradiction|]. unfold pnonneg in *. cbn [zero_col ptm]. apply Forall_map. eapply Forall_impl; [|exact Q].
      intros t Ht. cbn [fst]. apply upd_nonneg; [lia|exact Ht].
    + intros x Hx. rewrite zero_col_eval by (try exact W; congruence || lia). rewrite He by (unfold set_coord; rewrite upd_length; exact Hx). rewrite fold_right_app. reflexivity.
Qed.
Lemma ones_fold set n : fold_right (fun i y => set_coord i 1 y) (repeat (0 : F) n) set = ones_at set n.
Proof.
  assert (L : forall l, length (fold_right (fun i y => set_coord i (1 : F) y) (repeat 0 n) l) = n).
  { intros l. induction l as [|i l IH]; cbn; [apply repeat_length|]. unfold set_coord. rewrite upd_length. exact IH. }
  apply (nth_ext _ _ 0 0); [rewrite L; unfold ones_at; rewrite map_length, seq_length; reflexivity|]. rewrite L. intros j Hj. unfold ones_at. rewrite nth_mapseq by exact Hj.
  induction set as [|i set IH]; cbn [fold_right existsb]; [apply nth_repeat|]. unfold set_coord at 1. rewrite nth_upd, L, IH. rewrite (Nat.eqb_sym j i). destruct (Nat.eqb_spec i j) as [->|]; [|reflexivity].
  destruct (Nat.ltb_spec j n); [reflexivity|lia].
Qed.
Lemma singular_at_one_spec (p : Poly) set : pwf p -> pnonneg p -> ptm p <> [] -> Forall (fun i => (i < pnv p)%nat) set ->
  singular_at_one p set = true <-> peval p (ones_at set (pnv p)) = 0.
Proof.
  intros Hw Hn Hne Hi. unfold singular_at_one. assert (Hp : pok F (pnv p) p) by (repeat split; auto).
  destruct (zero_cols set p (pnv p) Hp Hi) as [(E & W & N & Q) He]. set (q0 := fold_left (fun q i => zero_col i q) set p) in *. unfold set_one. fold q0.
  rewrite normal_const_coeff by (auto using psimplify_normal, psimplify_wf). rewrite psimplify_coeff, psimplify_nv, coeff_zero_eval by assumption.
  rewrite E, He by apply repeat_length. rewrite ones_fold. tauto.
Qed.
Lemma sublist_in {A} (c l : list A) a : sublist c l -> In a c -> In a l.
Proof. induction 1; cbn; intuition. Qed.
Lemma find_singular_spec (p : Poly) set : pwf p -> pnonneg p -> ptm p <> [] ->
  In set (find_singular_sets_at_one p) <-> sublist set (filter (appears p) (seq 0 (pnv p))) /\ peval p (ones_at set (pnv p)) = 0.
Proof.
  intros Hw Hn Hne. unfold find_singular_sets_at_one. set (occ := filter (appears p) (seq 0 (pnv p))).
  destruct (powerset occ 0 1) as [L|] eqn:E; [|rewrite powerset_some in E by lia; discriminate]. rewrite filter_In, (powerset_in occ 0 1 L) by (lia || exact E).
  assert (B : sublist set occ -> Forall (fun i => (i < pnv p)%nat) set).
  { intros H. apply Forall_forall. intros i Hin. apply (sublist_in _ _ i H) in Hin. apply filter_In in Hin as [Hin _]. apply in_seq in Hin. lia. }
  split.
  - intros [[H _] Hs]. split; [exact H|]. apply singular_at_one_spec; auto.
  - intros [H Hs]. split; [|apply singular_at_one_spec; auto]. split; [exact H|]. exists (length set). lia.
Qed.
Lemma find_singular_NoDup (p : Poly) : NoDup (find_singular_sets_at_one p).
Proof.
  unfold find_singular_sets_at_one. destruct (powerset _ 0 1) as [L|] eqn:E; [|constructor]. apply NoDup_filter. eapply powerset_NoDup; [|exact E|]; [lia|]. apply NoDup_filter, seq_NoDup.
Qed.
Lemma appears_spec (p : Poly) i : appears p i = true <-> exists t, In t (ptm p) /\ getZ i (fst t) <> 0%Z.
Proof. unfold appears. rewrite existsb_exists. split; intros (t & Ht & H); exists t; split; auto; [apply negb_true_iff, Z.eqb_neq in H; exact H|apply negb_true_iff, Z.eqb_neq, H]. Qed.
End P.
Arguments ones_at {F} _ _.
