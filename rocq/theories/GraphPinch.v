(** Contraction of a line with distinct ends. *)
From Coq Require Import List Lia ZArith Bool Arith Permutation.
From Verif Require Import PolySpec PolyProofs PropPoly GraphSpec GraphConn GraphModel GraphMat MiscSpec MiscProofs GraphProofs GraphU GraphF PropGraph GraphPinchSpec.
Import ListNotations.
Local Open Scope nat_scope.

Lemma conn_perm E E' u v : Permutation E E' -> conn E u v -> conn E' u v.
Proof. intros H. apply conn_mono. intros e I. apply (Permutation_in e H I). Qed.
Lemma acyclic_perm E E' : Permutation E E' -> acyclic E -> acyclic E'.
Proof.
  intros H HA A e B -> C. assert (I : In e E) by (apply (Permutation_in e (Permutation_sym H)), in_elt).
  apply in_split in I. destruct I as (A1 & B1 & ->). apply (HA A1 e B1 eq_refl). apply (conn_perm (A ++ B)); [|exact C].
  apply Permutation_sym. apply (Permutation_app_inv A1 B1 A B e H).
Qed.

Section Contract.
Variables v1 v2 : nat.
Hypothesis NE : v1 <> v2.
Notation ren := (rename v1 v2).
Definition ren2 (e : nat * nat) : nat * nat := (ren (fst e), ren (snd e)).
Lemma ren_v1 : ren v1 = v2. Proof. unfold rename. rewrite Nat.eqb_refl. reflexivity. Qed.
Lemma ren_v2 : ren v2 = v2. Proof. unfold rename. destruct (Nat.eqb_spec v2 v1); congruence. Qed.
Lemma ren_other v : v <> v1 -> ren v = v. Proof. unfold rename. destruct (Nat.eqb_spec v v1); congruence. Qed.
Lemma ren_not1 v : ren v <> v1. Proof. unfold rename. destruct (Nat.eqb_spec v v1); congruence. Qed.
Lemma ren_ren v : ren (ren v) = ren v. Proof. apply ren_other, ren_not1. Qed.
Lemma ren_eq_conn E u v : ren u = ren v -> conn ((v1, v2) :: E) u v.
Proof.
  intros H. assert (C : conn ((v1, v2) :: E) v1 v2) by (apply (conn_edge _ (v1, v2)); left; reflexivity).
  unfold rename in H. destruct (Nat.eqb_spec u v1), (Nat.eqb_spec v v1); subst; try apply conn_refl; try exact C; apply conn_sym, C.
Qed.
Lemma conn_contract E u v : conn ((v1, v2) :: E) u v <-> conn (map ren2 E) (ren u) (ren v).
Proof.
  split.
  - induction 1 as [u|u v w H IH S]; [apply conn_refl|]. destruct S as [[S|S]|[S|S]].
    + injection S as <- <-. rewrite ren_v2, <- ren_v1 at 1. rewrite ren_v1 in *. exact IH.
    + apply conn_step with (ren v); [exact IH|]. left. apply (in_map ren2) in S. exact S.
    + injection S as <- <-. rewrite ren_v1. rewrite ren_v2 in IH. exact IH.
    + apply conn_step with (ren v); [exact IH|]. right. apply (in_map ren2) in S. exact S.
  - assert (Q : forall a b, conn (map ren2 E) a b -> forall u v, ren u = a -> ren v = b -> conn ((v1, v2) :: E) u v).
    { induction 1 as [a|a b c H IH S]; intros u' v' Hu Hv; [apply ren_eq_conn; congruence|].
      destruct S as [S|S]; apply in_map_iff in S; destruct S as (e & E1 & I); injection E1 as Ea Eb.
      - apply conn_trans with (snd e); [|apply ren_eq_conn; congruence]. apply conn_step with (fst e); [apply (IH u' (fst e) Hu Ea)|]. left. right. rewrite <- surjective_pairing. exact I.
      - apply conn_trans with (fst e); [|apply ren_eq_conn; congruence]. apply conn_step with (snd e); [apply (IH u' (snd e) Hu Eb)|]. right. right. rewrite <- surjective_pairing. exact I. }
    intros H. apply (Q _ _ H u v eq_refl eq_refl).
Qed.
Lemma acyclic_contract E : acyclic ((v1, v2) :: E) <-> acyclic (map ren2 E).
Proof.
  split.
  - intros H A' e' B' EQ C. symmetry in EQ. apply eq_sym in EQ. apply map_eq_app in EQ. destruct EQ as (A & R & -> & EA & ER). apply map_eq_cons in ER. destruct ER as (e & B & -> & Ee & EB).
    apply (H ((v1, v2) :: A) e B eq_refl). cbn [app]. apply conn_contract. rewrite map_app, EA, EB. rewrite <- Ee in C. exact C.
  - intros H. set (ends := flat_map (fun e : nat * nat => [fst e; snd e]) E).
    set (vs' := nodup Nat.eq_dec (filter (fun v => negb (Nat.eqb v v1)) (v2 :: ends))).
    assert (Ivs : forall v, In v vs' <-> (v = v2 \/ In v ends) /\ v <> v1).
    { intros v. unfold vs'. rewrite nodup_In, filter_In, negb_true_iff, Nat.eqb_neq. cbn [In]. split; intros [A B]; split; try exact B; destruct A; auto. }
    assert (N' : NoDup vs') by apply NoDup_nodup.
    assert (Nv : NoDup (v1 :: vs')) by (constructor; [rewrite Ivs; tauto|exact N']).
    assert (In1 : inside vs' (map ren2 E)).
    { intros e I. apply in_map_iff in I. destruct I as (f & <- & I). assert (Q : forall w, w = fst f \/ w = snd f -> In (ren w) vs').
      { intros w Hw. apply Ivs. split; [|apply ren_not1]. unfold rename. destruct (Nat.eqb_spec w v1); [left; reflexivity|right]. unfold ends. apply in_flat_map. exists f. split; [exact I|]. cbn. destruct Hw; auto. }
      unfold ren2. cbn [fst snd]. split; apply Q; auto. }
    assert (In2 : inside (v1 :: vs') E).
    { intros e I. assert (Q : forall w, w = fst e \/ w = snd e -> In w (v1 :: vs')).
      { intros w Hw. destruct (Nat.eq_dec w v1) as [->|D]; [left; reflexivity|right]. apply Ivs. split; [right|exact D]. unfold ends. apply in_flat_map. exists e. split; [exact I|]. cbn. destruct Hw; auto. }
      split; apply Q; auto. }
    assert (K : ncomp (v1 :: vs') ((v1, v2) :: E) = ncomp vs' (map ren2 E)).
    { unfold ncomp. cbn [map nodup]. assert (L12 : lab ((v1, v2) :: E) v1 = lab ((v1, v2) :: E) v2) by (apply lab_conn, (conn_edge _ (v1, v2)); left; reflexivity).
      destruct (in_dec Nat.eq_dec (lab ((v1, v2) :: E) v1) (map (lab ((v1, v2) :: E)) vs')) as [I|I]; [|exfalso; apply I; rewrite L12; apply in_map, Ivs; split; [left; reflexivity|congruence]].
      apply nodup_map_kernel. intros u v Hu Hv. apply Ivs in Hu, Hv. rewrite !lab_conn, conn_contract, !ren_other by tauto. reflexivity. }
    pose proof (ncomp_forest vs' (map ren2 E) N' In1 H) as Q1. rewrite map_length in Q1.
    pose proof (ncomp_lower (v1 :: vs') E Nv In2) as Q2. cbn [length] in Q2.
    assert (Nc : ~ conn E v1 v2).
    { intros C. rewrite (ncomp_cons_conn (v1 :: vs') (v1, v2) E C) in K. lia. }
    intros A e B EQ C. destruct A as [|a A]; cbn [app] in EQ, C; injection EQ as EQ1 EQ2.
    + subst. cbn [app] in C. exact (Nc C).
    + subst a E. apply conn_contract in C. rewrite map_app in H. cbn [map] in H. apply (H _ _ _ eq_refl). rewrite <- map_app. exact C.
Qed.

Variables GA GB : list (nat * nat).
Notation G := (GA ++ (v1, v2) :: GB).
Notation G' := (map ren2 (GA ++ GB)).
Lemma vertex_app A B v : vertex (A ++ B) v <-> vertex A v \/ vertex B v.
Proof. unfold vertex. split; [intros (e & I & H); apply in_app_or in I; destruct I; [left|right]; exists e; auto|intros [(e & I & H)|(e & I & H)]; exists e; split; auto; apply in_or_app; auto]. Qed.
Lemma vertex_G v : vertex G v <-> vertex (GA ++ GB) v \/ v = v1 \/ v = v2.
Proof.
  rewrite !vertex_app. split.
  - intros [H|(e & [<-|I] & H)]; [tauto| |].
    + cbn [fst snd] in H. tauto.
    + left. right. exists e. auto.
  - intros [[H|(e & I & H)]|H]; [tauto| |]; right; [exists e; split; [right; exact I|exact H]|exists (v1, v2); split; [left; reflexivity|exact H]].
Qed.
Lemma meets : (forall u v, vertex G u -> vertex G v -> conn G u v) -> GA ++ GB <> [] -> vertex (GA ++ GB) v1 \/ vertex (GA ++ GB) v2.
Proof.
  intros HC NN. destruct (GA ++ GB) as [|f l] eqn:EL; [congruence|]. rewrite <- EL in *. clear NN.
  assert (If : In f (GA ++ GB)) by (rewrite EL; left; reflexivity). clear EL l.
  set (O := GA ++ GB) in *. assert (Dv : forall w, vertex O w \/ ~ vertex O w).
  { intros w. destruct (existsb (fun e => Nat.eqb w (fst e) || Nat.eqb w (snd e)) O) eqn:Q.
    - left. apply existsb_exists in Q. destruct Q as (e & I & H). apply orb_true_iff in H. rewrite !Nat.eqb_eq in H. exists e. auto.
    - right. intros (e & I & H). assert (T : existsb (fun e => Nat.eqb w (fst e) || Nat.eqb w (snd e)) O = true); [|congruence]. apply existsb_exists. exists e. split; [exact I|]. apply orb_true_iff. rewrite !Nat.eqb_eq. exact H. }
  destruct (Dv v1) as [H1|H1]; [left; exact H1|]. destruct (Dv v2) as [H2|H2]; [right; exact H2|]. exfalso.
  assert (W : vertex O (fst f)) by (exists f; auto).
  assert (C : conn G (fst f) v1) by (apply HC; apply vertex_G; auto).
  assert (Q : forall a b, conn G a b -> vertex O a -> vertex O b).
  { induction 1 as [a|a b c H IH S]; intros Ha; [exact Ha|]. specialize (IH Ha).
    destruct S as [S|S]; apply in_app_or in S; cbn [In] in S.
    - destruct S as [S|[S|S]]; [exists (b, c); split; [apply in_or_app; auto|auto]|injection S as <- <-; contradiction|exists (b, c); split; [apply in_or_app; auto|auto]].
    - destruct S as [S|[S|S]]; [exists (c, b); split; [apply in_or_app; auto|auto]|injection S as <- <-; contradiction|exists (c, b); split; [apply in_or_app; auto|auto]]. }
  exact (H1 (Q _ _ C W)).
Qed.
Hypothesis MEET : vertex (GA ++ GB) v1 \/ vertex (GA ++ GB) v2.
Lemma vertex_image O v : vertex O v -> vertex (map ren2 O) (ren v).
Proof. intros (e & I & H). exists (ren2 e). split; [apply in_map, I|]. unfold ren2. cbn [fst snd]. destruct H as [->| ->]; auto. Qed.
Lemma vertex_contract w : vertex G' w <-> exists v, vertex G v /\ ren v = w.
Proof.
  split.
  - intros (e & I & H). apply in_map_iff in I. destruct I as (f & <- & I). unfold ren2 in H. cbn [fst snd] in H. destruct H as [->| ->]; [exists (fst f)|exists (snd f)]; (split; [|reflexivity]); apply vertex_G; left; exists f; auto.
  - intros (v & Hv & <-). apply vertex_G in Hv. assert (V2 : vertex G' v2). { destruct MEET as [M|M]; apply vertex_image in M; [rewrite ren_v1 in M|rewrite ren_v2 in M]; exact M. }
    destruct Hv as [Hv|[->| ->]]; [apply vertex_image, Hv|rewrite ren_v1; exact V2|rewrite ren_v2; exact V2].
Qed.
Lemma vertex_fixed w : vertex G' w -> ren w = w /\ vertex G w.
Proof.
  intros H. apply vertex_contract in H. destruct H as (v & Hv & <-). split; [apply ren_ren|]. unfold rename. destruct (Nat.eqb_spec v v1); [apply vertex_G; auto|exact Hv].
Qed.
Lemma conn_mid TA TB u v : conn (TA ++ (v1, v2) :: TB) u v <-> conn (map ren2 (TA ++ TB)) (ren u) (ren v).
Proof. rewrite <- conn_contract. split; apply conn_perm; [apply Permutation_sym|]; apply Permutation_middle. Qed.
Lemma acyclic_mid TA TB : acyclic (TA ++ (v1, v2) :: TB) <-> acyclic (map ren2 (TA ++ TB)).
Proof. rewrite <- acyclic_contract. split; apply acyclic_perm; [apply Permutation_sym|]; apply Permutation_middle. Qed.
Lemma tree_contract TA TB : spanning_tree G (TA ++ (v1, v2) :: TB) <-> spanning_tree G' (map ren2 (TA ++ TB)).
Proof.
  unfold spanning_tree. rewrite acyclic_mid. split; intros [H1 H2]; split; try exact H2.
  - intros u v Hu Hv. apply vertex_fixed in Hu, Hv. destruct Hu as [Eu Hu], Hv as [Ev Hv]. specialize (H1 u v Hu Hv). apply conn_mid in H1. rewrite Eu, Ev in H1. exact H1.
  - intros u v Hu Hv. apply conn_mid. apply H1; apply vertex_contract; eauto.
Qed.
Lemma forest_contract TA TB a b : vertex G a -> vertex G b -> (two_forest G (TA ++ (v1, v2) :: TB) a b <-> two_forest G' (map ren2 (TA ++ TB)) (ren a) (ren b)).
Proof.
  intros Ha Hb. unfold two_forest. rewrite acyclic_mid, conn_mid. split; intros (_ & _ & H1 & H2 & H3); (split; [|split; [|split; [exact H1|split; [|exact H3]]]]).
  - apply vertex_contract. eauto.
  - apply vertex_contract. eauto.
  - intros v Hv. apply vertex_fixed in Hv. destruct Hv as [Ev Hv]. destruct (H2 v Hv) as [C|C]; apply conn_mid in C; rewrite Ev in C; auto.
  - exact Ha.
  - exact Hb.
  - intros v Hv. rewrite !conn_mid. apply H2. apply vertex_contract. eauto.
Qed.
Lemma connected_contract : connected_graph G -> connected_graph G'.
Proof. intros H u v Hu Hv. apply vertex_fixed in Hu, Hv. destruct Hu as [Eu Hu], Hv as [Ev Hv]. assert (C := H u v Hu Hv). apply conn_mid in C. rewrite Eu, Ev in C. exact C. Qed.
Lemma order_contract ord : vertex_order ord G -> exists ord', vertex_order ord' G' /\ S (length ord') = length ord.
Proof.
  intros [Hn Hi]. exists (remove Nat.eq_dec v1 ord).
  assert (R : forall l, NoDup l -> In v1 l -> NoDup (remove Nat.eq_dec v1 l) /\ S (length (remove Nat.eq_dec v1 l)) = length l).
  { induction 1 as [|x l Hx Hl IH]; intros I; [destruct I|]. cbn [remove]. destruct (Nat.eq_dec v1 x) as [->|D].
    - rewrite notin_remove by exact Hx. split; [exact Hl|reflexivity].
    - destruct I as [I|I]; [congruence|]. destruct (IH I) as [A B]. split; [constructor; [intros C; apply in_remove in C; tauto|exact A]|cbn [length]; lia]. }
  destruct (R ord Hn ltac:(apply Hi, vertex_G; auto)) as [A B]. split; [|exact B]. split; [exact A|]. intros v. split.
  - intros I. apply in_remove in I. destruct I as [I D]. apply vertex_contract. exists v. split; [apply Hi, I|apply ren_other, D].
  - intros H. assert (H' := vertex_fixed v H). apply in_in_remove; [|apply Hi; tauto]. destruct H' as [E _]. rewrite <- E. apply ren_not1.
Qed.
Lemma order_length ord ord' : vertex_order ord G -> vertex_order ord' G' -> S (length ord') = length ord.
Proof.
  intros H H'. destruct (order_contract ord H) as (o & [Hn Hi] & E). rewrite <- E. f_equal. apply Permutation_length. destruct H' as [Hn' Hi']. apply NoDup_Permutation; try assumption. intros v. rewrite Hi, Hi'. reflexivity.
Qed.
End Contract.
