(** C40, C41: the Symanzik polynomials of a graph. *)
From Coq Require Import List Lia ZArith Bool Arith Permutation QArith Qcanon.
From Verif Require Import PolySpec PolyProofs PropPoly GraphSpec GraphConn GraphModel GraphMat MiscSpec MiscProofs GraphProofs GraphU GraphF.
Import ListNotations.
Local Open Scope nat_scope.
Local Open Scope fld_scope.

(** [ord] is any enumeration without repetition of the vertices of the internal lines (python's set order) *)
Definition vertex_order (ord : list nat) (G : list (nat * nat)) : Prop := NoDup ord /\ forall v, In v ord <-> vertex G v.
Definition connected_graph (G : list (nat * nat)) : Prop := forall u v, vertex G u -> vertex G v -> conn G u v.

Section Prep.
Variable F : Fld.
Add Field Fpg : (f_th F).
Variable ord : list nat. Variable ils : list (car F * (nat * nat)). Variable els : list (list (car F) * nat).
Hypothesis HO : vertex_order ord (map snd ils).
Hypothesis HE : forall l, In l els -> vertex (map snd ils) (snd l).
Notation G := (map snd ils).
Notation P := (length ils).
Notation V := (length ord).
Lemma hom_ring : forall a b c d e : F, c * e * a + e * b * (c * d) = c * e * (a + b * d).
Proof. intros. ring. Qed.
Lemma HE' : forall l, In l els -> In (snd l) ord.
Proof. intros l I. apply HO, HE, I. Qed.
Lemma U_some : (V <= P)%nat -> ils <> [] -> connected_graph G ->
  U_terms ord ils els <> [] /\ preliminary_U ord ils els = Some (mkPoly P (U_terms ord ils els)).
Proof.
  intros HP Hne HC. pose proof (proj1 HO) as Hnd. pose proof (proj2 HO) as Hord. destruct (U_terms_spec F ord ils els Hnd Hord HE' HP Hne) as (_ & _ & HR & _).
  assert (Q : U_terms ord ils els <> []).
  { intros E. destruct (connected_tree ord G Hnd Hord HC) as (row & H). apply HR in H. rewrite E in H. destruct H. }
  split; [exact Q|]. unfold preliminary_U. rewrite (keys_ok_true F ord els HE').
  assert (L : loops_ok F ord ils = true). { unfold loops_ok, gV, gP. apply Nat.ltb_lt. pose proof (ord_ne F ord ils Hord Hne). lia. }
  rewrite L. cbn [andb]. unfold make_poly, gP. destruct (U_terms ord ils els); [congruence|reflexivity].
Qed.
Lemma U_wf : (V <= P)%nat -> ils <> [] -> Forall (fun t => cut_row G (fst t)) (U_terms ord ils els).
Proof.
  intros HP Hne. pose proof (proj1 HO) as Hnd. pose proof (proj2 HO) as Hord. destruct (U_terms_spec F ord ils els Hnd Hord HE' HP Hne) as (_ & _ & HR & _).
  apply Forall_forall. intros t I. apply (in_map fst), HR in I. apply I.
Qed.

Lemma meval_unit : forall n i (x : list F), length x = n -> (i < n)%nat -> meval (upd i 1%Z (repeat 0%Z n)) x = nth i x 0.
Proof.
  induction n as [|n IH]; intros i [|a x] HL Hi; cbn [length] in HL; try lia. destruct i as [|i]; cbn [repeat upd meval nth].
  - rewrite (@zpow_1_r F). change (repeat 0%Z n) with (zrow n). rewrite (meval_zrow F x n). ring.
  - cbn [zpow]. rewrite IH by lia. ring.
Qed.
Lemma Fm_eval : forall x : list F, length x = P -> peval (mkPoly P (Fm_terms F ils)) x = sumF (map (fun p => fst (fst p) * fst (fst p) * snd p) (combine ils x)).
Proof.
  intros x HL. unfold peval, Fm_terms, gP. cbn [ptm].
  assert (E : sumF (map (fun p : F * (nat * nat) * F => fst (fst p) * fst (fst p) * snd p) (combine ils x)) = sumF (map (fun i => fst (nth i ils (0, (0%nat, 0%nat))) * fst (nth i ils (0, (0%nat, 0%nat))) * nth i x 0) (seq 0 P))).
  { f_equal. apply nth_ext with 0 0; [rewrite !map_length, combine_length, seq_length; lia|]. intros k Hk. rewrite map_length, combine_length in Hk.
    rewrite (nth_map_seq _ P k) by lia.
    set (f := fun p : F * (nat * nat) * F => fst (fst p) * fst (fst p) * snd p).
    rewrite (nth_indep _ 0 (f ((0, (0%nat, 0%nat)), 0))) by (rewrite map_length, combine_length; exact Hk).
    rewrite (map_nth f), combine_nth by congruence. reflexivity. }
  rewrite E. clear E. assert (B : forall i, In i (seq 0 P) -> (i < P)%nat) by (intros i I; apply in_seq in I; lia).
  induction (seq 0 P) as [|i l IH]; [reflexivity|]. cbn [flat_map map sumF]. rewrite map_app, sumF_app, (IH (fun j J => B j (or_intror J))). f_equal.
  destruct (feqb (fst (nth i ils (0, (0%nat, 0%nat)))) 0) eqn:Q; cbn [map sumF fst snd].
  - apply feqb_spec in Q. rewrite Q. ring.
  - rewrite meval_unit; [ring|exact HL|apply B; left; reflexivity].
Qed.
Lemma pdef_pos : forall ts (x : list F), length x = P -> Forall (fun t => length (fst t) = P /\ Forall (fun e => (0 <= e)%Z) (fst t)) ts -> pdef (mkPoly P ts) x.
Proof.
  intros ts x HL H. split; [exact HL|]. cbn [ptm]. revert H. apply Forall_impl. intros t [H1 H2]. rewrite <- H1 in HL. clear H1. revert x HL.
  induction H2 as [|e r He H IH]; intros [|a x] HL; cbn [length] in HL; try lia; constructor; [right; exact He|apply IH; lia].
Qed.
Lemma Fm_wf : Forall (fun t => length (fst t) = P /\ Forall (fun e => (0 <= e)%Z) (fst t) /\ degree (fst t) = 1%Z) (Fm_terms F ils).
Proof.
  apply Forall_forall. intros t I. unfold Fm_terms, gP in I. apply in_flat_map in I. destruct I as (i & I & J). apply in_seq in I.
  destruct (feqb _ 0); [destruct J|]. destruct J as [<-|[]]. cbn [fst]. assert (Hi : (i < P)%nat) by lia. clear -Hi. split; [rewrite upd_length', repeat_length; reflexivity|].
  revert i Hi. induction P as [|n IH]; intros i Hi; [lia|]. destruct i as [|i]; cbn [repeat upd].
  - split; [constructor; [lia|]; apply Forall_forall; intros e He; apply repeat_spec in He; lia|]. cbn [degree fold_right].
    assert (E : fold_right Z.add 0%Z (repeat 0%Z n) = 0%Z) by (clear; induction n as [|n IHn]; [reflexivity|cbn [repeat fold_right]; lia]). rewrite E. reflexivity.
  - destruct (IH i ltac:(lia)) as [H1 H2]. split; [constructor; [lia|exact H1]|]. unfold degree in *. cbn [fold_right]. lia.
Qed.

Variable n : nat. Variable dot : list F -> list F -> F.
Hypothesis Hlen : forall l, In l els -> length (fst l) = n.
Hypothesis Hdot : scalar_product n dot.
Hypothesis Hcon : conserved n dot els.

Lemma F0_eval : (V <= P)%nat -> ils <> [] -> forall (x : list F) T q, NoDup T ->
  (forall row, In row T <-> cut_row G row /\ exists a b, two_forest G (uncut row G) a b) ->
  (forall row, In row T -> exists a b sel, two_forest G (uncut row G) a b /\ (forall v, vertex G v -> (sel v = true <-> conn (uncut row G) a v)) /\
     q row = dot (flow n els sel) (flow n els sel)) ->
  peval (mkPoly P (F0_terms F ord ils els n dot)) x = - sumF (map (fun row => q row * meval row x) T).
Proof.
  intros HP Hne x T q HT Hrow Hq. pose proof (proj1 HO) as Hnd. pose proof (proj2 HO) as Hord. pose proof (ord_ne F ord ils Hord Hne) as HV.
  pose proof (forest_cut F ord ils els Hnd Hord HE' HV HP) as FC.
  set (cuts := filter (fun cut => valid2tree F ord els (cut_power F ord ils els cut)) (combinations (P - (V - 1) + 1) (seq 0 P))).
  assert (PT : Permutation (map (expo P) cuts) T).
  { apply NoDup_Permutation; [|exact HT|].
    - apply NoDup_map_inj; [|apply NoDup_filter, combinations_NoDup, seq_NoDup]. intros a b Ha Hb E. apply filter_In in Ha, Hb.
      rewrite <- (cut_of_expo P _ a (proj1 Ha)), <- (cut_of_expo P _ b (proj1 Hb)), E. reflexivity.
    - intros row. rewrite Hrow, FC, in_map_iff. split; [intros (c & <- & I); apply filter_In in I; exists c; tauto|intros (c & I1 & I2 & ->); exists c; split; [reflexivity|apply filter_In; auto]]. }
  rewrite <- (sumF_perm F _ _ (Permutation_map (fun row => q row * meval row x) PT)), map_map.
  assert (CQ : forall cut, In cut cuts -> dot (sum_mom F ord els n (cutmomenta F ord els (cut_power F ord ils els cut))) (sum_mom F ord els n (cutmomenta F ord els (cut_power F ord ils els cut))) = q (expo P cut)).
  { intros cut I. assert (IT : In (expo P cut) T) by (apply (Permutation_in _ PT), in_map, I). destruct (Hq _ IT) as (a & b & sel & (Ha & Hb & Hab & Hv & HA) & Hsel & ->).
    apply filter_In in I. destruct I as [I _]. pose proof (a0_in F ord els HE' HV) as Ia0. apply Hord in Ia0.
    destruct (Hv _ Ia0) as [K|K].
    - rewrite (cut_momentum F ord ils els Hnd Hord HE' HV n dot Hlen Hdot Hcon _ cut (fun v => negb (sel v)) I).
      + symmetry. apply (flow_other F ord els HV n dot Hlen Hdot Hcon).
      + intros v Iv. cbn beta. rewrite negb_true_iff, <- not_true_iff_false, (Hsel v Iv). split; intros Q C; apply Q.
        * apply (conn_trans _ a _ v K C).
        * apply (conn_trans _ _ a v (conn_sym _ _ _ K) C).
    - apply (cut_momentum F ord ils els Hnd Hord HE' HV n dot Hlen Hdot Hcon _ cut sel I). intros v Iv. cbn beta. rewrite (Hsel v Iv). split.
      + intros C D. apply Hab. apply (conn_trans _ a v b C). apply (conn_trans _ v _ b (conn_sym _ _ _ D)), conn_sym, K.
      + intros C. destruct (Hv v Iv) as [D|D]; [exact D|]. exfalso. apply C. apply (conn_trans _ _ b v (conn_sym _ _ _ K) D). }
  unfold peval, F0_terms. cbn [ptm]. rewrite gL_eq. unfold gP. clear PT FC.
  revert CQ. unfold cuts. generalize (combinations (P - (V - 1) + 1) (seq 0 P)). intros l CQ. clear cuts.
  induction l as [|c l IH]; [cbn; ring|]. cbn [flat_map filter]. cbn [filter] in CQ. destruct (valid2tree F ord els (cut_power F ord ils els c)).
  - rewrite map_app, sumF_app, IH by (intros d D; apply CQ; right; exact D). cbn [map sumF]. rewrite <- (CQ c (or_introl eq_refl)).
    destruct (cutmomenta F ord els (cut_power F ord ils els c)) as [|m ms] eqn:Q.
    + cbn [map sumF]. assert (Z : dot (sum_mom F ord els n []) (sum_mom F ord els n []) = 0) by (apply (dot_zero F n dot Hdot), zero_len). rewrite Z. ring.
    + cbn [map sumF fst snd]. change (cut_expo F ils c) with (expo P c). ring.
  - cbn [app]. apply IH, CQ.
Qed.
Lemma F_value : (V <= P)%nat -> ils <> [] -> connected_graph G ->
  exists Fp, preliminary_F ord ils els n dot = Some Fp /\ pnv Fp = P /\
  forall x : list F, length x = P -> peval Fp x = peval (mkPoly P (F0_terms F ord ils els n dot)) x + peval (mkPoly P (U_terms ord ils els)) x * peval (mkPoly P (Fm_terms F ils)) x.
Proof.
  intros HP Hne HC. unfold preliminary_F. rewrite (proj2 (U_some HP Hne HC)).
  set (U := mkPoly P (U_terms ord ils els)).
  assert (K : exists UF, match Fm_terms F ils with [] => Some (pmul_num U 0) | ts => pmul U (mkPoly (gP ils) ts) end = Some UF /\ pnv UF = P /\
     forall x : list F, length x = P -> peval UF x = peval U x * peval (mkPoly P (Fm_terms F ils)) x).
  { destruct (Fm_terms F ils) as [|t ts] eqn:Q.
    - eexists. split; [reflexivity|]. split; [unfold pmul_num; destruct (feqb 0 1) eqn:Z; [reflexivity|destruct (feqb 0 0); reflexivity]|].
      intros x HL. rewrite pmul_num_eval. f_equal.
    - destruct (proj2 (C01_mul F U (mkPoly (gP ils) (t :: ts))) eq_refl) as (r & E1 & E2 & E3). exists r. split; [exact E1|]. split; [exact E2|].
      intros x HL. apply E3.
      + apply pdef_pos; [exact HL|]. generalize (U_wf HP Hne). apply Forall_impl. intros u [H1 H2]. split; [rewrite H1, map_length; reflexivity|].
        apply (rows_pos G). split; assumption.
      + apply pdef_pos; [exact HL|]. rewrite <- Q. generalize Fm_wf. apply Forall_impl. tauto. }
  destruct K as (UF & E1 & E2 & E3). rewrite E1. destruct (F0_terms F ord ils els n dot) as [|t ts].
  - eexists. split; [reflexivity|]. split; [unfold psub_or_add_num; rewrite psimplify_nv; exact E2|]. intros x HL. rewrite padd_num_eval, E3 by exact HL.
    unfold peval at 3. cbn [ptm map sumF]. ring.
  - destruct (proj2 (C01_add_sub F false (mkPoly (gP ils) (t :: ts)) UF) ltac:(symmetry; exact E2)) as (r & R1 & R2 & R3). exists r. split; [exact R1|]. split; [exact R2|].
    intros x HL. rewrite R3, E3 by exact HL. reflexivity.
Qed.
End Prep.

(** C40: U has coefficient 1 for each product of parameters whose removal leaves a spanning tree, no other term, no
    repeated term; it is homogeneous of degree L = P - V + 1.  Any python set order gives the same U. *)
Theorem C40_spanning_trees : forall (F : Fld) ord (ils : list (F * (nat * nat))) (els : list (list F * nat)),
  let G := map snd ils in
  vertex_order ord G -> (forall l, In l els -> vertex G (snd l)) -> ils <> [] -> connected_graph G -> length ord <= length ils ->
  exists U, preliminary_U ord ils els = Some U /\ pnv U = length ils /\ ptm U <> [] /\
    NoDup (map fst (ptm U)) /\ Forall (fun t => snd t = 1) (ptm U) /\
    forall row, In row (map fst (ptm U)) <-> cut_row G row /\ spanning_tree G (uncut row G).
Proof.
  intros F ord ils els G HO HE Hne HC HP. destruct (U_some F ord ils els HO HE HP Hne HC) as [Q E]. exists (mkPoly (length ils) (U_terms ord ils els)). split; [exact E|].
  destruct (U_terms_spec F ord ils els (proj1 HO) (proj2 HO) (HE' F ord ils els HO HE) HP Hne) as (H1 & H2 & H3 & _). cbn [ptm pnv]. repeat split; try assumption; apply H3; assumption.
Qed.
Print Assumptions C40_spanning_trees.

Theorem C40_homogeneous : forall (F : Fld) ord (ils : list (F * (nat * nat))) (els : list (list F * nat)) U,
  vertex_order ord (map snd ils) -> (forall l, In l els -> vertex (map snd ils) (snd l)) -> ils <> [] -> length ord <= length ils ->
  preliminary_U ord ils els = Some U ->
  Forall (fun t => (degree (fst t) = Z.of_nat (length ils) - Z.of_nat (length ord) + 1)%Z) (ptm U) /\
  forall (c : F) x, length x = length ils -> peval U (map (fmul c) x) = npow c (length ils + 1 - length ord)%nat * peval U x.
Proof.
  intros F ord ils els U HO HE Hne HP H. pose proof (HE' F ord ils els HO HE) as HE''.
  assert (E : U = mkPoly (length ils) (U_terms ord ils els)).
  { unfold preliminary_U in H. destruct (_ && _); [|discriminate]. unfold make_poly, gP in H. destruct (U_terms ord ils els); [discriminate|congruence]. }
  destruct (U_terms_spec F ord ils els (proj1 HO) (proj2 HO) HE'' HP Hne) as (_ & _ & _ & HD). pose proof (U_wf F ord ils els HO HE HP Hne) as HW. subst U. cbn [ptm].
  pose proof (ord_ne F ord ils (proj2 HO) Hne) as HV.
  split; [revert HD; apply Forall_impl; intros t ->; lia|]. intros c x HL. rewrite <- (@zpow_of_nat F). replace (length ils + 1 - length ord)%nat with (length ils - (length ord - 1))%nat by lia.
  apply scale_poly; [exact HL|]. cbn [ptm pnv]. rewrite Forall_forall in *. intros t I. specialize (HD t I). specialize (HW t I).
  split; [rewrite (proj1 HW), map_length; reflexivity|]. split; [apply (rows_pos _ _ HW)|exact HD].
Qed.
Print Assumptions C40_homogeneous.

Theorem C40_vertex_order_irrelevant : forall (F : Fld) ord ord' (ils : list (F * (nat * nat))) (els : list (list F * nat)),
  vertex_order ord (map snd ils) -> vertex_order ord' (map snd ils) -> preliminary_U ord ils els = preliminary_U ord' ils els.
Proof.
  intros F ord ord' ils els [H1 H2] [H1' H2'].
  assert (PO : Permutation ord ord') by (apply NoDup_Permutation; [assumption|assumption|intros v; rewrite H2, H2'; reflexivity]).
  pose proof (Permutation_length PO) as LE.
  unfold preliminary_U. assert (E1 : loops_ok F ord ils = loops_ok F ord' ils) by (unfold loops_ok, gV; rewrite LE; reflexivity). rewrite <- E1.
  assert (E2 : keys_ok F ord els = keys_ok F ord' els).
  { unfold keys_ok. induction els as [|l ls IH]; [reflexivity|]. cbn [forallb]. rewrite IH. f_equal. apply eq_true_iff_eq. rewrite !existsb_exists.
    split; intros (v & I & E); exists v; split; try exact E; [apply (Permutation_in v PO), I|apply (Permutation_in v (Permutation_sym PO)), I]. }
  rewrite <- E2. destruct (loops_ok F ord ils) eqn:LO; [|reflexivity]. destruct (keys_ok F ord els) eqn:KO; [|reflexivity]. cbn [andb].
  assert (HE : forall l, In l els -> In (snd l) ord).
  { intros l I. unfold keys_ok in KO. rewrite forallb_forall in KO. specialize (KO l I). apply existsb_exists in KO. destruct KO as (v & J & E). apply Nat.eqb_eq in E. rewrite E. exact J. }
  assert (HE2 : forall l, In l els -> In (snd l) ord') by (intros l I; apply (Permutation_in _ PO), HE, I).
  f_equal. unfold U_terms. assert (EL : gL ord ils = gL ord' ils) by (unfold gL, gV; rewrite LE; reflexivity). rewrite <- EL. unfold gP.
  pose proof (fun c Hc => connected_cut F ord ils els H1 H2 HE (gL ord ils) c Hc) as CC.
  pose proof (fun c Hc => connected_cut F ord' ils els H1' H2' HE2 (gL ord ils) c Hc) as CC'.
  induction (combinations (gL ord ils) (seq 0 (length ils))) as [|c l IH]; [reflexivity|]. cbn [flat_map].
  rewrite IH by (intros d D; first [apply CC|apply CC']; right; exact D). f_equal.
  assert (Q : contains_zero (cut_power F ord ils els c) = contains_zero (cut_power F ord' ils els c)).
  { assert (R : contains_zero (cut_power F ord ils els c) = false <-> contains_zero (cut_power F ord' ils els c) = false).
    { rewrite (CC c (or_introl eq_refl)), (CC' c (or_introl eq_refl)). split; intros A u v Hu Hv; apply A; try (apply (Permutation_in _ PO); assumption); apply (Permutation_in _ (Permutation_sym PO)); assumption. }
    destruct (contains_zero (cut_power F ord ils els c)); destruct (contains_zero (cut_power F ord' ils els c)); try reflexivity; destruct R as [R1 R2]; [discriminate (R2 eq_refl)|discriminate (R1 eq_refl)]. }
  rewrite Q. reflexivity.
Qed.
Print Assumptions C40_vertex_order_irrelevant.

(** no polynomial is returned exactly for a graph without a loop, with an external line off the graph, or disconnected *)
Theorem C40_errors : forall (F : Fld) ord (ils : list (F * (nat * nat))) (els : list (list F * nat)), vertex_order ord (map snd ils) -> ils <> [] ->
  (preliminary_U ord ils els = None <->
   length ils < length ord \/ (exists l, In l els /\ ~ vertex (map snd ils) (snd l)) \/ ~ connected_graph (map snd ils)).
Proof.
  intros F ord ils els HO Hne. pose proof (ord_ne F ord ils (proj2 HO) Hne) as HV.
  assert (KD : keys_ok F ord els = true <-> forall l, In l els -> vertex (map snd ils) (snd l)).
  { unfold keys_ok. rewrite forallb_forall. split; intros H l I; specialize (H l I).
    - apply existsb_exists in H. destruct H as (v & J & E). apply Nat.eqb_eq in E. apply HO. rewrite E. exact J.
    - apply existsb_exists. exists (snd l). split; [apply HO, H|apply Nat.eqb_refl]. }
  split.
  - intros H. destruct (Nat.lt_ge_cases (length ils) (length ord)) as [L|L]; [left; exact L|right].
    destruct (keys_ok F ord els) eqn:KO.
    + right. intros C. pose proof (proj2 (U_some F ord ils els HO (proj1 KD eq_refl) L Hne C)). congruence.
    + left. unfold keys_ok in KO. assert (X : existsb (fun l => negb (existsb (Nat.eqb (snd l)) ord)) els = true).
      { clear -KO. induction els as [|l ls IH]; [discriminate|]. cbn [forallb existsb] in *. destruct (existsb (Nat.eqb (snd l)) ord); cbn in *; [apply IH, KO|reflexivity]. }
      apply existsb_exists in X. destruct X as (l & I & X). exists l. split; [exact I|]. intros Q. apply HO in Q. apply negb_true_iff in X.
      assert (existsb (Nat.eqb (snd l)) ord = true) by (apply existsb_exists; exists (snd l); split; [exact Q|apply Nat.eqb_refl]). congruence.
  - intros H. unfold preliminary_U. destruct (loops_ok F ord ils) eqn:LO; [|reflexivity]. destruct (keys_ok F ord els) eqn:KO; [|reflexivity]. cbn [andb].
    unfold loops_ok, gV, gP in LO. apply Nat.ltb_lt in LO. destruct H as [H|[(l & I & Nv)|H]]; [lia|exfalso; apply Nv, (proj1 KD eq_refl), I|].
    unfold make_poly. destruct (U_terms ord ils els) as [|t ts] eqn:E; [reflexivity|]. exfalso. apply H. intros u v Hu Hv.
    assert (HE : forall l, In l els -> In (snd l) ord) by (intros l I; apply HO, (proj1 KD eq_refl), I).
    destruct (U_terms_spec F ord ils els (proj1 HO) (proj2 HO) HE ltac:(lia) Hne) as (_ & _ & HR & _).
    assert (It : In (fst t) (map fst (U_terms ord ils els))) by (rewrite E; left; reflexivity). apply HR in It. destruct It as [_ [HC _]].
    specialize (HC u v Hu Hv). revert HC. apply conn_mono. intros e. apply uncut_incl.
Qed.
Print Assumptions C40_errors.

(** C41 *)
Theorem C41_two_forests : forall (F : Fld) ord (ils : list (F * (nat * nat))) (els : list (list F * nat)) n dot,
  let G := map snd ils in
  vertex_order ord G -> (forall l, In l els -> vertex G (snd l)) -> ils <> [] -> connected_graph G -> length ord <= length ils ->
  (forall l, In l els -> length (fst l) = n) -> scalar_product n dot -> conserved n dot els ->
  exists U Fp, preliminary_U ord ils els = Some U /\ preliminary_F ord ils els n dot = Some Fp /\ pnv Fp = length ils /\
  forall (x : list F) (T : list (list Z)) (q : list Z -> F), length x = length ils ->
    (* T lists the cuts that leave two trees, q is the square of the momentum that enters one of them (either one) *)
    NoDup T -> (forall row, In row T <-> cut_row G row /\ exists a b, two_forest G (uncut row G) a b) ->
    (forall row, In row T -> exists a b sel, two_forest G (uncut row G) a b /\
       (forall v, vertex G v -> (sel v = true <-> conn (uncut row G) a v)) /\ q row = dot (flow n els sel) (flow n els sel)) ->
    peval Fp x = - sumF (map (fun row => q row * meval row x) T)
                 + peval U x * sumF (map (fun p => fst (fst p) * fst (fst p) * snd p) (combine ils x)).
Proof.
  intros F ord ils els n dot G HO HE Hne HC HP Hl Hd Hc. destruct (U_some F ord ils els HO HE HP Hne HC) as [_ EU].
  destruct (F_value F ord ils els HO HE n dot HP Hne HC) as (Fp & E1 & E2 & E3). exists (mkPoly (length ils) (U_terms ord ils els)), Fp.
  split; [exact EU|]. split; [exact E1|]. split; [exact E2|]. intros x T q HL HT Hrow Hq. rewrite (E3 x HL).
  rewrite (F0_eval F ord ils els HO HE n dot Hl Hd Hc HP Hne x T q HT Hrow Hq). rewrite Fm_eval by exact HL. reflexivity.
Qed.
Print Assumptions C41_two_forests.

Theorem C41_homogeneous : forall (F : Fld) ord (ils : list (F * (nat * nat))) (els : list (list F * nat)) n dot Fp,
  vertex_order ord (map snd ils) -> (forall l, In l els -> vertex (map snd ils) (snd l)) -> ils <> [] -> connected_graph (map snd ils) -> length ord <= length ils ->
  preliminary_F ord ils els n dot = Some Fp ->
  forall (c : F) x, length x = length ils -> peval Fp (map (fmul c) x) = npow c (length ils + 2 - length ord)%nat * peval Fp x.
Proof.
  intros F ord ils els n dot Fp HO HE Hne HC HP H c x HL. destruct (F_value F ord ils els HO HE n dot HP Hne HC) as (Fp' & E1 & _ & E3).
  assert (Fp' = Fp) by congruence. subst Fp'. rewrite (E3 x HL), (E3 (map (fmul c) x)) by (rewrite map_length; exact HL).
  pose proof (ord_ne F ord ils (proj2 HO) Hne) as HV. pose proof (HE' F ord ils els HO HE) as HE''.
  destruct (C40_homogeneous F ord ils els (mkPoly (length ils) (U_terms ord ils els)) HO HE Hne HP (proj2 (U_some F ord ils els HO HE HP Hne HC))) as [_ HU].
  rewrite (HU c x HL).
  rewrite (scale_poly F (mkPoly (length ils) (Fm_terms F ils)) 1 x c HL (Fm_wf F ils)).
  rewrite (scale_poly F (mkPoly (length ils) (F0_terms F ord ils els n dot)) (Z.of_nat (length ils + 2 - length ord)%nat) x c HL).
  - rewrite (@zpow_of_nat F), (@zpow_1_r F). replace (length ils + 2 - length ord)%nat with (S (length ils + 1 - length ord))%nat by lia. cbn [npow].
    apply hom_ring.
  - cbn [ptm pnv]. apply Forall_forall. intros t I. unfold F0_terms in I. apply in_flat_map in I. destruct I as (cut & I & J).
    destruct (valid2tree _ _ _ _); [|destruct J]. destruct (cutmomenta _ _ _ _); [destruct J|]. destruct J as [<-|[]]. cbn [fst]. rewrite gL_eq in I. unfold gP in I.
    rewrite <- (map_length snd ils) in I at 2. destruct (expo_row _ _ _ I) as [R D]. rewrite map_length in R, D. change (cut_expo F ils cut) with (expo (length ils) cut).
    split; [rewrite (proj1 R), map_length; reflexivity|]. split; [exact (rows_pos _ _ R)|]. rewrite D. lia.
Qed.
Print Assumptions C41_homogeneous.

(** Example: the massive bubble with an extra tadpole-free double line, i.e. the two-loop sunrise, masses m,0,0,
    external momentum p and -p with p^2 = s = 3, vertices named 7 and 4. *)
Add Field Fqc : (f_th Qc_Fld).
Definition ex_q (z : Z) : Qc_Fld := Q2Qc (inject_Z z).
Definition ex_ils : list (Qc_Fld * (nat * nat)) := [(ex_q 2, (7, 4)); (ex_q 0, (4, 7)); (ex_q 0, (7, 4))]%nat.
Definition ex_els : list (list Qc_Fld * nat) := [([ex_q 1], 7%nat); ([ex_q (-1)], 4%nat)].
Definition ex_dot (a b : list Qc_Fld) : Qc_Fld := ex_q 3 * nth 0 a 0 * nth 0 b 0.
Definition ex_show (p : poly Qc_Fld) : list (list Z * Q) := map (fun t => (fst t, this (snd t))) (ptm p).
Example C40_ex : vertex_order [4; 7]%nat (map snd ex_ils) /\ vertex_order [7; 4]%nat (map snd ex_ils) /\
  (forall l, In l ex_els -> vertex (map snd ex_ils) (snd l)) /\ connected_graph (map snd ex_ils) /\
  option_map (fun U => map fst (ptm U)) (preliminary_U [4; 7]%nat ex_ils ex_els) = Some [[1;1;0];[1;0;1];[0;1;1]]%Z /\
  spanning_tree (map snd ex_ils) (uncut [1;0;1]%Z (map snd ex_ils)).
Proof.
  assert (VO : forall v, vertex (map snd ex_ils) v <-> v = 4%nat \/ v = 7%nat).
  { intros v. split.
    - intros (e & I & H). cbn in I. destruct I as [<-|[<-|[<-|[]]]]; cbn in H; lia.
    - intros [-> | ->]; exists (7, 4)%nat; cbn; auto. }
  assert (O1 : vertex_order [4; 7]%nat (map snd ex_ils)).
  { split; [repeat constructor; cbn; lia|]. intros v. rewrite VO. cbn. lia. }
  assert (O2 : vertex_order [7; 4]%nat (map snd ex_ils)).
  { split; [repeat constructor; cbn; lia|]. intros v. rewrite VO. cbn. lia. }
  assert (HE : forall l, In l ex_els -> vertex (map snd ex_ils) (snd l)).
  { intros l I. apply VO. cbn in I. destruct I as [<-|[<-|[]]]; cbn; auto. }
  assert (HU : option_map (fun U => map fst (ptm U)) (preliminary_U [4; 7]%nat ex_ils ex_els) = Some [[1;1;0];[1;0;1];[0;1;1]]%Z) by (vm_compute; reflexivity).
  split; [exact O1|]. split; [exact O2|]. split; [exact HE|]. split.
  { intros u v Hu Hv. apply VO in Hu, Hv. apply lab_conn. destruct Hu as [-> | ->]; destruct Hv as [-> | ->]; vm_compute; reflexivity. }
  split; [exact HU|]. destruct (U_terms_spec Qc_Fld [4;7]%nat ex_ils ex_els (proj1 O1) (proj2 O1) (HE' _ _ _ _ O1 HE)) as (_ & _ & H & _); [cbn; lia|discriminate|].
  apply (proj1 (H [1;0;1]%Z)). assert (E : map fst (U_terms [4;7]%nat ex_ils ex_els) = [[1;1;0];[1;0;1];[0;1;1]]%Z) by (vm_compute; reflexivity). rewrite E. right. left. reflexivity.
Qed.
Example C41_ex : scalar_product 1 ex_dot /\ conserved 1 ex_dot ex_els /\ (forall l, In l ex_els -> length (fst l) = 1%nat) /\
  option_map ex_show (preliminary_F [7; 4]%nat ex_ils ex_els 1 ex_dot) = Some [([1;1;1]%Z, 1%Q); ([2;0;1]%Z, 4%Q); ([2;1;0]%Z, 4%Q)].
Proof.
  split; [|split; [|split]].
  - split.
    + intros a b _ _. unfold ex_dot. ring.
    + intros [|a [|? ?]] [|b [|? ?]] w H1 H2 _; cbn in H1, H2; try lia. unfold ex_dot, vplus. cbn [combine map nth fst snd]. ring.
  - intros w _. unfold ex_dot, ex_els, flow, mom_sum, vplus. cbn [filter map fst snd fold_right combine repeat nth].
    assert (E : (ex_q 1 + (ex_q (-1) + f0))%fld = f0) by (apply Qc_is_canon; vm_compute; reflexivity). rewrite E. ring.
  - intros l [<-|[<-|[]]]; reflexivity.
  - vm_compute. reflexivity.
Qed.

(** Without momentum conservation the result depends on the order in which the python set delivers the vertices:
    external momenta p at one end, 2p at the other end of a massless bubble. *)
Definition ex_els_bad : list (list Qc_Fld * nat) := [([ex_q 1], 7%nat); ([ex_q 2], 4%nat)].
Definition ex_bub : list (Qc_Fld * (nat * nat)) := [(ex_q 0, (7, 4)); (ex_q 0, (4, 7))]%nat.
Theorem C41_unconserved_order_dependent_refuted : vertex_order [4; 7]%nat (map snd ex_bub) /\ vertex_order [7; 4]%nat (map snd ex_bub) /\
  option_map ex_show (preliminary_F [4; 7]%nat ex_bub ex_els_bad 1 ex_dot) = Some [([1;1]%Z, (-3)%Q)] /\
  option_map ex_show (preliminary_F [7; 4]%nat ex_bub ex_els_bad 1 ex_dot) = Some [([1;1]%Z, (-12)%Q)].
Proof.
  assert (VO : forall v, vertex (map snd ex_bub) v <-> v = 4%nat \/ v = 7%nat).
  { intros v. split.
    - intros (e & I & H). cbn in I. destruct I as [<-|[<-|[]]]; cbn in H; lia.
    - intros [-> | ->]; exists (7, 4)%nat; cbn; auto. }
  split; [split; [repeat constructor; cbn; lia|intros v; rewrite VO; cbn; lia]|].
  split; [split; [repeat constructor; cbn; lia|intros v; rewrite VO; cbn; lia]|].
  split; vm_compute; reflexivity.
Qed.
Print Assumptions C41_unconserved_order_dependent_refuted.
