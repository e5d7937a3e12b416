(** U and F of a graph with one line contracted. *)
From Coq Require Import List Lia ZArith Bool Arith Permutation.
From Verif Require Import PolySpec PolyProofs PropPoly GraphSpec GraphConn GraphModel GraphMat MiscSpec MiscProofs GraphProofs GraphU GraphF PropGraph ParamReal GraphPinchSpec GraphPinch.
Import ListNotations.
Local Open Scope nat_scope.

Definition ins {A} (i : nat) (v : A) (y : list A) : list A := firstn i y ++ v :: skipn i y.
Lemma ins_length {A} i (v : A) y : length (ins i v y) = S (length y).
Proof. unfold ins. rewrite app_length. cbn [length]. rewrite <- Nat.add_succ_comm. rewrite <- (firstn_skipn i y) at 3. rewrite app_length. lia. Qed.
Lemma ins_app {A} (v : A) a b : ins (length a) v (a ++ b) = a ++ v :: b.
Proof. unfold ins. rewrite firstn_app, skipn_app, firstn_all, skipn_all, Nat.sub_diag. cbn [firstn skipn app]. rewrite app_nil_r. reflexivity. Qed.
Lemma split_at {A} i (l : list A) : i <= length l -> exists a b, l = a ++ b /\ length a = i.
Proof. intros H. exists (firstn i l), (skipn i l). split; [symmetry; apply firstn_skipn|rewrite firstn_length; lia]. Qed.
Lemma uncut_app rA rB GA GB : length rA = length GA -> uncut (rA ++ rB) (GA ++ GB) = uncut rA GA ++ uncut rB GB.
Proof.
  intros L. unfold uncut. rewrite <- map_app, <- filter_app. f_equal. f_equal. revert GA L. induction rA as [|r rA IH]; intros [|g GA] L; cbn in L; try discriminate; [reflexivity|]. cbn [app combine]. f_equal. apply IH. lia.
Qed.
Lemma uncut_map f r G : uncut r (map f G) = map f (uncut r G).
Proof. unfold uncut. revert G. induction r as [|e r IH]; intros [|g G]; try reflexivity. cbn [map combine filter fst]. destruct (Z.eqb e 0); cbn [map snd]; [f_equal|]; apply IH. Qed.
Lemma uncut_kept rA rB GA GB e : length rA = length GA -> uncut (rA ++ 0%Z :: rB) (GA ++ e :: GB) = uncut rA GA ++ e :: uncut rB GB.
Proof. intros L. rewrite uncut_app by exact L. reflexivity. Qed.

Section Rows.
Variable F : Fld.
Add Field Fpu : (f_th F).
Local Open Scope fld_scope.
Lemma rows_sum (i n : nat) (T T' : list (list Z)) (q q' : list Z -> F) (y : list F) : (i <= n)%nat -> length y = n -> NoDup T -> NoDup T' ->
  Forall (fun row => length row = S n /\ Forall (fun e => e = 0%Z \/ e = 1%Z) row) T ->
  (forall row', In row' T' <-> length row' = n /\ In (ins i 0%Z row') T) ->
  (forall row', In row' T' -> q' row' = q (ins i 0%Z row')) ->
  sumF (map (fun row => q row * meval row (ins i 0 y)) T) = sumF (map (fun row => q' row * meval row y) T').
Proof.
  intros Hi Ly Nd Nd' Hrow HT Hq.
  set (T0 := map (ins i 0%Z) T').
  assert (PT : Permutation T (T0 ++ filter (fun row => negb (Z.eqb (nth i row 0%Z) 0)) T)).
  { transitivity (filter (fun row => Z.eqb (nth i row 0%Z) 0) T ++ filter (fun row => negb (Z.eqb (nth i row 0%Z) 0)) T); [apply filter_split|].
    apply Permutation_app_tail. apply NoDup_Permutation; [apply NoDup_filter, Nd| |].
    - apply NoDup_map_inj; [|exact Nd']. intros a b Ha Hb E. apply HT in Ha, Hb. destruct Ha as [La _], Hb as [Lb _].
      destruct (split_at i a ltac:(lia)) as (a1 & a2 & -> & L1). destruct (split_at i b ltac:(lia)) as (b1 & b2 & -> & L2). rewrite <- L1 in E at 1. rewrite <- L2 in E. rewrite !ins_app in E.
      assert (X : a1 = b1 /\ 0%Z :: a2 = 0%Z :: b2). { clear - E L1 L2. revert b1 L2 E. rewrite <- L1. clear L1. induction a1 as [|x a1 IH]; intros [|y b1] L2 E; cbn in *; try discriminate; [auto|]. injection E as -> E. destruct (IH b1 ltac:(lia) E) as [-> Q]. auto. }
      destruct X as [-> X]. injection X as ->. reflexivity.
    - intros row. rewrite filter_In, Z.eqb_eq. unfold T0. rewrite in_map_iff. split.
      + intros [I Z]. rewrite Forall_forall in Hrow. destruct (Hrow row I) as [L _]. destruct (split_at i row ltac:(lia)) as (r1 & r2 & -> & L1).
        rewrite app_length in L. destruct r2 as [|e r2]; [cbn in L; lia|]. rewrite <- L1, app_nth2, Nat.sub_diag in Z by lia. cbn in Z. subst e.
        exists (r1 ++ r2). assert (EI : ins i 0%Z (r1 ++ r2) = r1 ++ 0%Z :: r2) by (rewrite <- L1; apply ins_app). split; [exact EI|]. apply HT. rewrite EI. split; [rewrite app_length; cbn in L; lia|exact I].
      + intros (r & <- & I). apply HT in I. destruct I as [L I]. split; [exact I|]. destruct (split_at i r ltac:(lia)) as (r1 & r2 & -> & L1). rewrite <- L1, ins_app, app_nth2, Nat.sub_diag by lia. reflexivity. }
  rewrite (sumF_perm F _ _ (Permutation_map (fun row => q row * meval row (ins i 0 y)) PT)). rewrite map_app, sumF_app.
  destruct (split_at i y ltac:(lia)) as (y1 & y2 & -> & L1). 
  assert (Z : sumF (map (fun row => q row * meval row (ins i 0 (y1 ++ y2))) (filter (fun row => negb (Z.eqb (nth i row 0%Z) 0)) T)) = 0).
  { assert (Q : forall l, (forall row, In row l -> meval row (ins i 0 (y1 ++ y2)) = 0) -> sumF (map (fun row => q row * meval row (ins i 0 (y1 ++ y2))) l) = 0).
    { induction l as [|r l IH]; intros H; [reflexivity|]. cbn [map sumF]. rewrite (H r (or_introl eq_refl)), IH by (intros row I; apply H; right; exact I). ring. }
    apply Q. intros row I. apply filter_In in I. destruct I as [I N0]. apply negb_true_iff, Z.eqb_neq in N0. rewrite Forall_forall in Hrow. destruct (Hrow row I) as [L H01].
    destruct (split_at i row ltac:(lia)) as (r1 & r2 & -> & Lr). rewrite app_length in L. destruct r2 as [|e r2]; [cbn in L; lia|]. rewrite <- Lr, app_nth2, Nat.sub_diag in N0 by lia. cbn in N0.
    rewrite Forall_app in H01. destruct H01 as [_ H01]. apply Forall_cons_iff in H01. destruct H01 as [He _]. destruct He as [He|He]; [lia|subst e].
    rewrite <- L1, ins_app. rewrite (meval_app F) by lia. cbn [meval zpow npow]. change (Pos.to_nat 1) with 1%nat. cbn [npow]. ring. }
  rewrite Z. unfold T0. rewrite map_map.
  assert (E : map (fun row => q (ins i 0%Z row) * meval (ins i 0%Z row) (ins i 0 (y1 ++ y2))) T' = map (fun row => q' row * meval row (y1 ++ y2)) T').
  { apply map_ext_in. intros r I. rewrite (Hq r I). f_equal. apply HT in I. destruct I as [L _]. destruct (split_at i r ltac:(lia)) as (r1 & r2 & -> & Lr).
    rewrite <- Lr at 1. rewrite <- L1. rewrite !ins_app. rewrite !(meval_app F) by lia. cbn [meval zpow]. ring. }
  rewrite E. ring.
Qed.
End Rows.

Lemma two_forest_base G T a b a0 : two_forest G T a b -> vertex G a0 -> exists b0, two_forest G T a0 b0.
Proof.
  intros (Ha & Hb & Nab & Hv & HA) H0. destruct (Hv a0 H0) as [C|C].
  - exists b. split; [exact H0|]. split; [exact Hb|]. split; [intros D; apply Nab; apply (conn_trans _ a a0 b); assumption|]. split; [|exact HA]. intros v V. destruct (Hv v V) as [D|D]; [left; apply (conn_trans _ a0 a v); [apply conn_sym|]; assumption|right; exact D].
  - exists a. split; [exact H0|]. split; [exact Ha|]. split; [intros D; apply Nab; apply conn_sym; apply (conn_trans _ b a0 a); assumption|]. split; [|exact HA]. intros v V. destruct (Hv v V) as [D|D]; [right; exact D|left; apply (conn_trans _ a0 b v); [apply conn_sym|]; assumption].
Qed.

Section One.
Variable F : Fld.
Add Field Fpo : (f_th F).
Local Open Scope fld_scope.
Variables (A B : list (F * (nat * nat))) (m : F) (v1 v2 : nat) (els : list (list F * nat)).
Hypothesis NE : v1 <> v2.
Let ils := A ++ (m, (v1, v2)) :: B.
Let i := length A.
Let ils' := fst (pinch i (ils, els)).
Let els' := snd (pinch i (ils, els)).
Notation GA := (map snd A). Notation GB := (map snd B).
Notation r2 := (ren2 v1 v2).
Lemma nth_mid : nth_error ils i = Some (m, (v1, v2)).
Proof. unfold ils, i. rewrite nth_error_app2 by lia. rewrite Nat.sub_diag. reflexivity. Qed.
Lemma delete_mid {T} (a : list T) x b : delete_nth (length a) (a ++ x :: b) = a ++ b.
Proof. induction a as [|y a IH]; [reflexivity|]. cbn [length app delete_nth]. f_equal. exact IH. Qed.
Lemma ils'_eq : ils' = map (fun l => (fst l, r2 (snd l))) (A ++ B).
Proof. unfold ils', pinch. cbn [fst snd]. rewrite nth_mid. cbn [fst]. unfold ils, i. rewrite delete_mid. reflexivity. Qed.
Lemma els'_eq : els' = map (fun l => (fst l, rename v1 v2 (snd l))) els.
Proof. unfold els', pinch. cbn [fst snd]. rewrite nth_mid. reflexivity. Qed.
Lemma G_eq : map snd ils = GA ++ (v1, v2) :: GB.
Proof. unfold ils. rewrite map_app. reflexivity. Qed.
Lemma G'_eq : map snd ils' = map r2 (GA ++ GB).
Proof. rewrite ils'_eq, map_map. cbn [snd]. rewrite <- (map_map snd r2), map_app. reflexivity. Qed.
Lemma P_eq : length ils = S (length ils').
Proof. rewrite ils'_eq, map_length. unfold ils. rewrite !app_length. cbn [length]. lia. Qed.

Variables ord ord' : list nat.
Hypothesis HO : vertex_order ord (map snd ils).
Hypothesis HO' : vertex_order ord' (map snd ils').
Hypothesis HE : forall l, In l els -> vertex (map snd ils) (snd l).
Hypothesis HC : connected_graph (map snd ils).
Hypothesis HL : (length ord <= length ils)%nat.

Lemma ord2 : (2 <= length ord)%nat.
Proof.
  destruct HO as [Hn Hi]. assert (I1 : In v1 ord) by (apply Hi; rewrite G_eq; apply vertex_G; auto). assert (I2 : In v2 ord) by (apply Hi; rewrite G_eq; apply vertex_G; auto).
  assert (Q : (length [v1; v2] <= length ord)%nat); [|exact Q]. apply NoDup_incl_length; [constructor; [intros [H|[]]; congruence|constructor; [intros []|constructor]]|]. intros x [<-|[<-|[]]]; assumption.
Qed.
Lemma others : GA ++ GB <> [].
Proof. intros E. assert (L := f_equal (@length _) E). rewrite app_length, !map_length in L. cbn in L. pose proof ord2. pose proof P_eq as PQ. rewrite ils'_eq, map_length, app_length in PQ. lia. Qed.
Lemma MEET : vertex (GA ++ GB) v1 \/ vertex (GA ++ GB) v2.
Proof. apply meets; [|exact others]. rewrite <- G_eq. exact HC. Qed.
Lemma ord_one : S (length ord') = length ord.
Proof. pose proof HO as H. pose proof HO' as H'. rewrite G_eq in H. rewrite G'_eq in H'. exact (order_length v1 v2 NE GA GB MEET ord ord' H H'). Qed.
Lemma HE1 : forall l, In l els' -> vertex (map snd ils') (snd l).
Proof.
  intros l I. rewrite els'_eq in I. apply in_map_iff in I. destruct I as (k & <- & I). cbn [snd]. rewrite G'_eq. apply (vertex_contract v1 v2 GA GB MEET). exists (snd k). split; [|reflexivity]. rewrite <- G_eq. apply HE, I.
Qed.
Lemma HC' : connected_graph (map snd ils').
Proof. rewrite G'_eq. apply (connected_contract v1 v2 NE GA GB MEET). rewrite <- G_eq. exact HC. Qed.
Lemma HL' : (length ord' <= length ils')%nat.
Proof. pose proof ord_one. pose proof P_eq. lia. Qed.
Lemma NN : ils <> []. Proof. unfold ils. destruct A; discriminate. Qed.
Lemma NN' : ils' <> []. Proof. intros E. pose proof HL' as L. rewrite E in L. cbn in L. pose proof ord_one. pose proof ord2. lia. Qed.

Lemma row_split row' : length row' = length ils' -> exists rA rB, row' = rA ++ rB /\ length rA = length GA /\ length rB = length GB /\ ins i 0%Z row' = rA ++ 0%Z :: rB.
Proof.
  intros L. rewrite ils'_eq, map_length, app_length in L. destruct (split_at i row' ltac:(unfold i; lia)) as (rA & rB & -> & L1). exists rA, rB. split; [reflexivity|]. rewrite !map_length. unfold i in L1. rewrite app_length in L.
  split; [exact L1|]. split; [lia|]. unfold i. rewrite <- L1. apply ins_app.
Qed.
Lemma cut_row_contract row' : cut_row (map snd ils') row' <-> length row' = length ils' /\ cut_row (map snd ils) (ins i 0%Z row').
Proof.
  unfold cut_row. rewrite !map_length, ins_length, P_eq. split.
  - intros [L H]. split; [exact L|]. split; [lia|]. destruct (row_split row' L) as (rA & rB & -> & _ & _ & ->). rewrite Forall_app in *. destruct H. split; [assumption|constructor; [left; reflexivity|assumption]].
  - intros (L & _ & H). split; [exact L|]. destruct (row_split row' L) as (rA & rB & -> & _ & _ & E). rewrite E in H. rewrite Forall_app in *. destruct H as [H1 H2]. apply Forall_cons_iff in H2. tauto.
Qed.
Lemma uncut_contract row' : length row' = length ils' -> exists TA TB, uncut (ins i 0%Z row') (map snd ils) = TA ++ (v1, v2) :: TB /\ uncut row' (map snd ils') = map r2 (TA ++ TB).
Proof.
  intros L. destruct (row_split row' L) as (rA & rB & -> & LA & LB & E). exists (uncut rA GA), (uncut rB GB). split.
  - rewrite E, G_eq. apply uncut_kept, LA.
  - rewrite G'_eq, uncut_map, uncut_app by exact LA. reflexivity.
Qed.
Lemma tree_row row' : (cut_row (map snd ils') row' /\ spanning_tree (map snd ils') (uncut row' (map snd ils'))) <->
  length row' = length ils' /\ (cut_row (map snd ils) (ins i 0%Z row') /\ spanning_tree (map snd ils) (uncut (ins i 0%Z row') (map snd ils))).
Proof.
  rewrite cut_row_contract. split; intros H; assert (L : length row' = length ils') by tauto; destruct (uncut_contract row' L) as (TA & TB & E1 & E2);
    revert H; rewrite E1, E2, G_eq, G'_eq; rewrite (tree_contract v1 v2 NE GA GB MEET); tauto.
Qed.
Lemma forest_row row' : (cut_row (map snd ils') row' /\ exists a b, two_forest (map snd ils') (uncut row' (map snd ils')) a b) <->
  length row' = length ils' /\ (cut_row (map snd ils) (ins i 0%Z row') /\ exists a b, two_forest (map snd ils) (uncut (ins i 0%Z row') (map snd ils)) a b).
Proof.
  rewrite cut_row_contract. split; intros H; assert (L : length row' = length ils') by tauto; destruct (uncut_contract row' L) as (TA & TB & E1 & E2); revert H; rewrite E1, E2, G_eq, G'_eq; intros H.
  - destruct H as [[_ H1] (a & b & H2)]. split; [exact L|]. split; [exact H1|]. assert (Va : vertex (map r2 (GA ++ GB)) a) by apply H2. assert (Vb : vertex (map r2 (GA ++ GB)) b) by apply H2.
    apply (vertex_fixed v1 v2 NE GA GB MEET) in Va, Vb. destruct Va as [Ea Va], Vb as [Eb Vb]. exists a, b. apply (forest_contract v1 v2 NE GA GB MEET); [exact Va|exact Vb|]. rewrite Ea, Eb. exact H2.
  - destruct H as [_ [H1 (a & b & H2)]]. split; [split; [exact L|exact H1]|]. exists (rename v1 v2 a), (rename v1 v2 b). apply (forest_contract v1 v2 NE GA GB MEET); [apply H2|apply H2|exact H2].
Qed.

Lemma rows_ok T : (forall row, In row T -> cut_row (map snd ils) row) -> Forall (fun row => length row = S (length ils') /\ Forall (fun e => e = 0%Z \/ e = 1%Z) row) T.
Proof. intros H. apply Forall_forall. intros row I. destruct (H row I) as [L Q]. rewrite map_length, P_eq in L. auto. Qed.
Lemma i_le : (i <= length ils')%nat.
Proof. rewrite ils'_eq, map_length, app_length. unfold i. lia. Qed.
Theorem U_contract : exists U U', preliminary_U ord ils els = Some U /\ preliminary_U ord' ils' els' = Some U' /\
  forall y, length y = length ils' -> peval U' y = peval U (ins i 0 y).
Proof.
  destruct (C40_spanning_trees F ord ils els HO HE NN HC HL) as (U & E & _ & _ & N1 & O1 & R1).
  destruct (C40_spanning_trees F ord' ils' els' HO' HE1 NN' HC' HL') as (U' & E' & _ & _ & N2 & O2 & R2).
  exists U, U'. split; [exact E|]. split; [exact E'|]. intros y Ly.
  assert (S : forall (p : poly F) x, Forall (fun t => snd t = 1) (ptm p) -> peval p x = sumF (map (fun row => 1 * meval row x) (map fst (ptm p)))).
  { intros p x H. unfold peval. rewrite map_map. f_equal. apply map_ext_in. intros t I. rewrite Forall_forall in H. rewrite (H t I). reflexivity. }
  rewrite (S U' y O2), (S U _ O1). symmetry. apply (rows_sum F i (length ils')); try assumption; [exact i_le|apply rows_ok; intros row I; apply R1, I| |reflexivity].
  intros row'. rewrite R2, R1. apply tree_row.
Qed.

Variables (n : nat) (dot : list F -> list F -> F).
Hypothesis Hlen : forall l, In l els -> length (fst l) = n.
Hypothesis Hdot : scalar_product n dot.
Hypothesis Hcon : conserved n dot els.
Lemma Hlen' : forall l, In l els' -> length (fst l) = n.
Proof. intros l I. rewrite els'_eq in I. apply in_map_iff in I. destruct I as (k & <- & I). exact (Hlen k I). Qed.
Lemma flow_contract sel : flow n els' sel = flow n els (fun v => sel (rename v1 v2 v)).
Proof.
  unfold flow. rewrite els'_eq. f_equal. clear. induction els as [|l ls IH]; [reflexivity|]. cbn [map filter snd]. destruct (sel (rename v1 v2 (snd l))); cbn [map fst]; [f_equal|]; exact IH.
Qed.
Lemma Hcon' : conserved n dot els'.
Proof. intros w Hw. rewrite flow_contract. apply Hcon, Hw. Qed.
Definition side (row : list Z) (v : nat) : bool := Nat.eqb (lab (uncut row (map snd ils)) v2) (lab (uncut row (map snd ils)) v).
Definition mom2 (row : list Z) : F := dot (flow n els (side row)) (flow n els (side row)).
Lemma side_spec row v : side row v = true <-> conn (uncut row (map snd ils)) v2 v.
Proof. unfold side. rewrite Nat.eqb_eq. apply lab_conn. Qed.
Theorem F_contract : exists Fp Fp', preliminary_F ord ils els n dot = Some Fp /\ preliminary_F ord' ils' els' n dot = Some Fp' /\
  forall y, length y = length ils' -> peval Fp' y = peval Fp (ins i 0 y).
Proof.
  destruct U_contract as (U & U' & EU & EU' & HU).
  destruct (C41_two_forests F ord ils els n dot HO HE NN HC HL Hlen Hdot Hcon) as (U1 & Fp & E1 & EF & _ & HF).
  destruct (C41_two_forests F ord' ils' els' n dot HO' HE1 NN' HC' HL' Hlen' Hdot Hcon') as (U1' & Fp' & E1' & EF' & _ & HF').
  assert (U1 = U) by congruence. assert (U1' = U') by congruence. subst U1 U1'. exists Fp, Fp'. split; [exact EF|]. split; [exact EF'|]. intros y Ly.
  (* the cuts *)
  assert (KT : exists T, NoDup T /\ forall row, In row T <-> cut_row (map snd ils) row /\ exists a b, two_forest (map snd ils) (uncut row (map snd ils)) a b).
  { pose proof (forest_cut F ord ils els (proj1 HO) (proj2 HO) (HE' F ord ils els HO HE) ltac:(pose proof ord2; lia) HL) as FC.
    exists (map (expo (length ils)) (filter (fun cut => valid2tree F ord els (cut_power F ord ils els cut)) (combinations (length ils - (length ord - 1) + 1) (seq 0 (length ils))))). split.
    - apply NoDup_map_inj; [|apply NoDup_filter, combinations_NoDup, seq_NoDup]. intros a b Ha Hb E. apply filter_In in Ha, Hb.
      rewrite <- (cut_of_expo _ _ a (proj1 Ha)), <- (cut_of_expo _ _ b (proj1 Hb)), E. reflexivity.
    - intros row. rewrite FC, in_map_iff. split; [intros (c & <- & I); apply filter_In in I; exists c; tauto|intros (c & I1 & I2 & ->); exists c; split; [reflexivity|apply filter_In; auto]]. }
  destruct KT as (T & NT & RT).
  set (T' := map (fun row => firstn i row ++ skipn (S i) row) (filter (fun row => Z.eqb (nth i row 0%Z) 0) T)).
  assert (Ti : forall (rA : list Z) (e : Z) (rB : list Z), length rA = i -> firstn i (rA ++ e :: rB) ++ skipn (S i) (rA ++ e :: rB) = rA ++ rB).
  { intros rA e rB L. rewrite <- L. rewrite firstn_app, firstn_all, Nat.sub_diag. cbn [firstn]. rewrite app_nil_r. f_equal. rewrite skipn_app, skipn_all2 by lia. replace (S (length rA) - length rA)%nat with 1%nat by lia. reflexivity. }
  assert (RT1 : forall row', In row' T' <-> length row' = length ils' /\ In (ins i 0%Z row') T).
  { intros row'. unfold T'. rewrite in_map_iff. split.
    - intros (row & <- & I). apply filter_In in I. destruct I as [I Z]. apply Z.eqb_eq in Z. destruct (proj1 (RT row) I) as [[L _] _]. rewrite map_length, P_eq in L. pose proof i_le.
      destruct (split_at i row ltac:(lia)) as (rA & rB & -> & LA). rewrite app_length in L. destruct rB as [|e rB]; [cbn in L; lia|]. rewrite <- LA, app_nth2, Nat.sub_diag in Z by lia. cbn in Z. subst e.
      rewrite Ti by exact LA. split; [rewrite app_length; cbn in L; lia|]. rewrite <- LA, ins_app. exact I.
    - intros [L I]. exists (ins i 0%Z row'). destruct (row_split row' L) as (rA & rB & -> & LA & _ & E). rewrite E in *. rewrite map_length in LA. fold i in LA. split; [apply Ti, LA|]. apply filter_In. split; [exact I|]. rewrite <- LA, app_nth2, Nat.sub_diag by lia. reflexivity. }
  assert (NT' : NoDup T').
  { unfold T'. apply NoDup_map_inj; [|apply NoDup_filter, NT]. intros a b Ha Hb E. apply filter_In in Ha, Hb. destruct Ha as [Ia Za], Hb as [Ib Zb]. apply Z.eqb_eq in Za, Zb.
    assert (X : forall row, In row T -> nth i row 0%Z = 0%Z -> row = ins i 0%Z (firstn i row ++ skipn (S i) row)).
    { intros row I Z. destruct (proj1 (RT row) I) as [[L _] _]. rewrite map_length, P_eq in L. pose proof i_le.
      destruct (split_at i row ltac:(lia)) as (rA & rB & -> & LA). rewrite app_length in L. destruct rB as [|e rB]; [cbn in L; lia|]. rewrite <- LA, app_nth2, Nat.sub_diag in Z by lia. cbn in Z. subst e. rewrite Ti by exact LA. rewrite <- LA, ins_app. reflexivity. }
    rewrite (X a Ia Za), (X b Ib Zb), E. reflexivity. }
  assert (V2 : vertex (map snd ils) v2) by (rewrite G_eq; apply vertex_G; auto).
  rewrite (HF' y T' (fun row' => mom2 (ins i 0%Z row')) Ly NT').
  2:{ intros row'. rewrite RT1, forest_row, RT. reflexivity. }
  2:{ intros row' I. apply RT1 in I. destruct I as [L I]. destruct (proj1 (RT _) I) as [_ (a & b & H2)]. destruct (two_forest_base _ _ _ _ v2 H2 V2) as (b0 & H3).
      exists (rename v1 v2 v2), (rename v1 v2 b0), (side (ins i 0%Z row')). destruct (uncut_contract row' L) as (TA & TB & Q1 & Q2). split; [|split].
      - rewrite Q2, G'_eq. rewrite Q1, G_eq in H3. apply (forest_contract v1 v2 NE GA GB MEET); [apply H3|apply H3|exact H3].
      - intros v Hv. rewrite side_spec, Q1, Q2. rewrite G'_eq in Hv. apply (vertex_fixed v1 v2 NE GA GB MEET) in Hv. destruct Hv as [Ev _]. rewrite conn_mid by exact NE. rewrite Ev. reflexivity.
      - unfold mom2. assert (FE : flow n els' (side (ins i 0%Z row')) = flow n els (side (ins i 0%Z row'))).
        { rewrite flow_contract. unfold flow. f_equal. f_equal. apply filter_ext. intros l. apply eq_true_iff_eq. rewrite !side_spec, Q1. rewrite !conn_mid by exact NE. rewrite ren_ren by exact NE. reflexivity. }
        rewrite FE. reflexivity. }
  rewrite (HF (ins i 0 y) T mom2 ltac:(rewrite ins_length, P_eq; lia) NT RT).
  2:{ intros row I. destruct (proj1 (RT _) I) as [_ (a & b & H2)]. destruct (two_forest_base _ _ _ _ v2 H2 V2) as (b0 & H3). exists v2, b0, (side row). split; [exact H3|]. split; [intros v _; apply side_spec|reflexivity]. }
  f_equal.
  - f_equal. symmetry. apply (rows_sum F i (length ils')); try assumption; [exact i_le|apply rows_ok; intros row I; apply RT, I|reflexivity].
  - f_equal; [apply HU, Ly|]. rewrite ils'_eq. unfold ils. destruct (split_at i y ltac:(rewrite Ly; exact i_le)) as (y1 & y2 & -> & L1). rewrite <- L1, ins_app.
    assert (CA : forall X Y (a a' : list X) (b b' : list Y), length a = length b -> combine (a ++ a') (b ++ b') = combine a b ++ combine a' b').
    { intros X Y. induction a as [|x a IH]; intros a' [|z b] b' L; cbn in L; try discriminate; [reflexivity|]. cbn [app combine]. f_equal. apply IH. lia. }
    rewrite map_app. rewrite !CA by (rewrite ?map_length; unfold i in L1; congruence). rewrite !map_app, !sumF_app. cbn [combine map sumF fst snd].
    assert (CM : forall (l : list (F * (nat * nat))) (z : list F), map (fun p : F * (nat * nat) * F => fst (fst p) * fst (fst p) * snd p) (combine (map (fun l => (fst l, r2 (snd l))) l) z) = map (fun p : F * (nat * nat) * F => fst (fst p) * fst (fst p) * snd p) (combine l z)).
    { induction l as [|x l IH]; intros [|c z]; try reflexivity. cbn [map combine fst snd]. f_equal. apply IH. }
    rewrite !CM. ring.
Qed.
End One.
