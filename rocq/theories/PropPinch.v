(** C70: lines with power zero. *)
From Coq Require Import List Lia ZArith Bool Arith Permutation QArith Qcanon.
From Verif Require Import PolySpec PolyProofs PropPoly GraphSpec GraphConn GraphModel GraphMat MiscSpec MiscProofs GraphProofs GraphU GraphF PropGraph ParamReal GraphPinchSpec GraphPinch GraphPinchU.
Import ListNotations.
Local Open Scope nat_scope.

Lemma combine_app3 {X Y} (a a' : list X) (b b' : list Y) : length a = length b -> combine (a ++ a') (b ++ b') = combine a b ++ combine a' b'.
Proof. revert b. induction a as [|x a IH]; intros [|z b] L; cbn in L; try discriminate; [reflexivity|]. cbn [app combine]. f_equal. apply IH. lia. Qed.
Lemma selected_snoc {A} zero (l : list A) a : selected zero (l ++ [a]) = selected zero l ++ if zero (length l) then [a] else [].
Proof.
  unfold selected. rewrite app_length. cbn [length]. rewrite Nat.add_1_r, seq_S, combine_app3 by apply seq_length. rewrite filter_app, map_app. f_equal. cbn [Nat.add combine filter fst]. destruct (zero (length l)); reflexivity.
Qed.
Lemma selected_map {A B} zero (f : A -> B) l : selected zero (map f l) = map f (selected zero l).
Proof.
  unfold selected. rewrite map_length. generalize (seq 0 (length l)). induction l as [|a l IH]; intros [|k s]; try reflexivity. cbn [map combine filter fst]. destruct (zero k); cbn [map snd]; rewrite IH; reflexivity.
Qed.
Lemma keep_true {A} (a b : list bool) (x y : list A) m : length a = length x -> keep (a ++ true :: b) (x ++ m :: y) = keep (a ++ b) (x ++ y).
Proof. intros L. unfold keep. rewrite !combine_app3 by exact L. rewrite !filter_app, !map_app. reflexivity. Qed.
Lemma keep_false {A} n (l : list A) : n = length l -> keep (repeat false n) l = l.
Proof. intros ->. unfold keep. induction l as [|a l IH]; [reflexivity|]. cbn [length repeat combine filter fst negb map snd]. f_equal. exact IH. Qed.
Definition nfalse (l : list bool) : nat := length (filter negb l).
Lemma nfalse_app a b : nfalse (a ++ b) = nfalse a + nfalse b.
Proof. unfold nfalse. rewrite filter_app, app_length. reflexivity. Qed.
Lemma nfalse_false n : nfalse (repeat false n) = n.
Proof. unfold nfalse. induction n as [|n IH]; [reflexivity|]. cbn. f_equal. exact IH. Qed.
Lemma keep_length_b {A} z (l : list A) : length z = length l -> length (keep z l) = nfalse z.
Proof. unfold keep, nfalse. rewrite map_length. revert l. induction z as [|b z IH]; intros [|a l] L; cbn in L; try discriminate; [reflexivity|]. cbn [combine filter fst]. destruct b; cbn [negb length]; [|f_equal]; apply IH; lia. Qed.
Section Zeros.
Variable F : Fld.
Lemma with_zeros_length z (y : list F) : length y = nfalse z -> length (with_zeros z y) = length z.
Proof. revert y. induction z as [|[|] z IH]; intros y L; [reflexivity| |]; unfold nfalse in *; cbn [filter negb length] in *; cbn [with_zeros]; [cbn [length]; f_equal; apply IH, L|]. destruct y as [|c y]; [discriminate|]. cbn [length]. f_equal. apply IH. cbn in L. lia. Qed.
Lemma with_zeros_ins a b (y : list F) : length y = nfalse (a ++ b) -> with_zeros (a ++ true :: b) y = ins (length a) f0 (with_zeros (a ++ b) y).
Proof.
  revert y. induction a as [|[|] a IH]; intros y L; cbn [app with_zeros length].
  - unfold ins. cbn. reflexivity.
  - rewrite IH by exact L. reflexivity.
  - destruct y as [|c y]; [discriminate|]. rewrite IH; [reflexivity|]. unfold nfalse in *. cbn in L. lia.
Qed.
Lemma with_zeros_false n (y : list F) : length y = n -> with_zeros (repeat false n) y = y.
Proof. intros <-. induction y as [|c y IH]; [reflexivity|]. cbn [length repeat with_zeros]. f_equal. exact IH. Qed.
End Zeros.

Section Iter.
Variable F : Fld.
Local Open Scope fld_scope.
Variables (n : nat) (dot : list F -> list F -> F) (zero : nat -> bool).
Hypothesis Hdot : scalar_product n dot.
Definition good (ord : list nat) (g : list (F * (nat * nat)) * list (list F * nat)) : Prop :=
  vertex_order ord (map snd (fst g)) /\ (forall l, In l (snd g) -> vertex (map snd (fst g)) (snd l)) /\ fst g <> [] /\ connected_graph (map snd (fst g)) /\ (length ord <= length (fst g))%nat /\
  (forall l, In l (snd g) -> length (fst l) = n) /\ conserved n dot (snd g).
Definition same_UF (ord ord' : list nat) (g g' : list (F * (nat * nat)) * list (list F * nat)) (h : list F -> list F) : Prop :=
  exists U Fp U' Fp', preliminary_U ord (fst g) (snd g) = Some U /\ preliminary_F ord (fst g) (snd g) n dot = Some Fp /\
    preliminary_U ord' (fst g') (snd g') = Some U' /\ preliminary_F ord' (fst g') (snd g') n dot = Some Fp' /\
    forall y, length y = length (fst g') -> peval U' y = peval U (h y) /\ peval Fp' y = peval Fp (h y).
Lemma same_order ord ord' g : good ord g -> vertex_order ord' (map snd (fst g)) -> same_UF ord ord' g g (fun y => y).
Proof.
  destruct g as [ils els]. intros (HO & HE & NN & HC & HL & Hlen & Hcon) HO'. cbn [fst snd] in *.
  assert (LE : length ord' = length ord) by (apply Permutation_length, NoDup_Permutation; [apply HO'|apply HO|]; intros v; destruct HO as [_ A], HO' as [_ B]; rewrite A, B; reflexivity).
  destruct (C41_two_forests F ord ils els n dot HO HE NN HC HL Hlen Hdot Hcon) as (U & Fp & EU & EF & _ & HF).
  destruct (C41_two_forests F ord' ils els n dot HO' HE NN HC ltac:(rewrite LE; exact HL) Hlen Hdot Hcon) as (U' & Fp' & EU' & EF' & _ & HF').
  exists U, Fp, U', Fp'. cbn [fst snd]. repeat split; try assumption.
  - rewrite (C40_vertex_order_irrelevant F ord ord' ils els HO HO') in EU. congruence.
  - assert (V0 : exists a0, vertex (map snd ils) a0). { destruct ils as [|[m e] l]; [congruence|]. exists (fst e), e. cbn. auto. } destruct V0 as [a0 V0].
    assert (KT : exists T, NoDup T /\ forall row, In row T <-> cut_row (map snd ils) row /\ exists a b, two_forest (map snd ils) (uncut row (map snd ils)) a b).
    { pose proof (forest_cut F ord ils els (proj1 HO) (proj2 HO) (HE' F ord ils els HO HE) (ord_ne F ord ils (proj2 HO) NN) HL) as FC.
      exists (map (expo (length ils)) (filter (fun cut => valid2tree F ord els (cut_power F ord ils els cut)) (combinations (length ils - (length ord - 1) + 1) (seq 0 (length ils))))). split.
      - apply NoDup_map_inj; [|apply NoDup_filter, combinations_NoDup, seq_NoDup]. intros a b Ha Hb E. apply filter_In in Ha, Hb.
        rewrite <- (cut_of_expo _ _ a (proj1 Ha)), <- (cut_of_expo _ _ b (proj1 Hb)), E. reflexivity.
      - intros row. rewrite FC, in_map_iff. split; [intros (c & <- & I); apply filter_In in I; exists c; tauto|intros (c & I1 & I2 & ->); exists c; split; [reflexivity|apply filter_In; auto]]. }
    destruct KT as (T & NT & RT).
    set (sd := fun row v => Nat.eqb (lab (uncut row (map snd ils)) a0) (lab (uncut row (map snd ils)) v)).
    assert (KQ : forall row, In row T -> exists a b sel, two_forest (map snd ils) (uncut row (map snd ils)) a b /\ (forall v, vertex (map snd ils) v -> (sel v = true <-> conn (uncut row (map snd ils)) a v)) /\ dot (flow n els (sd row)) (flow n els (sd row)) = dot (flow n els sel) (flow n els sel)).
    { intros row I. destruct (proj1 (RT _) I) as [_ (a & b & H2)]. destruct (two_forest_base _ _ _ _ a0 H2 V0) as (b0 & H3). exists a0, b0, (sd row). split; [exact H3|]. split; [|reflexivity]. intros v _. unfold sd. rewrite Nat.eqb_eq. apply lab_conn. }
    rewrite (HF' y T (fun row => dot (flow n els (sd row)) (flow n els (sd row))) H NT RT KQ).
    rewrite (HF y T (fun row => dot (flow n els (sd row)) (flow n els (sd row))) H NT RT KQ).
    replace U' with U; [reflexivity|]. rewrite (C40_vertex_order_irrelevant F ord ord' ils els HO HO') in EU. congruence.
Qed.
Lemma pinch_good ord A m v1 v2 B els : v1 <> v2 -> let g := (A ++ (m, (v1, v2)) :: B, els) in good ord g ->
  exists ord1, good ord1 (pinch (length A) g) /\ S (length ord1) = length ord /\ S (length (fst (pinch (length A) g))) = length (fst g).
Proof.
  intros NE g HG. unfold g in *. clear g. destruct HG as (HO & HE & NN & HC & HL & Hlen & Hcon). cbn [fst snd] in *.
  assert (M := MEET F A B m v1 v2 els NE ord HO HC HL).
  pose proof HO as HO1. cbn [fst] in HO1. rewrite (G_eq F A B m v1 v2) in HO1.
  destruct (order_contract v1 v2 NE (map snd A) (map snd B) M ord HO1) as (ord1 & H1 & L1).
  rewrite <- (G'_eq F A B m v1 v2 els) in H1. exists ord1. split; [|split; [exact L1|symmetry; apply (P_eq F A B m v1 v2 els)]].
  split; [exact H1|]. split; [apply (HE1 F A B m v1 v2 els NE ord HO HE HC HL)|]. split; [apply (NN' F A B m v1 v2 els NE ord ord1 HO H1 HC HL)|].
  split; [apply (HC' F A B m v1 v2 els NE ord HO HC HL)|]. split; [apply (HL' F A B m v1 v2 els NE ord ord1 HO H1 HC HL)|].
  split; [apply (Hlen' F A B m v1 v2 els NE n Hlen)|apply (Hcon' F A B m v1 v2 els NE n dot Hcon)].
  all: exact NE.
Qed.
Lemma flags_S k P : (k < P)%nat -> map zero (seq 0 (S k)) ++ repeat false (P - S k) = map zero (seq 0 k) ++ zero k :: repeat false (P - S k).
Proof. intros H. rewrite seq_S, map_app, <- app_assoc. reflexivity. Qed.
Lemma pinch_fold k : forall ord g, (k <= length (fst g))%nat -> good ord g -> acyclic (selected zero (map snd (firstn k (fst g)))) ->
  let g' := fold_left (fun g i => if zero i then pinch i g else g) (rev (seq 0 k)) g in
  let flags := map zero (seq 0 k) ++ repeat false (length (fst g) - k) in
  map fst (fst g') = keep flags (map fst (fst g)) /\ (exists ord', good ord' g') /\
  forall ord', vertex_order ord' (map snd (fst g')) -> (length ord' + length (fst g) = length ord + length (fst g'))%nat /\ same_UF ord ord' g g' (with_zeros flags).
Proof.
  induction k as [|k IH]; intros ord g Hk HG HA g' flags.
  - unfold g', flags in *. cbn [seq rev fold_left map app]. rewrite Nat.sub_0_r. split; [rewrite keep_false by (rewrite map_length; reflexivity); reflexivity|]. split; [exists ord; exact HG|]. intros ord' HO'.
    assert (LE : length ord' = length ord) by (destruct HG as (HO & _); apply Permutation_length, NoDup_Permutation; [apply HO'|apply HO|]; intros v; destruct HO as [_ X], HO' as [_ Y]; rewrite X, Y; reflexivity).
    split; [lia|]. destruct (same_order ord ord' g HG HO') as (U & Fp & U' & Fp' & E1 & E2 & E3 & E4 & H). exists U, Fp, U', Fp'. repeat split; try assumption; rewrite with_zeros_false by assumption; apply H; assumption.
  - destruct g as [ils els]. cbn [fst snd] in *.
    assert (KK : exists A m v1 v2 B, ils = A ++ (m, (v1, v2)) :: B /\ length A = k).
    { destruct (split_at k ils ltac:(lia)) as (A & R & -> & LA). rewrite app_length in Hk. destruct R as [|[m [v1 v2]] B]; [cbn in Hk; lia|]. exists A, m, v1, v2, B. auto. }
    destruct KK as (A & m & v1 & v2 & B & -> & LA).
    assert (FS : firstn (S k) (A ++ (m, (v1, v2)) :: B) = A ++ [(m, (v1, v2))]).
    { rewrite <- LA. rewrite firstn_app, firstn_all2 by lia. replace (S (length A) - length A)%nat with 1%nat by lia. reflexivity. }
    assert (FK : forall X (x : list X) y, length x = k -> firstn k (x ++ y) = x) by (intros X x y L; rewrite <- L, firstn_app, firstn_all, Nat.sub_diag; cbn [firstn]; apply app_nil_r).
    rewrite FS, map_app in HA. cbn [map snd] in HA. rewrite selected_snoc, map_length, LA in HA.
    unfold flags. rewrite flags_S by lia. unfold g'. rewrite seq_S, rev_app_distr. cbn [Nat.add rev app fold_left].
    destruct (zero k) eqn:Zk.
    + assert (NE : v1 <> v2).
      { intros ->. apply (HA (selected zero (map snd A)) (v2, v2) [] eq_refl). apply conn_refl. }
      destruct (pinch_good ord A m v1 v2 B els NE HG) as (ord1 & G1 & L1 & LP). cbn [fst] in LP. rewrite LA in *.
      assert (I1 : fst (pinch k (A ++ (m, (v1, v2)) :: B, els)) = map (fun l => (fst l, ren2 v1 v2 (snd l))) (A ++ B)).
      { rewrite <- LA. apply (ils'_eq F A B m v1 v2 els NE). }
      assert (HA1 : acyclic (selected zero (map snd (firstn k (fst (pinch k (A ++ (m, (v1, v2)) :: B, els))))))).
      { rewrite I1, map_app, FK by (rewrite map_length; exact LA). rewrite map_map. cbn [snd]. rewrite <- (map_map snd (ren2 v1 v2)), selected_map.
        apply (acyclic_mid v1 v2 NE) in HA. rewrite app_nil_r in HA. exact HA. }
      destruct (IH ord1 (pinch k (A ++ (m, (v1, v2)) :: B, els)) ltac:(rewrite I1, map_length, app_length; lia) G1 HA1) as (K1 & K2 & K3).
      assert (LQ : (length (fst (pinch k (A ++ (m, (v1, v2)) :: B, els))) - k = length (A ++ (m, (v1, v2)) :: B) - S k)%nat) by lia. rewrite LQ in K1, K3.
      assert (LM : length (map zero (seq 0 k)) = length (map fst A)) by (rewrite !map_length, seq_length; congruence).
      split; [|split; [exact K2|]].
      * rewrite K1, I1. rewrite map_map. cbn [fst]. rewrite (map_app _ A ((m, (v1, v2)) :: B)). cbn [map fst]. rewrite keep_true by exact LM. rewrite map_app. reflexivity.
      * intros ord' HO'. destruct (K3 ord' HO') as [Q1 (U1 & F1 & U' & F' & E1 & E2 & E3 & E4 & HQ)]. split; [lia|].
        destruct HG as (HO & HE & NN & HC & HL & Hlen & Hcon). cbn [fst snd] in *.
        pose proof (proj1 G1) as HO1. rewrite <- LA in HO1.
        destruct (U_contract F A B m v1 v2 els NE ord ord1 HO HO1 HE HC HL) as (U & U1' & X1 & X2 & X3).
        destruct (F_contract F A B m v1 v2 els NE ord ord1 HO HO1 HE HC HL n dot Hlen Hdot Hcon) as (Fp & F1' & Y1 & Y2 & Y3).
        rewrite LA in *. assert (U1' = U1) by congruence. assert (F1' = F1) by congruence. subst U1' F1'.
        exists U, Fp, U', F'. cbn [fst snd]. repeat (split; [assumption|]). intros y Ly.
        assert (LF : length y = nfalse (map zero (seq 0 k) ++ repeat false (length (A ++ (m, (v1, v2)) :: B) - S k))).
        { rewrite Ly. rewrite <- (map_length fst). rewrite K1. apply keep_length_b. rewrite app_length, !map_length, seq_length, repeat_length, <- LP. lia. }
        destruct (HQ y Ly) as [R1 R2]. rewrite with_zeros_ins by exact LF. rewrite map_length, seq_length.
        assert (LW : length (with_zeros (map zero (seq 0 k) ++ repeat false (length (A ++ (m, (v1, v2)) :: B) - S k)) y) = length (fst (pinch k (A ++ (m, (v1, v2)) :: B, els)))).
        { rewrite with_zeros_length by exact LF. rewrite app_length, map_length, seq_length, repeat_length, <- LP. lia. }
        split; [rewrite R1; apply X3, LW|rewrite R2; apply Y3, LW].
    + rewrite app_nil_r in HA. assert (HA1 : acyclic (selected zero (map snd (firstn k (A ++ (m, (v1, v2)) :: B))))) by (rewrite FK by exact LA; exact HA).
      destruct (IH ord (A ++ (m, (v1, v2)) :: B, els) ltac:(cbn [fst]; lia) HG HA1) as (K1 & K2 & K3). cbn [fst snd] in *.
      assert (EF : false :: repeat false (length (A ++ (m, (v1, v2)) :: B) - S k) = repeat false (length (A ++ (m, (v1, v2)) :: B) - k)).
      { rewrite app_length. cbn [length]. replace (length A + S (length B) - k)%nat with (S (length A + S (length B) - S k)) by lia. reflexivity. }
      rewrite EF. split; [exact K1|]. split; [exact K2|]. exact K3.
Qed.
End Iter.

(** C70: lines with power zero are contracted.  If they form no closed loop, the loop number is unchanged, the masses of the
    other lines are kept in order, and U and F of the contracted graph are U and F of the given graph with the parameters of
    the contracted lines set to zero *)
Theorem C70_zero_powers : forall (F : Fld) ord (ils : list (F * (nat * nat))) (els : list (list F * nat)) n dot zero,
  let G := map snd ils in
  vertex_order ord G -> (forall l, In l els -> vertex G (snd l)) -> ils <> [] -> connected_graph G -> length ord <= length ils ->
  (forall l, In l els -> length (fst l) = n) -> scalar_product n dot -> conserved n dot els ->
  acyclic (selected zero G) ->
  let g' := pinch_all zero (ils, els) in let zeros := map zero (seq 0 (length ils)) in
  map fst (fst g') = keep zeros (map fst ils) /\
  forall ord', vertex_order ord' (map snd (fst g')) ->
    length (fst g') + 1 - length ord' = length ils + 1 - length ord /\
    exists U Fp U' Fp', preliminary_U ord ils els = Some U /\ preliminary_F ord ils els n dot = Some Fp /\
      preliminary_U ord' (fst g') (snd g') = Some U' /\ preliminary_F ord' (fst g') (snd g') n dot = Some Fp' /\
      forall y, length y = length (fst g') -> peval U' y = peval U (with_zeros zeros y) /\ peval Fp' y = peval Fp (with_zeros zeros y).
Proof.
  intros F ord ils els n dot zero G HO HE NN HC HL Hlen Hdot Hcon HA g' zeros.
  destruct (pinch_fold F n dot zero Hdot (length ils) ord (ils, els)) as (K1 & _ & K3).
  - cbn [fst]. lia.
  - repeat (split; [assumption|]). assumption.
  - cbn [fst]. rewrite firstn_all. exact HA.
  - cbn [fst snd] in *. rewrite Nat.sub_diag in *. cbn [repeat] in *. rewrite app_nil_r in *. split; [exact K1|]. intros ord' HO'. destruct (K3 ord' HO') as [Q1 Q2]. split; [|exact Q2].
    change (length (fst g') + 1 - length ord' = length ils + 1 - length ord)%nat. unfold g', pinch_all. cbn [fst] in *. lia.
Qed.
Print Assumptions C70_zero_powers.

(** Example: a triangle with the line (2,3) of power zero becomes the bubble with vertices 1 and 3. *)
Add Field Fqc2 : (f_th Qc_Fld).
Definition pin_ils : list (Qc_Fld * (nat * nat)) := [(ex_q 2, (1, 2)); (ex_q 5, (2, 3)); (ex_q 0, (3, 1))]%nat.
Definition pin_els : list (list Qc_Fld * nat) := [([ex_q 1], 1%nat); ([ex_q (-1)], 2%nat)].
Definition pin_zero (i : nat) : bool := Nat.eqb i 1.
Example C70_ex : vertex_order [1; 2; 3] (map snd pin_ils) /\ (forall l, In l pin_els -> vertex (map snd pin_ils) (snd l)) /\ connected_graph (map snd pin_ils) /\
  (forall l, In l pin_els -> length (fst l) = 1) /\ scalar_product 1 ex_dot /\ conserved 1 ex_dot pin_els /\ acyclic (selected pin_zero (map snd pin_ils)) /\
  pinch_all pin_zero (pin_ils, pin_els) = ([(ex_q 2, (1, 3)); (ex_q 0, (3, 1))], [([ex_q 1], 1); ([ex_q (-1)], 3)]) /\
  option_map ex_show (preliminary_U [1; 2; 3] pin_ils pin_els) = Some [([1;0;0]%Z, 1%Q); ([0;1;0]%Z, 1%Q); ([0;0;1]%Z, 1%Q)] /\
  (forall U', preliminary_U [1; 3] (fst (pinch_all pin_zero (pin_ils, pin_els))) (snd (pinch_all pin_zero (pin_ils, pin_els))) = Some U' -> ex_show U' = [([1;0]%Z, 1%Q); ([0;1]%Z, 1%Q)]).
Proof.
  assert (VO : forall v, vertex (map snd pin_ils) v <-> v = 1 \/ v = 2 \/ v = 3).
  { intros v. split.
    - intros (e & I & H). cbn in I. destruct I as [<-|[<-|[<-|[]]]]; cbn in H; lia.
    - intros [-> |[-> | ->]]; [exists (1, 2)|exists (1, 2)|exists (2, 3)]; cbn; auto. }
  split. { split; [repeat constructor; cbn; lia|]. intros v. rewrite VO. cbn. lia. }
  split. { intros l I. apply VO. cbn in I. destruct I as [<-|[<-|[]]]; cbn; auto. }
  split. { intros u v Hu Hv. apply VO in Hu, Hv. apply lab_conn. destruct Hu as [-> |[-> | ->]]; destruct Hv as [-> |[-> | ->]]; vm_compute; reflexivity. }
  split. { intros l [<-|[<-|[]]]; reflexivity. }
  split; [exact (proj1 C41_ex)|].
  split. { intros w _. unfold ex_dot, pin_els, flow, mom_sum, vplus. cbn [filter map fst snd fold_right combine repeat nth].
    assert (E : (ex_q 1 + (ex_q (-1) + f0))%fld = f0) by (apply Qc_is_canon; vm_compute; reflexivity). rewrite E. ring. }
  split.
  { intros A e B E. cbn in E. destruct A as [|a A]; [|destruct A; discriminate]. injection E as <- <-. cbn. intros C. apply lab_conn in C. vm_compute in C. discriminate. }
  split; [reflexivity|]. split; [vm_compute; reflexivity|].
  intros U' E. assert (O : option_map ex_show (preliminary_U [1; 3] (fst (pinch_all pin_zero (pin_ils, pin_els))) (snd (pinch_all pin_zero (pin_ils, pin_els)))) = Some [([1;0]%Z, 1%Q); ([0;1]%Z, 1%Q)]) by (vm_compute; reflexivity).
  rewrite E in O. cbn [option_map] in O. injection O as O. exact O.
Qed.

(** Without the hypothesis on closed loops the contraction changes the number of loops: two of the three lines of the
    two-loop sunrise have power zero; U of the sunrise vanishes when the parameters of these two lines are zero (the integral
    is scaleless), while the contracted graph is a one-loop tadpole with U = x. *)
Definition pin_sun : list (Qc_Fld * (nat * nat)) := [(ex_q 2, (7, 4)); (ex_q 0, (4, 7)); (ex_q 0, (7, 4))].
Theorem C70_zero_loop_refuted : let zero := fun i => Nat.ltb 0 i in let g' := pinch_all zero (pin_sun, ex_els) in
  vertex_order [4; 7] (map snd pin_sun) /\ vertex_order [4] (map snd (fst g')) /\
  length pin_sun + 1 - length [4; 7] = 2 /\ length (fst g') + 1 - length [4] = 1 /\
  exists U U', preliminary_U [4; 7] pin_sun ex_els = Some U /\ preliminary_U [4] (fst g') (snd g') = Some U' /\
    peval U (with_zeros (map zero (seq 0 3)) [ex_q 1]) = f0 /\ peval U' [ex_q 1] = f1.
Proof.
  assert (VO : forall v, vertex (map snd pin_sun) v <-> v = 4 \/ v = 7).
  { intros v. split.
    - intros (e & I & H). cbn in I. destruct I as [<-|[<-|[<-|[]]]]; cbn in H; lia.
    - intros [-> | ->]; exists (7, 4)%nat; cbn; auto. }
  intros zero g'. split; [split; [repeat constructor; cbn; lia|intros v; rewrite VO; cbn; lia]|].
  split. { split; [repeat constructor; cbn; lia|]. intros v. cbn. split; [intros [<- |[]]; exists (4, 4); cbn; auto|]. intros (e & [<-|[]] & H). cbn in H. destruct H; auto. }
  split; [reflexivity|]. split; [reflexivity|].
  destruct (preliminary_U [4; 7] pin_sun ex_els) as [U|] eqn:EU; [|vm_compute in EU; discriminate].
  destruct (preliminary_U [4] (fst g') (snd g')) as [U'|] eqn:EU'; [|vm_compute in EU'; discriminate].
  exists U, U'. split; [reflexivity|]. split; [reflexivity|].
  vm_compute in EU. vm_compute in EU'. injection EU as <-. injection EU' as <-. split; apply Qc_is_canon; vm_compute; reflexivity.
Qed.
Print Assumptions C70_zero_loop_refuted.
