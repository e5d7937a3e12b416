(** The second Symanzik polynomial. *)
From Coq Require Import List Lia ZArith Bool Arith Permutation.
From Verif Require Import PolySpec PolyProofs GraphSpec GraphConn GraphModel GraphMat MiscSpec MiscProofs GraphProofs GraphU.
Import ListNotations.

Lemma pair_sublist : forall (l : list nat) i j, In i l -> In j l -> i <> j -> sublist [i; j] l \/ sublist [j; i] l.
Proof.
  induction l as [|a l IH]; intros i j Hi Hj D; [destruct Hi|]. destruct Hi as [Hi|Hi]; destruct Hj as [Hj|Hj]; subst.
  - congruence.
  - left. constructor. clear -Hj. induction l as [|b l IH]; [destruct Hj|]. destruct Hj as [->|Hj]; [constructor; apply sublist_nil_l|constructor; apply IH, Hj].
  - right. constructor. clear -Hi. induction l as [|b l IH]; [destruct Hi|]. destruct Hi as [->|Hi]; [constructor; apply sublist_nil_l|constructor; apply IH, Hi].
  - destruct (IH i j Hi Hj D); [left|right]; constructor; assumption.
Qed.

Section F.
Variable F : Fld.
Local Open Scope fld_scope.
Add Field Fgf : (f_th F).
Variable ord : list nat. Variable ils : list (car F * (nat * nat)). Variable els : list (list (car F) * nat).
Hypothesis Hnd : NoDup ord.
Hypothesis Hord : forall v, In v ord <-> vertex (map snd ils) v.
Hypothesis Hext : forall l, In l els -> In (snd l) ord.
Notation G := (map snd ils).
Notation P := (length ils).
Notation V := (length ord).
Notation N := (numvert F ord els).
Notation nam := (nm F ord els).
Notation M := (cut_power F ord ils els).
Notation rest := (fun cut => uncut (expo P cut) G).

Lemma not0_all : forall A, int_not0 ord A ++ ext_not0 F ord els A = filter (fun i => Z.eqb (mget A 0 i) 0) (seq 0 N).
Proof. intros A. unfold int_not0, ext_not0, numvert, gV. rewrite seq_app, filter_app. reflexivity. Qed.

Hypothesis HV : V <> 0%nat.
Lemma N0 : (0 < N)%nat. Proof. unfold numvert, gV. lia. Qed.
Definition a0 : nat := nam 0.
Lemma a0_in : In a0 ord. Proof. apply (nm_ord F ord els Hext), N0. Qed.

Lemma valid_spec : forall r cut, In cut (combinations r (seq 0 P)) ->
  (valid2tree F ord els (M cut) = true <->
   forall u v, In u ord -> In v ord -> ~ conn (rest cut) a0 u -> ~ conn (rest cut) a0 v -> conn (rest cut) u v).
Proof.
  intros r cut H. pose proof (cut_power_conn F ord ils els Hnd Hord Hext r cut H) as K. unfold valid2tree. rewrite not0_all, forallb_forall. split.
  - intros Q u v Hu Hv Cu Cv. destruct (nm_index F ord els u Hu) as [Lu Eu]. destruct (nm_index F ord els v Hv) as [Lv Ev].
    set (i := index_of u ord) in *. set (j := index_of v ord) in *. destruct (Nat.eq_dec i j) as [D|D]; [replace v with u by congruence; apply conn_refl|].
    assert (Ii : forall k, (k < N)%nat -> ~ conn (rest cut) a0 (nam k) -> In k (filter (fun i => Z.eqb (mget (M cut) 0 i) 0) (seq 0 N))).
    { intros k Lk Ck. apply filter_In. split; [apply in_seq; lia|]. apply Z.eqb_eq. destruct (Z.eq_dec (mget (M cut) 0 k) 0) as [Z|Z]; [exact Z|]. exfalso. apply Ck, (K 0%nat k N0 Lk), Z. }
    rewrite <- Eu, <- Ev.
    destruct (pair_sublist _ i j (Ii i Lu ltac:(rewrite Eu; exact Cu)) (Ii j Lv ltac:(rewrite Ev; exact Cv)) D) as [S|S].
    + specialize (Q [i; j] (proj2 (combinations_spec _ _ _) (conj S eq_refl))). cbn beta iota in Q. apply negb_true_iff, Z.eqb_neq in Q. apply (K i j Lu Lv), Q.
    + specialize (Q [j; i] (proj2 (combinations_spec _ _ _) (conj S eq_refl))). cbn beta iota in Q. apply negb_true_iff, Z.eqb_neq in Q. apply conn_sym, (K j i Lv Lu), Q.
  - intros Q ij I. apply combinations_spec in I. destruct I as [S L]. destruct ij as [|i [|j [|]]]; try reflexivity.
    assert (W : forall k, In k [i; j] -> (k < N)%nat /\ ~ conn (rest cut) a0 (nam k)).
    { intros k Ik. apply (sublist_in _ _ S) in Ik. apply filter_In in Ik. destruct Ik as [I1 I2]. apply in_seq in I1. apply Z.eqb_eq in I2. split; [lia|].
      intros C. apply (K 0%nat k N0 ltac:(lia)) in C. congruence. }
    destruct (W i (or_introl eq_refl)) as [Li Ci]. destruct (W j (or_intror (or_introl eq_refl))) as [Lj Cj].
    apply negb_true_iff, Z.eqb_neq. apply (K i j Li Lj). apply Q; try assumption; apply (nm_ord F ord els Hext); assumption.
Qed.

Lemma exists_or_all : forall (E : list (nat * nat)) a, (exists b, In b ord /\ ~ conn E a b) \/ (forall b, In b ord -> conn E a b).
Proof.
  clear. intros E a. induction ord as [|b l IH]; [right; intros b []|]. destruct (conn_dec E a b) as [C|C]; [|left; exists b; split; [left; reflexivity|exact C]].
  destruct IH as [(c & I & D)|IH]; [left; exists c; split; [right; exact I|exact D]|]. right. intros c [<-|I]; [exact C|apply IH, I].
Qed.

Theorem forest_cut : (V <= P)%nat -> forall row,
  (cut_row G row /\ (exists a b, two_forest G (uncut row G) a b) <->
   exists cut, In cut (combinations (P - (V - 1) + 1) (seq 0 P)) /\ valid2tree F ord els (M cut) = true /\ row = expo P cut).
Proof.
  intros HP row. split.
  - intros [HR (a & b & Ha & Hb & Hab & Hv & HA)].
    pose proof (ncomp_forest ord (uncut row G) Hnd (inside_uncut F ord ils Hord row) HA) as Q.
    rewrite (ncomp_two ord (uncut row G) a b) in Q; [|apply Hord; assumption|apply Hord; assumption|exact Hab|intros v Iv; apply Hv, Hord, Iv].
    pose proof (uncut_length G row HR) as QL. rewrite map_length in QL. destruct (expo_cut_of G row HR) as [E I]. rewrite map_length in E, I.
    pose proof (degree_cut_of row (proj2 HR)) as QD. exists (cut_of row). assert (Elen : length (cut_of row) = (P - (V - 1) + 1)%nat) by lia. rewrite Elen in I.
    split; [exact I|]. split; [|symmetry; exact E]. apply (valid_spec _ _ I). cbn beta. rewrite E. intros u v Hu Hv' Cu Cv.
    pose proof a0_in as Ha0. apply Hord in Hu, Hv', Ha0. destruct (Hv u Hu) as [Ku|Ku]; destruct (Hv v Hv') as [Kv|Kv].
    + apply (conn_trans _ u a v); [apply conn_sym, Ku|exact Kv].
    + exfalso. destruct (Hv a0 Ha0) as [K0|K0]; [apply Cu; apply (conn_trans _ a0 a u); [apply conn_sym, K0|exact Ku]|apply Cv; apply (conn_trans _ a0 b v); [apply conn_sym, K0|exact Kv]].
    + exfalso. destruct (Hv a0 Ha0) as [K0|K0]; [apply Cv; apply (conn_trans _ a0 a v); [apply conn_sym, K0|exact Kv]|apply Cu; apply (conn_trans _ a0 b u); [apply conn_sym, K0|exact Ku]].
    + apply (conn_trans _ u b v); [apply conn_sym, Ku|exact Kv].
  - intros (cut & I & Z & ->). pose proof I as I'. rewrite <- (map_length snd ils) in I' at 2. destruct (expo_row G _ cut I') as [HR HD]. rewrite map_length in HR, HD.
    split; [exact HR|]. pose proof (proj1 (valid_spec _ _ I) Z) as C. cbn beta in C. pose proof (keep_length _ _ _ I) as QK.
    pose proof (uncut_length G _ HR) as QL. rewrite map_length in QL.
    pose proof (ncomp_lower ord _ Hnd (inside_uncut F ord ils Hord (expo P cut))) as QN.
    destruct (exists_or_all (uncut (expo P cut) G) a0) as [(b & Ib & Nb)|All].
    + exists a0, b. assert (T : forall v, vertex G v -> conn (uncut (expo P cut) G) a0 v \/ conn (uncut (expo P cut) G) b v).
      { intros v Hv. destruct (conn_dec (uncut (expo P cut) G) a0 v) as [K|K]; [left; exact K|right]. apply C; try assumption. apply Hord, Hv. }
      split; [apply Hord, a0_in|]. split; [apply Hord, Ib|]. split; [exact Nb|]. split; [exact T|].
      apply (forest_ncomp ord); [exact Hnd|apply (inside_uncut F ord ils Hord)|].
      rewrite (ncomp_two ord _ a0 b a0_in Ib Nb (fun v Iv => T v (proj1 (Hord v) Iv))). lia.
    + exfalso. assert (O : ncomp ord (uncut (expo P cut) G) = 1%nat).
      { apply ncomp_one; [intros E; apply HV; rewrite E; reflexivity|]. intros u v Hu Hv. apply (conn_trans _ u a0 v); [apply conn_sym, All, Hu|apply All, Hv]. }
      lia.
Qed.

(** momenta *)
Variable n : nat. Variable dot : list F -> list F -> F.
Hypothesis Hlen : forall l, In l els -> length (fst l) = n.
Hypothesis Hdot : scalar_product n dot.
Hypothesis Hcon : conserved n dot els.

Lemma vplus_len : forall a b : list F, length a = n -> length b = n -> length (vplus a b) = n.
Proof. intros a b Ha Hb. unfold vplus. rewrite map_length, combine_length. lia. Qed.
Lemma zero_len : length (repeat (0 : F) n) = n. Proof. apply repeat_length. Qed.
Lemma dot_zero : forall w, length w = n -> dot (repeat 0 n) w = 0.
Proof.
  intros w Hw. pose proof (proj2 Hdot (repeat 0 n) (repeat 0 n) w zero_len zero_len Hw) as Q.
  assert (E : vplus (repeat (0 : F) n) (repeat 0 n) = repeat 0 n). { clear. unfold vplus. induction n as [|k IH]; [reflexivity|]. cbn [repeat combine map fst snd]. rewrite IH. f_equal. ring. }
  rewrite E in Q. set (d := dot (repeat 0 n) w) in *. assert (K : d = (d + d) - d) by ring. rewrite <- Q in K. rewrite K. ring.
Qed.
Lemma mom_sum_dot : forall ps w, Forall (fun p => length p = n) ps -> length w = n ->
  length (mom_sum n ps) = n /\ dot (mom_sum n ps) w = sumF (map (fun p => dot p w) ps).
Proof.
  intros ps w H Hw. unfold mom_sum. induction H as [|p ps Hp H [IH1 IH2]]; [split; [apply zero_len|apply dot_zero, Hw]|]. cbn [fold_right map sumF]. split; [apply vplus_len; assumption|].
  rewrite (proj2 Hdot) by assumption. rewrite IH2. reflexivity.
Qed.
Lemma sum_mom_dot : forall is w, Forall (fun i => (V <= i < N)%nat) is -> length w = n ->
  length (sum_mom F ord els n is) = n /\ dot (sum_mom F ord els n is) w = sumF (map (fun i => dot (fst (nth (i - V) els ([], 0%nat))) w) is).
Proof.
  intros is w H Hw. unfold sum_mom, gV.
  assert (K : forall s, length s = n -> length (fold_left (fun s i => vadd F s (fst (nth (i - V) els ([], 0%nat)))) is s) = n /\
    dot (fold_left (fun s i => vadd F s (fst (nth (i - V) els ([], 0%nat)))) is s) w = dot s w + sumF (map (fun i => dot (fst (nth (i - V) els ([], 0%nat))) w) is)).
  { induction H as [|i is Hi H IH]; intros s Hs; [split; [exact Hs|cbn; ring]|]. cbn [fold_left map sumF].
    assert (Li : length (fst (nth (i - V) els ([], 0%nat))) = n) by (apply Hlen, nth_In; unfold numvert, gV in Hi; lia).
    destruct (IH (vadd F s (fst (nth (i - V) els ([], 0%nat)))) (vplus_len _ _ Hs Li)) as [E1 E2]. split; [exact E1|]. rewrite E2.
    change (vadd F s (fst (nth (i - V) els ([], 0%nat)))) with (vplus s (fst (nth (i - V) els ([], 0%nat)))). rewrite (proj2 Hdot) by assumption. ring. }
  destruct (K (repeat 0 n) zero_len) as [E1 E2]. split; [exact E1|]. rewrite E2, dot_zero by exact Hw. ring.
Qed.
Lemma sel_len : forall sel : nat -> bool, Forall (fun p => length p = n) (map fst (filter (fun l => sel (snd l)) els)).
Proof. intros sel. apply Forall_forall. intros p I. apply in_map_iff in I. destruct I as (l & <- & I). apply filter_In in I. apply Hlen, I. Qed.
Lemma flow_len : forall sel, length (flow n els sel) = n.
Proof. intros sel. unfold flow. apply (mom_sum_dot _ (repeat 0 n) (sel_len sel) zero_len). Qed.
Lemma flow_split : forall sel w, length w = n -> dot (flow n els sel) w + dot (flow n els (fun v => negb (sel v))) w = 0.
Proof.
  intros sel w Hw. rewrite <- (Hcon w Hw). unfold flow. rewrite (proj2 (mom_sum_dot _ w (sel_len sel) Hw)), (proj2 (mom_sum_dot _ w (sel_len (fun v => negb (sel v))) Hw)), (proj2 (mom_sum_dot _ w (sel_len (fun _ => true)) Hw)).
  rewrite <- sumF_app, <- map_app, <- map_app. apply sumF_perm, Permutation_map, Permutation_map.
  apply Permutation_sym. etransitivity; [|apply filter_split].
  assert (E : filter (fun l : list F * nat => true) els = els) by (clear; induction els as [|x l IH]; [reflexivity|cbn [filter]; f_equal; exact IH]). rewrite E. apply Permutation_refl.
Qed.
Lemma flow_other : forall sel, dot (flow n els sel) (flow n els sel) = dot (flow n els (fun v => negb (sel v))) (flow n els (fun v => negb (sel v))).
Proof.
  intros sel. set (A := flow n els sel). set (B := flow n els (fun v => negb (sel v))).
  assert (LA : length A = n) by apply flow_len. assert (LB : length B = n) by apply flow_len.
  pose proof (flow_split sel A LA) as Q1. pose proof (flow_split sel B LB) as Q2. fold A B in Q1, Q2. rewrite (proj1 Hdot A B LA LB) in Q2.
  assert (E : dot A A = (dot A A + dot B A) - (dot B A + dot B B) + dot B B) by ring. rewrite Q1, Q2 in E. rewrite E. ring.
Qed.
Lemma flow_ext : forall sel sel' : nat -> bool, (forall l, In l els -> sel (snd l) = sel' (snd l)) -> flow n els sel = flow n els sel'.
Proof. intros sel sel' H. unfold flow. f_equal. f_equal. apply filter_ext_in. intros l I. apply H, I. Qed.

(** external vertices not connected to vertex 0 *)
Lemma ext_select : forall (h : nat -> bool) (g : list F * nat -> F) (c : nat -> bool), (forall k, (k < length els)%nat -> c (V + k)%nat = h (snd (nth k els ([], 0%nat)))) ->
  sumF (map (fun i => g (nth (i - V) els ([], 0%nat))) (filter c (seq V (length els)))) = sumF (map g (filter (fun l => h (snd l)) els)).
Proof.
  intros h g c Hc.
  assert (E : filter (fun l => h (snd l)) els = map (fun i => nth (i - V) els ([], 0%nat)) (filter c (seq V (length els)))).
  { clear -Hc. revert Hc. generalize V as v0. intros v0.
    assert (K : forall pre, (forall k, (length pre <= k < length (pre ++ els))%nat -> c (v0 + k)%nat = h (snd (nth k (pre ++ els) ([], 0%nat)))) ->
      filter (fun l => h (snd l)) els = map (fun i => nth (i - v0) (pre ++ els) ([], 0%nat)) (filter c (seq (v0 + length pre) (length els)))).
    { induction els as [|l ls IH]; intros pre Hp; [reflexivity|]. cbn [length seq filter].
      rewrite Hp by (rewrite app_length; cbn; lia). rewrite app_nth2 by lia. rewrite Nat.sub_diag. cbn [nth].
      specialize (IH (pre ++ [l])). rewrite <- app_assoc in IH. cbn [app] in IH. rewrite app_length in IH. cbn [length] in IH.
      replace (S (v0 + length pre)) with (v0 + (length pre + 1))%nat by lia.
      destruct (h (snd l)); cbn [map]; rewrite IH by (intros k Hk; apply Hp; lia); [|reflexivity]. f_equal.
      replace (v0 + length pre - v0)%nat with (length pre) by lia. rewrite app_nth2 by lia. rewrite Nat.sub_diag. reflexivity. }
    intros Hc. specialize (K []). cbn [length app] in K. rewrite Nat.add_0_r in K. apply K. intros k Hk. apply Hc. lia. }
  rewrite E, map_map. reflexivity.
Qed.

Theorem cut_momentum : forall r cut (sel : nat -> bool), In cut (combinations r (seq 0 P)) ->
  (forall v, vertex G v -> (sel v = true <-> ~ conn (rest cut) a0 v)) ->
  dot (sum_mom F ord els n (cutmomenta F ord els (M cut))) (sum_mom F ord els n (cutmomenta F ord els (M cut))) = dot (flow n els sel) (flow n els sel).
Proof.
  intros r cut sel H Hs. pose proof (cut_power_conn F ord ils els Hnd Hord Hext r cut H) as K.
  assert (Hc : forall k, (k < length els)%nat -> Z.eqb (mget (M cut) 0 (V + k)) 0 = sel (snd (nth k els ([], 0%nat)))).
  { intros k Hk. assert (Lk : (V + k < N)%nat) by (unfold numvert, gV; lia). specialize (K 0%nat (V + k)%nat N0 Lk).
    assert (E : nam (V + k) = snd (nth k els ([], 0%nat))). { unfold nm. destruct (Nat.ltb_spec (V + k) V); [lia|]. replace (V + k - V)%nat with k by lia. reflexivity. }
    rewrite E in K. assert (Iv : vertex G (snd (nth k els ([], 0%nat)))) by (apply Hord, Hext, nth_In, Hk). specialize (Hs _ Iv). fold a0 in K.
    destruct (Z.eqb_spec (mget (M cut) 0 (V + k)) 0) as [Z|Z].
    - symmetry. apply Hs. intros C. apply K in C. congruence.
    - destruct (sel (snd (nth k els ([], 0%nat)))); [|reflexivity]. exfalso. apply (proj1 Hs eq_refl), K, Z. }
  assert (EX : forall w, length w = n -> Forall (fun i => (V <= i < N)%nat) (ext_not0 F ord els (M cut)) /\
     sumF (map (fun i => dot (fst (nth (i - V) els ([], 0%nat))) w) (ext_not0 F ord els (M cut))) = dot (flow n els sel) w).
  { intros w Hw. split.
    - apply Forall_forall. intros i I. unfold ext_not0 in I. apply filter_In in I. destruct I as [I _]. apply in_seq in I. unfold numvert, gV in *. lia.
    - unfold flow. rewrite (proj2 (mom_sum_dot _ w (sel_len sel) Hw)), map_map. apply (ext_select sel (fun l => dot (fst l) w)). exact Hc. }
  unfold cutmomenta. destruct (Nat.leb (length (ext_not0 F ord els (M cut))) (length els - length (ext_not0 F ord els (M cut)))).
  - set (e := ext_not0 F ord els (M cut)) in *. set (s := sum_mom F ord els n e).
    assert (Ls : length s = n) by (apply (sum_mom_dot e (repeat 0 n) (proj1 (EX _ zero_len)) zero_len)).
    assert (Q : forall w, length w = n -> dot s w = dot (flow n els sel) w).
    { intros w Hw. destruct (EX w Hw) as [E1 E2]. unfold s. rewrite (proj2 (sum_mom_dot e w E1 Hw)). exact E2. }
    rewrite (Q s Ls). rewrite (proj1 Hdot (flow n els sel) s (flow_len sel) Ls). apply Q, flow_len.
  - set (e := ext_not0 F ord els (M cut)) in *.
    assert (HP : exists m, missing Nat.eqb (seq V (length els)) e = Some m /\ Permutation (seq V (length els)) (e ++ m)).
    { destruct (missing_total Nat.eqb Nat.eqb_eq e (seq V (length els)) (filter (fun x => negb (Z.eqb (mget (M cut) 0 x) 0)) (seq V (length els)))) as (m & Em).
      - unfold e, ext_not0, gV. apply filter_split.
      - exists m. split; [exact Em|]. exact (missing_perm Nat.eqb Nat.eqb_eq e _ m Em). }
    destruct HP as (m & Em & Pm). unfold gV. rewrite Em.
    assert (Bm : Forall (fun i => (V <= i < N)%nat) m).
    { apply Forall_forall. intros i I. assert (J : In i (seq V (length els))) by (apply (Permutation_in _ (Permutation_sym Pm)), in_app_iff; right; exact I). apply in_seq in J. unfold numvert, gV. lia. }
    set (s := sum_mom F ord els n m).
    assert (Ls : length s = n) by (apply (sum_mom_dot m (repeat 0 n) Bm zero_len)).
    assert (Q : forall w, length w = n -> dot s w = dot (flow n els (fun v => negb (sel v))) w).
    { intros w Hw. destruct (EX w Hw) as [E1 E2]. unfold s. rewrite (proj2 (sum_mom_dot m w Bm Hw)).
      pose proof (flow_split sel w Hw) as S1. rewrite <- E2 in S1.
      assert (T : sumF (map (fun i => dot (fst (nth (i - V) els ([], 0%nat))) w) e) + sumF (map (fun i => dot (fst (nth (i - V) els ([], 0%nat))) w) m) = 0).
      { rewrite <- sumF_app, <- map_app. rewrite <- (Hcon w Hw). unfold flow. rewrite (proj2 (mom_sum_dot _ w (sel_len (fun _ => true)) Hw)), map_map.
        rewrite <- (ext_select (fun _ => true) (fun l => dot (fst l) w) (fun _ => true) ltac:(reflexivity)).
        apply sumF_perm, Permutation_map. apply Permutation_sym. etransitivity; [|exact Pm].
        assert (E : filter (fun _ : nat => true) (seq V (length els)) = seq V (length els)) by (generalize (seq V (length els)); induction l as [|x l IH]; [reflexivity|cbn [filter]; f_equal; exact IH]).
        rewrite E. apply Permutation_refl. }
      set (x := sumF (map _ e)) in *. set (y := sumF (map _ m)) in *. set (z := dot (flow n els (fun v => negb (sel v))) w) in *.
      assert (E : y = (x + y) - (x + z) + z) by ring. rewrite T, S1 in E. rewrite E. ring. }
    rewrite (flow_other sel). rewrite (Q s Ls). rewrite (proj1 Hdot _ s (flow_len _) Ls). apply Q, flow_len.
Qed.
End F.
