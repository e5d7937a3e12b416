(** Pak's algorithm finds the smallest rearrangement, hence a canonical form. *)
From Coq Require Import Sorted.
From Verif Require Import SortProofs PolyProofs.
From Verif Require Export MatSortProofs2.
Local Open Scope nat_scope.

Definition P (i : nat) (m : list (list Z)) : list (list Z) := sort_rows (map (firstn i) m).
Lemma P_sort i m : P i (sort_rows m) = map (firstn i) (sort_rows m).
Proof. unfold P. rewrite sort_rows_firstn. apply sort_rows_id, sort_rows_sorted. Qed.
Lemma P_perm i m m' : Permutation m m' -> P i m = P i m'.
Proof. intros H. apply sort_rows_eq, Permutation_map, H. Qed.
Lemma P_length i m : length (P i m) = length m.
Proof. unfold P. rewrite sort_rows_length, map_length. reflexivity. Qed.
Lemma firstn_firstn_le {A} i (l : list A) : firstn i (firstn (S i) l) = firstn i l.
Proof. rewrite firstn_firstn, Nat.min_l by lia. reflexivity. Qed.
Lemma P_firstn i m : map (firstn i) (P (S i) m) = P i m.
Proof. unfold P. rewrite sort_rows_firstn, map_map. f_equal. apply map_ext. intros r. apply firstn_firstn_le. Qed.
Lemma P_all w m : rect w m -> P w m = sort_rows m.
Proof. intros H. unfold P. f_equal. rewrite <- (map_id m) at 2. apply map_ext_in. intros r Hr. unfold rect in H. rewrite Forall_forall in H. rewrite <- (H r Hr). apply firstn_all. Qed.
Lemma P_rect w i m : i <= w -> rect w m -> rect i (P i m).
Proof.
  intros Hi Hm. apply rect_sort. unfold rect in *. rewrite Forall_map. eapply Forall_impl; [|exact Hm]. cbn. intros r Hr. rewrite firstn_length. lia.
Qed.

Section Canonical.
Variable E : nat -> nat -> Prop.
Hypothesis HE : equivalence E.
Hypothesis E0 : forall b, E 0 b -> b = 0.
Variable w : nat.
Hypothesis Hw : 1 <= w.
Variable m0 : list (list Z).
Hypothesis Hm0 : rect w m0.

Definition Ege (i a b : nat) : Prop := E a b /\ (a < i \/ b < i -> a = b).
Lemma Ege_equiv i : equivalence (Ege i).
Proof.
  destruct HE as [Er [Es Et]]. unfold Ege. repeat split.
  - apply Er.
  - apply Es, H.
  - intros H1. symmetry. apply H. tauto.
  - eapply Et; [apply H|apply H0].
  - destruct H as [H H'], H0 as [H0 H0']. intros [L|L].
    + assert (a = b) by auto. subst. auto.
    + assert (b = c) by auto. subst. auto.
Qed.
Lemma Ege_intro i sigma : Permutation sigma (seq 0 w) -> (forall k, k < w -> E k (nth k sigma 0)) -> (forall k, k < w -> k < i -> nth k sigma 0 = k) ->
  forall k, k < w -> Ege i k (nth k sigma 0).
Proof.
  intros Hp He Hf k Hk. split; [apply He, Hk|]. intros [H|H]; [symmetry; apply Hf; assumption|].
  assert (Hs := perm_seq_bound sigma w Hp k Hk). assert (Hff := Hf _ Hs H).
  assert (Hnd : NoDup sigma) by (eapply Permutation_NoDup; [symmetry; exact Hp|apply seq_NoDup]).
  rewrite (NoDup_nth sigma 0) in Hnd. symmetry. apply Hnd; rewrite ?(perm_seq_length sigma w Hp); assumption.
Qed.
Lemma P_Ege i a b : i <= w -> rect w a -> equivalent (Ege i) w a b -> P i b = P i a.
Proof.
  intros Hi Ha [s [Hs [Hr Hp]]]. unfold P. apply sort_rows_eq. rewrite (Permutation_map (firstn i) Hp). unfold rearrange_cols. rewrite map_map.
  replace (map (fun x => firstn i (map (fun j => nth j x 0%Z) s)) a) with (map (firstn i) a); [reflexivity|]. apply map_ext_in. intros r Hin.
  unfold rect in Ha. rewrite Forall_forall in Ha. specialize (Ha r Hin).
  assert (Hls := perm_seq_length s w Hs).
  apply (nth_ext _ _ 0%Z 0%Z); rewrite !firstn_length, ?map_length; [lia|]. intros k Hk. rewrite !nth_firstn by lia.
  rewrite (nth_indep (map (fun j => nth j r 0%Z) s) 0%Z (nth 0 r 0%Z)) by (rewrite map_length; lia). rewrite (map_nth (fun j => nth j r 0%Z)).
  f_equal. apply Hr; [lia|]. left. lia.
Qed.
Lemma swap_sort_swap i j o m' : i <= j < w -> rect w o -> E i j -> equivalent (Ege i) w o m' ->
  (exists s, Permutation s (seq 0 w) /\ (forall k, k < w -> Ege i k (nth k s 0)) /\ Permutation m' (rearrange_cols s o) /\ nth i s 0 = j) ->
  equivalent (Ege (S i)) w (swap_sort i j o) m'.
Proof.
  intros Hij Ho Heij _ [s [Hs [Hrel [Hp Hj]]]]. destruct HE as [Er [Es Et]].
  set (t := map (tr i j) (seq 0 w)). assert (Ht : Permutation t (seq 0 w)) by (apply tr_perm; lia).
  assert (Htr : forall k, k < w -> nth k t 0 = tr i j k) by (intros k Hk; unfold t; apply nth_mapseq, Hk).
  assert (Hc := compose_perm w t s Ht Hs).
  assert (Hn : forall k, k < w -> nth k (compose t s) 0 = tr i j (nth k s 0)).
  { intros k Hk. rewrite (nth_compose t s k w Hs Hk). apply Htr. apply (perm_seq_bound s w Hs k Hk). }
  assert (Hsi : forall k, k < w -> k < i -> nth k s 0 = k).
  { intros k Hk Hki. symmetry. apply (proj2 (Hrel k Hk)). left; exact Hki. }
  exists (compose t s). split; [exact Hc|]. split.
  - apply Ege_intro; [exact Hc| |].
    + intros k Hk. rewrite Hn by exact Hk. destruct (Hrel k Hk) as [Hek _]. unfold tr. destruct (Nat.eqb_spec (nth k s 0) i) as [e|e].
      * apply (Et _ i); [rewrite <- e; exact Hek|exact Heij].
      * destruct (Nat.eqb_spec (nth k s 0) j) as [e'|e']; [|exact Hek]. apply (Et _ j); [rewrite <- e'; exact Hek|apply Es, Heij].
    + intros k Hk Hki. rewrite Hn by exact Hk. destruct (Nat.eq_dec k i) as [->|Hne].
      * rewrite Hj. unfold tr. rewrite Nat.eqb_refl. destruct (Nat.eqb_spec j i); [assumption|reflexivity].
      * rewrite Hsi by lia. unfold tr. destruct (Nat.eqb_spec k i); [lia|]. destruct (Nat.eqb_spec k j); [lia|reflexivity].
  - rewrite Hp. unfold swap_sort. rewrite <- rearrange_compose.
    + apply rearrange_perm. rewrite (rearrange_perm t _ _ (sort_rows_perm _)). rewrite (swap_cols_rearrange w i j o Ho) by lia. fold t.
      rewrite rearrange_compose.
      * replace (compose t t) with (seq 0 w); [rewrite rearrange_id by exact Ho; reflexivity|].
        unfold compose. unfold t at 2. rewrite map_map. rewrite <- (map_id (seq 0 w)) at 1. apply map_ext_in. intros k Hk. apply in_seq in Hk.
        rewrite Htr by (apply tr_lt; lia). symmetry. apply tr_invol.
      * intros k Hk. apply (Permutation_in _ Ht) in Hk. apply in_seq in Hk. rewrite (perm_seq_length t w Ht). lia.
    + intros k Hk. apply (Permutation_in _ Hs) in Hk. apply in_seq in Hk. rewrite (perm_seq_length t w Ht). lia.
Qed.

Definition Inv (i : nat) (opts : list (list (list Z))) : Prop :=
  opts <> [] /\ (forall o, In o opts -> equivalent E w m0 o) /\ (2 <= i -> forall o, In o opts -> StronglySorted lexle o) /\
  exists Pi, (forall o, In o opts -> P i o = Pi) /\ length Pi = length m0 /\
    (forall m', equivalent E w m0 m' -> lexle (by_columns i Pi) (by_columns i (P i m'))) /\
    (forall m', equivalent E w m0 m' -> P i m' = Pi -> exists o, In o opts /\ equivalent (Ege i) w o m').

Lemma Inv_init : Inv 1 [m0].
Proof.
  split; [discriminate|]. split; [intros o [<-|[]]; apply equivalent_refl; assumption|]. split; [lia|].
  assert (K : forall m', equivalent E w m0 m' -> equivalent (Ege 1) w m0 m').
  { intros m'. apply (fun H => equivalent_weaken E (Ege 1) w m0 m' H). intros a b Hab. split; [exact Hab|].
    intros [H|H]; [replace a with 0 in * by lia; symmetry; apply E0, Hab|replace b with 0 in * by lia; apply E0; destruct HE as [_ [Es _]]; apply Es, Hab]. }
  exists (P 1 m0). split; [intros o [<-|[]]; reflexivity|]. split; [apply P_length|]. split.
  - intros m' Hm'. rewrite (P_Ege 1 m0 m' Hw Hm0 (K m' Hm')). apply lexle_refl.
  - intros m' Hm' _. exists m0. split; [left; reflexivity|apply K, Hm'].
Qed.

Lemma Inv_step i R opts : 1 <= i -> i < w -> (forall j, In j R <-> i <= j < w /\ E i j) -> Inv i opts -> Inv (S i) (pak_step w i R opts).
Proof.
  intros Hi1 Hi HR [Hne [Heq [_ [Pi [HPi [HLen [Hmin Hcomp]]]]]]].
  assert (HRne : R <> []).
  { intros ->. destruct (proj2 (HR i)). split; [lia|]. apply (proj1 HE). }
  assert (Hrect : forall o, In o opts -> rect w o) by (intros o Ho; eapply equivalent_rect; apply Heq, Ho).
  destruct (pak_step_spec w i R opts Pi Hi Hne HRne Hrect) as [f [Hf1 [Hf2 Hf3]]].
  { intros j Hj. apply HR, Hj. } { exact HPi. }
  assert (Hperms : forall p, In p (perms i R opts) -> equivalent E w m0 p /\ StronglySorted lexle p /\ rect w p /\ map (firstn i) p = Pi /\ P (S i) p = map (firstn (S i)) p).
  { intros p Hp. apply in_perms in Hp. destruct Hp as [o [j [Ho [Hj ->]]]]. apply HR in Hj.
    assert (Hq : equivalent E w m0 (swap_sort i j o)).
    { eapply equivalent_trans; [exact HE|apply Heq, Ho|]. apply swap_sort_equivalent; auto; lia || apply Hj. }
    split; [exact Hq|]. split; [apply sort_rows_sorted|]. split; [eapply equivalent_rect; exact Hq|]. split; [rewrite swap_sort_firstn by lia; apply HPi, Ho|]. apply P_sort. }
  (* completeness of the swaps *)
  assert (Hswap : forall m', equivalent E w m0 m' -> P i m' = Pi -> exists p, In p (perms i R opts) /\ equivalent (Ege (S i)) w p m').
  { intros m' Hm' HP. destruct (Hcomp m' Hm' HP) as [o [Ho Hom]]. assert (Hom' := Hom). destruct Hom' as [s [Hs [Hrel Hp]]].
    set (j := nth i s 0). assert (Hj : i <= j < w).
    { assert (Hb := perm_seq_bound s w Hs i Hi). fold j in Hb. split; [|exact Hb]. destruct (Nat.le_gt_cases i j) as [H|H]; [exact H|].
      destruct (Hrel i Hi) as [_ Hx]. fold j in Hx. assert (i = j) by (apply Hx; right; exact H). lia. }
    assert (HEj : E i j) by apply (Hrel i Hi).
    exists (swap_sort i j o). split.
    - apply in_perms. exists o, j. split; [exact Ho|]. split; [apply HR; auto|reflexivity].
    - apply swap_sort_swap; auto. exists s. auto. }
  assert (HPf : P (S i) f = map (firstn (S i)) f) by apply (Hperms f Hf1).
  assert (Hsame : forall p, In p (perms i R opts) -> column i p = column i f -> P (S i) p = P (S i) f).
  { intros p Hp Hc. destruct (Hperms p Hp) as [_ [_ [Hr [Hpre ->]]]]. destruct (Hperms f Hf1) as [_ [_ [Hr' [Hpre' _]]]]. rewrite HPf.
    apply firstn_S_columns; [| |congruence|exact Hc].
    - eapply Forall_impl; [|exact Hr]. cbn. intros; lia.
    - eapply Forall_impl; [|exact Hr']. cbn. intros; lia. }
  split; [apply pak_step_nonempty; assumption|]. split; [intros o Ho; apply Hperms, pak_step_sub with (w := w), Ho|].
  split; [intros _ o Ho; apply Hperms, pak_step_sub with (w := w), Ho|].
  assert (Hcolf : column i (P (S i) f) = column i f) by (rewrite HPf; apply column_firstn; lia).
  exists (P (S i) f). split; [|split; [|split]].
  - intros o Ho. apply Hf3 in Ho. apply Hsame; apply Ho.
  - rewrite P_length. eapply equivalent_rows. apply (Hperms f Hf1).
  - intros m' Hm'. rewrite !by_columns_S.
    assert (Hmi : by_columns i (P (S i) m') = by_columns i (P i m')) by (rewrite <- (P_firstn i m'), by_columns_firstn by lia; reflexivity).
    assert (Hfi : by_columns i (P (S i) f) = by_columns i Pi).
    { rewrite HPf, by_columns_firstn by lia. destruct (Hperms f Hf1) as [_ [_ [_ [<- _]]]]. rewrite by_columns_firstn by lia. reflexivity. }
    assert (Hlen : length (P i m') = length Pi) by (rewrite P_length, HLen; eapply equivalent_rows; exact Hm').
    apply lexle_app; [rewrite Hmi, Hfi, !by_columns_length; lia|]. rewrite Hmi, Hfi.
    assert (Hle := Hmin m' Hm'). apply lexle_lt_eq in Hle. destruct Hle as [Hlt|Heqc]; [left; exact Hlt|]. right. split; [exact Heqc|].
    assert (HPm : P i m' = Pi).
    { symmetry. apply (by_columns_inj i); [| |lia|exact Heqc].
      - destruct (Hperms f Hf1) as [_ [_ [Hr [<- _]]]]. unfold rect in *. rewrite Forall_map. eapply Forall_impl; [|exact Hr]. cbn. intros r Hr'. rewrite firstn_length. lia.
      - apply (P_rect w); [lia|]. eapply equivalent_rect; exact Hm'. }
    destruct (Hswap m' Hm' HPm) as [p [Hp Hpm]].
    rewrite (P_Ege (S i) p m') by (try lia; try apply (Hperms p Hp); exact Hpm).
    destruct (Hperms p Hp) as [_ [_ [_ [_ ->]]]]. rewrite Hcolf, column_firstn by lia. apply Hf2, Hp.
  - intros m' Hm' HP. assert (HPm : P i m' = Pi).
    { rewrite <- (P_firstn i m'), HP, HPf, map_map. rewrite (map_ext _ (firstn i)) by (intros; apply firstn_firstn_le). apply (Hperms f Hf1). }
    destruct (Hswap m' Hm' HPm) as [p [Hp Hpm]]. exists p. split; [|exact Hpm]. apply Hf3. split; [exact Hp|].
    destruct (Hperms p Hp) as [_ [_ [Hr [_ HPp]]]]. assert (HPE := P_Ege (S i) p m' ltac:(lia) Hr Hpm). rewrite HP, HPp in HPE.
    rewrite <- Hcolf, HPE. symmetry. apply column_firstn. lia.
Qed.

Lemma Inv_group n : forall s opts, 1 <= s -> s + n <= w -> (forall i j, s <= i < s + n -> i <= j < w -> (E i j <-> j < s + n)) ->
  Inv s opts -> Inv (s + n) (pak_group w (seq s n) opts).
Proof.
  induction n as [|n IH]; intros s opts H1 H2 HEs Hinv; cbn [seq pak_group]; [rewrite Nat.add_0_r; exact Hinv|].
  replace (s + S n) with (S s + n) by lia. apply IH; [lia|lia| |].
  - intros i j Hi Hj. rewrite HEs by lia. lia.
  - apply Inv_step; [lia|lia| |exact Hinv]. intros j. change (s :: seq (S s) n) with (seq s (S n)). rewrite in_seq. split.
    + intros Hj. split; [lia|]. apply HEs; lia.
    + intros [Hj He]. apply HEs in He; lia.
Qed.

Lemma Inv_final opts r : 2 <= w -> Inv w opts -> In r opts ->
  equivalent E w m0 r /\ StronglySorted lexle r /\ forall m', equivalent E w m0 m' -> lexle (by_columns w r) (by_columns w m').
Proof.
  intros H2 [_ [Heq [Hsor [Pi [HPi [_ [Hmin _]]]]]]] Hr. split; [apply Heq, Hr|]. split; [apply Hsor; assumption|]. intros m' Hm'.
  assert (Hrr : P w r = r).
  { rewrite P_all by (eapply equivalent_rect; apply Heq, Hr). apply sort_rows_id, Hsor; assumption. }
  rewrite <- Hrr, (HPi r Hr). eapply lexle_trans; [apply Hmin, Hm'|]. assert (Hre := equivalent_rect _ _ _ _ Hm'). rewrite (P_all w m' Hre). apply (sort_le w), Hre.
Qed.
End Canonical.

Lemma same_class E w m1 m2 m' : equivalence E -> rect w m1 -> equivalent E w m1 m2 -> equivalent E w m2 m' -> equivalent E w m1 m'.
Proof. intros HE _ H1 H2. eapply equivalent_trans; eauto. Qed.

(** consecutive groups covering all columns except the first *)

Lemma concat_seq_split (g : list nat) rest s n : g ++ rest = seq s n -> g = seq s (length g) /\ rest = seq (s + length g) (n - length g) /\ length g <= n.
Proof.
  intros H. assert (Hl : length g <= n) by (apply (f_equal (@length nat)) in H; rewrite app_length, seq_length in H; lia).
  replace n with (length g + (n - length g)) in H by lia. rewrite seq_app in H. apply app_inj_len in H; [|rewrite seq_length; reflexivity]. tauto.
Qed.
Lemma in_same_equiv gs s n : concat gs = seq s n -> equivalence (in_same gs).
Proof.
  intros H. assert (Hnd : NoDup (concat gs)) by (rewrite H; apply seq_NoDup). clear H.
  assert (K : forall g1 g2 b, In g1 gs -> In g2 gs -> In b g1 -> In b g2 -> g1 = g2).
  { clear s n. induction gs as [|g gs IH]; intros g1 g2 b H1 H2 Hb1 Hb2; [destruct H1|]. cbn [concat] in Hnd.
    assert (Hdisj : forall x, In x g -> ~ In x (concat gs)).
    { intros x Hx Hx'. clear -Hnd Hx Hx'. induction g as [|y g IHg]; [destruct Hx|]. cbn [app] in Hnd. apply NoDup_cons_iff in Hnd. destruct Hnd as [Hn Hnd].
      destruct Hx as [->|Hx]; [apply Hn, in_app_iff; right; exact Hx'|apply IHg; assumption]. }
    assert (Hnd' : NoDup (concat gs)). { clear -Hnd. induction g as [|y g IHg]; [exact Hnd|]. apply IHg. cbn [app] in Hnd. apply NoDup_cons_iff in Hnd. tauto. }
    destruct H1 as [<-|H1], H2 as [<-|H2]; [reflexivity| | |eapply IH; eauto].
    - exfalso. apply (Hdisj b Hb1). apply in_concat. eauto.
    - exfalso. apply (Hdisj b Hb2). apply in_concat. eauto. }
  split; [left; reflexivity|]. split.
  - intros a b [->|[g [Hg [Ha Hb]]]]; [left; reflexivity|right; exists g; auto].
  - intros a b c [->|[g [Hg [Ha Hb]]]] [->|[g' [Hg' [Hb' Hc]]]]; try (left; reflexivity).
    + right; exists g'; auto.
    + right; exists g; auto.
    + right. exists g. rewrite (K g' g b) in Hc by assumption. auto.
Qed.
Lemma in_same_range gs s n : concat gs = seq s n -> forall g rest pre s' , gs = pre ++ g :: rest -> s' = s + length (concat pre) ->
  g = seq s' (length g) /\ s' + length g <= s + n /\ (forall i j, s' <= i < s' + length g -> (in_same gs i j <-> s' <= j < s' + length g)).
Proof.
  intros H g rest pre s' Hgs Hs'. assert (HEq := in_same_equiv gs s n H).
  rewrite Hgs, concat_app in H. cbn [concat] in H. apply concat_seq_split in H. destruct H as [Hpre [H Hl]].
  apply concat_seq_split in H. destruct H as [Hg [Hrest Hl2]]. rewrite <- Hs' in Hg, Hrest. split; [exact Hg|]. split; [lia|].
  intros i j Hi. split.
  - intros [->|[g' [Hg' [Hi' Hj']]]]; [exact Hi|]. rewrite Hgs in Hg'. apply in_app_iff in Hg'.
    assert (Hwhere : In g' pre \/ g' = g \/ In g' rest) by (destruct Hg' as [|[|]]; auto). destruct Hwhere as [Hin|[->|Hin]].
    + assert (Hc : In i (concat pre)) by (apply in_concat; eauto). rewrite Hpre in Hc. apply in_seq in Hc. lia.
    + rewrite Hg in Hj'. apply in_seq in Hj'. lia.
    + assert (Hc : In i (concat rest)) by (apply in_concat; eauto). rewrite Hrest in Hc. apply in_seq in Hc. lia.
  - intros Hj. right. exists g. split; [rewrite Hgs; apply in_app_iff; right; left; reflexivity|]. rewrite Hg. split; apply in_seq; lia.
Qed.

Lemma groups_min w gs m opts : 2 <= w -> rect w m -> concat gs = seq 1 (w - 1) -> opts = fold_left (fun o g => pak_group w g o) gs [m] ->
  Inv (in_same gs) w m w opts.
Proof.
  intros Hw Hm Hc ->. assert (HEq := in_same_equiv gs _ _ Hc).
  assert (H0 : forall b, in_same gs 0 b -> b = 0).
  { intros b [<-|[g [Hg [Ha Hb]]]]; [reflexivity|]. assert (Hi : In 0 (concat gs)) by (apply in_concat; eauto). rewrite Hc in Hi. apply in_seq in Hi. lia. }
  assert (K : forall rest pre opts, gs = pre ++ rest -> Inv (in_same gs) w m (1 + length (concat pre)) opts ->
            Inv (in_same gs) w m w (fold_left (fun o g => pak_group w g o) rest opts)).
  { induction rest as [|g rest IH]; intros pre opts Hgs Hinv; cbn [fold_left].
    - rewrite app_nil_r in Hgs. subst pre. rewrite Hc, seq_length in Hinv. replace w with (1 + (w - 1)) at 2 by lia. exact Hinv.
    - apply (IH (pre ++ [g])); [rewrite <- app_assoc; exact Hgs|]. rewrite concat_app, app_length. cbn [concat]. rewrite app_nil_r.
      destruct (in_same_range gs 1 (w - 1) Hc g rest pre (1 + length (concat pre)) Hgs eq_refl) as [Hg [Hb He]].
      replace (1 + (length (concat pre) + length g)) with ((1 + length (concat pre)) + length g) by lia. rewrite Hg at 2. apply Inv_group; auto; try lia.
      intros i j Hi Hj. rewrite He by exact Hi. lia. }
  apply (K gs []); [reflexivity|]. cbn [concat length]. apply Inv_init; auto. lia.
Qed.
