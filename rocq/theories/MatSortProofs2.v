(** Pak's algorithm: every result is a rearrangement, and the full version finds the smallest one. *)
From Coq Require Import Sorted.
From Verif Require Import SortProofs PolyProofs.
From Verif Require Export MatSortProofs.
Local Open Scope nat_scope.

Definition perms (i : nat) (R : list nat) (opts : list (list (list Z))) : list (list (list Z)) :=
  flat_map (fun m => map (fun j => swap_sort i j m) R) opts.
Lemma in_perms i R opts p : In p (perms i R opts) <-> exists o j, In o opts /\ In j R /\ p = swap_sort i j o.
Proof.
  unfold perms. rewrite in_flat_map. split.
  - intros [o [Ho H]]. apply in_map_iff in H. destruct H as [j [E Hj]]. exists o, j. auto.
  - intros [o [j [Ho [Hj E]]]]. exists o. split; [exact Ho|]. apply in_map_iff. exists j. auto.
Qed.
Lemma gather_argsort3 w (ps : list (list (list Z))) : gather ps (argsort_3D (map (transpose w) ps)) = sort_by (by_columns w) ps.
Proof.
  unfold argsort_3D. rewrite map_map. rewrite (map_ext _ (by_columns w)) by (intros; apply by_columns_concat). apply gather_argsort.
Qed.
Lemma pak_collect_sub i first : forall l acc p, In p (pak_collect i first l acc) -> In p acc \/ (In p l /\ column i p = column i first).
Proof.
  induction l as [|q l IH]; intros acc p H; cbn [pak_collect] in H; [left; exact H|].
  destruct (roweqb (column i q) (column i first)) eqn:E; [|left; exact H]. apply roweqb_spec in E. apply IH in H. destruct H as [H|[H1 H2]].
  - destruct (existsb _ acc) in H; [left; exact H|]. apply in_app_iff in H. destruct H as [H|[<-|[]]]; [left; exact H|]. right. split; [left; reflexivity|exact E].
  - right. split; [right; exact H1|exact H2].
Qed.
Lemma pak_collect_acc i first : forall l acc p, In p acc -> In p (pak_collect i first l acc).
Proof.
  induction l as [|q l IH]; intros acc p H; cbn [pak_collect]; [exact H|]. destruct (roweqb _ _); [|exact H]. apply IH.
  destruct (existsb _ acc); [exact H|]. apply in_app_iff. left; exact H.
Qed.
Lemma pak_collect_all i first : forall l acc p, StronglySorted (fun a b => lexle (column i a) (column i b)) l ->
  Forall (fun q => lexle (column i first) (column i q)) l -> In p l -> column i p = column i first -> In p (pak_collect i first l acc).
Proof.
  induction l as [|q l IH]; intros acc p Hs Hf Hp He; [destruct Hp|]. cbn [pak_collect]. inversion Hs as [|? ? Hs' Hq]; subst. apply Forall_cons_iff in Hf. destruct Hf as [Hfq Hf].
  destruct (roweqb (column i q) (column i first)) eqn:E.
  - apply roweqb_spec in E. destruct Hp as [->|Hp]; [|apply IH; assumption]. apply pak_collect_acc.
    match goal with |- In p (if ?c then _ else _) => destruct c eqn:Ex end; [|apply in_app_iff; right; left; reflexivity].
    apply existsb_exists in Ex. destruct Ex as [x [Hx Hd]]. destruct (list_eq_dec _ x p); [subst; exact Hx|discriminate].
  - exfalso. assert (Hqp : lexle (column i q) (column i first)).
    { destruct Hp as [->|Hp]; [rewrite He; apply lexle_refl|]. rewrite Forall_forall in Hq. rewrite <- He. apply Hq, Hp. }
    assert (column i q = column i first) by (apply lexle_antisym; assumption). apply roweqb_spec in H. congruence.
Qed.

Lemma pak_step_sub w i R opts p : In p (pak_step w i R opts) -> In p (perms i R opts).
Proof.
  unfold pak_step. fold (perms i R opts). rewrite gather_argsort3. destruct (sort_by (by_columns w) (perms i R opts)) as [|f l] eqn:E; [intros []|].
  intros H. apply pak_collect_sub in H. destruct H as [[]|[H _]]. rewrite <- E in H. eapply Permutation_in; [apply sort_by_perm|exact H].
Qed.
Lemma pak_step_nonempty w i R opts : opts <> [] -> R <> [] -> pak_step w i R opts <> [].
Proof.
  intros Ho HR. unfold pak_step. fold (perms i R opts). rewrite gather_argsort3.
  assert (Hn : perms i R opts <> []).
  { destruct opts as [|o opts]; [congruence|]. destruct R as [|j R]; [congruence|]. cbn. discriminate. }
  destruct (sort_by (by_columns w) (perms i R opts)) as [|f l] eqn:E.
  - exfalso. apply Hn. apply Permutation_nil. rewrite <- E. apply sort_by_perm.
  - cbn [pak_collect]. rewrite (roweqb_refl (column i f)). cbn [existsb app]. intros Hc. assert (In f []) as []. rewrite <- Hc. apply pak_collect_acc. left; reflexivity.
Qed.

Lemma firstn_upd {A} i j (v : A) l : i <= j -> firstn i (upd j v l) = firstn i l.
Proof. revert i l. induction j as [|j IH]; intros [|i] [|x l] H; cbn [upd firstn]; try reflexivity; try lia. f_equal. apply IH. lia. Qed.
Lemma swap_sort_firstn i j m : i <= j -> map (firstn i) (swap_sort i j m) = sort_rows (map (firstn i) m).
Proof.
  intros H. unfold swap_sort. rewrite sort_rows_firstn. f_equal. unfold swap_cols. rewrite map_map. apply map_ext. intros r. rewrite !firstn_upd by lia. reflexivity.
Qed.

(** with a common prefix of [i] columns, exactly the permuted matrices with the smallest column [i] are kept *)
Lemma pak_step_spec w i R opts P0 : i < w -> opts <> [] -> R <> [] ->
  (forall o, In o opts -> rect w o) -> (forall j, In j R -> i <= j < w) ->
  (forall o, In o opts -> sort_rows (map (firstn i) o) = P0) ->
  exists first, In first (perms i R opts) /\ (forall p, In p (perms i R opts) -> lexle (column i first) (column i p)) /\
    (forall p, In p (pak_step w i R opts) <-> In p (perms i R opts) /\ column i p = column i first).
Proof.
  intros Hi Ho HR Hrect HRb Hpre.
  assert (Hpp : forall p, In p (perms i R opts) -> map (firstn i) p = P0 /\ length p = length P0).
  { intros p Hp. apply in_perms in Hp. destruct Hp as [o [j [Hoo [Hj ->]]]]. specialize (HRb j Hj).
    assert (map (firstn i) (swap_sort i j o) = P0) as E by (rewrite swap_sort_firstn by lia; apply Hpre, Hoo).
    split; [exact E|]. rewrite <- E, map_length. reflexivity. }
  unfold pak_step. fold (perms i R opts). rewrite gather_argsort3.
  assert (Hperm := sort_by_perm (by_columns w) (perms i R opts)). assert (Hs := sort_by_sorted (by_columns w) (perms i R opts)).
  destruct (sort_by (by_columns w) (perms i R opts)) as [|f l] eqn:E.
  { exfalso. apply Permutation_nil in Hperm. destruct opts as [|o opts]; [congruence|]. destruct R as [|j R]; [congruence|]. discriminate Hperm. }
  assert (Hin : forall p, In p (f :: l) -> In p (perms i R opts)) by (intros p; apply Permutation_in, Hperm).
  assert (Hmono : forall a b, In a (f :: l) -> In b (f :: l) -> lexle (by_columns w a) (by_columns w b) -> lexle (column i a) (column i b)).
  { intros a b Ha Hb Hab. apply Hin, Hpp in Ha. apply Hin, Hpp in Hb. destruct Ha as [Ha La], Hb as [Hb Lb].
    assert (Hk : forall k, S i <= k -> lexle (by_columns k a) (by_columns k b) -> lexle (column i a) (column i b)).
    { induction k as [|k IH]; intros Hk H; [lia|]. rewrite !by_columns_S in H. destruct (Nat.eq_dec k i) as [->|Hne].
      - assert (Heq : by_columns i a = by_columns i b).
        { rewrite <- (by_columns_firstn i i a), <- (by_columns_firstn i i b) by lia. rewrite Ha, Hb. reflexivity. }
        rewrite Heq in H. apply lexle_app in H; [|reflexivity]. destruct H as [H|[_ H]]; [exfalso; eapply lexlt_irrefl; exact H|exact H].
      - apply lexle_app in H; [|rewrite !by_columns_length; lia]. apply IH; [lia|]. apply lexle_lt_eq. tauto. }
    apply (Hk w); [lia|exact Hab]. }
  exists f. split; [apply Hin; left; reflexivity|].
  assert (Hf : Forall (fun q => lexle (column i f) (column i q)) (f :: l)).
  { apply Forall_forall. intros q Hq. apply Hmono; [left; reflexivity|exact Hq|]. destruct Hq as [->|Hq]; [apply lexle_refl|].
    inversion Hs as [|? ? _ Hs2]; subst. rewrite Forall_forall in Hs2. apply Hs2, Hq. }
  split.
  - intros p Hp. rewrite Forall_forall in Hf. apply Hf. eapply Permutation_in; [symmetry; exact Hperm|exact Hp].
  - intros p. split.
    + intros H. apply pak_collect_sub in H. destruct H as [[]|[H1 H2]]. split; [apply Hin, H1|exact H2].
    + intros [H1 H2]. apply pak_collect_all; [|exact Hf|eapply Permutation_in; [symmetry; exact Hperm|exact H1]|exact H2].
      clear -Hs Hmono. revert Hs Hmono. generalize (f :: l) as L. induction L as [|a L IH]; intros Hs Hm; [constructor|].
      inversion Hs as [|? ? Hs1 Hs2]; subst. constructor.
      * apply IH; [exact Hs1|]. intros x y Hx Hy. apply Hm; right; assumption.
      * rewrite Forall_forall in Hs2 |- *. intros x Hx. apply Hm; [left; reflexivity|right; exact Hx|apply Hs2, Hx].
Qed.

(** every result is a rearrangement *)
Lemma pak_group_sound E w : equivalence E -> forall g, (forall a b, In a g -> In b g -> E a b) -> (forall a, In a g -> a < w) ->
  forall opts, (forall o, In o opts -> rect w o) -> opts <> [] ->
  pak_group w g opts <> [] /\ forall p, In p (pak_group w g opts) -> exists o, In o opts /\ equivalent E w o p.
Proof.
  intros HE. induction g as [|i g IH]; intros Hg Hw opts Hr Hn; cbn [pak_group].
  { split; [exact Hn|]. intros p Hp. exists p. split; [exact Hp|]. apply equivalent_refl; auto. }
  assert (Hstep : forall p, In p (pak_step w i (i :: g) opts) -> exists o, In o opts /\ equivalent E w o p).
  { intros p Hp. apply pak_step_sub, in_perms in Hp. destruct Hp as [o [j [Ho [Hj ->]]]]. exists o. split; [exact Ho|].
    apply swap_sort_equivalent; auto. - apply Hw. left; reflexivity. - apply Hg; [left; reflexivity|exact Hj]. }
  destruct (IH (fun a b Ha Hb => Hg a b (or_intror Ha) (or_intror Hb)) (fun a Ha => Hw a (or_intror Ha)) (pak_step w i (i :: g) opts)) as [H1 H2].
  - intros o Ho. destruct (Hstep o Ho) as [o' [_ H]]. eapply equivalent_rect; exact H.
  - apply pak_step_nonempty; [exact Hn|discriminate].
  - split; [exact H1|]. intros p Hp. destruct (H2 p Hp) as [o [Ho Heq]]. destruct (Hstep o Ho) as [o' [Ho' Heq']]. exists o'. split; [exact Ho'|].
    eapply equivalent_trans; [exact HE|exact Heq'|exact Heq].
Qed.
Lemma pak_groups_sound E w : equivalence E -> forall gs, (forall g a b, In g gs -> In a g -> In b g -> E a b) -> (forall g a, In g gs -> In a g -> a < w) ->
  forall opts, (forall o, In o opts -> rect w o) -> opts <> [] ->
  fold_left (fun o g => pak_group w g o) gs opts <> [] /\
  forall p, In p (fold_left (fun o g => pak_group w g o) gs opts) -> exists o, In o opts /\ equivalent E w o p.
Proof.
  intros HE. induction gs as [|g gs IH]; intros Hg Hw opts Hr Hn; cbn [fold_left].
  { split; [exact Hn|]. intros p Hp. exists p. split; [exact Hp|]. apply equivalent_refl; auto. }
  destruct (pak_group_sound E w HE g (fun a b => Hg g a b (or_introl eq_refl)) (fun a => Hw g a (or_introl eq_refl)) opts Hr Hn) as [H1 H2].
  destruct (IH (fun g a b Hi => Hg g a b (or_intror Hi)) (fun g a Hi => Hw g a (or_intror Hi)) (pak_group w g opts)) as [H3 H4].
  - intros o Ho. destruct (H2 o Ho) as [o' [_ H]]. eapply equivalent_rect; exact H.
  - exact H1.
  - split; [exact H3|]. intros p Hp. destruct (H4 p Hp) as [o [Ho Heq]]. destruct (H2 o Ho) as [o' [Ho' Heq']]. exists o'. split; [exact Ho'|].
    eapply equivalent_trans; [exact HE|exact Heq'|exact Heq].
Qed.
Lemma insert_nat_perm a l : Permutation (insert_nat a l) (a :: l).
Proof. induction l as [|b l IH]; cbn [insert_nat]; [reflexivity|]. destruct (a <=? b); [reflexivity|]. rewrite IH. apply perm_swap. Qed.
Lemma sort_nat_perm l : Permutation (sort_nat l) l.
Proof. induction l as [|a l IH]; [reflexivity|]. cbn [sort_nat fold_right]. fold (sort_nat l). rewrite insert_nat_perm, IH. reflexivity. Qed.

(** the groups of columns used *)
Definition groups_of (w : nat) (indices : list (list nat)) : list (list nat) := match indices with [] => [seq 1 (w - 1)] | _ => indices end.
Lemma Pak_sort_sound E w indices m : equivalence E -> rect w m ->
  (forall g a b, In g (groups_of w indices) -> In a g -> In b g -> E a b) -> (forall g a, In g (groups_of w indices) -> In a g -> a < w) ->
  exists r, Pak_sort w indices m = Some r /\ equivalent E w m r.
Proof.
  intros HE Hm Hg Hw. unfold Pak_sort.
  set (gs := match indices with [] => [seq 1 (w - 1)] | _ :: _ => map sort_nat indices end).
  assert (Hgs : forall g, In g gs -> exists g', In g' (groups_of w indices) /\ forall a, In a g -> In a g').
  { intros g Hin. unfold gs, groups_of in *. destruct indices as [|g0 indices]; [exists g; auto|]. apply in_map_iff in Hin. destruct Hin as [g' [<- Hin]].
    exists g'. split; [exact Hin|]. intros a. apply Permutation_in, sort_nat_perm. }
  destruct (pak_groups_sound E w HE gs) with (opts := [m]) as [H1 H2].
  - intros g a b Hin Ha Hb. destruct (Hgs g Hin) as [g' [Hin' Hs]]. apply (Hg g'); auto.
  - intros g a Hin Ha. destruct (Hgs g Hin) as [g' [Hin' Hs]]. apply (Hw g'); auto.
  - intros o [<-|[]]. exact Hm.
  - discriminate.
  - destruct (fold_left (fun o g => pak_group w g o) gs [m]) as [|r l]; [congruence|]. exists r. split; [reflexivity|].
    destruct (H2 r (or_introl eq_refl)) as [o [[<-|[]] H]]. exact H.
Qed.

(** the light version *)
Lemma light_step_perms w i m : i < w -> In (light_step w m i) (perms i (seq i (w - i)) [m]).
Proof.
  intros Hi. unfold light_step, perms. cbn [flat_map]. rewrite app_nil_r. set (ps := map (fun j => swap_sort i j m) (seq i (w - i))).
  assert (Hp := argsort_perm (map (@concat Z) (map (transpose w) ps))). unfold argsort_3D.
  assert (Hl : length ps = w - i) by (unfold ps; rewrite map_length, seq_length; reflexivity).
  destruct (argsort_2D (map (@concat Z) (map (transpose w) ps))) as [|k ks] eqn:E.
  - apply Permutation_length in Hp. rewrite seq_length, !map_length, Hl in Hp. cbn in Hp. lia.
  - cbn [hd]. apply nth_In. assert (In k (seq 0 (length (map (concat (A:=Z)) (map (transpose w) ps))))) by (eapply Permutation_in; [exact Hp|left; reflexivity]).
    apply in_seq in H. rewrite !map_length in H. lia.
Qed.
Lemma light_sound w m : rect w m -> equivalent fix_first w m (light_Pak_sort w m).
Proof.
  intros Hm. assert (HE : equivalence fix_first) by (unfold equivalence, fix_first; repeat split; intros; tauto).
  unfold light_Pak_sort. assert (K : forall l m0, (forall i, In i l -> 1 <= i < w) -> rect w m0 -> equivalent fix_first w m0 (fold_left (light_step w) l m0)).
  { induction l as [|i l IH]; intros m0 Hl Hr; cbn [fold_left]; [apply equivalent_refl; assumption|].
    assert (Hi := Hl i (or_introl eq_refl)).
    assert (Hs : equivalent fix_first w m0 (light_step w m0 i)).
    { assert (H := light_step_perms w i m0 ltac:(lia)). apply in_perms in H. destruct H as [o [j [[<-|[]] [Hj ->]]]]. apply in_seq in Hj.
      apply swap_sort_equivalent; auto; try lia. unfold fix_first. lia. }
    eapply equivalent_trans; [exact HE|exact Hs|]. apply IH; [intros k Hk; apply Hl; right; exact Hk|eapply equivalent_rect; exact Hs]. }
  apply K; [|exact Hm]. intros i Hi. apply in_seq in Hi. lia.
Qed.
