(** Properties C18 and C19: matrix sorting. *)
From Coq Require Import Sorted.
From Verif Require Import SortProofs MatSortProofs3 MatSortProofs4.
Local Open Scope nat_scope.

(** C18.  [Pak_sort] always returns a matrix; columns are moved only along the given groups: for every equivalence
    relation containing the groups of columns, column [k] of the result comes from a related column. *)
Theorem C18_Pak_sort_permutes : forall (E : nat -> nat -> Prop) w indices m, equivalence E -> rect w m -> indices <> [] ->
  (forall g a b, In g indices -> In a g -> In b g -> E a b) -> (forall g a, In g indices -> In a g -> a < w) ->
  exists r, Pak_sort w indices m = Some r /\ equivalent E w m r.
Proof.
  intros E w indices m HE Hm Hne Hg Hw. apply Pak_sort_sound; auto; destruct indices as [|g0 l]; try congruence; assumption.
Qed.
Print Assumptions C18_Pak_sort_permutes.
(** default: all columns except the first *)
Theorem C18_Pak_sort_default_permutes : forall w m, rect w m -> exists r, Pak_sort w [] m = Some r /\ equivalent fix_first w m r.
Proof.
  intros w m Hm. apply Pak_sort_sound; [apply fix_first_equiv|exact Hm| |].
  - cbn [groups_of]. intros g a b [<-|[]] Ha Hb. apply in_seq in Ha. apply in_seq in Hb. unfold fix_first. lia.
  - cbn [groups_of]. intros g a [<-|[]] Ha. apply in_seq in Ha. lia.
Qed.
Print Assumptions C18_Pak_sort_default_permutes.
Theorem C18_light_Pak_sort_permutes : forall w m, rect w m -> equivalent fix_first w m (light_Pak_sort w m).
Proof. exact light_sound. Qed.
Print Assumptions C18_light_Pak_sort_permutes.
(** [iterative_sort] terminates; its result has sorted rows and sorted columns (except the first) *)
Theorem C18_iterative_sort_terminates : forall w m, 1 <= w -> rect w m -> exists fuel r, iterative_sort fuel w m = Some r.
Proof. exact iterative_terminates. Qed.
Print Assumptions C18_iterative_sort_terminates.
Theorem C18_iterative_sort_permutes : forall w fuel m r, 1 <= w -> rect w m -> iterative_sort fuel w m = Some r ->
  equivalent fix_first w m r /\ StronglySorted lexle r /\ StronglySorted lexle (map (fun j => map (fun row => nth j row 0%Z) r) (seq 1 (w - 1))).
Proof. intros w fuel m r Hw Hm H. destruct (iterative_spec w Hw fuel m r Hm H) as [H1 [H2 H3]]. rewrite tl_transpose in H3. auto. Qed.
Print Assumptions C18_iterative_sort_permutes.

(** C19.  With all columns considered, in consecutive groups: the result is the smallest (by columns) of all matrices
    obtained by permuting rows and columns within the groups. *)
Theorem C19_Pak_sort_smallest : forall w indices m r, 2 <= w -> rect w m -> indices <> [] -> concat (map sort_nat indices) = seq 1 (w - 1) ->
  Pak_sort w indices m = Some r ->
  equivalent (in_same (map sort_nat indices)) w m r /\
  forall m', equivalent (in_same (map sort_nat indices)) w m m' -> lexle (by_columns w r) (by_columns w m').
Proof.
  intros w indices m r Hw Hm Hne Hc H. destruct indices as [|g0 l]; [congruence|]. unfold Pak_sort in H.
  remember (fold_left (fun o g => pak_group w g o) (map sort_nat (g0 :: l)) [m]) as opts eqn:Eo. destruct opts as [|o opts]; [discriminate H|]. injection H as <-.
  destruct (Inv_final (in_same (map sort_nat (g0 :: l))) w m (o :: opts) o Hw) as [H1 [_ H3]]; [|left; reflexivity|split; assumption].
  apply groups_min; assumption.
Qed.
Print Assumptions C19_Pak_sort_smallest.
Lemma default_class w a b : a < w -> b < w -> in_same [seq 1 (w - 1)] a b <-> fix_first a b.
Proof.
  intros Ha Hb. unfold in_same, fix_first. split.
  - intros [->|[g [[<-|[]] [H1 H2]]]]; [tauto|]. apply in_seq in H1. apply in_seq in H2. lia.
  - intros H. destruct a as [|a]; [left; symmetry; apply H; reflexivity|]. right. exists (seq 1 (w - 1)). split; [left; reflexivity|]. split; apply in_seq; lia.
Qed.
Lemma default_equivalent w m m' : equivalent (in_same [seq 1 (w - 1)]) w m m' <-> equivalent fix_first w m m'.
Proof.
  split; intros [s [Hs [Hr Hp]]]; exists s; (split; [exact Hs|]); (split; [|exact Hp]); intros k Hk; apply (default_class w); auto; apply (perm_seq_bound s w Hs k Hk).
Qed.
Theorem C19_Pak_sort_default_smallest : forall w m r, 2 <= w -> rect w m -> Pak_sort w [] m = Some r ->
  equivalent fix_first w m r /\ StronglySorted lexle r /\
  forall m', equivalent fix_first w m m' -> lexle (by_columns w r) (by_columns w m').
Proof.
  intros w m r Hw Hm H. unfold Pak_sort in H. remember (fold_left (fun o g => pak_group w g o) [seq 1 (w - 1)] [m]) as opts eqn:Eo.
  destruct opts as [|o opts]; [discriminate H|]. injection H as <-.
  destruct (Inv_final (in_same [seq 1 (w - 1)]) w m (o :: opts) o Hw) as [H1 [H2 H3]].
  - apply groups_min; auto. cbn [concat]. apply app_nil_r.
  - left; reflexivity.
  - split; [apply default_equivalent, H1|]. split; [exact H2|]. intros m' Hm'. apply H3, default_equivalent, Hm'.
Qed.
Print Assumptions C19_Pak_sort_default_smallest.
(** hence equivalent matrices have the same sorted form, and only these *)
Theorem C19_Pak_sort_canonical : forall w m1 m2, 2 <= w -> rect w m1 -> rect w m2 ->
  (equivalent fix_first w m1 m2 <-> Pak_sort w [] m1 = Pak_sort w [] m2).
Proof.
  intros w m1 m2 Hw H1 H2. destruct (C18_Pak_sort_default_permutes w m1 H1) as [r1 [E1 Q1]]. destruct (C18_Pak_sort_default_permutes w m2 H2) as [r2 [E2 Q2]].
  assert (HE := fix_first_equiv). split.
  - intros Heq. rewrite E1, E2. f_equal. destruct (C19_Pak_sort_default_smallest w m1 r1 Hw H1 E1) as [A1 [_ M1]]. destruct (C19_Pak_sort_default_smallest w m2 r2 Hw H2 E2) as [A2 [_ M2]].
    apply (by_columns_inj w).
    + eapply equivalent_rect; exact A1.
    + eapply equivalent_rect; exact A2.
    + rewrite (equivalent_rows _ _ _ _ A1), (equivalent_rows _ _ _ _ A2), (equivalent_rows _ _ _ _ Heq). reflexivity.
    + apply lexle_antisym; [apply M1|apply M2].
      * eapply equivalent_trans; [exact HE|exact Heq|exact A2].
      * eapply equivalent_trans; [exact HE|apply equivalent_sym; [exact HE|exact H1|exact Heq]|exact A1].
  - rewrite E1, E2. intros [= ->]. eapply equivalent_trans; [exact HE|exact Q1|]. apply equivalent_sym; assumption.
Qed.
Print Assumptions C19_Pak_sort_canonical.
(** a matrix with a single column is not sorted at all: there the result depends on the row order *)
Theorem C19_single_column_refuted : exists m1 m2, rect 1 m1 /\ rect 1 m2 /\ equivalent fix_first 1 m1 m2 /\ Pak_sort 1 [] m1 <> Pak_sort 1 [] m2.
Proof.
  exists [[1%Z]; [0%Z]], [[0%Z]; [1%Z]]. repeat split; try (repeat constructor; fail).
  - exists [0]. split; [reflexivity|]. split; [intros k Hk; replace k with 0 by lia; unfold fix_first; tauto|]. cbn. apply perm_swap.
  - cbn. discriminate.
Qed.
Print Assumptions C19_single_column_refuted.

(** concrete cases *)
Definition ex_m1 : list (list Z) := [[0;2;0;1];[0;1;1;0];[1;0;3;0]]%Z.
Definition ex_m2 : list (list Z) := [[1;0;0;3];[0;0;1;1];[0;1;2;0]]%Z.
Example C19_case : Pak_sort 4 [] ex_m1 = Pak_sort 4 [] ex_m2 /\ Pak_sort 4 [] ex_m1 <> Some ex_m1 /\ rect 4 ex_m1.
Proof. split; [vm_compute; reflexivity|]. split; [vm_compute; discriminate|]. repeat constructor. Qed.
Example C18_case : exists r, iterative_sort 10 4 ex_m1 = Some r /\ r <> ex_m1.
Proof. eexists. split; [vm_compute; reflexivity|]. vm_compute. discriminate. Qed.
Example C19_groups_case : concat (map sort_nat [[2;1];[3]]) = seq 1 (4 - 1) /\ Pak_sort 4 [[2;1];[3]] ex_m1 <> Pak_sort 4 [] ex_m1.
Proof. split; [reflexivity|]. vm_compute. discriminate. Qed.
