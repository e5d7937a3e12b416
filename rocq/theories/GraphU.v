(** The first Symanzik polynomial. *)
From Coq Require Import List Lia ZArith Bool Arith Permutation.
From Verif Require Import PolySpec PolyProofs GraphSpec GraphConn GraphModel GraphMat MiscSpec MiscProofs GraphProofs.
Import ListNotations.

Lemma uncut_remove : forall G row A e B, cut_row G row -> uncut row G = A ++ e :: B ->
  exists row', cut_row G row' /\ uncut row' G = A ++ B.
Proof.
  induction G as [|g G IH]; intros [|k row] A e B [HL HF] H; cbn [length] in HL; try lia.
  - destruct A; discriminate H.
  - apply Forall_cons_iff in HF. destruct HF as [Hk HF]. assert (HR : cut_row G row) by (split; [lia|exact HF]).
    unfold uncut in H. cbn [combine filter fst] in H. destruct Hk as [-> | ->]; cbn [Z.eqb map snd] in H.
    + destruct A as [|a A]; cbn [app] in H.
      * exists (1%Z :: row). split; [split; [cbn; lia|constructor; auto]|]. unfold uncut. cbn [combine filter fst Z.eqb map snd app]. congruence.
      * injection H as Ha H. destruct (IH row A e B HR H) as (row' & [HL' HF'] & E). exists (0%Z :: row'). split; [split; [cbn; lia|constructor; auto]|].
        unfold uncut in *. cbn [combine filter fst Z.eqb map snd app]. congruence.
    + destruct (IH row A e B HR H) as (row' & [HL' HF'] & E). exists (1%Z :: row'). split; [split; [cbn; lia|constructor; auto]|].
      unfold uncut in *. cbn [combine filter fst Z.eqb map snd app]. congruence.
Qed.

Section Tree.
Variable ord : list nat. Variable G : list (nat * nat).
Hypothesis Hnd : NoDup ord.
Hypothesis Hord : forall v, In v ord <-> vertex G v.
Lemma tree_exists : forall k row, length (uncut row G) = k -> cut_row G row -> (forall u v, vertex G u -> vertex G v -> conn (uncut row G) u v) ->
  exists row', cut_row G row' /\ spanning_tree G (uncut row' G).
Proof.
  induction k as [k IH] using lt_wf_ind. intros row Hk HR HC.
  assert (HI : inside ord (uncut row G)). { intros e I. apply uncut_incl in I. split; apply Hord; exists e; auto. }
  destruct (Nat.lt_ge_cases (length ord) (ncomp ord (uncut row G) + length (uncut row G))) as [L|L].
  - destruct (not_acyclic_edge ord _ Hnd HI L) as (A & e & B & E & C).
    destruct (uncut_remove G row A e B HR E) as (row' & HR' & E'). apply (IH (length (uncut row' G))) with row'; [|reflexivity|exact HR'|].
    + rewrite E' , <- Hk, E, !app_length. cbn [length]. lia.
    + intros u v Hu Hv. rewrite E'. specialize (HC u v Hu Hv). rewrite E in HC. revert HC.
      apply (conn_least _ (conn (A ++ B))); [apply conn_refl|apply conn_sym|apply conn_trans|]. intros e' I. apply in_app_iff in I.
      destruct I as [I|[<-|I]]; [apply conn_edge, in_app_iff; left; exact I|exact C|apply conn_edge, in_app_iff; right; exact I].
  - exists row. split; [exact HR|]. split; [exact HC|]. apply (forest_ncomp ord); [exact Hnd|exact HI|].
    pose proof (ncomp_lower ord _ Hnd HI). lia.
Qed.
Lemma zero_row : cut_row G (repeat 0%Z (length G)) /\ uncut (repeat 0%Z (length G)) G = G.
Proof.
  clear. split; [split; [apply repeat_length|apply Forall_forall; intros e He; apply repeat_spec in He; auto]|].
  unfold uncut. induction G as [|e l IH]; [reflexivity|]. cbn [length repeat combine filter fst Z.eqb map snd]. f_equal. exact IH.
Qed.
Lemma connected_tree : (forall u v, vertex G u -> vertex G v -> conn G u v) -> exists row, cut_row G row /\ spanning_tree G (uncut row G).
Proof. intros H. destruct zero_row as [HR E]. apply (tree_exists _ _ eq_refl HR). rewrite E. exact H. Qed.
End Tree.

Section Eval.
Variable F : Fld.
Local Open Scope fld_scope.
Add Field Fgr : (f_th F).
Lemma meval_scale : forall (c : F) row x, length row = length x -> Forall (fun e => (0 <= e)%Z) row ->
  meval row (map (fmul c) x) = zpow c (degree row) * meval row x /\ (0 <= degree row)%Z.
Proof.
  intros c. induction row as [|k row IH]; intros [|a x] HL HF; cbn [length] in HL; try lia.
  - split; [|cbn; lia]. cbn. ring.
  - apply Forall_cons_iff in HF. destruct HF as [Hk HF]. destruct (IH x ltac:(lia) HF) as [E D]. cbn [map meval degree fold_right]. fold (degree row). split; [|lia].
    rewrite E. rewrite (@zpow_mul_base F) by (right; exact Hk). rewrite (@zpow_add F) by (right; assumption). ring.
Qed.
Lemma rows_pos : forall (G : list (nat * nat)) row, cut_row G row -> Forall (fun e => (0 <= e)%Z) row.
Proof. intros G row [_ H]. revert H. apply Forall_impl. intros e [-> | ->]; lia. Qed.
Lemma scale_poly : forall (p : poly F) d x c, length x = pnv p -> Forall (fun t => length (fst t) = pnv p /\ Forall (fun e => (0 <= e)%Z) (fst t) /\ degree (fst t) = d) (ptm p) ->
  peval p (map (fmul c) x) = zpow c d * peval p x.
Proof.
  intros p d x c HL H. unfold peval. induction H as [|t ts (H1 & H2 & H3) H IH]; [cbn; ring|]. cbn [map sumF]. rewrite IH.
  destruct (meval_scale c (fst t) x ltac:(congruence) H2) as [E _]. rewrite E, H3. ring.
Qed.

Variable ord : list nat. Variable ils : list (car F * (nat * nat)). Variable els : list (list (car F) * nat).
Hypothesis Hnd : NoDup ord.
Hypothesis Hord : forall v, In v ord <-> vertex (map snd ils) v.
Hypothesis Hext : forall l, In l els -> In (snd l) ord.
Notation G := (map snd ils).
Notation P := (length ils).
Notation V := (length ord).

Lemma gL_eq : gL ord ils = (P - (V - 1))%nat. Proof. reflexivity. Qed.
Lemma ord_ne : ils <> [] -> V <> 0%nat.
Proof.
  clear Hnd Hext els. intros H E. destruct ils as [|l r] eqn:Q; [congruence|]. assert (I : In (fst (snd l)) ord); [|destruct ord; [destruct I|discriminate]].
  apply Hord. exists (snd l). split; [left; reflexivity|left; reflexivity].
Qed.
Lemma U_terms_spec : (V <= P)%nat -> ils <> [] ->
  NoDup (map fst (U_terms ord ils els)) /\ Forall (fun t => snd t = 1) (U_terms ord ils els) /\
  (forall row, In row (map fst (U_terms ord ils els)) <-> cut_row G row /\ spanning_tree G (uncut row G)) /\
  Forall (fun t => degree (fst t) = Z.of_nat (P - (V - 1))) (U_terms ord ils els).
Proof.
  intros HP Hne. pose proof (ord_ne Hne) as HV. unfold U_terms. rewrite gL_eq. unfold gP.
  assert (EQ : flat_map (fun cut => if contains_zero (cut_power F ord ils els cut) then [] else [(cut_expo F ils cut, 1)]) (combinations (P - (V - 1)) (seq 0 P))
             = map (fun cut => (expo P cut, 1 : F)) (filter (fun cut => negb (contains_zero (cut_power F ord ils els cut))) (combinations (P - (V - 1)) (seq 0 P)))).
  { induction (combinations (P - (V - 1)) (seq 0 P)) as [|c l IH]; [reflexivity|]. cbn [flat_map filter]. destruct (contains_zero _); cbn [negb map app]; rewrite IH; reflexivity. }
  rewrite EQ. clear EQ. split; [|split; [|split]].
  - rewrite map_map. cbn [fst]. apply NoDup_map_inj; [|apply NoDup_filter, combinations_NoDup, seq_NoDup].
    intros x y Hx Hy E. apply filter_In in Hx, Hy. rewrite <- (cut_of_expo P _ x (proj1 Hx)), <- (cut_of_expo P _ y (proj1 Hy)), E. reflexivity.
  - apply Forall_forall. intros t H. apply in_map_iff in H. destruct H as (c & <- & _). reflexivity.
  - intros row. rewrite map_map. cbn [fst]. rewrite (tree_cut F ord ils els Hnd Hord Hext row ltac:(lia) HV). rewrite in_map_iff. split.
    + intros (c & <- & H). apply filter_In in H. destruct H as [H1 H2]. exists c. apply negb_true_iff in H2. auto.
    + intros (c & H1 & H2 & ->). exists c. split; [reflexivity|]. apply filter_In. rewrite H2. auto.
  - apply Forall_forall. intros t H. apply in_map_iff in H. destruct H as (c & <- & H). apply filter_In in H. destruct H as [H _]. cbn [fst].
    rewrite <- (map_length snd ils) in H at 2. destruct (expo_row G _ c H) as [_ Q]. rewrite map_length in Q. exact Q.
Qed.
Lemma keys_ok_true : keys_ok F ord els = true.
Proof. apply forallb_forall. intros l I. apply existsb_exists. exists (snd l). split; [apply Hext, I|apply Nat.eqb_refl]. Qed.
End Eval.
