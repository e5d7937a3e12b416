(** [convex_hull]. *)
From Verif Require Export GeoProofs SortProofs.
Local Open Scope nat_scope.

Section Hull.
Variable F : Fld.
Local Open Scope fld_scope.
Add Field Ffield_hull : (@f_th F).
Notation Poly := (poly F).

Definition step_tuples (acc : list (list (list Z))) (rs : list (list Z)) : list (list (list Z)) := flat_map (fun c => map (fun u => u :: c) rs) acc.
Definition tuples (rs0 : list (list Z)) (rest : list (list (list Z))) : list (list (list Z)) := fold_left step_tuples rest (map (fun e => [e]) rs0).

Lemma vec_sum_length n es : length (vec_sum n es) = n.
Proof. unfold vec_sum. rewrite map_length, seq_length. reflexivity. Qed.
Lemma vec_sum_get n es j : (j < n)%nat -> getZ j (vec_sum n es) = sumZ (map (getZ j) es).
Proof. intros H. unfold vec_sum. rewrite getZ_map_seq by exact H. reflexivity. Qed.
Lemma vec_sum_one n e : length e = n -> vec_sum n [e] = e.
Proof. intros H. apply row_eq; rewrite vec_sum_length; [auto|]. intros j Hj. rewrite vec_sum_get by exact Hj. cbn. lia. Qed.
Lemma vec_sum_cons n e es : length e = n -> vec_sum n (e :: es) = row_add e (vec_sum n es).
Proof.
  intros H. apply row_eq; rewrite vec_sum_length; [rewrite row_add_length; rewrite ?vec_sum_length; auto|]. intros j Hj.
  rewrite vec_sum_get by exact Hj. rewrite getZ_row_add by (rewrite ?vec_sum_length; lia). rewrite vec_sum_get by exact Hj. reflexivity.
Qed.
Lemma vec_sum_perm n es es' : Permutation es es' -> vec_sum n es = vec_sum n es'.
Proof. intros H. unfold vec_sum. apply map_ext. intros j. apply sumZ_perm, Permutation_map, H. Qed.

Lemma sumF_map_flat {A B} (f : B -> F) (h : A -> list B) l : sumF (map f (flat_map h l)) = sumF (map (fun a => sumF (map f (h a))) l).
Proof. induction l as [|a l IH]; cbn [flat_map map]; [reflexivity|]. rewrite map_app, sumF_app, IH. reflexivity. Qed.

Lemma mul_step_lin n (q p : Poly) q' L : pmul q (ones p) = Some q' -> Forall (fun t => length (fst t) = n) (ptm p) ->
  (forall g : list Z -> F, lin g (ptm q) = sumF (map (fun c => g (vec_sum n c)) L)) ->
  forall g : list Z -> F, lin g (ptm q') = sumF (map (fun c => g (vec_sum n c)) (step_tuples L (map fst (ptm p)))).
Proof.
  unfold pmul. destruct (Nat.eqb _ _); [|discriminate]. intros E Hp H g. injection E as <-. rewrite psimplify_lin. cbn [ptm ones].
  unfold step_tuples. rewrite sumF_map_flat.
  transitivity (lin (fun e => sumF (map (fun u => g (row_add (fst u) e)) (ptm p))) (ptm q)).
  - clear H. induction (ptm q) as [|t ts IH]; cbn [flat_map]; [reflexivity|]. rewrite lin_app, lin_cons, IH. f_equal.
    clear. induction (ptm p) as [|u us IHu]; cbn [map]; [cbn; ring|]. rewrite lin_cons, IHu. cbn [fst snd]. change (sumF (?a :: ?b)) with (a + sumF b). ring.
  - rewrite H. apply sumF_map_ext. intros c _. rewrite !map_map. apply sumF_map_ext. intros u Hu. rewrite Forall_forall in Hp. rewrite vec_sum_cons by (apply Hp, Hu). reflexivity.
Qed.

Definition product_of (ps : list Poly) (p0 : Poly) : option Poly :=
  fold_left (fun acc p => match acc with Some a => pmul a (ones p) | None => None end) ps (Some (pmul_num (ones p0) 1)).
Lemma fold_none (ps : list Poly) : fold_left (fun acc p => match acc with Some a => pmul a (ones p) | None => None end) ps (@None Poly) = None.
Proof. induction ps; [reflexivity|assumption]. Qed.
Lemma product_lin_gen n ps : forall (q : Poly) L, pnv q = n -> Forall (fun p => pnv p = n /\ pwf p) ps ->
  (forall g : list Z -> F, lin g (ptm q) = sumF (map (fun c => g (vec_sum n c)) L)) ->
  exists r, fold_left (fun acc p => match acc with Some a => pmul a (ones p) | None => None end) ps (Some q) = Some r /\ pnv r = n /\
    (ps = [] /\ r = q \/ ps <> [] /\ pnormal r) /\
    forall g : list Z -> F, lin g (ptm r) = sumF (map (fun c => g (vec_sum n c)) (fold_left step_tuples (map (fun p => map fst (ptm p)) ps) L)).
Proof.
  induction ps as [|p ps IH]; intros q L Hq Hps H; [exists q; split; [reflexivity|split; [exact Hq|split; [left; split; reflexivity|exact H]]]|].
  apply Forall_cons_iff in Hps as [[Hp Hw] Hps']. cbn [fold_left map]. subst n.
  destruct (pmul_total F q (ones p)) as [q' Eq']; [symmetry; exact Hp|]. rewrite Eq'.
  assert (Hq' : pnv q' = pnv q) by (eapply pmul_nv; eassumption).
  assert (Hnq : pnormal q').
  { unfold pmul in Eq'. destruct (Nat.eqb _ _); [|discriminate]. injection Eq' as <-. apply psimplify_normal. }
  assert (Hw' : Forall (fun t => length (fst t) = pnv q) (ptm p)) by (unfold pwf in Hw; rewrite Hp in Hw; exact Hw).
  destruct (IH q' (step_tuples L (map fst (ptm p))) Hq' Hps' (mul_step_lin (pnv q) q p q' L Eq' Hw' H)) as (r & Er & Hnr & Hnorm & Hlin).
  exists r. split; [exact Er|]. split; [exact Hnr|]. split; [right; split; [discriminate|]|exact Hlin].
  destruct Hnorm as [[_ ->]|[_ Hn]]; assumption.
Qed.
Lemma in_step_tuples L rs c : In c (step_tuples L rs) <-> exists u c', c = u :: c' /\ In u rs /\ In c' L.
Proof.
  unfold step_tuples. rewrite in_flat_map. split.
  - intros (c' & Hc' & H). apply in_map_iff in H as (u & <- & Hu). eauto.
  - intros (u & c' & -> & Hu & Hc'). exists c'. split; [exact Hc'|]. apply in_map_iff. eauto.
Qed.
Lemma in_tuples_gen rest : forall L c, In c (fold_left step_tuples rest L) <-> exists us c', c = rev us ++ c' /\ Forall2 (fun u rs => In u rs) us rest /\ In c' L.
Proof.
  induction rest as [|rs rest IH]; intros L c; cbn [fold_left].
  - split; [intros H; exists [], c; auto|intros (us & c' & -> & H & H'); inversion H; subst; exact H'].
  - rewrite IH. split.
    + intros (us & c' & -> & Hf & H). apply in_step_tuples in H as (u & c'' & -> & Hu & Hc''). exists (u :: us), c''. split; [cbn; rewrite <- app_assoc; reflexivity|]. split; [constructor; assumption|assumption].
    + intros (us & c' & -> & Hf & H). inversion Hf as [|u ? us' ? Hu Hf']; subst. exists us', (u :: c'). split; [cbn; rewrite <- app_assoc; reflexivity|]. split; [assumption|]. apply in_step_tuples. eauto.
Qed.
Lemma in_tuples rs0 rest c : In c (tuples rs0 rest) <-> Forall2 (fun u rs => In u rs) (rev c) (rs0 :: rest).
Proof.
  unfold tuples. rewrite in_tuples_gen. split.
  - intros (us & c' & -> & Hf & H). apply in_map_iff in H as (e & <- & He). rewrite rev_app_distr, rev_involutive. cbn. constructor; assumption.
  - intros H. inversion H as [|e ? us ? He Hf E1 E2]; subst. exists us, [e]. split; [|split; [exact Hf|apply (in_map (fun e : list Z => [e])), He]].
    rewrite <- (rev_involutive c), <- E1. reflexivity.
Qed.
Lemma NoDup_step L rs : NoDup L -> NoDup rs -> NoDup (step_tuples L rs).
Proof.
  intros HL Hr. unfold step_tuples. induction HL as [|c L Hc HL IH]; cbn [flat_map]; [constructor|]. apply NoDup_app_intro; [|exact IH|].
  - apply FinFun.Injective_map_NoDup; [|exact Hr]. intros a b E. congruence.
  - intros d Hd Hd'. apply in_map_iff in Hd as (u & <- & _). apply in_flat_map in Hd' as (c' & Hc' & H). apply in_map_iff in H as (u' & E & _). injection E as _ ->. contradiction.
Qed.
Lemma NoDup_tuples rs0 rest : NoDup rs0 -> Forall (@NoDup _) rest -> NoDup (tuples rs0 rest).
Proof.
  intros H0 Hr. unfold tuples. assert (H : NoDup (map (fun e : list Z => [e]) rs0)) by (apply FinFun.Injective_map_NoDup; [intros a b E; congruence|exact H0]).
  revert H. generalize (map (fun e : list Z => [e]) rs0). induction Hr as [|rs rest Hrs _ IH]; intros L HL; [exact HL|]. cbn. apply IH, NoDup_step; assumption.
Qed.
Lemma minkowski_tuples n (p0 : Poly) ps v : minkowski n (p0 :: ps) v <-> exists c, In c (tuples (map fst (ptm p0)) (map (fun p => map fst (ptm p)) ps)) /\ vec_sum n c = v.
Proof.
  assert (E : forall es, Forall2 (fun e p => In e (map fst (ptm p))) es (p0 :: ps) <-> Forall2 (fun (u : list Z) rs => In u rs) es (map (fun p => map fst (ptm p)) (p0 :: ps))).
  { intros es. generalize (p0 :: ps). intros l. revert es. induction l as [|p l IH]; intros [|e es]; cbn [map]; split; intros H; inversion H; subst; constructor; auto; apply IH; assumption. }
  split.
  - intros (es & Hf & ->). exists (rev es). split; [apply in_tuples; rewrite rev_involutive; apply E, Hf|]. apply vec_sum_perm. symmetry. apply Permutation_rev.
  - intros (c & Hc & <-). exists (rev c). split; [apply E, in_tuples, Hc|]. apply vec_sum_perm, Permutation_rev.
Qed.

Lemma coeff_sorted (ts : list (term F)) t : rows_sorted ts -> In t ts -> lin (fun r => if roweqb r (fst t) then 1 else 0) ts = snd t.
Proof.
  induction 1 as [|u ts Hs IH Hf]; intros Ht; [destruct Ht|]. rewrite lin_cons. destruct Ht as [->|Ht].
  - rewrite roweqb_refl. rewrite lin_ind_notin; [ring|]. eapply Forall_impl; [|exact Hf]. intros b Hb. cbn in Hb. destruct (roweqb (fst b) (fst t)) eqn:E; [|reflexivity].
    apply roweqb_spec in E. rewrite E in Hb. exfalso. exact (lexlt_irrefl _ Hb).
  - rewrite IH by exact Ht. rewrite Forall_forall in Hf. specialize (Hf t Ht). cbn in Hf. destruct (roweqb (fst u) (fst t)) eqn:E; [|ring].
    apply roweqb_spec in E. rewrite E in Hf. exfalso. exact (lexlt_irrefl _ Hf).
Qed.
Lemma count_sum n v L : sumF (map (fun c => if roweqb (vec_sum n c) v then 1 else 0) L) = @natF F (length (filter (fun c => roweqb (vec_sum n c) v) L)).
Proof.
  induction L as [|c L IH]; cbn [map filter]; [reflexivity|]. change (sumF (?a :: ?b)) with (a + sumF b). rewrite IH. destruct (roweqb _ _); cbn [length natF]; ring.
Qed.
Hypothesis char0 : forall k, @natF F (S k) <> 0.
Lemma natF_one k : @natF F k = 1 -> k = 1%nat.
Proof.
  destruct k as [|[|k]]; intros H; [exfalso; apply F1_neq_0 with (F := F); symmetry; exact H|reflexivity|exfalso].
  apply (char0 k). cbn [natF] in *. match type of H with 1 + ?a = 1 => transitivity ((1 + a) - 1); [ring|rewrite H; ring] end.
Qed.
(** the output: exponent vectors with exactly one decomposition (for one polynomial: all of them) *)
Lemma convex_hull_spec n (p0 : Poly) ps out : Forall (fun p => pnv p = n /\ pwf p) (p0 :: ps) -> Forall distinct_terms (p0 :: ps) ->
  convex_hull (p0 :: ps) = Some out ->
  forall v, In v out <-> length (filter (fun c => roweqb (vec_sum n c) v) (tuples (map fst (ptm p0)) (map (fun p => map fst (ptm p)) ps))) = 1%nat.
Proof.
  intros Hw Hd E v. inversion Hw as [|? ? [Hn0 Hw0] Hw']; subst. inversion Hd as [|? ? Hd0 Hd']; subst. unfold convex_hull in E.
  assert (E1 : pmul_num (ones p0) (1 : F) = ones p0) by (unfold pmul_num; rewrite (proj2 (feqb_spec _ (1 : F) 1) eq_refl); reflexivity). rewrite E1 in E.
  assert (Hl0 : forall g : list Z -> F, lin g (ptm (ones p0)) = sumF (map (fun c => g (vec_sum (pnv p0) c)) (map (fun e => [e]) (map fst (ptm p0))))).
  { intros g. cbn [ones ptm]. rewrite !map_map. unfold pwf in Hw0. induction Hw0 as [|t ts Ht _ IH]; cbn [map]; [reflexivity|]. rewrite lin_cons, IH. cbn [fst snd].
    rewrite vec_sum_one by exact Ht. change (sumF (?a :: ?b)) with (a + sumF b). ring. }
  destruct (product_lin_gen (pnv p0) ps (ones p0) _ eq_refl Hw' Hl0) as (r & Er & Hnr & Hnorm & Hlin). rewrite Er in E. injection E as <-.
  fold (tuples (map fst (ptm p0)) (map (fun p => map fst (ptm p)) ps)) in Hlin. set (L := tuples _ _) in *.
  assert (Ec : lin (fun e => if roweqb e v then 1 else 0) (ptm r) = natF (length (filter (fun c => roweqb (vec_sum (pnv p0) c) v) L))) by (rewrite Hlin; apply count_sum).
  assert (Hs : forall t, In t (ptm r) -> lin (fun e => if roweqb e (fst t) then 1 else 0) (ptm r) = snd t).
  { destruct Hnorm as [[-> ->]|[_ [Hs _]]]; [|intros t Ht; apply coeff_sorted; assumption].
    cbn [ones ptm]. unfold distinct_terms in Hd0. clear - Hd0. intros t Ht. apply in_map_iff in Ht as (u & <- & Hu). cbn [fst snd]. revert Hu Hd0.
    induction (ptm p0) as [|w ts IH]; intros Hu Hd; [destruct Hu|]. cbn [map] in *. inversion Hd as [|? ? Hni Hd']; subst. rewrite lin_cons. cbn [fst snd].
    destruct Hu as [->|Hu].
    - rewrite roweqb_refl, lin_ind_notin; [ring|]. apply Forall_map, Forall_forall. intros b Hb. cbn [fst]. destruct (roweqb (fst b) (fst u)) eqn:E; [|reflexivity].
      apply roweqb_spec in E. exfalso. apply Hni. rewrite <- E. apply in_map, Hb.
    - rewrite IH by assumption. destruct (roweqb (fst w) (fst u)) eqn:E; [|ring]. apply roweqb_spec in E. exfalso. apply Hni. rewrite E. apply in_map, Hu. }
  rewrite in_map_iff. split.
  - intros (t & <- & Ht). apply filter_In in Ht as [Ht E]. apply feqb_spec in E. rewrite (Hs t Ht), E in Ec. apply natF_one. symmetry; exact Ec.
  - intros Hc. rewrite Hc in Ec. destruct (existsb (fun t => roweqb (fst t) v) (ptm r)) eqn:Ex.
    + apply existsb_exists in Ex as (t & Ht & E). apply roweqb_spec in E. exists t. split; [exact E|]. apply filter_In. split; [exact Ht|]. apply feqb_spec.
      rewrite <- (Hs t Ht), E, Ec. cbn. ring.
    + exfalso. rewrite lin_ind_notin in Ec; [|apply Forall_forall; intros t Ht; destruct (roweqb (fst t) v) eqn:E; [|reflexivity]; assert (existsb (fun t => roweqb (fst t) v) (ptm r) = true) by (apply existsb_exists; eauto); congruence].
      apply F1_neq_0 with (F := F). rewrite Ec. cbn. ring.
Qed.
Lemma convex_hull_total n (p0 : Poly) ps : Forall (fun p => pnv p = n /\ pwf p) (p0 :: ps) -> exists out, convex_hull (p0 :: ps) = Some out.
Proof.
  intros Hw. inversion Hw as [|? ? [Hn0 Hw0] Hw']; subst. unfold convex_hull.
  assert (E1 : pmul_num (ones p0) (1 : F) = ones p0) by (unfold pmul_num; rewrite (proj2 (feqb_spec _ (1 : F) 1) eq_refl); reflexivity). rewrite E1.
  assert (E : exists r, fold_left (fun acc p => match acc with Some a => pmul a (ones p) | None => None end) ps (Some (ones p0)) = Some r).
  { assert (H : pnv (ones p0) = pnv p0) by reflexivity. revert H. generalize (ones p0) as q. clear Hw Hw0 E1. induction Hw' as [|p ps [Hp _] Hps IH]; intros q Hq; [eexists; reflexivity|]. cbn [fold_left].
    destruct (pmul_total F q (ones p)) as [q' Eq']; [cbn; congruence|]. rewrite Eq'. apply IH. rewrite (pmul_nv F _ _ _ Eq'). exact Hq. }
  destruct E as [r ->]. eexists; reflexivity.
Qed.
End Hull.
