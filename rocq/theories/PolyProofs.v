(** Proofs about the flat polynomial model. *)
From Coq Require Import Sorted.
From Verif Require Export SortProofs PolySpec.

Section Proofs.
Variable F : Fld.
Local Open Scope fld_scope.
Add Field Fld_field2 : (f_th F).

Implicit Types (p q : poly F) (x : list F) (g : list Z -> F).

(** generic linear functional on term lists *)
Definition lin g (ts : list (term F)) : F := sumF (map (fun t => snd t * g (fst t)) ts).

Lemma lin_nil g : lin g [] = 0. Proof. reflexivity. Qed.
Lemma lin_cons g t ts : lin g (t :: ts) = snd t * g (fst t) + lin g ts.
Proof. reflexivity. Qed.
Lemma lin_app g ts us : lin g (ts ++ us) = lin g ts + lin g us.
Proof. unfold lin. rewrite map_app, sumF_app. reflexivity. Qed.
Lemma lin_perm g ts us : Permutation ts us -> lin g ts = lin g us.
Proof. intros H. apply sumF_perm, Permutation_map, H. Qed.
Lemma lin_ext g g' ts : (forall t, In t ts -> g (fst t) = g' (fst t)) -> lin g ts = lin g' ts.
Proof. intros H. apply sumF_map_ext. intros t Ht. rewrite H by exact Ht. reflexivity. Qed.
Lemma lin_rev g ts : lin g (rev ts) = lin g ts.
Proof. apply lin_perm. symmetry. apply Permutation_rev. Qed.
Lemma lin_scale g c ts : lin (fun e => c * g e) ts = c * lin g ts.
Proof.
  induction ts as [|t ts IH]; [rewrite !lin_nil; ring|]. rewrite !lin_cons, IH. ring.
Qed.

Lemma peval_lin p x : peval p x = lin (fun e => meval e x) (ptm p).
Proof. reflexivity. Qed.

Lemma coeff_at_lin p e : coeff_at p e = lin (fun r => if roweqb r e then 1 else 0) (ptm p).
Proof.
  unfold coeff_at. induction (ptm p) as [|t ts IH]; [reflexivity|].
  rewrite lin_cons. cbn [filter]. destruct (roweqb (fst t) e); cbn [map sumF]; rewrite IH; ring.
Qed.

(** ** simplify *)
Lemma merge_loop_lin g rest : forall before (p : term F) zs,
  lin g (merge_loop before p zs rest) = lin g before + snd p * g (fst p) + lin g zs + lin g rest.
Proof.
  induction rest as [|t r IH]; intros before p zs; cbn [merge_loop].
  - rewrite lin_app, lin_cons, !lin_rev, lin_nil. ring.
  - destruct (feqb (snd t) 0).
    + rewrite IH, !lin_cons. ring.
    + destruct (roweqb (fst p) (fst t)) eqn:E.
      * apply roweqb_spec in E. rewrite IH, !lin_app, !lin_cons, !lin_nil. cbn [fst snd]. rewrite E. ring.
      * rewrite IH, !lin_app, !lin_cons, !lin_nil. ring.
Qed.

Lemma merge_terms_lin g ts : lin g (merge_terms ts) = lin g ts.
Proof.
  destruct ts as [|t r]; [reflexivity|]. unfold merge_terms. rewrite merge_loop_lin, lin_cons, !lin_nil. ring.
Qed.

Lemma filter_nonzero_lin g ts : lin g (filter (fun t : term F => negb (feqb (snd t) 0)) ts) = lin g ts.
Proof.
  induction ts as [|t r IH]; [reflexivity|]. cbn [filter].
  destruct (feqb (snd t) 0) eqn:E; cbn [negb].
  - apply feqb_spec in E. rewrite lin_cons, IH, E. ring.
  - rewrite !lin_cons, IH. reflexivity.
Qed.

Lemma gather_terms (ts : list (term F)) : gather ts (argsort_2D (map fst ts)) = sort_by fst ts.
Proof. exact (gather_argsort (A := term F) fst ts). Qed.

Lemma psimplify_lin g p : lin g (ptm (psimplify p)) = lin g (ptm p).
Proof.
  unfold psimplify. rewrite gather_terms.
  set (s := sort_by fst (ptm p)).
  assert (E : lin g (filter (fun t : term F => negb (feqb (snd t) 0)) (merge_terms s)) = lin g (ptm p)).
  { rewrite filter_nonzero_lin, merge_terms_lin. apply lin_perm, sort_by_perm. }
  destruct (filter _ (merge_terms s)) as [|t r]; cbn [ptm pconst].
  - rewrite <- E, lin_cons, !lin_nil. cbn [fst snd]. ring.
  - exact E.
Qed.

Lemma psimplify_eval p x : peval (psimplify p) x = peval p x.
Proof. rewrite !peval_lin. apply psimplify_lin. Qed.

Lemma psimplify_coeff p e : coeff_at (psimplify p) e = coeff_at p e.
Proof. rewrite !coeff_at_lin. apply psimplify_lin. Qed.

Lemma psimplify_nv p : pnv (psimplify p) = pnv p.
Proof. unfold psimplify. destruct (filter _ _); reflexivity. Qed.

Lemma zrow_length n : length (zrow n) = n.
Proof. apply repeat_length. Qed.

Lemma merge_loop_rows (P : list Z -> Prop) rest : forall before (p : term F) zs,
  Forall (fun t => P (fst t)) before -> P (fst p) -> Forall (fun t => P (fst t)) zs ->
  Forall (fun t => P (fst t)) rest ->
  Forall (fun t => P (fst t)) (@merge_loop F before p zs rest).
Proof.
  induction rest as [|t r IH]; intros before p zs Hb Hp Hz Hr; cbn [merge_loop].
  - apply Forall_app. split; [apply Forall_rev; exact Hb|]. constructor; [exact Hp|apply Forall_rev; exact Hz].
  - inversion Hr as [|? ? Ht Hr']; subst.
    destruct (feqb (snd t) 0); [apply IH; auto|].
    destruct (roweqb _ _); apply IH; auto; apply Forall_app; split; auto.
Qed.

(** the rows of the result come from the input (or are the zero row of the zero polynomial) *)
Lemma psimplify_rows (P : list Z -> Prop) p :
  Forall (fun t => P (fst t)) (ptm p) -> P (zrow (pnv p)) ->
  Forall (fun t => P (fst t)) (ptm (psimplify p)).
Proof.
  intros H Hz. unfold psimplify. rewrite gather_terms.
  assert (Hs : Forall (fun t => P (fst t)) (sort_by fst (ptm p))).
  { eapply Permutation_Forall; [symmetry; apply sort_by_perm|exact H]. }
  assert (Hm : Forall (fun t => P (fst t)) (merge_terms (sort_by fst (ptm p)))).
  { destruct (sort_by fst (ptm p)) as [|t r]; [constructor|]. inversion Hs; subst. apply merge_loop_rows; auto. }
  assert (Hf : Forall (fun t => P (fst t)) (filter (fun t : term F => negb (feqb (snd t) 0)) (merge_terms (sort_by fst (ptm p))))).
  { apply Forall_forall. intros t Ht. apply filter_In in Ht. rewrite Forall_forall in Hm. apply Hm, Ht. }
  destruct (filter _ _) as [|t r]; cbn [ptm pconst]; [|exact Hf].
  constructor; [exact Hz|constructor].
Qed.

Lemma psimplify_wf p : pwf p -> pwf (psimplify p).
Proof.
  unfold pwf. rewrite psimplify_nv. intros H. apply (psimplify_rows (fun r => length r = pnv p)); auto.
  apply zrow_length.
Qed.

Lemma pow_ok_0 (a : F) : pow_ok a 0. Proof. right. lia. Qed.

Lemma Forall2_pow_ok_zrow x : Forall2 pow_ok x (zrow (length x)).
Proof. induction x; cbn; constructor; auto. apply pow_ok_0. Qed.

Lemma psimplify_def p x : pdef p x -> pdef (psimplify p) x.
Proof.
  unfold pdef. rewrite psimplify_nv. intros [HL H]. split; [exact HL|].
  apply (psimplify_rows (fun r => Forall2 pow_ok x r)); auto. rewrite <- HL. apply Forall2_pow_ok_zrow.
Qed.

(** normal form *)

Definition nz (ts : list (term F)) := filter (fun t : term F => negb (feqb (snd t) 0)) ts.
Lemma nz_app ts us : nz (ts ++ us) = nz ts ++ nz us.
Proof. apply filter_app. Qed.
Lemma nz_rev ts : nz (rev ts) = rev (nz ts).
Proof.
  induction ts as [|t r IH]; [reflexivity|]. cbn [rev]. rewrite nz_app, IH.
  cbn [nz filter]. destruct (negb _); cbn [rev app]; [reflexivity|apply app_nil_r].
Qed.
Lemma nz_zero ts : Forall (fun t => snd t = 0) ts -> nz ts = [].
Proof.
  induction 1 as [|t r H _ IH]; [reflexivity|]. cbn [nz filter]. rewrite H, feqb_refl. exact IH.
Qed.

Lemma sorted_snoc ts (t : term F) : rows_sorted ts -> Forall (fun a => lexlt (fst a) (fst t)) ts -> rows_sorted (ts ++ [t]).
Proof.
  induction 1 as [|a r Hr IH Ha]; intros H; inversion H; subst; cbn [app].
  - constructor; constructor.
  - constructor; [apply IH; assumption|]. apply Forall_app. split; [exact Ha|]. constructor; [assumption|constructor].
Qed.

Lemma merge_loop_sorted rest : forall before (p : term F) zs,
  rows_sorted (nz (rev before)) ->
  Forall (fun a => lexlt (fst a) (fst p)) (nz (rev before)) ->
  Forall (fun t => snd t = 0) zs ->
  Forall (fun t => lexle (fst p) (fst t)) rest ->
  StronglySorted (kle (fst)) rest ->
  rows_sorted (nz (@merge_loop F before p zs rest)).
Proof.
  induction rest as [|t r IH]; intros before p zs Hb Hp Hz Hle Hs; cbn [merge_loop].
  - rewrite nz_app. cbn [nz filter]. change (filter _ (rev zs)) with (nz (rev zs)).
    rewrite (nz_zero (rev zs)) by (apply Forall_rev; exact Hz).
    destruct (negb _); [apply sorted_snoc; assumption|]. rewrite app_nil_r. exact Hb.
  - inversion Hle as [|? ? Hpt Hle']; subst. inversion Hs as [|? ? Hs' Ht]; subst.
    destruct (feqb (snd t) 0) eqn:E0.
    { apply IH; auto. constructor; [apply feqb_spec; exact E0|exact Hz]. }
    destruct (roweqb (fst p) (fst t)) eqn:E.
    + apply roweqb_spec in E.
      assert (Enz : nz (rev (zs ++ (fst p, 0) :: before)) = nz (rev before)).
      { rewrite rev_app_distr, nz_app, (nz_zero (rev zs)) by (apply Forall_rev; exact Hz).
        rewrite app_nil_r. cbn [rev]. rewrite nz_app. cbn [nz filter snd]. rewrite feqb_refl. cbn [negb].
        apply app_nil_r. }
      apply IH; cbn [fst].
      * rewrite Enz. exact Hb.
      * rewrite Enz, <- E. exact Hp.
      * constructor.
      * exact Ht.
      * exact Hs'.
    + assert (Hlt : lexlt (fst p) (fst t)).
      { apply lexle_lt_eq in Hpt. destruct Hpt as [H|H]; [exact H|]. rewrite H, roweqb_refl in E. discriminate. }
      assert (Enz : nz (rev (zs ++ p :: before)) = nz (rev before) ++ nz [p]).
      { rewrite rev_app_distr, nz_app, (nz_zero (rev zs)) by (apply Forall_rev; exact Hz).
        rewrite app_nil_r. cbn [rev]. apply nz_app. }
      assert (Hall : Forall (fun a => lexlt (fst a) (fst t)) (nz (rev before) ++ nz [p])).
      { apply Forall_app. split.
        - eapply Forall_impl; [|exact Hp]. intros a Ha. eapply lexlt_trans; [exact Ha|exact Hlt].
        - cbn [nz filter]. destruct (negb _); constructor; auto. }
      apply IH; auto; rewrite Enz; auto.
      cbn [nz filter]. destruct (negb _); [apply sorted_snoc; assumption|]. rewrite app_nil_r. exact Hb.
Qed.

Lemma psimplify_normal p : pnormal (psimplify p).
Proof.
  unfold pnormal, psimplify. rewrite gather_terms.
  assert (Hs : rows_sorted (nz (merge_terms (sort_by fst (ptm p))))).
  { assert (H := sort_by_sorted (@fst (list Z) F) (ptm p)).
    destruct (sort_by fst (ptm p)) as [|t r]; [constructor|].
    inversion H as [|? ? Hr Ht]; subst. apply merge_loop_sorted; cbn; auto; constructor. }
  assert (Hn : Forall (fun t => snd t <> 0) (nz (merge_terms (sort_by fst (ptm p))))).
  { apply Forall_forall. intros t Ht. apply filter_In in Ht. destruct Ht as [_ Ht].
    apply negb_true_iff, feqb_false in Ht. exact Ht. }
  change (filter _ (merge_terms (sort_by fst (ptm p)))) with (nz (merge_terms (sort_by fst (ptm p)))).
  destruct (nz _) as [|t r] eqn:E.
  - split; [cbn [ptm pconst]; repeat constructor|]. right. reflexivity.
  - cbn [ptm pnv] in *. split; [exact Hs|]. left. split; [exact Hn|discriminate].
Qed.

(** uniqueness of the normal form *)
Lemma lin_ind_notin e (ts : list (term F)) : Forall (fun t => roweqb (fst t) e = false) ts ->
  lin (fun r => if roweqb r e then 1 else 0) ts = 0.
Proof.
  induction 1 as [|t r H _ IH]; [reflexivity|]. rewrite lin_cons, IH, H. ring.
Qed.

Lemma sorted_head_notin (t : term F) (ts : list (term F)) e : Forall (fun b => lexlt (fst t) (fst b)) ts -> lexle e (fst t) ->
  Forall (fun b => roweqb (fst b) e = false) ts.
Proof.
  intros H He. eapply Forall_impl; [|exact H]. intros b Hb.
  destruct (roweqb (fst b) e) eqn:E; [|reflexivity]. apply roweqb_spec in E.
  exfalso. apply (lexlt_irrefl e). eapply lexle_lt_trans; [exact He|]. rewrite <- E. exact Hb.
Qed.

Lemma normal_terms_unique ts : forall us,
  rows_sorted ts -> rows_sorted us -> Forall (fun t => snd t <> 0) ts -> Forall (fun t => snd t <> 0) us ->
  (forall e, lin (fun r => if roweqb r e then 1 else 0) ts = lin (fun r => if roweqb r e then 1 else 0) us) -> ts = us.
Proof.
  assert (Hhd : forall (t : term F) r e, rows_sorted (t :: r) -> lexle e (fst t) ->
     lin (fun a => if roweqb a e then 1 else 0) (t :: r) = snd t * (if roweqb (fst t) e then 1 else 0)).
  { intros t r e Hs He. inversion Hs; subst. rewrite lin_cons, lin_ind_notin; [ring|]. eapply sorted_head_notin; eauto. }
  induction ts as [|[e c] ts IH]; intros [|[e' c'] us] Hs1 Hs2 Hn1 Hn2 H.
  - reflexivity.
  - specialize (H e'). rewrite (Hhd (e',c') us e' Hs2 (lexle_refl _)) in H. cbn [fst snd] in H.
    rewrite roweqb_refl, lin_nil in H. inversion Hn2 as [|? ? Hc _]; subst. cbn [snd] in Hc. exfalso. apply Hc. rewrite H. ring.
  - specialize (H e). rewrite (Hhd (e,c) ts e Hs1 (lexle_refl _)) in H. cbn [fst snd] in H.
    rewrite roweqb_refl, lin_nil in H. inversion Hn1 as [|? ? Hc _]; subst. cbn [snd] in Hc. exfalso. apply Hc. rewrite <- H. ring.
  - assert (Hc1 : c <> 0) by (inversion Hn1; assumption). assert (Hc2 : c' <> 0) by (inversion Hn2; assumption).
    assert (E : e = e').
    { destruct (lexle_total e e') as [L|L].
      - assert (He := H e). rewrite (Hhd _ _ e Hs1 (lexle_refl _)), (Hhd _ _ e Hs2 L) in He. cbn [fst snd] in He.
        rewrite roweqb_refl in He. destruct (roweqb e' e) eqn:Er; [apply roweqb_spec in Er; congruence|].
        exfalso. apply Hc1. transitivity (c * 1); [ring|]. rewrite He. ring.
      - assert (He := H e'). assert (L' : lexle e' e) by (apply lexle_lt_eq; left; exact L).
        rewrite (Hhd _ _ e' Hs1 L'), (Hhd _ _ e' Hs2 (lexle_refl _)) in He. cbn [fst snd] in He.
        rewrite roweqb_refl in He. destruct (roweqb e e') eqn:Er; [apply roweqb_spec in Er; congruence|].
        exfalso. apply Hc2. transitivity (c' * 1); [ring|]. rewrite <- He. ring. }
    subst e'.
    assert (Ec : c = c').
    { assert (He := H e). rewrite (Hhd _ _ e Hs1 (lexle_refl _)), (Hhd _ _ e Hs2 (lexle_refl _)) in He. cbn [fst snd] in He.
      rewrite roweqb_refl in He. transitivity (c * 1); [ring|]. rewrite He. ring. }
    subst c'. f_equal. inversion Hs1; inversion Hs2; inversion Hn1; inversion Hn2; subst. apply IH; auto.
    intros e'. assert (He := H e'). rewrite !lin_cons in He. cbn [fst snd] in He.
    set (A := c * (if roweqb e e' then 1 else 0)) in *.
    match goal with |- ?a = ?b => transitivity (A + a - A); [ring|rewrite He; ring] end.
Qed.

Lemma normal_zero_unique p : pnormal p -> (forall e, coeff_at p e = 0) -> p = pconst (pnv p) 0.
Proof.
  intros [Hs [[Hn Hne]|H]] H0; [|exact H]. exfalso. apply Hne.
  apply normal_terms_unique; auto; try constructor. intros e. rewrite <- coeff_at_lin, H0, lin_nil. reflexivity.
Qed.

Lemma pconst_coeff0 n e : coeff_at (@pconst F n 0) e = 0.
Proof. rewrite coeff_at_lin. cbn [pconst ptm]. rewrite lin_cons, lin_nil. cbn [fst snd]. ring. Qed.

Lemma normal_unique p q : pnormal p -> pnormal q -> pnv p = pnv q ->
  (forall e, coeff_at p e = coeff_at q e) -> p = q.
Proof.
  intros Hp Hq Hn Hc. destruct Hp as [Hs1 [[H1 N1]|E1]].
  - destruct Hq as [Hs2 [[H2 N2]|E2]].
    + assert (E : ptm p = ptm q).
      { apply normal_terms_unique; auto. intros e. rewrite <- !coeff_at_lin. apply Hc. }
      destruct p, q; cbn in *; congruence.
    + transitivity (@pconst F (pnv p) 0).
      * apply normal_zero_unique; [split; auto|]. intros e. rewrite Hc, E2. apply pconst_coeff0.
      * rewrite Hn. symmetry. exact E2.
  - rewrite E1, Hn. symmetry. apply normal_zero_unique; [exact Hq|]. intros e. rewrite <- Hc, E1. apply pconst_coeff0.
Qed.

Lemma psimplify_canonical p q : pnv p = pnv q -> (forall e, coeff_at p e = coeff_at q e) -> psimplify p = psimplify q.
Proof.
  intros Hn Hc. apply normal_unique; auto using psimplify_normal.
  - rewrite !psimplify_nv. exact Hn.
  - intros e. rewrite !psimplify_coeff. apply Hc.
Qed.

Lemma psimplify_idem p : psimplify (psimplify p) = psimplify p.
Proof.
  apply psimplify_canonical; [apply psimplify_nv|]. intros e. apply psimplify_coeff.
Qed.

(** ** arithmetic *)
Lemma meval_zrow x n : meval (zrow n) x = 1.
Proof. revert x; induction n as [|n IH]; intros [|a x]; cbn [zrow repeat meval]; auto. fold (zrow n). rewrite IH, zpow_0. ring. Qed.

Lemma meval_row_add x : forall a b, Forall2 pow_ok x a -> Forall2 pow_ok x b ->
  meval (row_add a b) x = meval a x * meval b x.
Proof.
  induction x as [|v x IH]; intros a b Ha Hb; inversion Ha; inversion Hb; subst; cbn.
  - ring.
  - rewrite zpow_add by assumption. fold (row_add l' l'0). rewrite IH by assumption. ring.
Qed.

Lemma row_add_length a b : length a = length b -> length (row_add a b) = length a.
Proof. intros H. unfold row_add. rewrite map_length, combine_length. lia. Qed.

Lemma pow_ok_add (v : F) a b : pow_ok v a -> pow_ok v b -> pow_ok v (a + b).
Proof. unfold pow_ok. intros [H1|H1] [H2|H2]; auto. right; lia. Qed.

Lemma Forall2_pow_ok_add x : forall a b, Forall2 pow_ok x a -> Forall2 pow_ok x b -> Forall2 pow_ok x (row_add a b).
Proof.
  induction x as [|v x IH]; intros a b Ha Hb; inversion Ha; inversion Hb; subst; cbn; constructor.
  - apply pow_ok_add; assumption.
  - apply IH; assumption.
Qed.

Lemma pneg_eval p x : peval (pneg p) x = - peval p x.
Proof.
  rewrite !peval_lin. unfold pneg. cbn [ptm]. induction (ptm p) as [|t ts IH]; [cbn; ring|].
  cbn [map]. rewrite !lin_cons, IH. cbn [fst snd]. ring.
Qed.

Lemma padd_eval sub p q r x : psub_or_add sub p q = Some r ->
  peval r x = if sub then peval p x - peval q x else peval p x + peval q x.
Proof.
  unfold psub_or_add. destruct (Nat.eqb _ _); [|discriminate]. intros H; inversion H; subst; clear H.
  rewrite psimplify_eval, peval_lin. cbn [ptm]. rewrite lin_app. destruct sub; [|reflexivity].
  transitivity (peval p x + peval (pneg q) x); [reflexivity|]. rewrite pneg_eval. ring.
Qed.

Lemma padd_num_eval sub p c x : peval (psub_or_add_num sub p c) x = if sub then peval p x - c else peval p x + c.
Proof.
  unfold psub_or_add_num. rewrite psimplify_eval, !peval_lin. cbn [ptm]. rewrite lin_cons. cbn [fst snd].
  rewrite meval_zrow. destruct sub; ring.
Qed.

Lemma pmul_terms_lin x (ps qs : list (term F)) :
  Forall (fun t => Forall2 pow_ok x (fst t)) ps -> Forall (fun t => Forall2 pow_ok x (fst t)) qs ->
  lin (fun e => meval e x) (flat_map (fun t => map (fun u => (row_add (fst u) (fst t), snd u * snd t)) qs) ps)
  = lin (fun e => meval e x) ps * lin (fun e => meval e x) qs.
Proof.
  intros Hp Hq. induction Hp as [|t ps Ht _ IH]; cbn [flat_map]; [rewrite !lin_nil; ring|].
  rewrite lin_app, IH, lin_cons.
  assert (E : lin (fun e => meval e x) (map (fun u => (row_add (fst u) (fst t), snd u * snd t)) qs)
              = snd t * meval (fst t) x * lin (fun e => meval e x) qs).
  { clear IH. induction Hq as [|u qs Hu _ IH]; cbn [map]; [rewrite !lin_nil; ring|].
    rewrite !lin_cons, IH. cbn [fst snd]. rewrite meval_row_add by assumption. ring. }
  rewrite E. ring.
Qed.

Lemma pmul_eval p q r x : pmul p q = Some r -> pdef p x -> pdef q x -> peval r x = peval p x * peval q x.
Proof.
  unfold pmul. destruct (Nat.eqb _ _); [|discriminate]. intros H [_ Hp] [_ Hq]; inversion H; subst; clear H.
  rewrite psimplify_eval, !peval_lin. cbn [ptm]. apply pmul_terms_lin; assumption.
Qed.

Lemma pmul_def p q r x : pmul p q = Some r -> pdef p x -> pdef q x -> pdef r x.
Proof.
  unfold pmul. destruct (Nat.eqb _ _) eqn:En; [|discriminate]. intros H [HL Hp] [_ Hq]; inversion H; subst; clear H.
  apply psimplify_def. split; [exact HL|]. cbn [ptm].
  apply Forall_flat_map. eapply Forall_impl; [|exact Hp]. intros t Ht.
  apply Forall_map. eapply Forall_impl; [|exact Hq]. intros u Hu. cbn [fst]. apply Forall2_pow_ok_add; assumption.
Qed.

Lemma pmul_nv p q r : pmul p q = Some r -> pnv r = pnv p.
Proof. unfold pmul. destruct (Nat.eqb _ _); [|discriminate]. intros H; inversion H. rewrite psimplify_nv. reflexivity. Qed.

Lemma pmul_total p q : pnv p = pnv q -> exists r, pmul p q = Some r.
Proof. intros E. unfold pmul. rewrite (proj2 (Nat.eqb_eq _ _) E). eauto. Qed.

Lemma pmul_num_eval p c x : peval (pmul_num p c) x = peval p x * c.
Proof.
  unfold pmul_num. destruct (feqb c 1) eqn:E1; [apply feqb_spec in E1; subst; ring|].
  destruct (feqb c 0) eqn:E0; [apply feqb_spec in E0; subst; cbn; rewrite ?meval_zrow; ring|].
  rewrite !peval_lin. cbn [ptm]. induction (ptm p) as [|t ts IH]; [cbn; ring|].
  cbn [map]. rewrite !lin_cons, IH. cbn [fst snd]. ring.
Qed.

Lemma npow_double (v : F) n : npow v (n + n) = npow v n * npow v n.
Proof. apply npow_add. Qed.

Lemma ppow_pos_correct p x : pdef p x -> forall e, exists r,
  ppow_pos p e = Some r /\ pnv r = pnv p /\ pdef r x /\ peval r x = npow (peval p x) (Pos.to_nat e).
Proof.
  intros Hp. induction e as [h IH|h IH|]; cbn [ppow_pos].
  - destruct IH as [o [Eo [No [Do Vo]]]]. rewrite Eo.
    destruct (pmul_total o o eq_refl) as [o2 E2]. rewrite E2.
    destruct (pmul_total o2 p) as [r Er]; [rewrite (pmul_nv _ _ _ E2); exact No|].
    assert (D2 := pmul_def _ _ _ x E2 Do Do).
    exists r. split; [exact Er|]. split; [rewrite (pmul_nv _ _ _ Er), (pmul_nv _ _ _ E2); exact No|].
    split; [eapply pmul_def; eauto|].
    rewrite (pmul_eval _ _ _ x Er D2 Hp), (pmul_eval _ _ _ x E2 Do Do), Vo.
    rewrite Pos2Nat.inj_xI. cbn [npow]. replace (2 * Pos.to_nat h)%nat with (Pos.to_nat h + Pos.to_nat h)%nat by lia.
    rewrite npow_add. ring.
  - destruct IH as [o [Eo [No [Do Vo]]]]. rewrite Eo.
    destruct (pmul_total o o eq_refl) as [o2 E2]. exists o2.
    split; [exact E2|]. split; [rewrite (pmul_nv _ _ _ E2); exact No|]. split; [eapply pmul_def; eauto|].
    rewrite (pmul_eval _ _ _ x E2 Do Do), Vo, Pos2Nat.inj_xO.
    replace (2 * Pos.to_nat h)%nat with (Pos.to_nat h + Pos.to_nat h)%nat by lia.
    rewrite npow_add. reflexivity.
  - exists p. split; [reflexivity|]. split; [reflexivity|]. split; [exact Hp|].
    change (Pos.to_nat 1) with 1%nat. cbn [npow]. ring.
Qed.

Lemma ppow_eval p x n : pdef p x -> exists r, ppow p n = Some r /\ peval r x = npow (peval p x) (N.to_nat n).
Proof.
  intros Hp. destruct n as [|e]; cbn [ppow].
  - exists (pconst (pnv p) 1). split; [reflexivity|]. cbn [N.to_nat npow peval pconst ptm map sumF fst snd].
    rewrite meval_zrow. ring.
  - destruct (ppow_pos_correct p x Hp e) as [r [E [_ [_ V]]]]. exists r. split; [exact E|]. exact V.
Qed.

(** ** coordinates *)
Lemma getZ_upd_same i v (r : list Z) : i < length r -> getZ i (upd i v r) = v.
Proof.
  unfold getZ. revert i; induction r as [|a r IH]; intros [|i] H; cbn in *; try lia; auto. apply IH; lia.
Qed.

Lemma upd_length {A} i (v : A) l : length (upd i v l) = length l.
Proof. revert i; induction l as [|a l IH]; intros [|i]; cbn; auto. Qed.

Lemma nth_upd {A} i j (v d : A) l : nth j (upd i v l) d = if Nat.eqb i j && Nat.ltb j (length l) then v else nth j l d.
Proof.
  revert i j; induction l as [|a l IH]; intros [|i] [|j]; cbn [upd nth length].
  - reflexivity.
  - reflexivity.
  - cbn. destruct (Nat.eqb i 0); reflexivity.
  - rewrite andb_false_r. reflexivity.
  - reflexivity.
  - reflexivity.
  - reflexivity.
  - rewrite IH. reflexivity.
Qed.

(** splitting a monomial at coordinate i *)
Lemma meval_split i : forall x e, length e = length x -> i < length x ->
  meval e x = zpow (nth i x 0) (getZ i e) * meval (upd i 0%Z e) x.
Proof.
  unfold getZ. induction i as [|i IH]; intros [|a x] [|k e] HL Hi; cbn in *; try lia.
  - ring.
  - rewrite (IH x e) by lia. ring.
Qed.

Lemma meval_upd_exp i k : forall x e, length e = length x -> i < length x ->
  meval (upd i k e) x = zpow (nth i x 0) k * meval (upd i 0%Z e) x.
Proof.
  induction i as [|i IH]; intros [|a x] [|c e] HL Hi; cbn in *; try lia.
  - ring.
  - rewrite (IH x e) by lia. ring.
Qed.

Lemma meval_upd0_indep i v : forall x e, length e = length x ->
  meval (upd i 0%Z e) (upd i v x) = meval (upd i 0%Z e) x.
Proof.
  induction i as [|i IH]; intros [|a x] [|c e] HL; cbn in *; try lia; try reflexivity.
  rewrite IH by lia. reflexivity.
Qed.

Lemma meval_set_coord i v : forall x e, length e = length x -> i < length x ->
  meval e (upd i v x) = zpow v (getZ i e) * meval (upd i 0%Z e) x.
Proof.
  intros x e HL Hi. rewrite (meval_split i (upd i v x) e) by (rewrite ?upd_length; lia).
  rewrite meval_upd0_indep by exact HL. rewrite nth_upd, Nat.eqb_refl.
  destruct (Nat.ltb_spec i (length x)); [reflexivity|lia].
Qed.

Lemma meval_delete i : forall x e, length e = length x ->
  meval (delete_nth i e) (delete_nth i x) = meval (upd i 0%Z e) x.
Proof.
  induction i as [|i IH]; intros [|a x] [|c e] HL; cbn in *; try lia; try reflexivity.
  - ring.
  - rewrite IH by lia. reflexivity.
Qed.

(** ** replace *)
Lemma npow_0_l n : npow (0 : F) n = if Nat.eqb n 0 then 1 else 0.
Proof. destruct n; cbn [npow Nat.eqb]; [reflexivity|ring]. Qed.

Lemma preplace_coeff_spec v i (t : term F) : pow_ok v (getZ i (fst t)) ->
  preplace_coeff v i t = zpow v (getZ i (fst t)) * snd t.
Proof.
  intros H. unfold preplace_coeff. destruct (feqb v 0) eqn:E0.
  - apply feqb_spec in E0. subst v. destruct (Z.eqb_spec (getZ i (fst t)) 0) as [E|E].
    + rewrite E, zpow_0. ring.
    + destruct H as [H|H]; [congruence|]. rewrite <- (Z2Nat.id _ H), zpow_of_nat, npow_0_l.
      destruct (Nat.eqb_spec (Z.to_nat (getZ i (fst t))) 0); [lia|]. ring.
  - destruct (feqb v 1) eqn:E1; [|reflexivity]. apply feqb_spec in E1. subst v. rewrite zpow_1. ring.
Qed.


Lemma preplace_eval p i v x : pwf p -> length x = pnv p -> i < pnv p -> replace_ok p i v ->
  peval (preplace p i v false) x = peval p (set_coord i v x).
Proof.
  intros Hwf HL Hi Hok. unfold pwf, replace_ok in *. rewrite !peval_lin. cbn [preplace ptm].
  induction (ptm p) as [|t ts IH]; [reflexivity|].
  inversion Hwf; inversion Hok; subst. cbn [map]. rewrite !lin_cons, IH by assumption. cbn [fst snd].
  rewrite preplace_coeff_spec by assumption. unfold set_coord. rewrite meval_set_coord by lia. ring.
Qed.

Lemma preplace_remove_eval p i v x : pwf p -> length x = pnv p -> i < pnv p -> replace_ok p i v ->
  peval (preplace p i v true) (delete_nth i x) = peval p (set_coord i v x).
Proof.
  intros Hwf HL Hi Hok. unfold pwf, replace_ok in *. rewrite !peval_lin. cbn [preplace ptm].
  induction (ptm p) as [|t ts IH]; [reflexivity|].
  inversion Hwf; inversion Hok; subst. cbn [map]. rewrite !lin_cons, IH by assumption. cbn [fst snd].
  rewrite preplace_coeff_spec by assumption. unfold set_coord. rewrite meval_set_coord, meval_delete by lia. ring.
Qed.

Lemma preplace_indep p i v x w : pwf p -> length x = pnv p -> i < pnv p ->
  peval (preplace p i v false) (set_coord i w x) = peval (preplace p i v false) x.
Proof.
  intros Hwf HL Hi. unfold pwf in *. rewrite !peval_lin. cbn [preplace ptm].
  induction (ptm p) as [|t ts IH]; [reflexivity|].
  inversion Hwf; subst. cbn [map]. rewrite !lin_cons, IH by assumption. cbn [fst snd].
  unfold set_coord. rewrite meval_upd0_indep by lia. reflexivity.
Qed.

Lemma delete_nth_length {A} i (l : list A) : i < length l -> length (delete_nth i l) = (length l - 1)%nat.
Proof.
  revert i; induction l as [|a l IH]; intros [|i] H; cbn in *; try lia. rewrite IH by lia. destruct l; cbn in *; lia.
Qed.

Lemma preplace_remove_wf p i v : pwf p -> i < pnv p -> pwf (preplace p i v true).
Proof.
  unfold pwf. cbn [preplace ptm pnv]. intros H Hi. apply Forall_map. eapply Forall_impl; [|exact H].
  intros t Ht. cbn [fst]. rewrite delete_nth_length by (rewrite Ht; exact Hi). rewrite Ht. reflexivity.
Qed.

(** ** refactorize *)
Lemma shift_col_eval p i k x : pwf p -> length x = pnv p -> i < pnv p -> nth i x 0 <> 0 ->
  peval (shift_col i k p) x = zpow (nth i x 0) k * peval p x.
Proof.
  intros Hwf HL Hi Hx. unfold pwf in *. rewrite !peval_lin. cbn [shift_col ptm].
  induction (ptm p) as [|t ts IH]; [rewrite !lin_nil; ring|].
  inversion Hwf; subst. cbn [map]. rewrite !lin_cons, IH by assumption. cbn [fst snd].
  rewrite meval_upd_exp by lia. rewrite (meval_split i x (fst t)) by lia.
  rewrite zpow_add by (left; exact Hx). ring.
Qed.

Lemma shift_col_wf p i k : pwf p -> pwf (shift_col i k p).
Proof.
  unfold pwf. cbn [shift_col ptm pnv]. intros H. apply Forall_map. eapply Forall_impl; [|exact H].
  intros t Ht. cbn [fst]. rewrite upd_length. exact Ht.
Qed.

Lemma shift_col_ne p i k : ptm p <> [] -> ptm (shift_col i k p) <> [].
Proof. cbn [shift_col ptm]. intros H E. apply map_eq_nil in E. congruence. Qed.

Lemma refactorize1_eval (m p : poly F) i x : pwf m -> pwf p -> pnv m = pnv p -> length x = pnv p -> i < pnv p -> nth i x 0 <> 0 ->
  let r := refactorize1 (m, p) i in peval (fst r) x * peval (snd r) x = peval m x * peval p x.
Proof.
  intros Hm Hp Hn HL Hi Hx. cbn [refactorize1 fst snd].
  rewrite !shift_col_eval by (try assumption; lia).
  rewrite zpow_opp by exact Hx. field. apply zpow_neq0; exact Hx.
Qed.

Lemma min_list_spec l : l <> [] -> In (min_list l) l /\ Forall (fun a => (min_list l <= a)%Z) l.
Proof.
  induction l as [|a l IH]; intros H; [congruence|]. destruct l as [|b l].
  - cbn. split; [auto|]. constructor; [lia|constructor].
  - destruct (IH ltac:(discriminate)) as [Hin Hle].
    assert (E : min_list (a :: b :: l) = Z.min a (min_list (b :: l))) by reflexivity.
    rewrite E. split.
    + destruct (Z.min_spec a (min_list (b :: l))) as [[_ Em]|[_ Em]]; rewrite Em; [left; reflexivity|right; exact Hin].
    + constructor; [lia|]. eapply Forall_impl; [|exact Hle]. intros c Hc. cbv beta in *. lia.
Qed.

Lemma col_min_spec p i : ptm p <> [] ->
  (exists t, In t (ptm p) /\ getZ i (fst t) = col_min i p) /\ Forall (fun t => (col_min i p <= getZ i (fst t))%Z) (ptm p).
Proof.
  intros H. unfold col_min. destruct (min_list_spec (map (fun t => getZ i (fst t)) (ptm p))) as [H1 H2].
  - destruct (ptm p); [congruence|discriminate].
  - rewrite Forall_map in H2. split; [|exact H2]. apply in_map_iff in H1. destruct H1 as [t [E Ht]]. exists t. split; auto.
Qed.

Lemma col_min_unique p i k : (exists t, In t (ptm p) /\ getZ i (fst t) = k) ->
  Forall (fun t => (k <= getZ i (fst t))%Z) (ptm p) -> col_min i p = k.
Proof.
  intros [t [Ht E]] Hle. assert (Hne : ptm p <> []) by (intros H; rewrite H in Ht; destruct Ht).
  destruct (col_min_spec p i Hne) as [[u [Hu Eu]] Hm]. rewrite Forall_forall in Hle, Hm.
  specialize (Hle _ Hu). specialize (Hm _ Ht). cbv beta in *. lia.
Qed.

Lemma getZ_upd i j v (r : list Z) : i < length r -> getZ j (upd i v r) = if Nat.eqb i j then v else getZ j r.
Proof.
  intros H. unfold getZ. rewrite nth_upd. destruct (Nat.eqb_spec i j) as [E|E]; [|reflexivity].
  subst. destruct (Nat.ltb_spec j (length r)); [reflexivity|lia].
Qed.

Lemma shift_col_col_min p i j k : pwf p -> i < pnv p -> ptm p <> [] ->
  col_min j (shift_col i k p) = if Nat.eqb i j then (col_min j p + k)%Z else col_min j p.
Proof.
  intros Hwf Hi Hne. unfold pwf in Hwf. rewrite Forall_forall in Hwf.
  destruct (col_min_spec p j Hne) as [[t [Ht E]] Hm]. rewrite Forall_forall in Hm.
  apply col_min_unique.
  - exists (upd i (getZ i (fst t) + k)%Z (fst t), snd t). cbn [shift_col ptm fst]. split.
    + apply in_map_iff. exists t. split; [reflexivity|exact Ht].
    + rewrite getZ_upd by (rewrite Hwf by exact Ht; exact Hi).
      destruct (Nat.eqb_spec i j); subst; [rewrite E; reflexivity|exact E].
  - cbn [shift_col ptm]. apply Forall_map, Forall_forall. intros u Hu. cbn [fst].
    rewrite getZ_upd by (rewrite Hwf by exact Hu; exact Hi). specialize (Hm _ Hu). cbv beta in Hm.
    destruct (Nat.eqb_spec i j); subst; lia.
Qed.

(** list of parameters *)
Lemma refactorize_params_spec params : forall (m p : poly F) x,
  pwf m -> pwf p -> pnv m = pnv p -> length x = pnv p -> ptm p <> [] ->
  Forall (fun i => i < pnv p /\ nth i x 0 <> 0) params ->
  let r := refactorize_params (m, p) params in
  peval (fst r) x * peval (snd r) x = peval m x * peval p x.
Proof.
  induction params as [|i params IH]; intros m p x Hm Hp Hn HL Hne Hall; cbn [refactorize_params fold_left].
  - reflexivity.
  - inversion Hall as [|? ? [Hi Hx] Hall']; subst.
    change (fold_left refactorize1 params (refactorize1 (m, p) i)) with
      (refactorize_params (shift_col i (col_min i p) m, shift_col i (- col_min i p)%Z p) params).
    assert (E := IH (shift_col i (col_min i p) m) (shift_col i (- col_min i p)%Z p) x).
    cbv zeta in E. rewrite E; cbn [shift_col pnv]; auto using shift_col_wf.
    + apply (refactorize1_eval m p i x); auto.
    + apply shift_col_ne; exact Hne.
Qed.

Lemma refactorize_params_nv params : forall (m p : poly F),
  pnv (fst (refactorize_params (m,p) params)) = pnv m /\ pnv (snd (refactorize_params (m,p) params)) = pnv p.
Proof.
  induction params as [|i params IH]; intros m p; [split; reflexivity|].
  cbn [refactorize_params fold_left]. apply (IH (shift_col i (col_min i p) m) (shift_col i (- col_min i p)%Z p)).
Qed.

Lemma refactorize_params_wf params : forall (m p : poly F), pwf m -> pwf p ->
  pwf (fst (refactorize_params (m,p) params)) /\ pwf (snd (refactorize_params (m,p) params)).
Proof.
  induction params as [|i params IH]; intros m p Hm Hp; [split; assumption|].
  cbn [refactorize_params fold_left].
  apply (IH (shift_col i (col_min i p) m) (shift_col i (- col_min i p)%Z p)); apply shift_col_wf; assumption.
Qed.

Lemma refactorize_params_col_min params : forall (m p : poly F) j,
  pwf p -> ptm p <> [] -> Forall (fun i => i < pnv p) params ->
  col_min j (snd (refactorize_params (m, p) params)) = if existsb (Nat.eqb j) params then 0%Z else col_min j p.
Proof.
  induction params as [|i params IH]; intros m p j Hp Hne Hall; [reflexivity|].
  inversion Hall as [|? ? Hi Hall']; subst. cbn [refactorize_params fold_left existsb].
  change (fold_left refactorize1 params (refactorize1 (m, p) i)) with
      (refactorize_params (shift_col i (col_min i p) m, shift_col i (- col_min i p)%Z p) params).
  rewrite IH; auto using shift_col_wf.
  - rewrite shift_col_col_min by assumption. rewrite (Nat.eqb_sym j i).
    destruct (Nat.eqb_spec i j) as [E|E]; cbn [orb]; [subst|reflexivity].
    destruct (existsb _ _); lia.
  - apply shift_col_ne; exact Hne.
Qed.

(** rows not selected are untouched *)
Lemma refactorize_params_other params : forall (m p : poly F) j,
  pwf p -> pwf m -> pnv m = pnv p -> Forall (fun i => i < pnv p) params -> ~ In j params ->
  map (fun t => (getZ j (fst t), snd t)) (ptm (snd (refactorize_params (m, p) params))) = map (fun t => (getZ j (fst t), snd t)) (ptm p)
  /\ map (fun t => (getZ j (fst t), snd t)) (ptm (fst (refactorize_params (m, p) params))) = map (fun t => (getZ j (fst t), snd t)) (ptm m).
Proof.
  induction params as [|i params IH]; intros m p j Hp Hm Hn Hall Hj; [split; reflexivity|].
  inversion Hall as [|? ? Hi Hall']; subst. cbn [refactorize_params fold_left].
  change (fold_left refactorize1 params (refactorize1 (m, p) i)) with
      (refactorize_params (shift_col i (col_min i p) m, shift_col i (- col_min i p)%Z p) params).
  destruct (IH (shift_col i (col_min i p) m) (shift_col i (- col_min i p)%Z p) j) as [E1 E2];
    auto using shift_col_wf; [intros H; apply Hj; right; exact H|].
  rewrite E1, E2. cbn [shift_col ptm]. rewrite !map_map.
  assert (Hs : forall k (q : poly F), pwf q -> pnv q = pnv p ->
     map (fun t => (getZ j (fst (upd i (getZ i (fst t) + k)%Z (fst t), snd t)), snd (upd i (getZ i (fst t) + k)%Z (fst t), snd t))) (ptm q)
     = map (fun t => (getZ j (fst t), snd t)) (ptm q)).
  { intros k q Hq Hqn. apply map_ext_in. intros t Ht. cbn [fst snd]. unfold pwf in Hq. rewrite Forall_forall in Hq.
    rewrite getZ_upd by (rewrite Hq by exact Ht; lia).
    destruct (Nat.eqb_spec i j) as [E|E]; [|reflexivity]. exfalso; apply Hj; left; exact E. }
  split; apply Hs; auto.
Qed.

(** all columns at once *)
Lemma meval_row_sub x : forall a b, length a = length x -> length b = length x -> Forall (fun v : F => v <> 0) x ->
  meval (row_sub a b) x * meval b x = meval a x.
Proof.
  induction x as [|v x IH]; intros [|a r] [|b s] Ha Hb Hx; cbn in *; try lia; [ring|].
  inversion Hx; subst. rewrite <- (IH r s) by (assumption || lia). fold (row_sub r s).
  replace (zpow v a) with (zpow v (a - b) * zpow v b); [ring|].
  rewrite <- zpow_add by (left; assumption). f_equal. lia.
Qed.

Lemma meval_row_add_nz x : forall a b, length a = length x -> length b = length x -> Forall (fun v : F => v <> 0) x ->
  meval (row_add a b) x = meval a x * meval b x.
Proof.
  intros a b Ha Hb Hx. apply meval_row_add.
  - clear Hb b. revert x Ha Hx. induction a as [|k a IH]; intros [|v x] Ha Hx; cbn in *; try lia; constructor; inversion Hx; subst.
    + left; assumption.
    + apply IH; [lia|assumption].
  - clear Ha a. revert x Hb Hx. induction b as [|k a IH]; intros [|v x] Ha Hx; cbn in *; try lia; constructor; inversion Hx; subst.
    + left; assumption.
    + apply IH; [lia|assumption].
Qed.

Lemma refactorize_all_eval (m p : poly F) x : pwf m -> pwf p -> pnv m = pnv p -> length x = pnv p ->
  Forall (fun v => v <> 0) x ->
  let r := refactorize_all (m, p) in peval (fst r) x * peval (snd r) x = peval m x * peval p x.
Proof.
  intros Hm Hp Hn HL Hx. cbn [refactorize_all]. cbv zeta. cbn [fst snd].
  set (ks := map (fun i => col_min i p) (seq 0 (pnv p))).
  assert (Hk : length ks = length x) by (unfold ks; rewrite map_length, seq_length; lia).
  assert (E1 : peval (mkPoly (pnv m) (map (fun t => (row_add (fst t) ks, snd t)) (ptm m))) x = meval ks x * peval m x).
  { unfold pwf in Hm. rewrite !peval_lin. cbn [ptm]. induction (ptm m) as [|t ts IH]; [cbn; ring|].
    inversion Hm; subst. cbn [map]. rewrite !lin_cons, IH by assumption. cbn [fst snd].
    rewrite meval_row_add_nz by (assumption || lia). ring. }
  assert (E2 : meval ks x * peval (mkPoly (pnv p) (map (fun t => (row_sub (fst t) ks, snd t)) (ptm p))) x = peval p x).
  { clear E1. unfold pwf in Hp. rewrite !peval_lin. cbn [ptm]. clearbody ks. induction (ptm p) as [|t ts IH]; [cbn; ring|].
    inversion Hp; subst. cbn [map]. rewrite !lin_cons. rewrite <- IH by assumption. cbn [fst snd].
    rewrite <- (meval_row_sub x (fst t) ks) by (assumption || lia). ring. }
  rewrite E1, <- E2. ring.
Qed.

Lemma getZ_row_sub j : forall a b, length a = length b -> j < length a -> getZ j (row_sub a b) = (getZ j a - getZ j b)%Z.
Proof.
  unfold getZ, row_sub. induction j as [|j IH]; intros [|a r] [|b s] H Hj; cbn in *; try lia. apply IH; lia.
Qed.
Lemma getZ_row_add j : forall a b, length a = length b -> j < length a -> getZ j (row_add a b) = (getZ j a + getZ j b)%Z.
Proof.
  unfold getZ, row_add. induction j as [|j IH]; intros [|a r] [|b s] H Hj; cbn in *; try lia. apply IH; lia.
Qed.

Lemma refactorize_all_col_min (m p : poly F) j : pwf p -> ptm p <> [] -> j < pnv p ->
  col_min j (snd (refactorize_all (m, p))) = 0%Z.
Proof.
  intros Hp Hne Hj. cbn [refactorize_all]. cbv zeta. cbn [snd].
  set (ks := map (fun i => col_min i p) (seq 0 (pnv p))).
  assert (Hk : length ks = pnv p) by (unfold ks; rewrite map_length, seq_length; lia).
  assert (Ekj : getZ j ks = col_min j p).
  { unfold getZ, ks. rewrite (nth_indep _ 0%Z (col_min 0 p)) by (rewrite map_length, seq_length; lia).
    rewrite (map_nth (fun i => col_min i p)). rewrite seq_nth by lia. reflexivity. }
  unfold pwf in Hp. rewrite Forall_forall in Hp.
  destruct (col_min_spec p j Hne) as [[t [Ht E]] Hm]. rewrite Forall_forall in Hm.
  apply col_min_unique.
  - exists (row_sub (fst t) ks, snd t). cbn [ptm fst]. split.
    + apply in_map_iff. exists t; auto.
    + rewrite getZ_row_sub by (rewrite Hp by exact Ht; lia). lia.
  - cbn [ptm]. apply Forall_map, Forall_forall. intros u Hu. cbn [fst].
    rewrite getZ_row_sub by (rewrite Hp by exact Hu; lia). specialize (Hm _ Hu). cbv beta in Hm. lia.
Qed.

Lemma upd_getZ i (r : list Z) : upd i (getZ i r) r = r.
Proof. unfold getZ. revert i; induction r as [|a r IH]; intros [|i]; cbn; f_equal; auto. Qed.

Lemma shift_col_0 p i : shift_col i 0%Z p = p.
Proof.
  destruct p as [n ts]. unfold shift_col. cbn [ptm pnv]. f_equal.
  rewrite <- (map_id ts) at 2. apply map_ext. intros [r c]. cbn [fst snd]. rewrite Z.add_0_r, upd_getZ. reflexivity.
Qed.

Lemma refactorize_params_id params (m p : poly F) : Forall (fun i => col_min i p = 0%Z) params ->
  refactorize_params (m, p) params = (m, p).
Proof.
  induction params as [|i params IH]; intros H; [reflexivity|]. inversion H as [|? ? Hi Hp]; subst.
  cbn [refactorize_params fold_left]. unfold refactorize1 at 2. cbn [fst snd]. rewrite Hi. cbn [Z.opp].
  rewrite !shift_col_0. apply IH; exact Hp.
Qed.

Lemma row_add_zrow a n : length a = n -> row_add a (zrow n) = a.
Proof. revert n; induction a as [|x a IH]; intros [|n] H; cbn in *; try lia; [reflexivity|]. f_equal; [lia|]. apply IH; lia. Qed.
Lemma row_sub_zrow a n : length a = n -> row_sub a (zrow n) = a.
Proof. revert n; induction a as [|x a IH]; intros [|n] H; cbn in *; try lia; [reflexivity|]. f_equal; [lia|]. apply IH; lia. Qed.

Lemma refactorize_all_wf (m p : poly F) : pwf m -> pwf p -> pnv m = pnv p ->
  pwf (fst (refactorize_all (m, p))) /\ pwf (snd (refactorize_all (m, p))).
Proof.
  intros Hm Hp Hn. cbn [refactorize_all]. cbv zeta. cbn [fst snd]. unfold pwf in *. cbn [ptm pnv].
  split; apply Forall_map; (eapply Forall_impl; [|eassumption]); intros t Ht; cbn [fst]; cbv beta in Ht;
  unfold row_add, row_sub; rewrite map_length, combine_length, map_length, seq_length; lia.
Qed.

Lemma refactorize_idem (m p : poly F) params :
  pwf m -> pwf p -> pnv m = pnv p -> ptm p <> [] -> Forall (fun i => i < pnv p) params ->
  refactorize (refactorize (m, p) params) params = refactorize (m, p) params.
Proof.
  intros Hm Hp Hn Hne Hpar. destruct params as [|i params].
  - destruct (refactorize_all_wf m p Hm Hp Hn) as [W1 W2].
    assert (Hc := fun j => refactorize_all_col_min m p j Hp Hne).
    assert (N1 : pnv (fst (refactorize_all (m,p))) = pnv p) by exact Hn.
    assert (N2 : pnv (snd (refactorize_all (m,p))) = pnv p) by reflexivity.
    cbn [refactorize]. destruct (refactorize_all (m, p)) as [m' p']. cbn [fst snd] in *.
    unfold refactorize_all.
    assert (E : map (fun i => col_min i p') (seq 0 (pnv p')) = zrow (pnv p')).
    { rewrite N2. unfold zrow. transitivity (map (fun _ : nat => 0%Z) (seq 0 (pnv p))).
      - apply map_ext_in. intros j Hj. apply in_seq in Hj. apply Hc. lia.
      - clear. generalize 0%nat. induction (pnv p); intros s; cbn; f_equal; auto. }
    rewrite E. unfold pwf in *.
    destruct m' as [n1 t1], p' as [n2 t2]. cbn [pnv ptm] in *. subst n1 n2. f_equal; f_equal.
    + rewrite <- (map_id t1) at 2. apply map_ext_in. intros [r c] Ht. rewrite Forall_forall in W1. specialize (W1 _ Ht).
      cbn [fst snd] in *. rewrite row_add_zrow by exact W1. reflexivity.
    + rewrite <- (map_id t2) at 2. apply map_ext_in. intros [r c] Ht. rewrite Forall_forall in W2. specialize (W2 _ Ht).
      cbn [fst snd] in *. rewrite row_sub_zrow by exact W2. reflexivity.
  - unfold refactorize. 
    assert (Hc : Forall (fun j => col_min j (snd (refactorize_params (m, p) (i :: params))) = 0%Z) (i :: params)).
    { apply Forall_forall. intros j Hj. rewrite refactorize_params_col_min by assumption.
      replace (existsb (Nat.eqb j) (i :: params)) with true; [reflexivity|].
      symmetry. apply existsb_exists. exists j. split; [exact Hj|apply Nat.eqb_refl]. }
    destruct (refactorize_params (m, p) (i :: params)) as [m' p']. apply refactorize_params_id. exact Hc.
Qed.

(** has_constant_term and becomes_zero_for *)
Lemma has_constant_term_all p : pwf p -> has_constant_term p None = true <-> exists t, In t (ptm p) /\ fst t = zrow (pnv p).
Proof.
  intros Hp. unfold has_constant_term. rewrite existsb_exists. unfold pwf in Hp. rewrite Forall_forall in Hp.
  split; intros [t [Ht H]]; exists t; split; auto.
  - specialize (Hp _ Ht). rewrite <- Hp. clear -H. induction (fst t) as [|a r IH]; [reflexivity|].
    cbn in H |- *. apply andb_true_iff in H. destruct H as [H1 H2]. apply Z.eqb_eq in H1. subst. f_equal. apply IH; exact H2.
  - rewrite H. unfold zrow. clear. induction (pnv p); cbn; auto.
Qed.

Lemma becomes_zero_for_eval p zs x : pwf p -> pnonneg p -> length x = pnv p ->
  Forall (fun i => i < pnv p) zs ->
  becomes_zero_for p zs = true -> (forall i, In i zs -> nth i x 0 = 0) -> peval p x = 0.
Proof.
  intros Hp Hnn HL Hzs Hz H0. rewrite peval_lin. unfold becomes_zero_for in Hz. rewrite forallb_forall in Hz.
  unfold pwf in Hp. rewrite Forall_forall in Hp, Hzs.
  assert (H : forall t, In t (ptm p) -> meval (fst t) x = 0).
  { intros t Ht. specialize (Hz _ Ht). apply existsb_exists in Hz. destruct Hz as [i [Hi Hpos]].
    apply Z.ltb_lt in Hpos. rewrite (meval_split i x (fst t)) by (rewrite ?(Hp _ Ht); specialize (Hzs _ Hi); cbv beta in *; lia).
    rewrite (H0 i Hi). rewrite <- (Z2Nat.id (getZ i (fst t))) by lia. rewrite zpow_of_nat, npow_0_l.
    destruct (Nat.eqb_spec (Z.to_nat (getZ i (fst t))) 0); [lia|]. ring. }
  clear -H. induction (ptm p) as [|t ts IH]; [reflexivity|]. rewrite lin_cons, IH.
  - rewrite H by (left; reflexivity). ring.
  - intros u Hu. apply H. right; exact Hu.
Qed.
End Proofs.

Arguments lin {F} _ _.
