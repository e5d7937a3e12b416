(** make_sector, standard form of the subsectors. *)
From Verif Require Export GeoProofs2.
Local Open Scope nat_scope.

Section Geo.
Variable F : Fld.
Local Open Scope fld_scope.
Add Field Ffield_geo3 : (@f_th F).

Lemma make_sector_geo_shape n (s : sector F) idx m T cidx cone e c : swf n s -> sjac s = mkPoly n [(e, c)] ->
  NoDup idx -> Forall (fun k => (k < n)%nat) idx -> is_matrix (length idx) m T -> length cidx = length idx -> Forall (fun k => (k < m)%nat) cidx ->
  exists j, make_sector_geo s idx m T cidx cone =
    Some (mkSector (map (fun q => refactorize (transform_variables (fst q) n (block_transformation n idx (map (take_cols cidx) T)),
                                               transform_variables (snd q) n (block_transformation n idx (map (take_cols cidx) T))) []) (scast s))
                   (map (fun p => transform_variables p n (block_transformation n idx (map (take_cols cidx) T))) (sother s)) j)
  /\ pnv j = n
  /\ forall y, length y = n -> Forall (fun v => v <> 0) y ->
       peval j y = peval (transform_variables (sjac s) n (block_transformation n idx (map (take_cols cidx) T))) y * zF (abs_det cone)
                   * meval (map (fun k => (k - 1)%Z) (col_sums n (block_transformation n idx (map (take_cols cidx) T)))) y.
Proof.
  intros Hs Ej Hn Hr HT HcL Hc. destruct (swf_get F n s Hs) as (H1 & H2 & H3). rewrite Ej in H3. destruct H3 as (_ & Hwj & _).
  assert (He : length e = n) by (inversion Hwj; assumption).
  set (B := block_transformation n idx (map (take_cols cidx) T)).
  unfold make_sector_geo. cbv zeta.
  rewrite (all_some_map _ (fun q => refactorize (transform_variables (fst q) n B, transform_variables (snd q) n B) [])).
  2:{ intros q Hq. destruct (H1 q Hq) as [(Ha & Hb & _) (Ha' & Hb' & _)]. rewrite !(assign_cols_transform F n) by assumption. reflexivity. }
  rewrite (all_some_map _ (fun p => transform_variables p n B)).
  2:{ intros p Hp. destruct (H2 p Hp) as (Ha & Hb & _). apply (assign_cols_transform F n); assumption. }
  rewrite Ej. unfold pmul. cbn [transform_variables restrict_poly pnv ptm map]. rewrite Nat.eqb_refl. cbn [flat_map map app fst snd].
  rewrite psimplify_single. set (row := row_add _ _).
  assert (Er : put_cols idx (take_cols cidx row) e = row_add (row_mul n e B) (map (fun k => (k - 1)%Z) (col_sums n B)))
    by (apply (row_add_comm_put n); auto).
  assert (Ev : forall y : list F, length y = n -> Forall (fun v => v <> 0) y -> meval (put_cols idx (take_cols cidx row) e) y = meval (row_mul n e B) y * meval (map (fun k => (k - 1)%Z) (col_sums n B)) y).
  { intros y Hy Hnz. rewrite Er. apply meval_row_add_nz; [rewrite row_mul_length; auto|rewrite map_length, col_sums_length; auto|exact Hnz]. }
  assert (Etr : forall y : list F, peval (mkPoly n [(row_mul n e B, c)]) y = c * meval (row_mul n e B) y) by (intros y; unfold peval; cbn; ring).
  unfold pmul_num. cbn [pnv ptm]. fold (@pconst F).
  assert (Ecase : (1 * c = 0 -> c = 0)) by (intros H; rewrite <- H; ring).
  destruct (feqb (1 * c) 0) eqn:Ec.
  - apply feqb_spec in Ec. apply Ecase in Ec. subst c.
    destruct (feqb (zF (abs_det cone)) 1) eqn:E1; [|destruct (feqb (zF (abs_det cone)) 0) eqn:E0].
    + cbn -[feqb abs_det]. eexists; split; [reflexivity|]. split; [reflexivity|]. intros y _ _. unfold peval. cbn -[feqb abs_det]. ring.
    + cbn -[feqb abs_det]. eexists; split; [reflexivity|]. split; [reflexivity|]. intros y _ _. unfold peval. cbn -[feqb abs_det]. ring.
    + cbn -[feqb abs_det]. eexists; split; [reflexivity|]. split; [reflexivity|]. intros y _ _. unfold peval. cbn -[feqb abs_det]. ring.
  - destruct (feqb (zF (abs_det cone)) 1) eqn:E1; [|destruct (feqb (zF (abs_det cone)) 0) eqn:E0].
    + apply feqb_spec in E1. unfold assign_cols. cbn [ptm map length Nat.eqb combine pnv fst snd]. eexists; split; [reflexivity|]. split; [reflexivity|]. intros y Hy Hnz.
      rewrite Etr, E1. unfold peval. cbn [ptm map sumF fold_right fst snd]. rewrite Ev by assumption. ring.
    + apply feqb_spec in E0. unfold assign_cols, pconst. cbn [ptm map length Nat.eqb combine pnv fst snd]. eexists; split; [reflexivity|]. split; [reflexivity|]. intros y Hy Hnz.
      rewrite Etr, E0. unfold peval. cbn [ptm map sumF fold_right fst snd]. ring.
    + unfold assign_cols. cbn [ptm map length Nat.eqb combine pnv fst snd]. eexists; split; [reflexivity|]. split; [reflexivity|]. intros y Hy Hnz.
      rewrite Etr. unfold peval. cbn [ptm map sumF fold_right fst snd]. rewrite Ev by assumption. ring.
Qed.

Lemma make_sector_geo_correct n (s : sector F) idx m T cidx cone e c : swf n s -> sjac s = mkPoly n [(e, c)] ->
  NoDup idx -> Forall (fun k => (k < n)%nat) idx -> is_matrix (length idx) m T -> length cidx = length idx -> Forall (fun k => (k < m)%nat) cidx ->
  exists s', make_sector_geo s idx m T cidx cone = Some s' /\ geo_transformed F n idx (map (take_cols cidx) T) (zF (abs_det cone)) s s'.
Proof.
  intros Hs Ej Hn Hr HT HcL Hc. destruct (make_sector_geo_shape n s idx m T cidx cone e c Hs Ej Hn Hr HT HcL Hc) as (j & Es & Hnj & Hj).
  destruct (swf_get F n s Hs) as (H1 & H2 & H3). pose proof (sub_matrix _ _ _ _ HT HcL) as HC. set (C := map (take_cols cidx) T) in *.
  eexists; split; [exact Es|]. intros y Hy Hnz.
  assert (Etr : forall p : poly F, pnv p = n -> pwf p -> peval (transform_variables p n (block_transformation n idx C)) y = peval p (mono_map_at idx C y)).
  { intros p Hp Hw. rewrite transform_eval; auto; [rewrite mono_block by assumption; reflexivity|]. rewrite Hp. split; [apply block_length|apply block_rows]. }
  cbn [scast sother sjac]. split; [|split].
  - apply Forall2_map_r. intros q Hq. destruct (H1 q Hq) as [(Ha & Hb & _) (Ha' & Hb' & _)].
    unfold refactorize. pose proof (refactorize_all_eval F (transform_variables (fst q) n (block_transformation n idx C)) (transform_variables (snd q) n (block_transformation n idx C)) y
      (transform_wf F _ _ _) (transform_wf F _ _ _) eq_refl Hy Hnz) as E. cbv zeta in E. rewrite E, !Etr by assumption. reflexivity.
  - apply Forall2_map_r. intros p Hp. destruct (H2 p Hp) as (Ha & Hb & _). apply Etr; assumption.
  - destruct H3 as (Ha & Hb & _). rewrite Hj by assumption. rewrite Etr by assumption. rewrite <- (jac_monomial_at F n idx C y) by assumption. ring.
Qed.
End Geo.
