(** One region: rescaling, powers of the smallness parameter, remainder. *)
From Coq Require Import Reals Lra Lia List ZArith QArith Qround Qreals.
From Verif Require Import PolyProofs RealField PolyReal GeoModel GeoSpec GeoProofs7 ParamModel ParamSpec ParamProofs ParamReal ParamStep ParamMeasure RegModel RegSpec RegCurve RegProofs RegDerive RegExpand RegTaylor.
Import ListNotations.
Local Open Scope nat_scope.

Lemma zpow_Rpower t z : (0 < t)%R -> @zpow R_Fld t z = Rpower t (IZR z).
Proof.
  intros Ht. destruct z as [|p|p]; cbn [zpow].
  - symmetry. apply Rpower_O, Ht.
  - rewrite npow_R. rewrite <- (Rpower_pow _ _ Ht). f_equal. rewrite INR_IZR_INZ. rewrite positive_nat_Z. reflexivity.
  - rewrite npow_R. rewrite <- (Rpower_pow _ _ Ht). change (@finv R_Fld) with Rinv. rewrite <- Rpower_Ropp. f_equal. rewrite INR_IZR_INZ, positive_nat_Z. change (Z.neg p) with (- Z.pos p)%Z. rewrite opp_IZR. reflexivity.
Qed.
Lemma upd_twice {A} i (a b : A) l : upd i a (upd i b l) = upd i a l.
Proof. revert i. induction l as [|c l IH]; intros [|i]; cbn; try reflexivity. f_equal. apply IH. Qed.

(** a rescaled polynomial: power of the smallness parameter relative to the lowest one *)
Definition resc (idx : nat) (v : list Z) (m : Z) (P : rpoly) : rpoly :=
  mkPoly (pnv P) (map (fun t => (upd idx (weight v (fst t) - m)%Z (fst t), snd t)) (ptm P)).
Section Resc.
Variables (idx : nat) (v : list Z) (m : Z) (P : rpoly).
Hypothesis HP : proper (Datatypes.S idx) P.
Hypothesis Hm : is_min_weight v P m.
Lemma row_len t : In t (ptm P) -> length (fst t) = Datatypes.S idx.
Proof. apply proper_rows in HP. destruct HP as [_ H]. rewrite Forall_forall in H. intros I. apply (H t I). Qed.
Lemma apply_col_min : col_min idx (apply_region idx v P) = m.
Proof.
  destruct Hm as [(t & I & E) A]. apply col_min_unique.
  - exists (upd idx (dotZ (fst t) v) (fst t), snd t). split; [unfold apply_region; cbn [ptm]; apply in_map_iff; exists t; auto|]. cbn [fst]. rewrite getZ_upd by (rewrite row_len by exact I; lia). rewrite Nat.eqb_refl. exact E.
  - unfold apply_region. cbn [ptm]. rewrite Forall_map. cbn [fst]. rewrite Forall_forall in *. intros t' I'. rewrite getZ_upd by (rewrite row_len by exact I'; lia). rewrite Nat.eqb_refl. apply (A t' I').
Qed.
Lemma refactorize_resc : snd (poly_refactorize (apply_region idx v P) [idx]) = resc idx v m P.
Proof.
  unfold poly_refactorize, refactorize, refactorize_params. cbn [fold_left refactorize1 snd fst]. rewrite apply_col_min. unfold shift_col, apply_region, resc. cbn [pnv ptm]. rewrite map_map. f_equal.
  apply map_ext_in. intros t I. cbn [fst snd]. rewrite upd_twice. f_equal. f_equal. rewrite getZ_upd by (rewrite row_len by exact I; lia). rewrite Nat.eqb_refl. change (dotZ (fst t) v) with (weight v (fst t)). lia.
Qed.
Lemma refactorize_power : monomial_power idx (fst (poly_refactorize (apply_region idx v P) [idx])) = m.
Proof.
  unfold poly_refactorize, refactorize, refactorize_params. cbn [fold_left refactorize1 snd fst]. rewrite apply_col_min. unfold monomial_power, shift_col, pconst, apply_region. cbn [pnv ptm map nth fst].
  assert (Lz : length (zrow (pnv P)) = Datatypes.S idx) by (rewrite zrow_length; apply HP).
  rewrite getZ_upd by lia. rewrite Nat.eqb_refl. unfold getZ, zrow. rewrite nth_repeat. lia.
Qed.
Lemma resc_proper : proper (Datatypes.S idx) (resc idx v m P).
Proof.
  pose proof HP as H. apply proper_rows in H. destruct H as [E H]. apply proper_rows. split; [exact E|]. cbn [resc ptm]. rewrite Forall_map. cbn [fst]. destruct Hm as [_ A]. rewrite Forall_forall in *.
  intros t I. destruct (H t I) as [L B]. split; [rewrite upd_length; exact L|]. apply Forall_upd; [|exact B]. specialize (A t I). cbv beta in A. lia.
Qed.
Lemma resc_free vars : ~ In idx vars -> free_of vars P -> free_of vars (resc idx v m P).
Proof.
  intros Hi H. unfold free_of in *. cbn [resc ptm]. rewrite Forall_map. cbn [fst]. eapply Forall_impl; [|exact H]. cbv beta. intros t Ht. rewrite Forall_forall in *. intros k Hk.
  rewrite getZ_upd_other by congruence. apply Ht, Hk.
Qed.
Lemma resc_eval (X : list R) : length X = Datatypes.S idx -> length v = Datatypes.S idx -> Forall (fun a : R => a <> 0%R) X ->
  (@peval R_Fld (resc idx v m P) X * @zpow R_Fld (nth idx X 0%R) m)%R = @peval R_Fld P (@region_point R_Fld idx v X).
Proof.
  intros LX Lv NZ. pose proof HP as (E & W & _).
  rewrite <- (apply_region_eval R_Fld idx v P X W) by (try (rewrite E); try lia; try exact NZ; exact LX || exact Lv || lia).
  rewrite <- refactorize_resc. unfold poly_refactorize, refactorize, refactorize_params. cbn [fold_left refactorize1 snd fst]. rewrite apply_col_min.
  assert (Nt : nth idx X 0%R <> 0%R) by (rewrite Forall_forall in NZ; apply NZ, nth_In; rewrite LX; lia).
  assert (W' : pwf (apply_region idx v P)).
  { unfold pwf, apply_region. cbn [pnv ptm]. rewrite Forall_map. cbn [fst]. eapply Forall_impl; [|exact W]. cbv beta. intros t Ht. rewrite upd_length. exact Ht. }
  rewrite (shift_col_eval R_Fld (apply_region idx v P) idx (- m) X W') by (cbn [apply_region pnv]; rewrite ?E; try exact LX; try lia; exact Nt).
  rewrite (zpow_opp R_Fld) by exact Nt. cbn [finv R_Fld fmul]. assert (Z := zpow_neq0 R_Fld (nth idx X 0%R) m Nt). change (@f0 R_Fld) with 0%R in Z.
  set (a := @zpow R_Fld (nth idx X 0%R) m) in *. set (b := @peval R_Fld (apply_region idx v P) X). change (@eq R (/ a * b * a) b)%R. field. exact Z.
Qed.
End Resc.

(** the value at vanishing smallness parameter *)
Lemma meval_ones (e : list Z) : Forall (fun k => k = 0%Z) e -> forall x : list R, @meval R_Fld e x = 1%R.
Proof. induction 1 as [|k e Hk H IH]; intros [|a x]; cbn [meval]; try reflexivity. rewrite IH, Hk. cbn. ring. Qed.
Lemma resc_leading n0 mm v m (P : rpoly) (u : list R) : proper (Datatypes.S (n0 + mm)) P -> free_of (seq n0 mm) P -> Forall (fun t => (m <= weight v (fst t))%Z) (ptm P) -> length u = n0 ->
  @peval R_Fld (resc (n0 + mm) v m P) (region_vars u mm 0) = leading n0 v m P u.
Proof.
  intros HP Hf HM Lu. apply proper_rows in HP. destruct HP as [_ HP]. unfold peval, leading, resc. cbn [ptm]. rewrite map_map. unfold free_of in Hf.
  induction (ptm P) as [|t ts IH]; [reflexivity|]. apply Forall_cons_iff in HP. destruct HP as [[Lt _] HP]. apply Forall_cons_iff in Hf. destruct Hf as [Ft Hf]. apply Forall_cons_iff in HM. destruct HM as [Mt HM]. specialize (IH HP Hf HM).
  cbn [map sumF filter fst snd]. 
  assert (D : exists e0 e1 c, fst t = e0 ++ e1 ++ [c] /\ length e0 = n0 /\ length e1 = mm).
  { exists (firstn n0 (fst t)), (firstn mm (skipn n0 (fst t))), (nth 0 (skipn mm (skipn n0 (fst t))) 0%Z).
    assert (L1 : length (skipn n0 (fst t)) = Datatypes.S mm) by (rewrite skipn_length; lia). assert (L2 : length (skipn mm (skipn n0 (fst t))) = 1) by (rewrite skipn_length; lia).
    split; [|split; rewrite firstn_length; lia]. rewrite <- (firstn_skipn n0 (fst t)) at 1. f_equal. rewrite <- (firstn_skipn mm (skipn n0 (fst t))) at 1. f_equal.
    destruct (skipn mm (skipn n0 (fst t))) as [|c [|c' l]]; try discriminate. reflexivity. }
  destruct D as (e0 & e1 & c & E & L0 & L1).
  assert (Z1 : Forall (fun k => k = 0%Z) e1).
  { apply Forall_forall. intros k Hk. destruct (In_nth _ _ 0%Z Hk) as (j & Hj & <-). rewrite Forall_forall in Ft. assert (Q := Ft (n0 + j) ltac:(apply in_seq; lia)). rewrite E in Q.
    unfold getZ in Q. rewrite app_nth2 in Q by lia. replace (n0 + j - length e0) with j in Q by lia. rewrite app_nth1 in Q by lia. exact Q. }
  assert (EU : upd (n0 + mm) (weight v (fst t) - m)%Z (fst t) = e0 ++ e1 ++ [(weight v (fst t) - m)%Z]).
  { rewrite E at 2. rewrite <- L0 at 1. rewrite upd_app_r. f_equal. rewrite <- L1, <- (Nat.add_0_r (length e1)), upd_app_r. reflexivity. }
  rewrite EU. unfold region_vars.
  rewrite (meval_app R_Fld e0) by (rewrite L0; symmetry; exact Lu). rewrite (meval_app R_Fld e1) by (rewrite L1; symmetry; apply repeat_length).
  rewrite (meval_ones e1 Z1). cbn [meval].
  assert (FE : firstn n0 (fst t) = e0) by (rewrite E, <- L0, firstn_app, firstn_all, Nat.sub_diag; cbn [firstn]; apply app_nil_r).
  destruct (Z.eqb_spec (weight v (fst t)) m) as [Em|Nm].
  - cbn [map fold_right]. apply f_equal2; [|exact IH]. apply f_equal2; [reflexivity|]. transitivity (@meval R_Fld e0 u); [|f_equal; symmetry; exact FE].
    rewrite Em, Z.sub_diag, zpow_0. cbn [fmul f1 R_Fld]. apply Rminus_diag_uniq. ring.
  - assert (Zp : @zpow R_Fld 0%R (weight v (fst t) - m) = 0%R).
    { destruct (weight v (fst t) - m)%Z as [|p|p] eqn:Ep; [lia|cbn [zpow]; rewrite npow_R; apply pow_i; lia|lia]. }
    refine (eq_trans _ IH). rewrite Zp. match goal with |- _ = ?S => change (@eq R (snd t * (@meval R_Fld e0 u * (1 * (0 * 1))) + S) S)%R; generalize S end. intros S. ring.
Qed.

Lemma find_seq (ps : list repoly) d : forall s k, find (fun nP => Nat.eqb (fst nP) k) (combine (seq s (length ps)) ps) =
  if andb (Nat.leb s k) (Nat.ltb k (s + length ps)) then Some (k, nth (k - s) ps d) else None.
Proof.
  induction ps as [|P ps IH]; intros s k; cbn [length seq combine find].
  - destruct (Nat.leb_spec s k), (Nat.ltb_spec k (s + 0)); cbn [andb]; try reflexivity. lia.
  - cbn [fst]. destruct (Nat.eqb_spec s k) as [->|NE].
    + rewrite Nat.sub_diag. cbn [nth]. destruct (Nat.leb_spec k k), (Nat.ltb_spec k (k + Datatypes.S (length ps))); cbn [andb]; try reflexivity; lia.
    + rewrite IH. destruct (Nat.leb_spec (Datatypes.S s) k), (Nat.ltb_spec k (Datatypes.S s + length ps)), (Nat.leb_spec s k), (Nat.ltb_spec k (s + Datatypes.S (length ps))); cbn [andb]; try reflexivity; try lia.
      replace (k - s) with (Datatypes.S (k - Datatypes.S s)) by lia. reflexivity.
Qed.
Lemma fill_closed n0 (pl : list repoly) (u : list R) t : length u = n0 ->
  fill (seq n0 (length pl)) pl (region_vars u (length pl) t) = u ++ map (fun Pa : repoly => @peval R_Fld (fst Pa) (region_vars u (length pl) t)) pl ++ [t].
Proof.
  intros Lu. assert (LR : length (region_vars u (length pl) t) = n0 + (length pl + 1)) by (unfold region_vars; rewrite !app_length, repeat_length, Lu; reflexivity).
  apply (nth_ext _ _ 0%R 0%R); [rewrite fill_length, LR, !app_length, map_length, Lu; reflexivity|]. rewrite fill_length, LR. intros k Hk. rewrite fill_nth by (rewrite LR; exact Hk).
  rewrite (find_seq pl (@pconst R_Fld 0 0%R, 0%R)). destruct (Nat.leb_spec n0 k), (Nat.ltb_spec k (n0 + length pl)); cbn [andb fst snd].
  - rewrite app_nth2 by lia. rewrite app_nth1 by (rewrite map_length; lia). rewrite Lu.
    rewrite (nth_indep _ 0%R (@peval R_Fld (fst (@pconst R_Fld 0 0%R, 0%R)) (region_vars u (length pl) t))) by (rewrite map_length; lia).
    rewrite (map_nth (fun Pa : repoly => @peval R_Fld (fst Pa) (region_vars u (length pl) t))). reflexivity.
  - unfold region_vars. rewrite !app_nth2 by (rewrite ?map_length, ?repeat_length; lia). rewrite map_length, repeat_length. reflexivity.
  - unfold region_vars. rewrite !app_nth1 by lia. reflexivity.
  - lia.
Qed.
Lemma region_point_closed (w : list R) (vw : list Z) t c : length w = length vw ->
  @region_point R_Fld (length w) (vw ++ [c]) (w ++ [t]) = map (fun p : R * Z => (fst p * @zpow R_Fld t (snd p))%R) (combine w vw) ++ [@zpow R_Fld t c].
Proof.
  intros L. unfold region_point. change (@f0 R_Fld) with 0%R. change (@nth (car R_Fld)) with (@nth R). assert (Nt : nth (length w) (w ++ [t]) 0%R = t) by (rewrite app_nth2, Nat.sub_diag by lia; reflexivity).
  apply (nth_ext _ _ 0%R 0%R).
  - rewrite map_length, seq_length, !app_length, map_length, combine_length, L. cbn. lia.
  - rewrite map_length, seq_length, app_length. cbn [length]. intros k Hk. assert (LL : length (w ++ [t]) = length w + 1) by (rewrite app_length; reflexivity). rewrite map_seq_nth by lia. rewrite Nt.
    destruct (Nat.eqb_spec k (length w)) as [->|NE].
    + rewrite (app_nth2 (map _ _)) by (rewrite map_length, combine_length; lia). rewrite map_length, combine_length. replace (length w - Nat.min (length w) (length vw)) with 0 by lia. cbn [nth].
      unfold getZ. rewrite app_nth2 by lia. rewrite L, Nat.sub_diag. reflexivity.
    + assert (RH : nth k (map (fun p : R * Z => (fst p * @zpow R_Fld t (snd p))%R) (combine w vw)) 0%R = (nth k w 0%R * @zpow R_Fld t (nth k vw 0%Z))%R).
      { rewrite (nth_indep _ 0%R ((fun p : R * Z => (fst p * @zpow R_Fld t (snd p))%R) (0%R, 0%Z))) by (rewrite map_length, combine_length; lia).
        rewrite (map_nth (fun p : R * Z => (fst p * @zpow R_Fld t (snd p))%R)), combine_nth by exact L. reflexivity. }
      rewrite !app_nth1 by (rewrite ?map_length, ?combine_length; lia). rewrite RH. unfold getZ. rewrite app_nth1 by lia. reflexivity.
Qed.
Lemma combine_app2 {A B} (a a' : list A) (b b' : list B) : length a = length b -> combine (a ++ a') (b ++ b') = combine a b ++ combine a' b'.
Proof. revert b. induction a as [|x a IH]; intros [|y b] L; cbn in L; try discriminate; [reflexivity|]. cbn [app combine]. f_equal. apply IH. lia. Qed.
Lemma row_add_app a b c d : length a = length b -> row_add (a ++ c) (b ++ d) = row_add a b ++ row_add c d.
Proof. intros L. unfold row_add. rewrite combine_app2 by exact L. apply map_app. Qed.
Lemma row_add_zeros a n : length a = n -> row_add a (repeat 0%Z n) = a.
Proof. unfold row_add. revert n. induction a as [|x a IH]; intros [|n] L; cbn in L; try discriminate; [reflexivity|]. cbn [repeat combine map fst snd]. f_equal; [lia|]. apply IH. lia. Qed.
Lemma zeros_row_add a n : length a = n -> row_add (repeat 0%Z n) a = a.
Proof. unfold row_add. revert n. induction a as [|x a IH]; intros [|n] L; cbn in L; try discriminate; [reflexivity|]. cbn [repeat combine map fst snd]. f_equal. apply IH. lia. Qed.

Lemma F2_len {A B} (Q : A -> B -> Prop) l m : Forall2 Q l m -> length l = length m.
Proof. induction 1; cbn; congruence. Qed.
Lemma powers_list idx region vars (pl : list (rpoly * power)) ms : Forall2 (fun (Pa : rpoly * power) m => is_min_weight region (fst Pa) m) pl ms ->
  Forall (fun Pa : rpoly * power => proper (Datatypes.S idx) (fst Pa) /\ free_of vars (fst Pa)) pl ->
  map (fun Pa : rpoly * power => monomial_power idx (fst (poly_refactorize (apply_region idx region (fst Pa)) [idx]))) pl = ms /\
  combine (map snd (map (fun Pa : rpoly * power => poly_refactorize (apply_region idx region (fst Pa)) [idx]) pl)) (map snd pl) =
    map (fun Pam : (rpoly * power) * Z => (resc idx region (snd Pam) (fst (fst Pam)), snd (fst Pam))) (combine pl ms).
Proof.
  induction 1 as [|Pa m l l' Hm H IH]; intros HP; [split; reflexivity|]. apply Forall_cons_iff in HP. destruct HP as [[Hp _] HP]. destruct (IH HP) as [A B]. cbn [map combine fst snd]. split.
  - f_equal; [apply (refactorize_power idx region m (fst Pa) Hp Hm)|exact A].
  - f_equal; [f_equal; apply (refactorize_resc idx region m (fst Pa) Hp Hm)|exact B].
Qed.
Section Region.
Variables (vu : list Z) (vn : Z) (pl : list (rpoly * power)) (N : rpoly) (ms : list Z) (mN : Z).
Let n0 := length vu.
Let mm := length pl.
Let idx := n0 + mm.
Let region := vu ++ repeat 0%Z mm ++ [vn].
Let region' := vu ++ ms ++ [vn].
Hypothesis Hms : Forall2 (fun (Pa : rpoly * power) m => is_min_weight region (fst Pa) m) pl ms.
Hypothesis HmN : is_min_weight region' N mN.
Hypothesis HPl : Forall (fun Pa : rpoly * power => proper (Datatypes.S idx) (fst Pa) /\ free_of (seq n0 mm) (fst Pa)) pl.
Hypothesis HN : proper (Datatypes.S idx) N.

Lemma ms_length : length ms = mm.
Proof. symmetry. exact (F2_len _ _ _ Hms). Qed.
Lemma region'_eq : row_add region (repeat 0%Z n0 ++ ms ++ [0%Z]) = region'.
Proof.
  unfold region, region'. rewrite row_add_app by (rewrite repeat_length; reflexivity). rewrite row_add_zeros by reflexivity. f_equal.
  rewrite row_add_app by (rewrite repeat_length, ms_length; reflexivity). rewrite zeros_row_add by exact ms_length. f_equal. unfold row_add. cbn. f_equal. lia.
Qed.
Definition resc_polys : list (rpoly * power) := map (fun Pam : (rpoly * power) * Z => (resc idx region (snd Pam) (fst (fst Pam)), snd (fst Pam))) (combine pl ms).
Lemma setup_eq : region_setup n0 region pl N = mkRegion resc_polys ms (resc idx region' mN N) mN.
Proof.
  unfold region_setup. fold mm. change (n0 + length pl) with idx.
  destruct (powers_list idx region (seq n0 mm) pl ms Hms HPl) as [E1 E2]. fold resc_polys in E2.
  cbv zeta. match goal with |- context [map snd ?p] => set (parts := p) end.
  match goal with |- context [repeat 0%Z n0 ++ ?l ++ [0%Z]] => assert (E3 : l = ms) by (unfold parts; rewrite map_map; exact E1); rewrite E3 end.
  rewrite region'_eq.
  assert (R1 := refactorize_resc idx region' mN N HN HmN). assert (R2 := refactorize_power idx region' mN N HN HmN).
  exact (f_equal4 mkRegion E2 eq_refl R1 R2).
Qed.

Definition scaledt (u : list R) (t : R) : list R := map (fun p : R * Z => (fst p * @zpow R_Fld t (snd p))%R) (combine u vu).
Section Values.
Variables (value : power -> R) (u : list R) (t : R).
Hypothesis Lu : length u = n0.
Hypothesis NZ : Forall (fun a : R => a <> 0%R) u.
Hypothesis Ht : (0 < t)%R.
Let vpl : list repoly := map (fun Pa : rpoly * power => (fst Pa, value (snd Pa))) pl.
Let rpl : list repoly := map (fun Pa : rpoly * power => (fst Pa, value (snd Pa))) resc_polys.
Let X := region_vars u mm t.
Let Y := region_vars (scaledt u t) mm (@zpow R_Fld t vn).

Lemma X_form : X = (u ++ repeat 1%R mm) ++ [t].
Proof. unfold X, region_vars. rewrite app_assoc. reflexivity. Qed.
Lemma X_len : length X = Datatypes.S idx.
Proof. rewrite X_form, !app_length, repeat_length, Lu. cbn. unfold idx. lia. Qed.
Lemma scaled_len : length (scaledt u t) = n0.
Proof. unfold scaledt. rewrite map_length, combine_length. fold n0. lia. Qed.
Lemma X_last : nth idx X 0%R = t.
Proof. rewrite X_form, app_nth2; rewrite app_length, repeat_length, Lu; fold idx; [rewrite Nat.sub_diag; reflexivity|lia]. Qed.
Lemma X_nz : Forall (fun a : R => a <> 0%R) X.
Proof. unfold X, region_vars. repeat (apply Forall_app; split). - exact NZ. - apply Forall_forall. intros a Ha. apply repeat_spec in Ha. lra. - constructor; [lra|constructor]. Qed.
Lemma region_len : length region = Datatypes.S idx.
Proof. unfold region. rewrite !app_length, repeat_length. cbn. unfold idx, n0. lia. Qed.
Lemma region_X : @region_point R_Fld idx region X = Y.
Proof.
  rewrite X_form. unfold region. rewrite app_assoc. 
  assert (L : length (u ++ repeat 1%R mm) = length (vu ++ repeat 0%Z mm)) by (rewrite !app_length, !repeat_length, Lu; reflexivity).
  assert (E : idx = length (u ++ repeat 1%R mm)) by (rewrite app_length, repeat_length, Lu; reflexivity).
  rewrite E. rewrite (region_point_closed _ _ t vn L). rewrite combine_app2 by exact Lu. rewrite map_app. unfold Y, region_vars. rewrite <- app_assoc. f_equal. f_equal.
  assert (Q : forall k, map (fun p : R * Z => (fst p * @zpow R_Fld t (snd p))%R) (combine (repeat 1%R k) (repeat 0%Z k)) = repeat 1%R k); [|apply Q].
  induction k as [|k IH]; [reflexivity|]. cbn [repeat combine map fst snd]. f_equal; [|exact IH]. cbn. ring.
Qed.
Lemma base_scaled (P : rpoly) m : proper (Datatypes.S idx) P -> is_min_weight region P m ->
  (@peval R_Fld (resc idx region m P) X * Rpower t (IZR m))%R = @peval R_Fld P Y.
Proof.
  intros HP Hm. rewrite <- region_X, <- zpow_Rpower by exact Ht. assert (Q := resc_eval idx region m P HP Hm X X_len region_len X_nz). rewrite X_last in Q. exact Q.
Qed.
Lemma rescaled_values : map (fun p : R * Z => (fst p * @zpow R_Fld t (snd p))%R) (combine (map (fun Pa : repoly => @peval R_Fld (fst Pa) X) rpl) ms) = map (fun Pa : repoly => @peval R_Fld (fst Pa) Y) vpl.
Proof.
  unfold rpl, vpl, resc_polys. rewrite !map_map. cbn [fst].
  assert (Q : forall l l', Forall2 (fun (Pa : rpoly * power) m => is_min_weight region (fst Pa) m) l l' -> Forall (fun Pa : rpoly * power => proper (Datatypes.S idx) (fst Pa) /\ free_of (seq n0 mm) (fst Pa)) l ->
     map (fun p : R * Z => (fst p * @zpow R_Fld t (snd p))%R) (combine (map (fun Pam : (rpoly * power) * Z => @peval R_Fld (resc idx region (snd Pam) (fst (fst Pam))) X) (combine l l')) l') = map (fun Pa : rpoly * power => @peval R_Fld (fst Pa) Y) l).
  { induction 1 as [|Pa m l l' Hm H IH]; intros HP; [reflexivity|]. apply Forall_cons_iff in HP. destruct HP as [[Hp _] HP]. cbn [combine map fst snd]. apply f_equal2; [|exact (IH HP)].
    rewrite zpow_Rpower by exact Ht. apply base_scaled; assumption. }
  exact (Q pl ms Hms HPl).
Qed.
Hypothesis POS : Forall (fun Pa : repoly => (0 < @peval R_Fld (fst Pa) X)%R) rpl.
Lemma powers_scaled : powers_value vpl Y = (Rpower t (Rsum (map (fun ma : Z * power => IZR (fst ma) * value (snd ma)) (combine ms (map snd pl)))) * powers_value rpl X)%R.
Proof.
  assert (Q : forall l l', Forall2 (fun (Pa : rpoly * power) m => is_min_weight region (fst Pa) m) l l' -> Forall (fun Pa : rpoly * power => proper (Datatypes.S idx) (fst Pa) /\ free_of (seq n0 mm) (fst Pa)) l ->
     Forall (fun Pam : (rpoly * power) * Z => (0 < @peval R_Fld (resc idx region (snd Pam) (fst (fst Pam))) X)%R) (combine l l') ->
     powers_value (map (fun Pa : rpoly * power => (fst Pa, value (snd Pa))) l) Y =
     (Rpower t (Rsum (map (fun ma : Z * power => IZR (fst ma) * value (snd ma)) (combine l' (map snd l)))) *
      powers_value (map (fun Pa : rpoly * power => (fst Pa, value (snd Pa))) (map (fun Pam : (rpoly * power) * Z => (resc idx region (snd Pam) (fst (fst Pam)), snd (fst Pam))) (combine l l'))) X)%R).
  { induction 1 as [|Pa m l l' Hm H IH]; intros HP Hp; [unfold powers_value, Rsum; cbn; rewrite Rpower_O by exact Ht; ring|].
    apply Forall_cons_iff in HP. destruct HP as [[Hpp _] HP]. cbn [combine] in Hp. apply Forall_cons_iff in Hp. destruct Hp as [Hp1 Hp]. cbn [fst snd] in Hp1.
    cbn [map combine fst snd]. rewrite Rsum_cons.
    change (powers_value ((fst Pa, value (snd Pa)) :: map (fun Pa : rpoly * power => (fst Pa, value (snd Pa))) l) Y) with
      (Rpower (@peval R_Fld (fst Pa) Y) (value (snd Pa)) * powers_value (map (fun Pa : rpoly * power => (fst Pa, value (snd Pa))) l) Y)%R.
    match goal with |- _ = (_ * powers_value (?a :: ?r) X)%R => change (powers_value (a :: r) X) with (Rpower (@peval R_Fld (fst a) X) (snd a) * powers_value r X)%R end. cbn [fst snd].
    rewrite (IH HP Hp). rewrite <- (base_scaled (fst Pa) m Hpp Hm). rewrite <- Rpower_mult_distr by (try exact Hp1; apply exp_pos). rewrite Rpower_mult, Rpower_plus. ring. }
  apply (Q pl ms Hms HPl). unfold rpl, resc_polys in POS. rewrite !Forall_map in POS. exact POS.
Qed.
Lemma vpl_length : length vpl = mm. Proof. unfold vpl. apply map_length. Qed.
Lemma rpl_length : length rpl = mm.
Proof. unfold rpl, resc_polys. rewrite !map_length, combine_length, ms_length. fold mm. lia. Qed.
Lemma numerator_scaled : @peval R_Fld N (fill (seq n0 mm) vpl Y) = (Rpower t (IZR mN) * @peval R_Fld (resc idx region' mN N) (fill (seq n0 mm) rpl X))%R.
Proof.
  assert (F1 := fill_closed n0 rpl u t Lu). rewrite rpl_length in F1. fold X in F1. rewrite F1.
  assert (F2 := fill_closed n0 vpl (scaledt u t) (@zpow R_Fld t vn) scaled_len). rewrite vpl_length in F2. fold Y in F2. rewrite F2. clear F1 F2.
  set (W := map (fun Pa : repoly => @peval R_Fld (fst Pa) X) rpl).
  assert (LW : length W = mm) by (unfold W; rewrite map_length; exact rpl_length).
  assert (LX : length (u ++ W ++ [t]) = Datatypes.S idx) by (rewrite !app_length, LW, Lu; cbn; unfold idx; lia).
  assert (NX : Forall (fun a : R => a <> 0%R) (u ++ W ++ [t])).
  { repeat (apply Forall_app; split); [exact NZ| |constructor; [lra|constructor]]. unfold W. rewrite Forall_map. eapply Forall_impl; [|exact POS]. cbv beta. intros Pa HPa. lra. }
  assert (Lr : length region' = Datatypes.S idx) by (unfold region'; rewrite !app_length, ms_length; cbn; unfold idx, n0; lia).
  assert (Q := resc_eval idx region' mN N HN HmN (u ++ W ++ [t]) LX Lr NX).
  assert (Nl : nth idx (u ++ W ++ [t]) 0%R = t). { assert (E0 : idx = length (u ++ W)) by (unfold idx; rewrite app_length; exact (eq_sym (f_equal2 Nat.add Lu LW))). rewrite app_assoc. rewrite E0, app_nth2, Nat.sub_diag by apply Nat.le_refl. reflexivity. }
  rewrite Nl in Q. rewrite zpow_Rpower in Q by exact Ht.
  assert (L1 : length (u ++ W) = length (vu ++ ms)) by (rewrite !app_length; exact (f_equal2 Nat.add Lu (eq_trans LW (eq_sym ms_length)))).
  assert (E : idx = length (u ++ W)) by (unfold idx; rewrite app_length; exact (eq_sym (f_equal2 Nat.add Lu LW))).
  assert (RP : @region_point R_Fld idx region' (u ++ W ++ [t]) = scaledt u t ++ map (fun Pa : repoly => @peval R_Fld (fst Pa) Y) vpl ++ [@zpow R_Fld t vn]).
  { assert (RQ := region_point_closed (u ++ W) (vu ++ ms) t vn L1). rewrite <- E in RQ. rewrite <- !app_assoc in RQ. refine (eq_trans RQ _).
    rewrite combine_app2 by exact Lu. rewrite map_app, <- app_assoc. apply f_equal2; [reflexivity|]. apply f_equal2; [|reflexivity]. exact rescaled_values. }
  rewrite RP in Q. refine (eq_trans (eq_sym Q) _). rring.
Qed.
Lemma region_identity : (product_value (seq n0 mm) (vpl, N) Y =
  Rpower t (Rsum (map (fun ma : Z * power => IZR (fst ma) * value (snd ma)) (combine ms (map snd pl))) + IZR mN) * product_value (seq n0 mm) (rpl, resc idx region' mN N) X)%R.
Proof. unfold product_value. cbn [fst snd]. rewrite powers_scaled, numerator_scaled, Rpower_plus. rring. Qed.
End Values.
End Region.
