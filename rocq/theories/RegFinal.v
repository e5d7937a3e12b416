(** The terms generated for one region. *)
From Coq Require Import Lqa Reals Lra Lia List ZArith QArith Qround Qreals.
From Verif Require Import PolyProofs RealField PolyReal GeoModel GeoSpec ParamModel ParamSpec ParamProofs ParamReal ParamStep ParamMeasure RegModel RegSpec RegCurve RegProofs RegDerive RegExpand RegTaylor RegRegion.
Import ListNotations.
Local Open Scope nat_scope.

Lemma insert_region (u : list R) mm t n0 : length u = n0 -> insert_at (n0 + mm) t (u ++ repeat 1%R mm) = region_vars u mm t.
Proof.
  intros Lu. assert (L : length (u ++ repeat 1%R mm) = n0 + mm) by (rewrite app_length, repeat_length, Lu; reflexivity).
  unfold insert_at, region_vars. rewrite firstn_all2, skipn_all2 by lia. rewrite <- app_assoc. reflexivity.
Qed.
Lemma skip_seq n0 mm : map (skip (n0 + mm)) (seq n0 mm) = seq n0 mm.
Proof. rewrite <- (map_id (seq n0 mm)) at 2. apply map_ext_in. intros k Hk. apply in_seq in Hk. unfold skip. destruct (Nat.ltb_spec (n0 + mm) k); lia. Qed.
Lemma Rpower_root s vn z : (0 < s)%R -> (0 < vn)%Z -> Rpower (Rpower s (/ IZR vn)) z = Rpower s (z / IZR vn).
Proof. intros Hs Hv. rewrite Rpower_mult. f_equal. unfold Rdiv. ring. Qed.
Lemma zpow_root s vn z : (0 < s)%R -> (0 < vn)%Z -> @zpow R_Fld (Rpower s (/ IZR vn)) z = Rpower s (IZR z / IZR vn).
Proof. intros Hs Hv. rewrite zpow_Rpower by apply exp_pos. apply Rpower_root; assumption. Qed.
Lemma zpow_root1 s vn : (0 < s)%R -> (0 < vn)%Z -> @zpow R_Fld (Rpower s (/ IZR vn)) vn = s.
Proof. intros Hs Hv. rewrite zpow_root by assumption. unfold Rdiv. rewrite Rinv_r by (apply IZR_neq; lia). apply Rpower_1, Hs. Qed.
Lemma scaled_rescaled vu vn (u : list R) s : (0 < s)%R -> (0 < vn)%Z -> scaledt vu u (Rpower s (/ IZR vn)) = rescaled vu vn u s.
Proof. intros Hs Hv. unfold scaledt, rescaled. apply map_ext. intros p. rewrite zpow_root by assumption. reflexivity. Qed.
Lemma sum_removelast vu c mm vn : c = 0%Z -> fold_right Z.add 0%Z (removelast (vu ++ repeat c mm ++ [vn])) = fold_right Z.add 0%Z vu.
Proof.
  intros ->. rewrite app_assoc, removelast_last, fold_right_app. f_equal. induction mm as [|m IH]; [reflexivity|]. cbn [repeat fold_right]. rewrite IH. reflexivity.
Qed.
Lemma combine_seq_nth {A} (l : list A) : forall s i k a, nth_error (combine (seq s (length l)) l) i = Some (k, a) -> k = s + i /\ nth_error l i = Some a.
Proof.
  induction l as [|b l IH]; intros s [|i] k a E; cbn [length seq combine nth_error] in E; try discriminate.
  - injection E as <- <-. split; [lia|reflexivity].
  - destruct (IH _ _ _ _ E) as [A1 A2]. split; [lia|exact A2].
Qed.
(** a polynomial that does not contain the last variable *)
Lemma meval_last e : forall (w : list R) a b c, length e = length w -> @meval R_Fld (e ++ [0%Z]) (w ++ [a]) = @meval R_Fld (e ++ [0%Z]) (w ++ [b]) /\ c = c :> R.
Proof. induction e as [|k e IH]; intros [|x w] a b c L; cbn in L; try discriminate; split; try reflexivity. cbn [app meval]. rewrite (proj1 (IH w a b c ltac:(lia))). reflexivity. Qed.
Lemma indep_eval idx (P : rpoly) (w : list R) a b : proper (Datatypes.S idx) P -> @t_independent R_Fld idx P = true -> length w = idx -> @peval R_Fld P (w ++ [a]) = @peval R_Fld P (w ++ [b]).
Proof.
  intros HP HT Lw. apply proper_rows in HP. destruct HP as [_ HP]. unfold peval. f_equal. apply map_ext_in. intros t It. f_equal.
  rewrite Forall_forall in HP. destruct (HP t It) as [Lt _]. unfold t_independent in HT. rewrite forallb_forall in HT. specialize (HT t It). apply Z.eqb_eq in HT.
  assert (D : fst t = firstn idx (fst t) ++ [0%Z]).
  { rewrite <- (firstn_skipn idx (fst t)) at 1. f_equal. assert (LS : length (skipn idx (fst t)) = 1) by (rewrite skipn_length; lia).
    unfold getZ in HT. rewrite <- (firstn_skipn idx (fst t)) in HT. rewrite app_nth2 in HT by (rewrite firstn_length; lia). rewrite firstn_length in HT.
    replace (idx - Nat.min idx (length (fst t))) with 0 in HT by lia. destruct (skipn idx (fst t)) as [|c [|c' l]]; try discriminate. cbn in HT. subst c. reflexivity. }
  rewrite D. apply (fun H => proj1 (meval_last _ w a b 0%R H)). rewrite firstn_length. lia.
Qed.

Section Final.
Variables (vu : list Z) (vn : Z) (pl : list (rpoly * power)) (N : rpoly) (ms : list Z) (mN : Z).
Let n0 := length vu.
Let mm := length pl.
Let idx := n0 + mm.
Let region := vu ++ repeat 0%Z mm ++ [vn].
Let region' := vu ++ ms ++ [vn].
Hypothesis Hvn : (0 < vn)%Z.
Hypothesis Hms : Forall2 (fun (Pa : rpoly * power) m => is_min_weight region (fst Pa) m) pl ms.
Hypothesis HmN : is_min_weight region' N mN.
Hypothesis HPl : Forall (fun Pa : rpoly * power => proper (Datatypes.S idx) (fst Pa) /\ free_of (seq n0 mm) (fst Pa)) pl.
Hypothesis HN : proper (Datatypes.S idx) N.
Variables (value : power -> R) (order : Q).
Hypothesis Hz : forall j Pa, nth_error pl j = Some Pa -> value (snd Pa) <> 0%R \/ free_of [n0 + j] N.
Let vpl : list repoly := map (fun Pa : rpoly * power => (fst Pa, value (snd Pa))) pl.
Let rp := resc_polys vu vn pl ms.
Let rpl : list repoly := map (fun Pa : rpoly * power => (fst Pa, value (snd Pa))) rp.
Let rN := resc idx region' mN N.
Let lowest : R := (Rsum (map (fun ma : Z * power => IZR (fst ma) * value (snd ma)) (combine ms (map snd pl))) + IZR mN + IZR (fold_right Z.add 0%Z vu))%R.
Let lowest0 : Q := (fold_right Qplus 0 (map (fun ma : Z * power => inject_Z (fst ma) * at0 (snd ma)) (combine ms (map snd pl))) + inject_Z mN + inject_Z (fold_right Z.add 0%Z vu))%Q.
Let d := @region_setup R_Fld n0 region pl N.
Let o := (order * inject_Z vn - lowest0)%Q.
Let terms := @region_terms R_Fld value n0 region order pl N.

Lemma d_eq : d = mkRegion rp ms rN mN.
Proof. exact (setup_eq vu vn pl N ms mN Hms HmN HPl HN). Qed.
Lemma lms : length ms = mm. Proof. exact (ms_length vu vn pl ms Hms). Qed.
Lemma rp_length : length rp = mm.
Proof. unfold rp, resc_polys. rewrite map_length, combine_length, lms. fold mm. lia. Qed.
Lemma rp_snd : map snd rp = map snd pl.
Proof.
  unfold rp, resc_polys. rewrite map_map. cbn [snd]. assert (L := lms). unfold mm in L. revert L. generalize ms as l. generalize pl as p. induction p as [|Pa p IH]; intros [|m l] L; cbn in L; try discriminate; [reflexivity|].
  cbn [combine map fst snd]. f_equal. apply IH. lia.
Qed.
Lemma vn_get : getZ idx region = vn.
Proof. unfold getZ, region, idx. rewrite app_assoc, app_nth2; rewrite app_length, repeat_length; fold n0; [rewrite Nat.sub_diag; reflexivity|lia]. Qed.
Lemma rpl_ok : product_ok (Datatypes.S idx) (seq n0 mm) (rpl, rN).
Proof.
  repeat split; cbn [fst snd].
  - unfold rpl. rewrite map_length, rp_length, seq_length. reflexivity.
  - apply seq_NoDup.
  - apply Forall_forall. intros k Hk. apply in_seq in Hk. unfold idx. lia.
  - apply (resc_proper idx region' mN N HN HmN).
  - destruct (resc_proper idx region' mN N HN HmN) as (_ & A & _). exact A.
  - destruct (resc_proper idx region' mN N HN HmN) as (_ & _ & A). exact A.
  - unfold rpl, rp, resc_polys. rewrite !Forall_map. cbn [fst].
    assert (Q : forall l l', Forall2 (fun (Pa : rpoly * power) m => is_min_weight region (fst Pa) m) l l' -> Forall (fun Pa : rpoly * power => proper (Datatypes.S idx) (fst Pa) /\ free_of (seq n0 mm) (fst Pa)) l ->
      Forall (fun Pam : (rpoly * power) * Z => proper (Datatypes.S idx) (resc idx region (snd Pam) (fst (fst Pam))) /\ free_of (seq n0 mm) (resc idx region (snd Pam) (fst (fst Pam)))) (combine l l')).
    { induction 1 as [|Pa m l l' Hm H IH]; intros HP; [constructor|]. apply Forall_cons_iff in HP. destruct HP as [[Hp Hf] HP]. cbn [combine]. constructor; [|exact (IH HP)]. cbn [fst snd].
      split; [apply resc_proper; assumption|]. apply resc_free; [|exact Hf]. intros C. apply in_seq in C. unfold idx in C. lia. }
    exact (Q pl ms Hms HPl).
Qed.
Lemma rz : forall m Pa, In (m, Pa) (combine (seq n0 mm) rpl) -> snd Pa <> 0%R \/ free_of [m] rN.
Proof.
  intros m Pa I. apply In_nth_error in I. destruct I as [j Ej].
  assert (LL : length rpl = mm) by (unfold rpl; rewrite map_length; exact rp_length). rewrite <- LL in Ej. destruct (combine_seq_nth _ _ _ _ _ Ej) as [-> E2].
  assert (Hj : j < mm) by (rewrite <- LL; apply nth_error_Some; rewrite E2; discriminate).
  assert (E3 : nth_error (map (fun a : power => value a) (map snd rp)) j = Some (snd Pa)).
  { assert (E4 := map_nth_error snd _ _ E2). unfold rpl in E4. rewrite map_map in E4 |- *. exact E4. }
  rewrite rp_snd, map_map in E3. destruct (nth_error pl j) as [Pa'|] eqn:E5; [|apply nth_error_None in E5; unfold mm in Hj; lia].
  rewrite (map_nth_error _ _ _ E5) in E3. injection E3 as E3. destruct (Hz j Pa' E5) as [H|H]; [left; rewrite <- E3; exact H|right].
  apply resc_free; [|exact H]. intros [C|[]]. unfold idx in C. lia.
Qed.

Let series := @expand_region R_Fld rpl rN idx (@region_order R_Fld n0 region order d) (seq n0 mm).
Lemma terms_eq : terms = map (fun it : nat * (list repoly * rpoly) => (((lowest + INR (fst it)) / IZR vn)%R, snd it)) (combine (seq 0 (length series)) series).
Proof.
  unfold terms, region_terms. fold mm. change (n0 + mm) with idx. fold d. rewrite vn_get.
  assert (ES : @expand_region R_Fld (map (fun Pa : PolyModel.poly R_Fld * power => (fst Pa, value (snd Pa))) (rd_polys d)) (rd_numerator d) idx (@region_order R_Fld n0 region order d) (seq n0 mm) = series).
  { unfold series. rewrite d_eq at 1 2. reflexivity. }
  cbv zeta. match goal with |- map ?g (combine (seq 0 (length ?e)) ?e) = _ => refine (eq_trans (f_equal (fun sr => map g (combine (seq 0 (length sr)) sr)) (ES : e = series)) _) end. apply map_ext. intros it. apply f_equal2; [|reflexivity].
  assert (E1 : @power_overall R_Fld value d = (Rsum (map (fun ma : Z * power => IZR (fst ma) * value (snd ma)) (combine ms (map snd pl))) + IZR mN)%R).
  { unfold power_overall. rewrite d_eq. cbn [rd_scaling rd_polys rd_npower]. rewrite rp_snd, zF_R. apply f_equal2; [|reflexivity].
    induction (combine ms (map snd pl)) as [|ma l IH]; [reflexivity|]. cbn [map sumF]. rewrite Rsum_cons. apply f_equal2; [|exact IH]. rewrite zF_R. reflexivity. }
  rewrite E1. rewrite !zF_R, natF_R. unfold power_measure, region. rewrite sum_removelast by reflexivity. reflexivity.
Qed.
Lemma order_eq : (@region_order R_Fld n0 region order d == o)%Q \/
  ((@region_order R_Fld n0 region order d == 0)%Q /\ (0 <= o)%Q /\ forallb (@t_independent R_Fld idx) (map fst rp ++ [rN]) = true).
Proof.
  unfold region_order. rewrite d_eq. cbn [rd_polys rd_numerator]. rewrite rp_length. change (n0 + mm) with idx. rewrite vn_get.
  assert (EO : (order * inject_Z vn - @power_no_regulators R_Fld (mkRegion rp ms rN mN) - inject_Z (power_measure region) == o)%Q).
  { unfold o, lowest0, power_no_regulators. cbn [rd_scaling rd_polys rd_npower]. rewrite rp_snd. unfold power_measure, region. rewrite sum_removelast by reflexivity. ring. }
  destruct (forallb (@t_independent R_Fld idx) (map fst rp ++ [rN])) eqn:ET; cbn [andb]; [|left; exact EO].
  destruct (Qle_bool 0 _) eqn:EL; [right|left; exact EO]. apply Qle_bool_iff in EL. rewrite EO in EL. split; [reflexivity|]. split; [exact EL|reflexivity].
Qed.

Lemma nth_terms i e t : nth_error terms i = Some (e, t) -> e = ((lowest + INR i) / IZR vn)%R /\ nth_error series i = Some t.
Proof.
  rewrite terms_eq. intros E. rewrite nth_error_map in E. destruct (nth_error (combine _ _) i) as [[k a]|] eqn:EC; [|discriminate]. cbn in E. injection E as <- <-.
  destruct (combine_seq_nth _ _ _ _ _ EC) as [-> E2]. cbn. split; [reflexivity|exact E2].
Qed.
Lemma terms_length : length terms = Z.to_nat (Qfloor (@region_order R_Fld n0 region order d) + 1).
Proof. rewrite terms_eq, map_length, combine_length, seq_length, Nat.min_id. apply expand_length. Qed.
(** no term beyond the requested order *)
Lemma terms_needed i : i < length terms -> (lowest0 + inject_Z (Z.of_nat i) <= order * inject_Z vn)%Q.
Proof.
  rewrite terms_length. intros Hi. assert (HF : (inject_Z (Z.of_nat i) <= @region_order R_Fld n0 region order d)%Q).
  { eapply Qle_trans; [|apply Qfloor_le]. rewrite <- Zle_Qle. lia. }
  assert (HO : (inject_Z (Z.of_nat i) <= o)%Q). { destruct order_eq as [E|(E & P & _)]; rewrite E in HF; [exact HF|eapply Qle_trans; eassumption]. }
  unfold o in HO. clearbody lowest0. clear - HO. Lqa.lra.
Qed.
Definition first_missing : nat := Z.to_nat (Qfloor o + 1).
Lemma missing_beyond : (order * inject_Z vn < lowest0 + inject_Z (Z.of_nat first_missing))%Q.
Proof.
  assert (HO : (o < inject_Z (Z.of_nat first_missing))%Q).
  { eapply Qlt_le_trans; [apply Qlt_floor|]. rewrite <- Zle_Qle. unfold first_missing. lia. }
  unfold o in HO. set (z := inject_Z (Z.of_nat first_missing)) in *. clearbody z lowest0. clear - HO. Lqa.lra.
Qed.

Variable u : list R.
Hypothesis Lu : length u = n0.
Hypothesis NZ : Forall (fun a : R => a <> 0%R) u.
Hypothesis LEAD : Forall2 (fun (Pa : rpoly * power) m => (0 < leading n0 region m (fst Pa) u)%R) pl ms.
Let y := u ++ repeat 1%R mm.

Lemma rpl_pos0 : positive_at (Datatypes.S idx) rpl (insert_at idx 0%R y).
Proof.
  unfold y. change idx with (n0 + mm) at 2. rewrite insert_region by exact Lu. split; [unfold region_vars; rewrite !app_length, repeat_length, Lu; unfold idx; cbn; lia|].
  unfold rpl, rp, resc_polys. rewrite !Forall_map. cbn [fst].
  assert (Q : forall l l', Forall2 (fun (Pa : rpoly * power) m => is_min_weight region (fst Pa) m) l l' -> Forall2 (fun (Pa : rpoly * power) m => (0 < leading n0 region m (fst Pa) u)%R) l l' -> Forall (fun Pa : rpoly * power => proper (Datatypes.S idx) (fst Pa) /\ free_of (seq n0 mm) (fst Pa)) l ->
      Forall (fun Pam : (rpoly * power) * Z => (0 < @peval R_Fld (resc idx region (snd Pam) (fst (fst Pam))) (region_vars u mm 0))%R) (combine l l')).
  { induction 1 as [|Pa m l l' Hm H IH]; intros HL HP; [constructor|]. apply Forall_cons_iff in HP. destruct HP as [[Hp Hf] HP]. inversion HL as [|? ? ? ? L1 L2]; subst. cbn [combine]. constructor; [|exact (IH L2 HP)]. cbn [fst snd].
    assert (E := resc_leading n0 mm region m (fst Pa) u Hp Hf (proj2 Hm) Lu). change (n0 + mm) with idx in E. rewrite E. exact L1. }
  exact (Q pl ms Hms LEAD HPl).
Qed.
Lemma Ly : length y = idx.
Proof. unfold y. rewrite app_length, repeat_length, Lu. reflexivity. Qed.
Lemma idx_lt : idx < Datatypes.S idx. Proof. lia. Qed.
Lemma idx_notin : ~ In idx (seq n0 mm). Proof. intros C. apply in_seq in C. unfold idx in C. lia. Qed.

Let f (i : nat) := product_value (seq n0 mm) (deriv_iter idx (seq n0 mm) i (rpl, rN)) (insert_at idx 0%R y).
Lemma series_value i t : nth_error series i = Some t -> product_value (seq n0 mm) t y = (/ INR (fact i) * f i)%R.
Proof.
  intros E. assert (Q := expand_nth idx idx (seq n0 mm) (rpl, rN) _ i t idx_lt idx_notin rpl_ok rz E y Ly).
  change idx with (n0 + mm) in Q at 1. rewrite skip_seq in Q. exact Q.
Qed.
Lemma sum_terms s : (0 < s)%R -> Rsum (map (fun et : R * (list repoly * rpoly) => (Rpower s (fst et) * product_value (seq n0 mm) (snd et) y)%R) terms) =
  (Rpower (Rpower s (/ IZR vn)) lowest * tpoly (length series) f (Rpower s (/ IZR vn)))%R.
Proof.
  intros Hs. rewrite terms_eq, map_map. cbn [fst snd]. unfold tpoly. rewrite <- Rsum_scal.
  assert (Q : forall l k, (forall i t, nth_error l i = Some t -> product_value (seq n0 mm) t y = (/ INR (fact (k + i)) * f (k + i))%R) ->
    Rsum (map (fun it : nat * (list repoly * rpoly) => (Rpower s ((lowest + INR (fst it)) / IZR vn) * product_value (seq n0 mm) (snd it) y)%R) (combine (seq k (length l)) l)) =
    Rsum (map (fun i => (Rpower (Rpower s (/ IZR vn)) lowest * (f i * (/ INR (fact i) * Rpower s (/ IZR vn) ^ i)))%R) (seq k (length l)))).
  { induction l as [|t l IH]; intros k H; [reflexivity|]. cbn [length seq combine map fst snd]. rewrite !Rsum_cons. rewrite (IH (Datatypes.S k)); [|intros i t' E; rewrite (H (Datatypes.S i) t' E); replace (k + Datatypes.S i) with (Datatypes.S k + i) by lia; reflexivity].
    f_equal. rewrite (H O t eq_refl), Nat.add_0_r. rewrite <- (Rpower_pow k) by apply exp_pos. rewrite !Rpower_root by assumption.
    replace ((lowest + INR k) / IZR vn)%R with (lowest / IZR vn + INR k / IZR vn)%R by (unfold Rdiv; ring). rewrite Rpower_plus. ring. }
  apply (Q series 0). intros i t E. apply series_value, E.
Qed.
Lemma integrand_eq s : (0 < s)%R -> Forall (fun Pa : repoly => (0 < @peval R_Fld (fst Pa) (region_vars u mm (Rpower s (/ IZR vn))))%R) rpl ->
  (product_value (seq n0 mm) (vpl, N) (region_vars (rescaled vu vn u s) mm s) * Rpower s (IZR (fold_right Z.add 0%Z vu) / IZR vn) =
   Rpower (Rpower s (/ IZR vn)) lowest * product_value (seq n0 mm) (rpl, rN) (region_vars u mm (Rpower s (/ IZR vn))))%R.
Proof.
  intros Hs POS. assert (Q := region_identity vu vn pl N ms mN Hms HmN HPl HN value u (Rpower s (/ IZR vn)) Lu NZ (exp_pos _) POS).
  fold n0 mm in Q. rewrite zpow_root1, scaled_rescaled in Q by assumption.
  fold vpl in Q. rewrite Q. rewrite <- Rpower_root by assumption. unfold lowest. rewrite (Rpower_plus _ (IZR (fold_right Z.add 0%Z vu))). 
  change (n0 + mm) with idx. change (vu ++ ms ++ [vn]) with region'. fold rp rN rpl. generalize (product_value (seq n0 mm) (rpl, rN) (region_vars u mm (Rpower s (/ IZR vn)))). intros z. rring.
Qed.
Theorem region_remainder : exists M del, (0 < del)%R /\ forall s, (0 < s <= del)%R ->
  (Rabs (product_value (seq n0 mm) (vpl, N) (region_vars (rescaled vu vn u s) mm s) * Rpower s (IZR (fold_right Z.add 0%Z vu) / IZR vn) -
         Rsum (map (fun et : R * (list repoly * rpoly) => (Rpower s (fst et) * product_value (seq n0 mm) (snd et) y)%R) terms)) <= M * Rpower s ((lowest + INR first_missing) / IZR vn))%R.
Proof.
  destruct (remainder_bound idx idx (seq n0 mm) (rpl, rN) y idx_lt idx_notin rpl_ok Ly rpl_pos0 first_missing) as (M & del & Hd & HB).
  set (del' := Rmin del 1). assert (D1 : (0 < del' <= 1)%R) by (unfold del'; split; [apply Rmin_glb_lt; lra|apply Rmin_r]). 
  exists M, (Rpower del' (IZR vn)). split; [apply exp_pos|]. intros s [Hs Hs2].
  set (t := Rpower s (/ IZR vn)). assert (Ht : (0 < t)%R) by apply exp_pos.
  assert (Vp : (0 < IZR vn)%R) by (apply (IZR_lt 0); exact Hvn).
  assert (Htd : (t <= del)%R).
  { apply Rle_trans with del'; [|unfold del'; apply Rmin_l]. unfold t. replace del' with (Rpower (Rpower del' (IZR vn)) (/ IZR vn)).
    - apply Rle_Rpower_l; [left; apply Rinv_0_lt_compat; exact Vp|split; assumption].
    - rewrite Rpower_mult, Rinv_r by lra. apply Rpower_1. lra. }
  assert (HB' := HB t ltac:(rewrite Rabs_pos_eq; lra)). destruct HB' as [[_ POS] HB'].
  assert (EI : forall r, insert_at idx r y = region_vars u mm r) by (intros r; apply insert_region, Lu). rewrite EI in HB'. cbn [fst] in POS. rewrite EI in POS.
  rewrite (integrand_eq s Hs POS), (sum_terms s Hs). fold t. rewrite <- Rmult_minus_distr_l, Rabs_mult.
  rewrite (Rabs_pos_eq (Rpower t lowest)) by (left; apply exp_pos).
  replace ((lowest + INR first_missing) / IZR vn)%R with (/ IZR vn * (lowest + INR first_missing))%R by (unfold Rdiv; ring). rewrite <- Rpower_mult. fold t. rewrite Rpower_plus.
  rewrite <- Rmult_assoc, (Rmult_comm M), Rmult_assoc. apply Rmult_le_compat_l; [left; apply exp_pos|].
  rewrite (Rpower_pow first_missing) by exact Ht. rewrite (Rabs_pos_eq t) in HB' by lra.
  assert (LS : length series = Z.to_nat (Qfloor (@region_order R_Fld n0 region order d) + 1)) by apply expand_length.
  destruct order_eq as [E|(E & PO & TI)]; rewrite E in LS.
  - change (Z.to_nat (Qfloor o + 1)) with first_missing in LS. rewrite LS. exact HB'.
  - change (Qfloor 0) with 0%Z in LS. cbn in LS. change (Pos.to_nat 1) with 1%nat in LS. rewrite LS.
    assert (E1 : tpoly 1 f t = product_value (seq n0 mm) (rpl, rN) (region_vars u mm t)).
    { unfold tpoly, Rsum. cbn [seq map fold_right fact INR pow]. unfold f. cbn [deriv_iter]. rewrite EI.
      assert (TIf := proj1 (forallb_forall _ _) TI).
      assert (BV : forall Pa : repoly, In Pa rpl -> @peval R_Fld (fst Pa) (region_vars u mm 0) = @peval R_Fld (fst Pa) (region_vars u mm t)).
      { intros Pa I. unfold region_vars. rewrite !app_assoc. apply (indep_eval idx); [|apply TIf; apply in_or_app; left|rewrite app_length, repeat_length, Lu; reflexivity].
        - destruct rpl_ok as (_ & _ & _ & _ & A). cbn [fst] in A. rewrite Forall_forall in A. apply (A Pa I).
        - unfold rpl in I. apply in_map_iff in I. destruct I as (Pb & <- & Ib). cbn [fst]. apply in_map, Ib. }
      assert (PV : powers_value rpl (region_vars u mm 0) = powers_value rpl (region_vars u mm t)).
      { unfold powers_value. f_equal. apply map_ext_in. intros Pa I. rewrite (BV Pa I). reflexivity. }
      assert (LR : length rpl = mm) by (unfold rpl; rewrite map_length; exact rp_length).
      assert (NV : @peval R_Fld rN (fill (seq n0 mm) rpl (region_vars u mm 0)) = @peval R_Fld rN (fill (seq n0 mm) rpl (region_vars u mm t))).
      { assert (F0 := fill_closed n0 rpl u 0%R Lu). assert (F1 := fill_closed n0 rpl u t Lu). rewrite LR in F0, F1. rewrite F0, F1.
        rewrite <- (map_ext_in _ _ _ BV). rewrite !app_assoc. apply (indep_eval idx); [apply rpl_ok|apply TIf; apply in_or_app; right; left; reflexivity|rewrite app_length, map_length; exact (f_equal2 Nat.add Lu LR)]. }
      unfold product_value. cbn [fst snd]. rewrite PV, NV. field. }
    rewrite E1, Rminus_diag_eq, Rabs_R0 by reflexivity.
    assert (Pt : (0 < t ^ first_missing)%R) by (apply pow_lt, Ht). assert (A0 := Rabs_pos (product_value (seq n0 mm) (rpl, rN) (region_vars u mm t) - tpoly first_missing (fun i => product_value (seq n0 mm) (deriv_iter idx (seq n0 mm) i (rpl, rN)) (region_vars u mm 0)) t)).
    rewrite EI in HB'. lra.
Qed.
End Final.
