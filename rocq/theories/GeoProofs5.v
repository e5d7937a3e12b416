(** geometric_decomposition and geometric_decomposition_ku: all subsectors. *)
From Verif Require Export GeoProofs4.
Local Open Scope nat_scope.

Lemma find_row_in v rows : In v rows -> find_row v rows < length rows /\ nth (find_row v rows) rows [] = v.
Proof.
  intros H. unfold find_row. destruct (find (fun k => roweqb v (nth k rows [])) (seq 0 (length rows))) as [k|] eqn:E.
  - apply find_some in E as [Hk E]. apply in_seq in Hk. apply roweqb_spec in E. split; [lia|symmetry; exact E].
  - exfalso. apply (In_nth _ _ []) in H as (k & Hk & Ek). pose proof (find_none _ _ E k) as Hn. cbv beta in Hn. rewrite Ek, roweqb_refl in Hn. specialize (Hn ltac:(apply in_seq; lia)). discriminate.
Qed.
Lemma in_product_lists {A} (ls : list (list A)) : forall f, In f (product_lists ls) <-> Forall2 (fun a l => In a l) f ls.
Proof.
  induction ls as [|l ls IH]; intros f; cbn [product_lists].
  - split; [intros [<-|[]]; constructor|intros H; inversion H; left; reflexivity].
  - rewrite in_flat_map. split.
    + intros (a & Ha & H). apply in_map_iff in H as (g & <- & Hg). apply IH in Hg. constructor; assumption.
    + intros H. inversion H as [|a l' g ls' Ha Hg]; subst. exists a. split; [exact Ha|]. apply in_map, IH, Hg.
Qed.
Lemma Forall2_in_l {A B} (P : A -> B -> Prop) l l' a : Forall2 P l l' -> In a l -> exists b, In b l' /\ P a b.
Proof. induction 1 as [|x y l l' H _ IH]; intros []; [subst; exists y; split; [left; reflexivity|exact H]|]. destruct IH as (b & Hb & Hp); [assumption|]. exists b. split; [right; exact Hb|exact Hp]. Qed.
Lemma Forall2_in_r {A B} (P : A -> B -> Prop) l l' b : Forall2 P l l' -> In b l' -> exists a, In a l /\ P a b.
Proof. induction 1 as [|x y l l' H _ IH]; intros []; [subst; exists x; split; [left; reflexivity|exact H]|]. destruct IH as (a & Ha & Hp); [assumption|]. exists a. split; [right; exact Ha|exact Hp]. Qed.
Lemma Forall2_in_combine {A B} (P : A -> B -> Prop) l l' a b : Forall2 P l l' -> In (a, b) (combine l l') -> P a b.
Proof. induction 1 as [|x y l l' H _ IH]; intros Hi; [destruct Hi|]. destruct Hi as [E|Hi]; [injection E as <- <-; exact H|apply IH, Hi]. Qed.
Lemma Forall2_conj {A B} (P Q : A -> B -> Prop) l l' : Forall2 P l l' -> Forall2 Q l l' -> Forall2 (fun a b => P a b /\ Q a b) l l'.
Proof. induction 1; intros H2; inversion H2; subst; constructor; auto. Qed.
Lemma Forall2_forall_nat {A B} (P : nat -> A -> B -> Prop) k l l' : Forall2 (fun _ _ => True) l l' -> (forall b, b < k -> Forall2 (P b) l l') -> Forall2 (fun x y => forall b, b < k -> P b x y) l l'.
Proof.
  induction 1 as [|x y l l' _ H IH]; intros HP; constructor.
  - intros b Hb. specialize (HP b Hb). inversion HP; assumption.
  - apply IH. intros b Hb. specialize (HP b Hb). inversion HP; assumption.
Qed.
Lemma Forall2_true {A B} (P : A -> B -> Prop) l l' : Forall2 P l l' -> Forall2 (fun _ _ => True) l l'.
Proof. induction 1; constructor; auto. Qed.

Section Fan.
Variable F : Fld.
Local Open Scope fld_scope.
Notation Poly := (poly F).
Add Field Ffield_geo5 : (@f_th F).
Hypothesis char0 : forall k, @natF F (S k) <> 0.

Lemma lin_ones_count r (rows : list (list Z)) : lin (fun e => if roweqb e r then 1 else 0) (map (fun r => (r, 1 : car F)) rows) = @natF F (length (filter (fun e => roweqb e r) rows)).
Proof.
  induction rows as [|a rows IH]; [reflexivity|]. cbn [map filter]. rewrite lin_cons, IH. cbn [fst snd]. destruct (roweqb a r); cbn [length natF]; ring.
Qed.
Lemma lin_ind_present r (ts : list (term F)) : lin (fun e => if roweqb e r then 1 else 0) ts <> 0 -> In r (map fst ts).
Proof.
  intros H. destruct (in_dec row_dec r (map fst ts)) as [|Hno]; [assumption|exfalso]. apply H, lin_ind_notin, Forall_forall. intros t Ht.
  destruct (roweqb (fst t) r) eqn:E; [|reflexivity]. apply roweqb_spec in E. exfalso. apply Hno. rewrite <- E. apply in_map, Ht.
Qed.
Definition debad (t : term F) : term F := (fst t, if bad_hyperplane (fst t) then 0 else snd t).
Lemma lin_debad r (ts : list (term F)) : bad_hyperplane r = false -> lin (fun e => if roweqb e r then 1 else 0) (map debad ts) = lin (fun e => if roweqb e r then 1 else 0) ts.
Proof.
  intros Hb. induction ts as [|t ts IH]; [reflexivity|]. cbn [map]. rewrite !lin_cons, IH. f_equal. unfold debad. cbn [fst snd].
  destruct (roweqb (fst t) r) eqn:E; [apply roweqb_spec in E; rewrite E, Hb; reflexivity|]. destruct (bad_hyperplane (fst t)); ring.
Qed.
Lemma fan_cone_total n (ps : list Poly) f : exists c, fan_cone n ps f = Some c.
Proof. unfold fan_cone, psub_or_add. cbn [pnv]. rewrite Nat.eqb_refl. eexists. reflexivity. Qed.
(** a good row of the list or of the identity is kept *)
Lemma fan_cone_good n (ps : list Poly) f c r : fan_cone n ps f = Some c -> In r (fan_rows ps f ++ identity_matrix n) -> bad_hyperplane r = false -> In r c.
Proof.
  intros E Hr Hb. unfold fan_cone, psub_or_add in E. cbn [pnv] in E. rewrite Nat.eqb_refl in E. injection E as <-. apply lin_ind_present. rewrite psimplify_lin. cbn [ptm pnv].
  change (map (fun t : term F => (fst t, if bad_hyperplane (fst t) then 0 else snd t))) with (map debad).
  rewrite lin_debad by exact Hb. rewrite psimplify_lin. cbn [ptm]. rewrite <- map_app, lin_ones_count.
  assert (Hin : In r (filter (fun e => roweqb e r) (fan_rows ps f ++ identity_matrix n))) by (apply filter_In; split; [exact Hr|apply roweqb_refl]).
  destruct (filter _ _) as [|a l]; [destruct Hin|]. cbn [length]. apply char0.
Qed.
Lemma unit_good n i : (i < n)%nat -> bad_hyperplane (unit_row n i) = false.
Proof.
  intros Hi. unfold bad_hyperplane. apply orb_false_iff. split.
  - rewrite unit_row_length. destruct (Nat.ltb_spec 1 n) as [Hn|]; [|reflexivity]. cbn [andb]. apply not_true_is_false. intros H. rewrite forallb_forall in H.
    set (j := if Nat.eqb i 0 then 1%nat else 0%nat). assert (Hj : (j < n)%nat /\ j <> i) by (unfold j; destruct (Nat.eqb_spec i 0); lia).
    specialize (H (getZ j (unit_row n i))). rewrite unit_row_get in H by exact Hi. destruct (Nat.eqb_spec i j); [lia|].
    assert (K : In 0%Z (unit_row n i)).
    { replace 0%Z with (getZ j (unit_row n i)) by (rewrite unit_row_get by exact Hi; destruct (Nat.eqb_spec i j); [lia|reflexivity]). apply nth_In. rewrite unit_row_length. lia. }
    specialize (H K). discriminate.
  - apply not_true_is_false. intros H. rewrite forallb_forall in H. assert (K : In 1%Z (unit_row n i)).
    { replace 1%Z with (getZ i (unit_row n i)) by (rewrite unit_row_get by exact Hi; rewrite Nat.eqb_refl; reflexivity). apply nth_In. rewrite unit_row_length. exact Hi. }
    specialize (H _ K). discriminate.
Qed.
Lemma dotZ_unit n i w : (i < n)%nat -> length w = n -> dotZ (unit_row n i) w = getZ i w.
Proof.
  intros Hi Hw. rewrite (dotZ_sum _ _ n) by (rewrite ?unit_row_length; auto). rewrite <- (sumZ_delta n i (fun j => getZ j w) Hi). apply sumZ_ext. intros j _.
  rewrite unit_row_get by exact Hi. rewrite (Nat.eqb_sym i j). destruct (Nat.eqb j i); lia.
Qed.
Lemma sumZ_nonneg {A} (f : A -> Z) l : (forall a, In a l -> (0 <= f a)%Z) -> (0 <= sumZ (map f l))%Z.
Proof. induction l as [|a l IH]; intros H; cbn [map]; [cbn; lia|]. rewrite sumZ_cons. pose proof (H a (or_introl eq_refl)). specialize (IH (fun b Hb => H b (or_intror Hb))). lia. Qed.
Lemma dotZ_nonneg a b : length a = length b -> Forall (fun k => (0 <= k)%Z) a -> Forall (fun k => (0 <= k)%Z) b -> (0 <= dotZ a b)%Z.
Proof.
  intros HL Ha Hb. rewrite (dotZ_sum _ _ (length a)) by auto. rewrite Forall_forall in Ha, Hb. apply sumZ_nonneg. intros j Hj. apply in_seq in Hj.
  apply Z.mul_nonneg_nonneg; [apply Ha, nth_In; lia|apply Hb, nth_In; lia].
Qed.
(** every difference of exponents is nonnegative on the dual cone *)
Lemma fan_cone_dual n (ps : list Poly) f c w : fan_cone n ps f = Some c -> length w = n -> (forall h, In h c -> (0 <= dotZ h w)%Z) ->
  Forall (fun k => (0 <= k)%Z) w /\ forall r, In r (fan_rows ps f) -> length r = n -> (0 <= dotZ r w)%Z.
Proof.
  intros E Hw Hc.
  assert (Hpos : Forall (fun k => (0 <= k)%Z) w).
  { apply Forall_forall. intros k Hk. apply (In_nth _ _ 0%Z) in Hk as (j & Hj & <-). change (0 <= getZ j w)%Z. rewrite Hw in Hj. rewrite <- (dotZ_unit n j w Hj Hw). apply Hc.
    eapply fan_cone_good; [exact E| |apply unit_good, Hj]. apply in_or_app. right. apply in_map, in_seq. lia. }
  split; [exact Hpos|]. intros r Hr Hl. destruct (bad_hyperplane r) eqn:Eb.
  - assert (Hr0 : Forall (fun k => (0 <= k)%Z) r).
    { unfold bad_hyperplane in Eb. apply orb_true_iff in Eb as [Eb|Eb]; [apply andb_true_iff in Eb as [_ Eb]|]; rewrite forallb_forall in Eb; apply Forall_forall; intros k Hk; specialize (Eb k Hk); lia. }
    apply dotZ_nonneg; auto. congruence.
  - apply Hc. eapply fan_cone_good; [exact E|apply in_or_app; left; exact Hr|exact Eb].
Qed.
Lemma dotZ_row_sub a b w n : length a = n -> length b = n -> length w = n -> dotZ (row_sub a b) w = (dotZ a w - dotZ b w)%Z.
Proof.
  intros Ha Hb Hw. assert (L : length (row_sub a b) = n) by (unfold row_sub; rewrite map_length, combine_length; lia).
  rewrite !(dotZ_sum _ _ n) by auto. assert (E : forall x y, (x - y = x + -1 * y)%Z) by (intros; lia). rewrite E, <- sumZ_scale, <- sumZ_plus. apply sumZ_ext. intros j Hj. apply in_seq in Hj. rewrite getZ_row_sub by lia. lia.
Qed.
Lemma ku_min (s : sector F) n idx f c rays : swf n s -> Forall (fun k => (k < n)%nat) idx ->
  In f (product_lists (map (fun p => map fst (ptm p)) (map (fun q => restrict_poly idx (snd q)) (scast s)))) ->
  fan_cone (length idx) (map (fun q => restrict_poly idx (snd q)) (scast s)) f = Some c ->
  length rays = length idx -> Forall (fun r => length r = length idx /\ forall h, In h c -> (0 <= dotZ h r)%Z) rays ->
  Forall (fun q => exists t0, In t0 (ptm (snd q)) /\ forall b, (b < length idx)%nat -> forall t, In t (ptm (snd q)) ->
     (dotZ (take_cols idx (fst t0)) (colZ b (transposeZ (length idx) rays)) <= dotZ (take_cols idx (fst t)) (colZ b (transposeZ (length idx) rays)))%Z) (scast s).
Proof.
  intros Hs Hr Hf Ec HL Hrays. apply in_product_lists in Hf.
  assert (Hcol : forall b, (b < length idx)%nat -> colZ b (transposeZ (length idx) rays) = nth b rays [] /\ length (nth b rays []) = length idx /\ forall h, In h c -> (0 <= dotZ h (nth b rays []))%Z).
  { intros b Hb. rewrite Forall_forall in Hrays. split; [apply colZ_transpose; [apply Forall_forall; intros r Hi; apply (Hrays r Hi)|lia]|]. apply Hrays, nth_In. lia. }
  assert (Hrows : forall r, In r (fan_rows (map (fun q => restrict_poly idx (snd q)) (scast s)) f) -> forall b, (b < length idx)%nat -> length r = length idx -> (0 <= dotZ r (nth b rays []))%Z).
  { intros r Hi b Hb Hl. destruct (Hcol b Hb) as (_ & H2 & H3). exact (proj2 (fan_cone_dual _ _ _ _ _ Ec H2 H3) r Hi Hl). }
  clear Ec Hrays. apply Forall_forall. intros q Hq.
  assert (K : exists t0, In t0 (ptm (snd q)) /\ forall t, In t (ptm (snd q)) -> In (row_sub (take_cols idx (fst t)) (take_cols idx (fst t0))) (fan_rows (map (fun q => restrict_poly idx (snd q)) (scast s)) f)).
  { clear Hrows Hs. revert f Hf. induction (scast s) as [|q' l IH]; intros f Hf; [destruct Hq|]. cbn [map] in Hf. inversion Hf as [|e ? f' ? He Hf']; subst.
    destruct Hq as [->|Hq].
    - rewrite in_map_iff in He. destruct He as (u & <- & Hu). unfold restrict_poly in Hu. cbn [ptm] in Hu. apply in_map_iff in Hu as (t0 & <- & Ht0). cbn [fst]. exists t0. split; [exact Ht0|].
      intros t Ht. unfold fan_rows. cbn [map combine flat_map fst snd]. apply in_or_app. left. apply in_map_iff. exists (take_cols idx (fst t), snd t). split; [reflexivity|].
      unfold restrict_poly. cbn [ptm]. apply in_map_iff. exists t. auto.
    - destruct (IH Hq f' Hf') as (t0 & H1 & H2). exists t0. split; [exact H1|]. intros t Ht. unfold fan_rows. cbn [map combine flat_map fst snd]. apply in_or_app. right. apply H2, Ht. }
  destruct K as (t0 & Ht0 & K). exists t0. split; [exact Ht0|]. intros b Hb t Ht. destruct (Hcol b Hb) as (-> & H2 & _).
  assert (Hl : length (row_sub (take_cols idx (fst t)) (take_cols idx (fst t0))) = length idx) by (unfold row_sub; rewrite map_length, combine_length, !take_cols_length; lia).
  specialize (Hrows _ (K t Ht) b Hb Hl). rewrite (dotZ_row_sub _ _ _ (length idx)) in Hrows by (rewrite ?take_cols_length; auto). lia.
Qed.

(** geometric_decomposition_ku *)
Lemma generate_fan_in (ps : list Poly) c : In c (generate_fan ps) -> exists f, In f (product_lists (map (fun p => map fst (ptm p)) ps)) /\ fan_cone (match ps with [] => 0%nat | p :: _ => pnv p end) ps f = Some c.
Proof.
  unfold generate_fan. intros H. apply filter_In in H as [H _]. apply in_flat_map in H as (f & Hf & H). destruct (fan_cone _ ps f) as [c'|] eqn:E; [|destruct H]. destruct H as [->|[]]. exists f. split; [exact Hf|exact E].
Qed.
Lemma ku_correct n (s : sector F) idx dual s' : scast s <> [] -> swf n s -> NoDup idx -> Forall (fun k => (k < n)%nat) idx ->
  (forall cone, In cone (generate_fan (map (fun q => restrict_poly idx (snd q)) (scast s))) -> Forall (Forall (fun r => length r = length idx /\ forall h, In h cone -> (0 <= dotZ h r)%Z)) (dual cone)) ->
  In s' (geometric_decomposition_ku s idx dual) ->
  exists cone rays, In cone (generate_fan (map (fun q => restrict_poly idx (snd q)) (scast s))) /\ In rays (dual cone) /\
    is_matrix (length idx) (length idx) (transposeZ (length idx) rays) /\ s' = make_sector_ku s idx (transposeZ (length idx) rays) /\
    geo_transformed F n idx (transposeZ (length idx) rays) (zF (abs_det (transposeZ (length idx) rays))) s s' /\ standard_form idx s'.
Proof.
  intros Hne Hs Hn Hr Hdual H. unfold geometric_decomposition_ku in H. apply in_flat_map in H as (cone & Hcone & H). apply in_map_iff in H as (rays & <- & H). apply filter_In in H as [Hrays HL]. apply Nat.eqb_eq in HL.
  specialize (Hdual cone Hcone). rewrite Forall_forall in Hdual. specialize (Hdual rays Hrays).
  assert (HC : is_matrix (length idx) (length idx) (transposeZ (length idx) rays)) by (rewrite <- HL at 2; apply transpose_matrix).
  exists cone, rays. split; [exact Hcone|]. split; [exact Hrays|]. split; [exact HC|]. split; [reflexivity|]. split; [apply make_sector_ku_correct; assumption|].
  destruct (generate_fan_in _ _ Hcone) as (f & Hf & Ec).
  assert (En : match map (fun q => restrict_poly idx (snd q)) (scast s) with [] => 0%nat | p :: _ => pnv p end = length idx).
  { destruct (scast s); [congruence|reflexivity]. }
  rewrite En in Ec. pose proof (ku_min s n idx f cone rays Hs Hr Hf Ec HL Hdual) as Hmin.
  assert (Hnv : sector_nv s = n).
  { destruct (swf_get F n s Hs) as (H1 & _ & _). unfold sector_nv. destruct (scast s) as [|c l] eqn:E; [congruence|]. apply (H1 c). left; reflexivity. }
  eapply standard_from_min; eauto. unfold make_sector_ku. rewrite Hnv. reflexivity.
Qed.

(** geometric_decomposition *)
Lemma geo_min n (s : sector F) idx pts vtx cidx facets rays : swf n s -> scast s <> [] -> NoDup idx -> Forall (fun k => (k < n)%nat) idx ->
  Forall (fun q => distinct_terms (restrict_poly idx (snd q))) (scast s) ->
  convex_hull (map (fun q => restrict_poly idx (snd q)) (scast s)) = Some pts ->
  Forall (fun f => length f = S (length idx) /\ forall v, In v pts -> (0 <= dotZ v (removelast f) + last f 0)%Z) facets ->
  In vtx pts -> Forall (fun k => (k < length facets)%nat /\ (dotZ vtx (removelast (nth k facets [])) + last (nth k facets []) 0 = 0)%Z) cidx ->
  rays = map (fun k => removelast (nth k facets [])) cidx -> length cidx = length idx ->
  Forall (fun q => exists t0, In t0 (ptm (snd q)) /\ forall b, (b < length idx)%nat -> forall t, In t (ptm (snd q)) ->
     (dotZ (take_cols idx (fst t0)) (colZ b (transposeZ (length idx) rays)) <= dotZ (take_cols idx (fst t)) (colZ b (transposeZ (length idx) rays)))%Z) (scast s).
Proof.
  intros Hs Hne Hn Hr Hd Hpts Hfac Hv Hc -> HL.
  destruct (swf_get F n s Hs) as (H1 & _ & _).
  set (ps := map (fun q => restrict_poly idx (snd q)) (scast s)) in *.
  assert (Hw : Forall (fun p => pnv p = length idx /\ pwf p) ps).
  { unfold ps. apply Forall_map, Forall_forall. intros q _. split; [reflexivity|]. unfold pwf, restrict_poly. cbn [ptm pnv]. apply Forall_map, Forall_forall. intros t _. apply take_cols_length. }
  assert (Hd' : Forall distinct_terms ps) by (unfold ps; apply Forall_map; exact Hd).
  assert (Eps : exists p0 ps', ps = p0 :: ps') by (unfold ps; destruct (scast s); [congruence|cbn [map]; eauto]). destruct Eps as (p0 & ps' & Eps). rewrite Eps in *.
  pose proof (out_minkowski F char0 _ p0 ps' Hw Hd' pts Hpts vtx Hv) as (es & Hes & Ev).
  assert (Hmin : forall b, (b < length idx)%nat -> Forall2 (fun e (p : Poly) => forall e', In e' (map fst (ptm p)) -> (dotZ e (removelast (nth (nth b cidx 0%nat) facets [])) <= dotZ e' (removelast (nth (nth b cidx 0%nat) facets [])))%Z) es (p0 :: ps')).
  { intros b Hb. rewrite Forall_forall in Hc, Hfac. destruct (Hc (nth b cidx 0%nat)) as [Hk E0]; [apply nth_In; lia|]. destruct (Hfac (nth (nth b cidx 0%nat) facets [])) as [Hl Hval]; [apply nth_In, Hk|].
    eapply (face_terms F char0 (length idx) p0 ps' Hw Hd' pts Hpts _ (last (nth (nth b cidx 0%nat) facets []) 0%Z) es); auto.
    - destruct (nth (nth b cidx 0%nat) facets []) as [|x l] using rev_ind; [discriminate|]. rewrite removelast_last. rewrite app_length in Hl. cbn in Hl. lia.
    - rewrite <- Ev. exact E0. }
  pose proof (Forall2_forall_nat (fun b e (p : Poly) => forall e', In e' (map fst (ptm p)) -> (dotZ e (removelast (nth (nth b cidx 0%nat) facets [])) <= dotZ e' (removelast (nth (nth b cidx 0%nat) facets [])))%Z) (length idx) es (p0 :: ps') (Forall2_true _ _ _ Hes) Hmin) as Hall.
  pose proof (Forall2_conj _ _ _ _ Hes Hall) as Hboth. apply Forall_forall. intros q Hq.
  destruct (Forall2_in_r _ _ _ (restrict_poly idx (snd q)) Hboth) as (e & _ & He & Hle); [rewrite <- Eps; unfold ps; apply in_map_iff; exists q; auto|].
  apply in_map_iff in He as (u & <- & Hu). unfold restrict_poly in Hu. cbn [ptm] in Hu. apply in_map_iff in Hu as (t0 & <- & Ht0). cbn [fst] in Hle. exists t0. split; [exact Ht0|].
  intros b Hb t Ht. assert (Hcb : (nth b cidx 0 < length facets)%nat) by (rewrite Forall_forall in Hc; apply Hc, nth_In; lia).
  rewrite colZ_transpose.
  - rewrite (nth_indep (map (fun k => removelast (nth k facets [])) cidx) [] ((fun k => removelast (nth k facets [])) 0%nat)) by (rewrite map_length; lia).
    rewrite (map_nth (fun k => removelast (nth k facets []))). apply Hle; [exact Hb|]. unfold restrict_poly. cbn [ptm]. rewrite map_map. cbn [fst]. apply in_map_iff. exists t. auto.
  - apply Forall_map, Forall_forall. intros k Hk. rewrite Forall_forall in Hc, Hfac. destruct (Hc k Hk) as [Hkl _]. destruct (Hfac (nth k facets []) ltac:(apply nth_In; exact Hkl)) as [Hl _].
    destruct (nth k facets []) as [|x l] using rev_ind; [discriminate|]. rewrite removelast_last. rewrite app_length in Hl. cbn in Hl. lia.
  - rewrite map_length. lia.
Qed.
End Fan.
