(** Properties C31-C34, C58-C60: geometric decomposition and expansion by regions. *)
From Coq Require Import QArith Qcanon Reals Lra.
From Verif Require Import DetTrans CubeInt GeoProofs7.
Local Open Scope nat_scope.

Definition qz (z : Z) : Qc_Fld := Q2Qc (inject_Z z).
Definition mon (e : list Z) : term Qc_Fld := (e, qz 1).
Lemma char0_Qc k : @natF Qc_Fld (S k) <> @f0 Qc_Fld.
Proof.
  assert (H : forall m, (this (@natF Qc_Fld m) == inject_Z (Z.of_nat m))%Q).
  { induction m as [|m IH]; [reflexivity|]. change (@natF Qc_Fld (S m)) with (1 + @natF Qc_Fld m)%Qc.
    assert (E : forall u v : Qc, (this (u + v)%Qc == this u + this v)%Q) by (intros u v; apply Qred_correct).
    rewrite E, IH, Nat2Z.inj_succ. unfold Z.succ. rewrite inject_Z_plus. change (this 1%Qc) with 1%Q. change (inject_Z 1) with 1%Q. ring. }
  intros E. specialize (H (S k)). rewrite E in H. change (this (@f0 Qc_Fld)) with 0%Q in H. unfold Qeq in H. cbn in H. lia.
Qed.

(** * C31 *)
Theorem C31_transform_value : forall (F : Fld) (p : PolyModel.poly F) m T y,
  pwf p -> is_matrix (pnv p) m T -> length y = m -> Forall (fun v => v <> f0) y ->
  pnv (transform_variables p m T) = m /\ peval (transform_variables p m T) y = peval p (mono_map T y).
Proof. intros F p m T y Hp HT Hy Hnz. split; [reflexivity|apply transform_eval; assumption]. Qed.
Print Assumptions C31_transform_value.
Theorem C31_composition : forall (F : Fld) (p : PolyModel.poly F) m k A B,
  pwf p -> is_matrix (pnv p) m A -> is_matrix m k B ->
  transform_variables (transform_variables p m A) k B = transform_variables p k (mat_prod k A B).
Proof.
  intros F p m k A B Hp HA HB. unfold transform_variables. cbn [ptm pnv]. f_equal. rewrite map_map. apply map_ext_in. intros t Ht. cbn [fst snd]. f_equal.
  unfold pwf in Hp. rewrite Forall_forall in Hp. apply (row_mul_assoc (pnv p) m); auto.
Qed.
Print Assumptions C31_composition.
Example C31_ex : let p := mkPoly (F:=Qc_Fld) 2 [([1; -1]%Z, qz 2); ([0; 3]%Z, qz 1)] in
  pwf p /\ is_matrix 2 3 [[1; 0; 2]; [0; 1; -1]]%Z /\ map fst (ptm (transform_variables p 3 [[1; 0; 2]; [0; 1; -1]]%Z)) = [[1; -1; 3]; [0; 3; -3]]%Z.
Proof. cbv zeta. split; [repeat constructor|]. split; [repeat constructor|]. reflexivity. Qed.

(** * C32 *)
Theorem C32_points_belong_to_product : forall (F : Fld), (forall k, @natF F (S k) <> f0) -> forall n p0 ps out,
  Forall (fun p : PolyModel.poly F => pnv p = n /\ pwf p /\ distinct_terms p) (p0 :: ps) -> convex_hull (p0 :: ps) = Some out ->
  forall v, In v out -> minkowski n (p0 :: ps) v.
Proof.
  intros F Hc n p0 ps out H E v Hv. eapply (out_minkowski F Hc n p0 ps); eauto; (eapply Forall_impl; [|exact H]); intros p (H1 & H2 & H3); auto.
Qed.
Print Assumptions C32_points_belong_to_product.
Theorem C32_contains_every_vertex : forall (F : Fld), (forall k, @natF F (S k) <> f0) -> forall n p0 ps,
  Forall (fun p : PolyModel.poly F => pnv p = n /\ pwf p /\ distinct_terms p) (p0 :: ps) ->
  exists out, convex_hull (p0 :: ps) = Some out /\ forall v, is_vertex (minkowski n (p0 :: ps)) v -> In v out.
Proof.
  intros F Hc n p0 ps H. assert (Hw : Forall (fun p : PolyModel.poly F => pnv p = n /\ pwf p) (p0 :: ps)) by (eapply Forall_impl; [|exact H]; intros p (H1 & H2 & H3); auto).
  assert (Hd : Forall distinct_terms (p0 :: ps)) by (eapply Forall_impl; [|exact H]; intros p (H1 & H2 & H3); auto).
  destruct (convex_hull_total F n p0 ps Hw) as (out & E). exists out. split; [exact E|]. intros v [Hv Hnc].
  destruct (in_dec row_dec v out) as [|Hno]; [assumption|exfalso].
  destruct (dropped_midpoint F Hc n p0 ps Hw Hd out E v Hv Hno) as (u & w & Hu & Hw' & Huw & Es).
  assert (Hlen : forall a, minkowski n (p0 :: ps) a -> length a = n) by (intros a (es & _ & ->); apply vec_sum_length).
  pose proof (Hlen v Hv) as Lv. pose proof (Hlen u Hu) as Lu. pose proof (Hlen w Hw') as Lw.
  assert (Hg : forall j, j < n -> (getZ j u + getZ j w = getZ j v + getZ j v)%Z) by (intros j Hj; rewrite <- !getZ_row_add by lia; rewrite Es; reflexivity).
  apply (Hnc [(/ 2, u); (/ 2, w)]%R).
  - repeat constructor; cbn [fst snd]; try lra; auto; intros ->; apply Huw; apply row_eq; try lia; intros j Hj; specialize (Hg j ltac:(lia)); lia.
  - cbn. lra.
  - intros j Hj. cbn [map fold_right fst snd]. rewrite Lv in Hj. specialize (Hg j Hj). apply (f_equal IZR) in Hg. rewrite !plus_IZR in Hg. lra.
Qed.
Print Assumptions C32_contains_every_vertex.
(** the coefficients play no role *)
Theorem C32_coefficients_irrelevant : forall (F : Fld) (ps qs : list (PolyModel.poly F)),
  Forall2 (fun p q => pnv p = pnv q /\ map fst (ptm p) = map fst (ptm q)) ps qs -> convex_hull ps = convex_hull qs.
Proof.
  intros F ps qs H. assert (E : forall p q : PolyModel.poly F, pnv p = pnv q /\ map fst (ptm p) = map fst (ptm q) -> ones p = ones q).
  { intros p q [H1 H2]. unfold ones. rewrite H1. f_equal. assert (G : forall l : list (term F), map (fun t => (fst t, @f1 F)) l = map (fun e => (e, @f1 F)) (map fst l)) by (intros l; rewrite map_map; reflexivity). rewrite !G, H2. reflexivity. }
  destruct H as [|p q ps qs Hpq H]; [reflexivity|]. unfold convex_hull. rewrite (E _ _ Hpq).
  replace (fold_left (fun acc p => match acc with Some a => pmul a (ones p) | None => None end) ps (Some (pmul_num (ones q) f1)))
    with (fold_left (fun acc p => match acc with Some a => pmul a (ones p) | None => None end) qs (Some (pmul_num (ones q) f1))); [reflexivity|].
  generalize (Some (pmul_num (ones q) (@f1 F))) as a. induction H as [|p' q' ps qs Hp' H IH]; intros a; [reflexivity|]. cbn [fold_left]. rewrite (E _ _ Hp'). apply IH.
Qed.
Print Assumptions C32_coefficients_irrelevant.
(** not for polynomials with repeated monomials: the vertex 2 of (2 x + 1) (x + 1) is lost *)
Theorem C32_repeated_monomials_refuted :
  let p := mkPoly 1 [mon [1]%Z; mon [1]%Z; mon [0]%Z] in let q := mkPoly 1 [mon [0]%Z; mon [1]%Z] in
  convex_hull [p; q] = Some [[0]%Z] /\ is_vertex (minkowski 1 [p; q]) [2]%Z.
Proof.
  cbv zeta. split; [vm_compute; reflexivity|]. split.
  - exists [[1]; [1]]%Z. split; [|reflexivity]. constructor; [left; reflexivity|]. constructor; [right; left; reflexivity|constructor].
  - intros ps Hps Hsum H. specialize (H 0 ltac:(cbn; lia)). cbn [getZ nth] in H.
    assert (Hle : Forall (fun p => (0 <= fst p)%R /\ (getZ 0 (snd p) <= 1)%Z) ps).
    { eapply Forall_impl; [|exact Hps]. intros [l u] (H1 & (es & Hes & Eu) & Hne). cbn [fst snd] in *. split; [exact H1|].
      inversion Hes as [|e1 q1 es1 l1 He1 Hes1]; subst. inversion Hes1 as [|e2 q2 es2 l2 He2 Hes2]; subst. inversion Hes2; subst. cbn in He1, He2.
      destruct He1 as [<-|[<-|[<-|[]]]], He2 as [<-|[<-|[]]]; cbn in *; try lia; congruence. }
    assert (K : forall l : list (R * list Z), Forall (fun p => (0 <= fst p)%R /\ (getZ 0 (snd p) <= 1)%Z) l -> (fold_right Rplus 0 (map (fun p => fst p * IZR (getZ 0 (snd p))) l) <= fold_right Rplus 0 (map fst l))%R).
    { induction 1 as [|[l u] ps' [H1 H2] _ IH]; cbn [map fold_right fst snd] in *; [lra|]. apply IZR_le in H2. nra. }
    specialize (K ps Hle). rewrite Hsum, H in K. lra.
Qed.
Example C32_ex : let p := mkPoly 2 [mon [1; 0]%Z; mon [0; 1]%Z] in let q := mkPoly 2 [mon [1; 0]%Z; mon [0; 1]%Z; mon [0; 0]%Z] in
  Forall (fun p => pnv p = 2 /\ pwf p /\ distinct_terms p) [p; q] /\ convex_hull [p; q] = Some [[0; 1]; [0; 2]; [1; 0]; [2; 0]]%Z.
Proof.
  cbv zeta. split; [|vm_compute; reflexivity]. repeat constructor; cbn; intuition discriminate.
Qed.

(** * C33 *)
(** [p'] is [p] with the parameter [i] set to one, which is removed unless it is the only one *)
Definition parameter_one {F : Fld} (n i : nat) (p p' : PolyModel.poly F) : Prop :=
  pnv p' = (if Nat.eqb n 1 then n else n - 1) /\
  forall x, length x = n -> peval p' (if Nat.eqb n 1 then x else delete_nth i x) = peval p (set_coord i f1 x).
Theorem C33_Cheng_Wu : forall (F : Fld) n (s : sector F) index i,
  scast s <> [] -> swf n s -> (-(Z.of_nat n) <= index < Z.of_nat n)%Z -> Z.of_nat i = (if Z.ltb index 0 then Z.of_nat n + index else index)%Z ->
  Forall2 (fun c c' => parameter_one n i (fst c) (fst c') /\ parameter_one n i (snd c) (snd c')) (scast s) (scast (Cheng_Wu s index)) /\
  Forall2 (parameter_one n i) (sother s) (sother (Cheng_Wu s index)) /\ parameter_one n i (sjac s) (sjac (Cheng_Wu s index)).
Proof.
  intros F n s index i Hne Hs Hr Ei. destruct (swf_get F n s Hs) as (H1 & H2 & H3).
  assert (Hnv : sector_nv s = n) by (unfold sector_nv; destruct (scast s) as [|c l] eqn:E; [congruence|]; apply (H1 c); left; reflexivity).
  assert (Hi : norm_index n index = i) by (unfold norm_index; rewrite <- Ei; apply Nat2Z.id).
  assert (Hin : i < n) by (destruct (Z.ltb_spec index 0); lia).
  assert (G : forall p : PolyModel.poly F, pnv p = n /\ pwf p /\ ptm p <> [] -> parameter_one n i p (preplace p i f1 (negb (Nat.eqb n 1)))).
  { intros p (E & W & _). assert (Hok : replace_ok p i f1) by (apply Forall_forall; intros t _; left; apply F1_neq_0). unfold parameter_one. destruct (Nat.eqb n 1); cbn [negb].
    - split; [cbn; exact E|]. intros x Hx. apply preplace_eval; auto; lia.
    - split; [cbn; lia|]. intros x Hx. apply preplace_remove_eval; auto; lia. }
  unfold Cheng_Wu. rewrite Hnv, Hi. cbv zeta. cbn [scast sother sjac]. split; [|split; [|apply G, H3]]; apply Forall2_map_r; intros c Hc; cbn [fst snd]; [split; apply G, (H1 c), Hc|apply G, H2, Hc].
Qed.
Print Assumptions C33_Cheng_Wu.
Definition ex_s : sector Qc_Fld := mkSector [(pconst 2 (qz 1), mkPoly 2 [mon [1;0]%Z; mon [0;1]%Z])] [] (pconst 2 (qz 1)).
Lemma ex_s_wf : swf 2 ex_s.
Proof. unfold swf. cbn. repeat (constructor; [split; [reflexivity|split; [repeat constructor|discriminate]]|]). constructor. Qed.
Example C33_ex : swf 2 ex_s /\ scast ex_s <> [] /\ map (fun c => map fst (ptm (snd c))) (scast (Cheng_Wu ex_s (-1))) = [[[1]; [0]]%Z].
Proof. split; [exact ex_s_wf|]. split; [discriminate|reflexivity]. Qed.

(** * C34 *)
Theorem C34_apply_region : forall (F : Fld) i v (p : PolyModel.poly F) x, pwf p -> i < pnv p -> length v = pnv p -> length x = pnv p -> Forall (fun a => a <> f0) x ->
  pnv (apply_region i v p) = pnv p /\ peval (apply_region i v p) x = peval p (region_point i v x).
Proof. intros. split; [reflexivity|apply apply_region_eval; assumption]. Qed.
Print Assumptions C34_apply_region.
(** only the smallness parameter's exponent changes *)
Theorem C34_other_exponents : forall (F : Fld) i v (p : PolyModel.poly F), pwf p -> i < pnv p ->
  Forall2 (fun t t' => snd t' = snd t /\ getZ i (fst t') = dotZ (fst t) v /\ forall j, j <> i -> getZ j (fst t') = getZ j (fst t)) (ptm p) (ptm (apply_region i v p)).
Proof.
  intros F i v p Hp Hi. unfold apply_region. cbn [ptm]. apply Forall2_map_r. intros t Ht. cbn [fst snd]. unfold pwf in Hp. rewrite Forall_forall in Hp. specialize (Hp t Ht). cbv beta in Hp. split; [reflexivity|].
  split; [rewrite getZ_upd by lia; rewrite Nat.eqb_refl; reflexivity|]. intros j Hj. rewrite getZ_upd by lia. destruct (Nat.eqb_spec i j); [lia|reflexivity].
Qed.
Print Assumptions C34_other_exponents.
Example C34_ex : map fst (ptm (apply_region 2 [1; 0; 2]%Z (mkPoly 3 [mon [1; 1; 0]%Z; mon [0; 2; 3]%Z]))) = [[1; 1; 1]; [0; 2; 6]]%Z.
Proof. reflexivity. Qed.

(** * C58 *)
(** the rays (columns of the transformation) belong to one cone of the fan; the subsector is the sector after the
    monomial substitution, with the Jacobian |det| prod x / prod y (see [C58_jacobian_determinant]); it is in standard form *)
Theorem C58_geometric_ku : forall (F : Fld), (forall k, @natF F (S k) <> f0) -> forall n (s : sector F) idx dual s',
  scast s <> [] -> swf n s -> NoDup idx -> Forall (fun k => k < n) idx ->
  (* what normaliz returns for a cone: simplicial cones with rays in the dual cone *)
  (forall cone, In cone (generate_fan (map (fun q => restrict_poly idx (snd q)) (scast s))) ->
     Forall (Forall (fun r => length r = length idx /\ forall h, In h cone -> (0 <= dotZ h r)%Z)) (dual cone)) ->
  In s' (geometric_decomposition_ku s idx dual) ->
  exists cone rays, In cone (generate_fan (map (fun q => restrict_poly idx (snd q)) (scast s))) /\ In rays (dual cone) /\
    is_matrix (length idx) (length idx) (transposeZ (length idx) rays) /\
    geo_transformed F n idx (transposeZ (length idx) rays) (zF (abs_det (transposeZ (length idx) rays))) s s' /\ standard_form idx s'.
Proof.
  intros F Hc n s idx dual s' Hne Hs Hn Hr Hd H. destruct (ku_correct F Hc n s idx dual s' Hne Hs Hn Hr Hd H) as (cone & rays & H1 & H2 & H3 & _ & H4 & H5). exists cone, rays. auto 6.
Qed.
Print Assumptions C58_geometric_ku.
(** nothing is lost: every simplicial cone gives a subsector *)
Theorem C58_geometric_ku_complete : forall (F : Fld) (s : sector F) idx dual cone rays,
  In cone (generate_fan (map (fun q => restrict_poly idx (snd q)) (scast s))) -> In rays (dual cone) -> length rays = length idx ->
  In (make_sector_ku s idx (transposeZ (length idx) rays)) (geometric_decomposition_ku s idx dual).
Proof.
  intros F s idx dual cone rays H1 H2 H3. unfold geometric_decomposition_ku. apply in_flat_map. exists cone. split; [exact H1|]. apply in_map_iff. exists rays. split; [reflexivity|]. apply filter_In. split; [exact H2|]. apply Nat.eqb_eq, H3.
Qed.
(** the integration region of a subsector is part of the region of its cone *)
Theorem C58_ku_image : forall n idx rays cone (y : list R), NoDup idx -> Forall (fun k => k < n) idx -> length rays = length idx ->
  Forall (fun r => length r = length idx /\ forall h, In h cone -> (0 <= dotZ h r)%Z) rays -> Forall (fun h => length h = length idx) cone ->
  length y = n -> Forall (fun v => (0 < v <= 1)%R) y ->
  in_cone (map (fun i => nth i (@mono_map_at R_Fld idx (transposeZ (length idx) rays) y) 0%R) idx) cone.
Proof. exact ku_image. Qed.
Print Assumptions C58_ku_image.

Theorem C58_geometric : forall (F : Fld), (forall k, @natF F (S k) <> f0) -> forall n (s : sector F) idx pts vertices facets tri e0 c0 o,
  scast s <> [] -> swf n s -> sjac s = mkPoly n [(e0, c0)] -> idx <> [] -> NoDup idx -> Forall (fun k => k < n) idx ->
  Forall (fun q => distinct_terms (restrict_poly idx (snd q))) (scast s) ->
  (* normaliz: valid facets of the hull of the points, vertices among the points, triangulations with rays of the cone *)
  convex_hull (map (fun q => restrict_poly idx (snd q)) (scast s)) = Some pts ->
  Forall (fun f => length f = S (length idx) /\ forall v, In v pts -> (0 <= dotZ v (removelast f) + last f 0)%Z) facets ->
  NoDup (map (@removelast Z) facets) -> incl vertices pts ->
  (forall cone, Forall (fun rays => length rays = length idx /\ incl rays cone) (tri cone)) ->
  In o (geometric_decomposition s idx vertices facets tri) ->
  exists v rays s', In v vertices /\ length rays = length idx /\
    Forall (fun r => exists f, In f facets /\ r = removelast f /\ (dotZ v r + last f 0 = 0)%Z) rays /\
    o = Some s' /\ is_matrix (length idx) (length idx) (transposeZ (length idx) rays) /\
    geo_transformed F n idx (transposeZ (length idx) rays) (zF (abs_det (transposeZ (length idx) rays))) s s' /\ standard_form idx s'.
Proof. exact geo_correct. Qed.
Print Assumptions C58_geometric.

(** |det C| prod x / prod y is the absolute value of the determinant of the partial derivatives of the substitution *)
Theorem C58_jacobian_determinant : forall n idx C (y : list R), idx <> [] -> NoDup idx -> Forall (fun k => k < n) idx -> is_matrix (length idx) (length idx) C ->
  length y = n -> Forall (fun v => (0 < v)%R) y ->
  exists J d, is_jacobian idx (@mono_map_at R_Fld idx C) y J /\ detR J = Some d /\
    (Rabs d * @prodF R_Fld (map (fun i => nth i y 0) idx) = @zF R_Fld (abs_det C) * @prodF R_Fld (map (fun i => nth i (@mono_map_at R_Fld idx C y) 0) idx))%R.
Proof.
  intros n idx C y Hne Hn Hr HC Hy Hpos. set (k := length idx).
  assert (Hk : 0 < k) by (unfold k; destruct idx; [congruence|cbn; lia]).
  set (g := fun a b => (nth (nth a idx 0%nat) (@mono_map_at R_Fld idx C y) 0 * IZR (DetModel.entry 0%Z C a b) * / nth (nth b idx 0%nat) y 0)%R).
  set (J := map (fun a => map (g a) (seq 0 k)) (seq 0 k)).
  assert (HJ : is_jacobian idx (@mono_map_at R_Fld idx C) y J).
  { split; [unfold J; rewrite map_length, seq_length; reflexivity|]. split; [unfold J; apply Forall_map, Forall_forall; intros a _; rewrite map_length, seq_length; reflexivity|].
    intros a b Ha Hb. replace (DetModel.entry 0%R J a b) with (g a b); [apply (jacobian_entry n); assumption|].
    unfold DetModel.entry, J. rewrite (nth_map_seq (fun a => map (g a) (seq 0 k))) by exact Ha. rewrite (nth_map_seq (g a)) by exact Hb. reflexivity. }
  assert (HJL : length J = k) by apply HJ.
  assert (Hd : exists d, detR J = Some d).
  { unfold detR, DetModel.det. replace (DetModel.is_square J && negb (Nat.eqb (length J) 0)) with true; [eexists; reflexivity|]. symmetry. apply andb_true_iff. split.
    - unfold DetModel.is_square. apply forallb_forall. intros r Hrr. apply Nat.eqb_eq. destruct HJ as (_ & HJ2 & _). rewrite Forall_forall in HJ2. rewrite (HJ2 r Hrr). symmetry. exact HJL.
    - destruct (Nat.eqb_spec (length J) 0); [lia|reflexivity]. }
  destruct Hd as [d Hd]. exists J, d. split; [exact HJ|]. split; [exact Hd|]. rewrite zF_R, (abs_det_square k C Hk HC). apply (jacobian_det n idx C y J d); assumption.
Qed.
Print Assumptions C58_jacobian_determinant.

(** a Jacobian with several terms is handled wrongly by geometric_decomposition: the product with the monomial is sorted
    again, the exponents are then copied to the terms in the old order (facets in another order) *)
Definition ex_g : sector Qc_Fld := mkSector [(pconst 2 (qz 1), mkPoly 2 [mon [0;0]%Z; mon [0;1]%Z; mon [1;0]%Z])] [] (mkPoly 2 [([0;1]%Z, qz 1); ([1;0]%Z, qz 2)]).
Definition ex_facets : list (list Z) := [[0;1;0]; [1;0;0]; [-1;-1;1]]%Z.
Definition sjac_terms (o : option (sector Qc_Fld)) : list (list Z * Q) := match o with Some s => map (fun t => (fst t, this (snd t))) (ptm (sjac s)) | None => [] end.
(** at the vertex (0, 0): x0 = y1, x1 = y0; the Jacobian 1*x1 + 2*x0 must become 1*y0 + 2*y1 *)
Theorem C58_jacobian_terms_refuted : exists s',
  nth 0 (geometric_decomposition ex_g [0;1] [[0;0]]%Z ex_facets (fun _ => [])) None = Some s' /\
  sjac_terms (Some s') = [([0;1]%Z, 1%Q); ([1;0]%Z, 2%Q)] /\
  (@mono_map_at Qc_Fld [0;1] (transposeZ 2 [[0;1];[1;0]]%Z) [qz 3; qz 5] = [qz 5; qz 3]) /\
  peval (sjac s') [qz 3; qz 5] <> fmul (peval (sjac ex_g) [qz 5; qz 3]) (@zF Qc_Fld 1).
Proof.
  destruct (nth 0 (geometric_decomposition ex_g [0;1] [[0;0]]%Z ex_facets (fun _ => [])) None) as [s'|] eqn:E.
  - exists s'. split; [reflexivity|]. assert (Es : sjac_terms (Some s') = [([0;1]%Z, 1%Q); ([1;0]%Z, 2%Q)]) by (rewrite <- E; vm_compute; reflexivity).
    split; [exact Es|]. split; [apply (list_eq_nth (qz 0)); [reflexivity|]; intros [|[|]] Hj; try (cbn in Hj; lia); apply Qc_is_canon; vm_compute; reflexivity|].
    intros H. cbn [sjac_terms] in Es. destruct (sjac s') as [n' ts]. cbn [ptm] in Es.
    destruct ts as [|[e1 c1] [|[e2 c2] [|]]]; try discriminate. cbn [map fst snd] in Es. injection Es as -> H1 -> H2.
    assert (c1 = qz 1) by (apply Qc_is_canon; rewrite H1; vm_compute; reflexivity). assert (c2 = qz 2) by (apply Qc_is_canon; rewrite H2; vm_compute; reflexivity). subst c1 c2.
    apply (f_equal this) in H. vm_compute in H. discriminate.
  - exfalso. assert (E2 : sjac_terms (nth 0 (geometric_decomposition ex_g [0;1] [[0;0]]%Z ex_facets (fun _ => [])) None) = [([0;1]%Z, 1%Q); ([1;0]%Z, 2%Q)]) by (vm_compute; reflexivity). rewrite E in E2. discriminate.
Qed.

(** the examples: x0 + x1 with the two cones, and 1 + x0 + x1 with its three facets *)
Definition ex_dual (cone : list (list Z)) : list (list (list Z)) :=
  if existsb (roweqb [-1;1]%Z) cone then [[[0;1];[1;1]]%Z] else [[[1;0];[1;1]]%Z].
Example C58_ex_ku : swf 2 ex_s /\ NoDup [0;1] /\
  generate_fan (map (fun q => restrict_poly [0;1] (snd q)) (scast ex_s)) = [[[-1;1];[0;1];[1;0]]; [[0;1];[1;-1];[1;0]]]%Z /\
  (forall cone, In cone (generate_fan (map (fun q => restrict_poly [0;1] (snd q)) (scast ex_s))) ->
     Forall (Forall (fun r => length r = 2 /\ forall h, In h cone -> (0 <= dotZ h r)%Z)) (ex_dual cone)) /\
  length (geometric_decomposition_ku ex_s [0;1] ex_dual) = 2.
Proof.
  assert (E : generate_fan (map (fun q => restrict_poly [0;1] (snd q)) (scast ex_s)) = [[[-1;1];[0;1];[1;0]]; [[0;1];[1;-1];[1;0]]]%Z) by (vm_compute; reflexivity).
  split; [exact ex_s_wf|]. split; [repeat constructor; cbn; intuition lia|]. split; [exact E|]. split.
  - rewrite E. intros cone [<-|[<-|[]]]; (constructor; [|constructor]); repeat constructor; intros h [<-|[<-|[<-|[]]]]; vm_compute; discriminate.
  - unfold geometric_decomposition_ku. rewrite E. reflexivity.
Qed.
Definition ex_g1 : sector Qc_Fld := mkSector (scast ex_g) [] (pconst 2 (qz 1)).
Example C58_ex_geo : swf 2 ex_g1 /\ sjac ex_g1 = mkPoly 2 [(zrow 2, qz 1)] /\
  Forall (fun q => distinct_terms (restrict_poly [0;1] (snd q))) (scast ex_g1) /\
  convex_hull (map (fun q => restrict_poly [0;1] (snd q)) (scast ex_g1)) = Some [[0;0];[0;1];[1;0]]%Z /\
  Forall (fun f => length f = 3 /\ forall v, In v [[0;0];[0;1];[1;0]]%Z -> (0 <= dotZ v (removelast f) + last f 0)%Z) ex_facets /\
  NoDup (map (@removelast Z) ex_facets) /\ length (geometric_decomposition ex_g1 [0;1] [[0;0];[0;1];[1;0]]%Z ex_facets (fun _ => [])) = 3.
Proof.
  split; [unfold swf; cbn; repeat (constructor; [split; [reflexivity|split; [repeat constructor|discriminate]]|]); constructor|]. split; [reflexivity|].
  split; [repeat constructor; cbn; intuition discriminate|]. split; [vm_compute; reflexivity|].
  split; [repeat constructor; cbn; intros v [<-|[<-|[<-|[]]]]; cbn; lia|]. split; [repeat constructor; cbn; intuition discriminate|vm_compute; reflexivity].
Qed.

(** * C59 *)
(** each cone is the region where one monomial of each polynomial dominates *)
Theorem C59_cone_is_region : forall (F : Fld), (forall k, @natF F (S k) <> f0) -> forall n (ps : list (PolyModel.poly F)), 0 < n -> ps <> [] ->
  Forall (fun p => pnv p = n /\ pwf p) ps ->
  Forall (fun c => exists f, forall x, open_cube n x -> (in_cone x c <-> dominant x ps f)) (generate_fan ps).
Proof.
  intros F Hc n ps Hn Hne Hw. apply Forall_forall. intros c Hin. destruct (generate_fan_in F ps c Hin) as (f & Hf & Ec).
  assert (En : match ps with [] => 0 | p :: _ => pnv p end = n) by (destruct ps as [|p l]; [congruence|]; apply Forall_cons_iff in Hw as [[Hp _] _]; exact Hp).
  rewrite En in Ec. exists f. intros x Hx. apply (cone_dominant F Hc n Hn ps Hw x f c); assumption.
Qed.
Print Assumptions C59_cone_is_region.
(** every point of the open cube where no two monomials of a polynomial agree belongs to exactly one entry of the fan *)
Theorem C59_fan_covers_once : forall (F : Fld), (forall k, @natF F (S k) <> f0) -> forall n (ps : list (PolyModel.poly F)) x, 0 < n -> ps <> [] ->
  Forall (fun p => pnv p = n /\ pwf p) ps -> Forall (fun p => ptm p <> []) ps -> Forall distinct_terms ps -> open_cube n x -> no_tie x ps ->
  exists l1 c l2, generate_fan ps = l1 ++ c :: l2 /\ in_cone x c /\ Forall (fun c' => ~ in_cone x c') (l1 ++ l2).
Proof. intros F Hc n ps x Hn Hne Hw Hnz Hd Hx Ht. apply (exactly_one_cone F Hc n Hn ps Hw x); assumption. Qed.
Print Assumptions C59_fan_covers_once.
(** with [indices], different terms may get equal exponents: the same cone (and its subsectors) appears twice *)
Theorem C59_indices_counted_twice_refuted :
  let p := mkPoly 3 [mon [1;0;0]%Z; mon [1;0;1]%Z; mon [0;1;0]%Z] in
  distinct_terms p /\ generate_fan [restrict_poly [0;1] p] = [[[-1;1];[0;1];[1;0]]; [[-1;1];[0;1];[1;0]]; [[0;1];[1;-1];[1;0]]]%Z.
Proof. cbv zeta. split; [repeat constructor; cbn; intuition discriminate|vm_compute; reflexivity]. Qed.
Example C59_ex : let p := mkPoly 2 [mon [1;0]%Z; mon [0;1]%Z] in
  Forall (fun p => pnv p = 2 /\ pwf p) [p] /\ Forall distinct_terms [p] /\ open_cube 2 [/ 2; / 3]%R /\ no_tie [/ 2; / 3]%R [p].
Proof.
  cbv zeta. split; [repeat constructor|]. split; [repeat constructor; cbn; intuition discriminate|]. split; [split; [reflexivity|repeat constructor; lra]|].
  constructor; [|constructor]. intros e e' [<-|[<-|[]]] [<-|[<-|[]]] E; try reflexivity; exfalso; cbn [meval zpow mon fst] in E. all: change (Pos.to_nat 1) with 1 in E; cbn [npow] in E; change (@fmul R_Fld) with Rmult in E; change (@f1 R_Fld) with 1%R in E; lra.
Qed.

(** * C60 *)
(** [es]: the exponents of the polynomial; normaliz returned valid facets and equations of their restrictions *)
Theorem C60_find_regions : forall dim i ix facets equations regs (es : list (list Z)),
  StronglySorted lt ix -> Forall (fun k => k < dim) ix -> (-(Z.of_nat dim) <= i < Z.of_nat dim)%Z -> Forall (fun e => length e = dim) es ->
  Forall (fun f => length f = S (length ix)) (facets ++ equations) ->
  Forall (fun f => forall e, In e es -> (0 <= dotZ (take_cols ix e) (removelast f) + last f 0)%Z) facets ->
  Forall (fun q => forall e, In e es -> (dotZ (take_cols ix e) (removelast q) + last q 0 = 0)%Z) equations ->
  find_regions dim i (Some ix) facets equations = Some regs ->
  Forall (fun r => length r = dim /\ (forall k, k < dim -> ~ In k ix -> getZ k r = 0%Z) /\
                   (0 < getZ (Z.to_nat (if Z.ltb i 0 then Z.of_nat dim + i else i)) r)%Z /\
                   exists a, forall e, In e es -> (0 <= dotZ e r + a)%Z) regs.
Proof.
  intros dim i ix facets equations regs es Hs Hr Hi Hes Hlen Hf Hq H. unfold find_regions in H. destruct (index_of (norm_index dim i) ix) as [k|] eqn:Ek; [|discriminate].
  destruct (select_regions k k facets equations) as [rs|] eqn:Er; [|discriminate]. injection H as <-.
  assert (K := select_spec k k facets equations rs (map (take_cols ix) es)). specialize (K ltac:(eapply Forall_impl; [|exact Hf]; intros f Hv e He; apply in_map_iff in He as (e' & <- & He); apply Hv, He)).
  specialize (K ltac:(eapply Forall_impl; [|exact Hq]; intros f Hv e He; apply in_map_iff in He as (e' & <- & He); apply Hv, He) Er).
  apply Forall_map. eapply Forall_impl; [|exact K]. intros r (Hpos & (f & Hfin & Hfl) & a & Ha). cbv beta.
  assert (Lr : length r = length ix).
  { rewrite Forall_forall in Hlen. rewrite Hfl. apply (removelast_length). apply Hlen, Hfin. }
  destruct (embed_row_get (seq 0 dim) ix r (seq_sorted 0 dim) Hs) as [H1 H2]; [eapply Forall_impl; [|exact Hr]; intros j Hj; cbv beta in Hj; apply in_seq; lia|exact Lr|].
  rewrite seq_length in H1, H2. split; [exact H1|]. split; [|split].
  - intros j Hj Hno. rewrite H2 by exact Hj. rewrite seq_nth by exact Hj. cbn [Nat.add]. destruct (index_of j ix) as [b|] eqn:E; [|reflexivity]. exfalso. apply Hno. destruct (index_of_some _ _ _ E) as [Hb <-]. apply nth_In, Hb.
  - change (Z.to_nat (if Z.ltb i 0 then Z.of_nat dim + i else i)) with (norm_index dim i). assert (Hn : norm_index dim i < dim) by (unfold norm_index; destruct (Z.ltb_spec i 0); lia).
    rewrite H2 by exact Hn. rewrite seq_nth by exact Hn. cbn [Nat.add]. rewrite Ek. exact Hpos.
  - exists a. intros e He. rewrite embed_dot; auto; [apply Ha, in_map, He|]. rewrite Forall_forall in Hes. apply Hes, He.
Qed.
Print Assumptions C60_find_regions.
Example C60_ex : let es := [[1;0;0;0]; [0;1;0;0]; [0;0;0;1]]%Z in let ix := [0;1;3] in
  find_regions 4 (-1) (Some ix) [[1;0;0;0]; [0;1;0;0]; [0;0;1;0]]%Z [[1;1;1;-1]]%Z = Some [[1;1;0;1]%Z] /\
  Forall (fun f => forall e, In e es -> (0 <= dotZ (take_cols ix e) (removelast f) + last f 0)%Z) [[1;0;0;0]; [0;1;0;0]; [0;0;1;0]]%Z /\
  Forall (fun q => forall e, In e es -> (dotZ (take_cols ix e) (removelast q) + last q 0 = 0)%Z) [[1;1;1;-1]]%Z.
Proof. cbv zeta. split; [reflexivity|]. split; repeat constructor; intros e [<-|[<-|[<-|[]]]]; cbn; lia. Qed.
(** unsorted [indices] permute the region vector: the smallness parameter's component ends up elsewhere *)
Theorem C60_unsorted_indices_refuted :
  find_regions 2 1 (Some [1;0]) [[1;0;0]]%Z [] = Some [[1;0]%Z].
Proof. reflexivity. Qed.
(** without [indices] a negative index addresses the constant of an equation: a different result for the same variable *)
Theorem C60_negative_index_refuted :
  find_regions 2 1 None [] [[1;1;-2]]%Z = Some [[1;1]%Z] /\ find_regions 2 (-1) None [] [[1;1;-2]]%Z = Some [].
Proof. split; reflexivity. Qed.
