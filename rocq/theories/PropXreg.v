(** C78: suggested exponents of the extra regulator. *)
From Coq Require Import List ZArith QArith Qcanon Bool Lia Znumtheory. Import ListNotations.
From Verif Require Import XregModel XregSpec XregProofs XregTop XregPrime.
Local Open Scope Z_scope.
(** Exactly one of every pair of opposite normal vectors among the facets of the region polytopes that contain 0 in their span is selected. *)
Theorem C78_one_normal_per_internal_facet : forall facets_of leading_power exp_order idx n vertices, (idx <= n)%nat ->
  Forall (fun v => length v = S n) vertices -> Forall (Forall (fun x => 0 <= x)) vertices ->
  (forall r, In r (regions facets_of leading_power exp_order idx vertices) -> proper_facets (region_vertices idx vertices r) (facets_of (region_vertices idx vertices r))) ->
  let all := all_facets facets_of leading_power exp_order idx vertices in
  (forall f, In f all -> In (map Z.opp f) all -> In f (selected all) \/ In (map Z.opp f) (selected all)) /\
  (forall f, In f (selected all) -> In f all /\ In (map Z.opp f) all /\ ~ In (map Z.opp f) (selected all)).
Proof.
  intros facets_of lp eo idx n vs Hn HL HP HF all. split.
  - intros f H1 H2. apply (selected_cover facets_of lp eo idx n vs Hn HL HP HF). apply in_internal. auto.
  - intros f Hf. assert (Hi : In f (internal_facets all)) by (unfold selected in Hf; apply filter_In in Hf; apply Hf). apply in_internal in Hi.
    split; [apply Hi|]. split; [apply Hi|]. apply (selected_once facets_of lp eo idx n vs Hn HL HP HF f Hf).
Qed.
Print Assumptions C78_one_normal_per_internal_facet.
(** The vertices of a region are the points on which the leading power of the small parameter is smallest, without the column of the small
    parameter, if the region is a facet of their convex hull. *)
Theorem C78_region_vertices : forall idx vertices normal offset,
  (forall v, In v vertices -> length normal = length v /\ 0 <= inner normal v + offset) -> (exists v, In v vertices /\ inner normal v + offset = 0) ->
  forall w, In w (region_vertices idx vertices (normal ++ [offset])) <->
    exists v, In v vertices /\ (forall u, In u vertices -> inner normal v <= inner normal u) /\ w = firstn idx v ++ skipn (S idx) v.
Proof.
  intros idx vs nm off HV (v0 & H0 & E0) w. unfold region_vertices. rewrite in_map_iff. rewrite removelast_snoc. rewrite last_last. split.
  - intros (v & <- & Hv). apply filter_In in Hv. destruct Hv as [Hv E]. rewrite zdot_inner in E. apply Z.eqb_eq in E. exists v. split; [exact Hv|]. split; [|reflexivity].
    intros u Hu. destruct (HV u Hu). lia.
  - intros (v & Hv & HM & ->). exists v. split; [reflexivity|]. apply filter_In. split; [exact Hv|]. rewrite zdot_inner. apply Z.eqb_eq. specialize (HM v0 H0). destruct (HV v Hv). lia.
Qed.
Print Assumptions C78_region_vertices.
(** Without [indices], a constraint is the normal vector with a zero in the column of the small parameter. *)
Theorem C78_small_parameter_column : forall i f, (i <= length f)%nat ->
  exists row, pad (fun _ => true) i (seq 0 (S (length f))) f = Some row /\ length row = S (length f) /\ nth i row 1 = 0 /\ delete_at i row = f.
Proof.
  intros i f Hi. exists (firstn i f ++ 0 :: skipn i f). split; [rewrite pad_insert by lia; rewrite Nat.sub_0_r; reflexivity|].
  assert (Lf : length (firstn i f) = i) by (rewrite firstn_length; lia). split; [rewrite app_length; cbn [length]; rewrite skipn_length; lia|]. split.
  - rewrite app_nth2 by lia. rewrite Lf, Nat.sub_diag. reflexivity.
  - unfold delete_at. rewrite firstn_app, Lf, Nat.sub_diag. cbn [firstn]. rewrite app_nil_r, firstn_firstn, Nat.min_id.
    rewrite skipn_app, Lf. rewrite (skipn_all2 (firstn i f)) by lia. replace (S i - i)%nat with 1%nat by lia. cbn [app skipn]. apply firstn_skipn.
Qed.
Print Assumptions C78_small_parameter_column.
(** The search for exponents ends exactly if no constraint is constant on the variables that occur in the constraints; then the exponents
    sum to zero, vanish for the variables that do not occur, and violate no constraint. *)
Theorem C78_search : forall pr n constr z, prime_sequence pr -> Forall (fun row => length row = n) constr ->
  (exists row x, In row constr /\ In x row /\ x <> 0) ->
  ((exists e fuel0, forall fuel, (fuel0 <= fuel)%nat -> search pr fuel constr (needed n constr) z = Some e) <->
   Forall (fun row => ~ exists c, forall i, nth i (needed n constr) false = true -> nth i row 0 = c) constr) /\
  (forall fuel e, search pr fuel constr (needed n constr) z = Some e ->
   length e = n /\ qsum e = inj 0 /\ (forall i, (i < n)%nat -> (forall row, In row constr -> nth i row 0 = 0) -> nth i e (inj 0) = inj 0) /\
   forall row, In row constr -> dot row e <> inj 0).
Proof.
  intros pr n constr z Hpr HL HN. split; [apply (search_characterised pr Hpr n constr z HL HN)|].
  intros fuel e E. destruct (search_valid pr fuel constr _ z e E) as (V1 & V2 & V3 & V4). rewrite needed_length in V1. split; [exact V1|]. split; [exact V2|]. split; [|exact V4].
  intros i Hi Hz. apply V3. rewrite (nth_indep _ true false) by (rewrite needed_length; exact Hi). rewrite needed_nth by exact Hi.
  destruct (existsb _ constr) eqn:Ex; [|reflexivity]. apply existsb_exists in Ex. destruct Ex as (row & Hr & Hx). rewrite (Hz row Hr) in Hx. discriminate.
Qed.
Print Assumptions C78_search.
(** For the region polytopes of every polynomial the search ends; the suggestion regulates all internal facets and keeps the integrand
    homogeneous.  No suggestion is made exactly if there is no internal facet. *)
Theorem C78_suggestion : forall pr facets_of leading_power exp_order n vertices, prime_sequence pr -> vertices <> [] ->
  Forall (fun v => length v = S n) vertices -> Forall (Forall (fun x => 0 <= x)) vertices ->
  (forall r, In r (regions facets_of leading_power exp_order n vertices) -> proper_facets (region_vertices n vertices r) (facets_of (region_vertices n vertices r))) ->
  let all := all_facets facets_of leading_power exp_order n vertices in
  let result := fun fuel => suggested pr fuel (constraints facets_of leading_power exp_order n vertices) in
  ((forall f, In f all -> ~ In (map Z.opp f) all) -> forall fuel, result fuel = Not_needed) /\
  ((exists f, In f all /\ In (map Z.opp f) all) ->
   exists e fuel0, (forall fuel, (fuel0 <= fuel)%nat -> result fuel = Exponents e) /\ length e = n /\ qsum e = inj 0 /\
     (forall f, In f all -> In (map Z.opp f) all -> dot f e <> inj 0) /\
     forall i, (i < n)%nat -> (forall f, In f all -> In (map Z.opp f) all -> nth i f 0 = 0) -> nth i e (inj 0) = inj 0).
Proof.
  intros pr facets_of lp eo n vs Hpr Hne HL HP HF all result.
  assert (HC : all <> [] -> constraints facets_of lp eo n vs = Some (map (fun f => f ++ [0]) (selected all))).
  { intros Hall. assert (LS : forall f, In f (selected all) -> length f = n).
    { intros f Hf. apply (internal_signs facets_of lp eo n n vs (Nat.le_refl _) HL HP HF f). unfold selected in Hf. apply filter_In in Hf. apply Hf. }
    clear HF. unfold constraints. cbv zeta. assert (D : length (hd [] vs) = S n) by (destruct vs as [|v vs']; [congruence|]; inversion HL; assumption). rewrite D.
    destruct (regions facets_of lp eo n vs) as [|r rs] eqn:ER; [exfalso; apply Hall; unfold all, all_facets; rewrite ER; reflexivity|]. apply all_some_map. intros f Hf.
    pose proof (LS f Hf) as Lf.
    rewrite <- Lf at 1 2. rewrite pad_insert by lia. rewrite Nat.sub_0_r, firstn_all, skipn_all. reflexivity. }
  split.
  - intros Hno fuel. unfold result. assert (S0 : selected all = []).
    { unfold selected. replace (internal_facets all) with (@nil (list Z)); [reflexivity|]. symmetry. destruct (internal_facets all) as [|f l] eqn:E; [reflexivity|].
      exfalso. assert (Hf : In f (internal_facets all)) by (rewrite E; left; reflexivity). apply in_internal in Hf. apply (Hno f); apply Hf. }
    destruct (list_eq_dec (list_eq_dec Z.eq_dec) all []) as [E|N].
    + unfold constraints. destruct (regions facets_of lp eo n vs) as [|r rs]; [reflexivity|]. fold all. rewrite S0. reflexivity.
    + rewrite (HC N), S0. reflexivity.
  - intros (f0 & H1 & H2). assert (N : all <> []) by (intros E; rewrite E in H1; destruct H1). unfold result. rewrite (HC N).
    assert (SEL : forall f, In f (selected all) -> length f = n /\ (exists x, In x f /\ 0 < x) /\ exists x, In x f /\ x < 0).
    { intros f Hf. unfold selected in Hf. apply filter_In in Hf. apply (internal_signs facets_of lp eo n n vs (Nat.le_refl _) HL HP HF), Hf. }
    destruct (selected all) as [|s0 sr] eqn:ES.
    { exfalso. destruct (selected_cover facets_of lp eo n n vs (Nat.le_refl _) HL HP HF f0) as [K|K]; [apply in_internal; auto| |]; fold all in K; rewrite ES in K; destruct K. }
    rewrite <- ES in *. assert (EM : map (@removelast Z) (map (fun f => f ++ [0]) (selected all)) = selected all).
    { rewrite map_map. rewrite <- (map_id (selected all)) at 2. apply map_ext. intros f. apply removelast_snoc. }
    assert (Ls0 : length s0 = n) by (apply SEL; rewrite ES; left; reflexivity).
    assert (HLs : Forall (fun row => length row = n) (selected all)) by (apply Forall_forall; intros f Hf; apply SEL, Hf).
    assert (HNz : exists row x, In row (selected all) /\ In x row /\ x <> 0).
    { exists s0. destruct (SEL s0) as (_ & (x & Hx & Px) & _); [rewrite ES; left; reflexivity|]. exists x. split; [rewrite ES; left; reflexivity|]. split; [exact Hx|lia]. }
    destruct (C78_search pr n (selected all) (Z.of_nat n) Hpr HLs HNz) as [[_ T] V].
    destruct T as (e & fuel0 & He).
    { apply Forall_forall. intros f Hf (c & HCc). destruct (SEL f Hf) as (Lf & (x & Hx & Px) & (y & Hy & Py)).
      destruct (In_nth _ _ 0 Hx) as (i & Hi & Ei). destruct (In_nth _ _ 0 Hy) as (j & Hj & Ej).
      assert (A1 : nth i f 0 = c) by (apply HCc, (needed_true n (selected all) f); [exact Hf|lia|lia]).
      assert (A2 : nth j f 0 = c) by (apply HCc, (needed_true n (selected all) f); [exact Hf|lia|lia]). lia. }
    destruct (V fuel0 e (He fuel0 (Nat.le_refl _))) as (V1 & V2 & V3 & V4). exists e, fuel0. split; [|split; [exact V1|split; [exact V2|split]]].
    + intros fuel Hf. unfold suggested. rewrite ES. cbn [map]. rewrite removelast_snoc, Ls0. rewrite ES in EM. cbn [map] in EM. rewrite removelast_snoc in EM. rewrite EM, <- ES. rewrite (He fuel Hf). reflexivity.
    + intros f Hf1 Hf2 E0. destruct (selected_cover facets_of lp eo n n vs (Nat.le_refl _) HL HP HF f) as [K|K]; [apply in_internal; auto|apply (V4 f K E0)|].
      apply (V4 _ K). clear -E0. revert E0. assert (G : forall e, dot (map Z.opp f) e = (- dot f e)%Qc).
      { unfold dot. induction f as [|x f IH]; intros [|y e']; cbn [map combine fst snd]; try (apply Qc_is_canon; reflexivity). rewrite !qsum_cons, IH, inj_opp. ring. }
      intros E0. rewrite G, E0, inj_0. ring.
    + intros i Hi Hz. apply V3; [exact Hi|]. intros row Hr. unfold selected in Hr. apply filter_In in Hr. destruct Hr as [Hr _]. apply in_internal in Hr. apply Hz; apply Hr.
Qed.
Print Assumptions C78_suggestion.
(** The hypothesis on the primes can be met. *)
Theorem C78_primes_exist : exists p, prime_sequence p.
Proof. exact primes_exist. Qed.
Print Assumptions C78_primes_exist.
(** A constraint that is constant on the variables it involves would keep the search running forever, although exponents that sum to zero and
    violate no constraint exist. *)
Theorem C78_constant_constraint_refuted : exists constr n, Forall (fun row => length row = n) constr /\
  (exists e, length e = n /\ qsum e = inj 0 /\ forall row, In row constr -> dot row e <> inj 0) /\
  forall pr fuel, prime_sequence pr -> search pr fuel constr (needed n constr) (Z.of_nat n) = None.
Proof.
  exists [[1; 1; 0]], 3%nat. split; [repeat constructor|]. split.
  - exists [inj 1; inj 0; inj (-1)]. split; [reflexivity|]. split; [apply Qc_is_canon; reflexivity|]. intros row [<-|[]]. vm_compute. discriminate.
  - intros pr fuel Hpr. apply (search_characterised pr Hpr 3 [[1; 1; 0]] 3).
    + repeat constructor.
    + exists [1; 1; 0], 1. split; [left; reflexivity|]. split; [left; reflexivity|lia].
    + exists [1; 1; 0]. split; [left; reflexivity|]. exists 1. intros [|[|[|i]]]; vm_compute; try discriminate; try reflexivity. destruct i; discriminate.
Qed.
Print Assumptions C78_constant_constraint_refuted.
(** With [indices] the zero goes to the wrong column: of the variables 0, ..., 3 with small parameter 3 the indices 1, 2, 3 are used; the
    normal vector (1, -1) of the variables 1 and 2 is returned as a constraint on the variables 1 and 3. *)
Theorem C78_indices_refuted : exists dim indices idx facet, In idx indices /\ length facet = (length indices - 1)%nat /\
  pad_indices dim indices idx facet = Some [0; 1; 0; -1] /\ dim = 4%nat /\ indices = [1; 2; 3]%nat /\ idx = 3%nat /\ facet = [1; -1].
Proof. exists 4%nat, [1; 2; 3]%nat, 3%nat, [1; -1]. repeat split. right. right. left. reflexivity. Qed.
Print Assumptions C78_indices_refuted.
(** Calling [loop_regions] twice with the same loop integral registers the extra regulator twice. *)
Theorem C78_called_twice_refuted : exists (extra : nat) regulators, ~ NoDup (regulators_after extra (regulators_after extra regulators)) /\ NoDup (extra :: regulators).
Proof.
  exists 1%nat, [0%nat]. split.
  - intros H. inversion H as [|? ? H1]. apply H1. left. reflexivity.
  - constructor; [intros [H|[]]; discriminate|]. constructor; [intros []|constructor].
Qed.
Print Assumptions C78_called_twice_refuted.
(** ** a concrete case: two regions of the square 0..1 x 0..1 x small parameter separated by the plane x0 = x1 *)
Definition example_points : list (list Z) := [[0; 0; 0]; [1; 0; 1]; [0; 1; 1]; [1; 1; 0]].
Definition example_facets (points : list (list Z)) : list (list Z) :=
  if list_eq_dec (list_eq_dec Z.eq_dec) points example_points then [[1; -1; 1; 0]; [-1; 1; 1; 0]]
  else if list_eq_dec (list_eq_dec Z.eq_dec) points [[0; 0]; [0; 1]; [1; 1]] then [[-1; 1; 0]; [1; 0; 0]; [0; -1; 1]]
  else if list_eq_dec (list_eq_dec Z.eq_dec) points [[0; 0]; [1; 0]; [1; 1]] then [[1; -1; 0]; [-1; 0; 1]; [0; 1; 0]]
  else [].
Example C78_example : 
  let all := all_facets example_facets (fun _ => inj 0) (inj 0) 2 example_points in
  (forall r, In r (regions example_facets (fun _ => inj 0) (inj 0) 2 example_points) ->
     proper_facets (region_vertices 2 example_points r) (example_facets (region_vertices 2 example_points r))) /\
  In [1; -1] all /\ In [-1; 1] all /\ selected all = [[1; -1]] /\ constraints example_facets (fun _ => inj 0) (inj 0) 2 example_points = Some [[1; -1; 0]] /\
  (forall v, In v example_points -> length [1; -1; 1] = length v /\ 0 <= inner [1; -1; 1] v + 0) /\ In [0; 1; 1] example_points /\
  region_vertices 2 example_points [1; -1; 1; 0] = [[0; 0]; [0; 1]; [1; 1]] /\
  forall pr, suggested pr 3 (Some [[1; -1; 0]]) = Exponents [inj 1; inj (-1)].
Proof.
  cbv zeta. split; [|split; [vm_compute; tauto|split; [vm_compute; tauto|split; [reflexivity|split; [reflexivity|split; [|split; [vm_compute; tauto|split; [reflexivity|]]]]]]]].
  - intros r [<-|[<-|[]]]; vm_compute region_vertices; intros f Hf; vm_compute in Hf.
    + destruct Hf as [<-|[<-|[<-|[]]]].
      * exists [-1; 1], 0. split; [reflexivity|]. split; [intros v [<-|[<-|[<-|[]]]]; cbn; lia|]. exists [0; 1]. cbn. split; [tauto|lia].
      * exists [1; 0], 0. split; [reflexivity|]. split; [intros v [<-|[<-|[<-|[]]]]; cbn; lia|]. exists [1; 1]. cbn. split; [tauto|lia].
      * exists [0; -1], 1. split; [reflexivity|]. split; [intros v [<-|[<-|[<-|[]]]]; cbn; lia|]. exists [0; 0]. cbn. split; [tauto|lia].
    + destruct Hf as [<-|[<-|[<-|[]]]].
      * exists [1; -1], 0. split; [reflexivity|]. split; [intros v [<-|[<-|[<-|[]]]]; cbn; lia|]. exists [1; 0]. cbn. split; [tauto|lia].
      * exists [-1; 0], 1. split; [reflexivity|]. split; [intros v [<-|[<-|[<-|[]]]]; cbn; lia|]. exists [0; 0]. cbn. split; [tauto|lia].
      * exists [0; 1], 0. split; [reflexivity|]. split; [intros v [<-|[<-|[<-|[]]]]; cbn; lia|]. exists [1; 1]. cbn. split; [tauto|lia].
  - intros v [<-|[<-|[<-|[<-|[]]]]]; cbn; lia.
  - intros pr. vm_compute. reflexivity.
Qed.
Print Assumptions C78_example.
