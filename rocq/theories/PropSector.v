(** Properties C23-C27: iterative sector decomposition. *)
From Coq Require Import QArith Qcanon Reals Lra.
From Verif Require Import SectorPaths CubeInt.
Local Open Scope nat_scope.

Definition qz (z : Z) : Qc_Fld := Q2Qc (inject_Z z).
Definition mon (e : list Z) : term Qc_Fld := (e, qz 1).
Lemma f01_R : @f0 R_Fld = 0%R /\ @f1 R_Fld = 1%R. Proof. split; reflexivity. Qed.

(** * C23 *)
(** [p'] is [p] with parameter [i] set to one; the parameter is removed unless it is the only one *)
Definition set_to_one {F : Fld} (single : bool) (i : nat) (p p' : poly F) : Prop :=
  pnv p' = (if single then pnv p else pnv p - 1) /\
  forall x, length x = pnv p -> peval p' (if single then x else delete_nth i x) = peval p (set_coord i f1 x).

Theorem C23_primary_decomposition : forall (F : Fld) n (s : sector F) ix,
  swf n s -> Forall (fun i => i < n) ix ->
  length (primary_decomposition s (Some ix)) = length ix /\
  forall k s', nth_error (primary_decomposition s (Some ix)) k = Some s' ->
    let R := set_to_one (Nat.eqb (length ix) 1) (nth k ix 0) in
    Forall2 (fun c c' => R (fst c) (fst c') /\ R (snd c) (snd c')) (scast s) (scast s') /\
    Forall2 R (sother s) (sother s') /\ R (sjac s) (sjac s').
Proof.
  intros F n s ix Hwf Hr. split; [apply primary_length|]. intros k s' Hk. cbv zeta.
  assert (Hkl : k < length ix). { rewrite <- (primary_length F s ix). apply nth_error_Some. congruence. }
  rewrite (primary_at F s ix k Hkl) in Hk. injection Hk as <-.
  destruct (swf_get F n s Hwf) as (H1 & H2 & H3).
  assert (Hi : nth k ix 0 < n) by (rewrite Forall_forall in Hr; apply Hr, nth_In, Hkl).
  assert (G : forall p : poly F, pnv p = n /\ pwf p /\ ptm p <> [] -> set_to_one (Nat.eqb (length ix) 1) (nth k ix 0) p (prim_at ix k p)).
  { intros p (E & W & _). unfold set_to_one. destruct (Nat.eqb_spec (length ix) 1) as [E1|E1].
    - destruct ix as [|i [|]]; try discriminate. destruct k; [|cbn in Hkl; lia]. rewrite prim_at_single. cbn [nth] in *. split; [reflexivity|].
      intros x HL. apply zero_col_eval; [exact W|exact HL|lia].
    - rewrite prim_at_many by assumption. split; [reflexivity|]. intros x HL. apply delete_col_eval; [exact W|exact HL|lia]. }
  split; [|split; [|apply G, H3]]; cbn [scast sother].
  - assert (Q : forall l, (forall c, In c l -> In c (scast s)) -> Forall2 (fun c c' => set_to_one (Nat.eqb (length ix) 1) (nth k ix 0) (fst c) (fst c') /\ set_to_one (Nat.eqb (length ix) 1) (nth k ix 0) (snd c) (snd c')) l
        (map (fun c => (prim_at ix k (fst c), prim_at ix k (snd c))) l)); [|apply Q; auto].
    induction l as [|c l IH]; intros Hl; constructor; [cbn [fst snd]; split; apply G, (H1 c), Hl; left; reflexivity|apply IH; intros; apply Hl; right; assumption].
  - assert (Q : forall l, (forall c, In c l -> In c (sother s)) -> Forall2 (set_to_one (Nat.eqb (length ix) 1) (nth k ix 0)) l (map (prim_at ix k) l)); [|apply Q; auto].
    induction l as [|c l IH]; intros Hl; constructor; [apply G, H2, Hl; left; reflexivity|apply IH; intros; apply Hl; right; assumption].
Qed.
Print Assumptions C23_primary_decomposition.
Theorem C23_default_indices : forall (F : Fld) (s : sector F),
  primary_decomposition s None = primary_decomposition s (Some (seq 0 (sector_nv s))).
Proof. exact primary_None. Qed.
Print Assumptions C23_default_indices.

(** the one-loop bubble U = x0 + x1, F = x0 x1 + x0^2 *)
Definition bub : option (sector Qc_Fld) :=
  make_sector [mkPoly 2 [mon [1;0]%Z; mon [0;1]%Z]; mkPoly 2 [mon [1;1]%Z; mon [2;0]%Z]] [] None.
Example C23_ex : exists s, bub = Some s /\ swf 2 s /\ length (primary_decomposition s None) = 2.
Proof. eexists. split; [reflexivity|]. split; [|reflexivity]. unfold swf. cbn. repeat (constructor; [split; [reflexivity|split; [repeat constructor|discriminate]]|]). constructor. Qed.

(** * C24 *)
Theorem C24_remap_parameters : forall (F : Fld) sp (jac : poly F) polys,
  polys <> [] -> sp <> [] -> NoDup sp -> Forall (fun p => pnv p = pnv jac) polys -> Forall (fun i => i < pnv jac) sp ->
  pwf jac -> Forall pwf polys ->
  exists jac' polys', remap_parameters sp jac polys = Some (jac', polys') /\
    (forall x, length x = pnv jac -> eval_ok jac x -> peval jac' x = fmul (peval jac x) (subst_jac sp x)) /\
    Forall2 (fun p p' => pnv p' = pnv p /\ forall x, length x = pnv p -> eval_ok p x -> peval p' x = peval p (sector_subst sp x)) polys polys'.
Proof.
  intros F sp jac polys Hne Hsp Hnd Hn Hr Hj Hp. unfold remap_parameters. destruct polys as [|p0 polys]; [congruence|].
  assert (E : forallb (fun p => Nat.eqb (pnv p0) (pnv p)) (p0 :: polys) = true).
  { apply forallb_forall. rewrite Forall_forall in Hn. intros p Hin. apply Nat.eqb_eq. rewrite (Hn p Hin), (Hn p0 (or_introl eq_refl)). reflexivity. }
  rewrite E. destruct (Nat.eqb_spec (length sp) 0) as [E0|E0]; [destruct sp; [congruence|discriminate]|]. cbn [negb andb].
  eexists. eexists. split; [reflexivity|]. split.
  - intros x HL Hok. apply remap_jac_eval; assumption.
  - revert Hn Hp. generalize (p0 :: polys). clear -Hnd Hr. induction l as [|p l IH]; intros Hn Hp; constructor; inversion Hn; inversion Hp; subst.
    + split; [apply remap_poly_inv|]. intros x HL Hok. apply remap_poly_eval; try assumption. match goal with H : pnv p = pnv jac |- _ => rewrite H; exact Hr end.
    + apply IH; assumption.
Qed.
Print Assumptions C24_remap_parameters.
(** the entries of the matrix of partial derivatives of the substitution; its determinant is in PropSectorJac.v *)
Theorem C24_partial_derivatives : forall a bs (x : list R) i j, ~ In a bs -> a < length x -> i < length x -> j < length x ->
  derivable_pt_lim (fun t => nth i (@sector_subst R_Fld (a :: bs) (upd j t x)) 0%R) (nth j x 0%R)
    (if existsb (Nat.eqb i) bs then (if Nat.eqb i j then nth a x 0%R else if Nat.eqb j a then nth i x 0%R else 0%R)
     else if Nat.eqb i j then 1%R else 0%R).
Proof.
  intros a bs x i j Hna Ha Hi Hj.
  assert (E : forall t, (if existsb (Nat.eqb i) bs then nth a (upd j t x) 0 * nth i (upd j t x) 0 else nth i (upd j t x) 0)%R
     = nth i (@sector_subst R_Fld (a :: bs) (upd j t x)) 0%R).
  { intros t. rewrite subst_nth by (rewrite upd_length; exact Hi). reflexivity. }
  apply (deriv_ext _ _ _ _ E). clear E.
  assert (N : forall k, k < length x -> forall t, nth k (upd j t x) 0%R = if Nat.eqb j k then t else nth k x 0%R).
  { intros k Hk t. rewrite nth_upd. destruct (Nat.ltb_spec k (length x)); [|lia]. rewrite andb_true_r. reflexivity. }
  destruct (existsb (Nat.eqb i) bs) eqn:Eb.
  - assert (Hia : i <> a). { apply existsb_exists in Eb as (b & Hb & E). apply Nat.eqb_eq in E. subst b. intros ->. contradiction. }
    apply deriv_ext with (f := fun t => ((if Nat.eqb j a then t else nth a x 0) * (if Nat.eqb j i then t else nth i x 0))%R); [intros t; rewrite !N by assumption; reflexivity|].
    rewrite (Nat.eqb_sym i j). destruct (Nat.eqb_spec j i) as [->|Hji]; destruct (Nat.eqb_spec i a) as [E|_]; try contradiction.
    + destruct (Nat.eqb_spec i a) as [E|_]; [contradiction|]. eapply deriv_val; [apply derivable_pt_lim_mult; [apply derivable_pt_lim_const|apply derivable_pt_lim_id]|]. unfold fct_cte, id. ring.
    + destruct (Nat.eqb_spec j a) as [->|Hja].
      * eapply deriv_val; [apply derivable_pt_lim_mult; [apply derivable_pt_lim_id|apply derivable_pt_lim_const]|]. unfold fct_cte, id. ring.
      * apply derivable_pt_lim_const.
  - apply deriv_ext with (f := fun t => (if Nat.eqb j i then t else nth i x 0)%R); [intros t; rewrite N by assumption; reflexivity|]. rewrite (Nat.eqb_sym i j). destruct (Nat.eqb_spec j i) as [->|Hji]; [apply derivable_pt_lim_id|apply derivable_pt_lim_const].
Qed.
Print Assumptions C24_partial_derivatives.
Example C24_ex : remap_parameters [1;0;2] (pconst 3 (qz 1)) [mkPoly 3 [mon [1;2;3]%Z; mon [0;0;1]%Z]]
  = Some (mkPoly 3 [mon [0;2;0]%Z], [mkPoly 3 [mon [1;6;3]%Z; mon [0;1;1]%Z]]).
Proof. vm_compute. reflexivity. Qed.

(** * C25 *)
Theorem C25_iteration_step : forall (F : Fld) n ix (s : sector F),
  swf n s -> srefactorized ix s -> NoDup ix -> Forall (fun i => i < n) ix ->
  match iteration_step s ix with
  | Subsectors l => exists S0 sps, sublist S0 ix /\ 2 <= length S0 /\ map (hd 0) sps = S0 /\ Forall (fun sp => Permutation sp S0) sps /\
      Forall2 (fun sp s' => sector_transformed n s s' (sector_subst sp) (subst_jac sp) /\ swf n s' /\ srefactorized ix s') sps l
  | StepEnd => standard_form ix s
  | StepFailed => False
  end.
Proof.
  intros F n ix s Hwf Href Hnd Hr. unfold iteration_step. pose proof (find_singular_set_refactorized F s ix n Hwf Href Hnd) as Hf.
  destruct (find_singular_set s ix) as [S0| |]; [|exact Hf|exact Hf]. destruct Hf as (_ & c1 & c & c2 & _ & _ & Hch & _).
  pose proof Hch as (Hsub & Hl & _). exists S0, (subsector_sets S0). split; [exact Hsub|]. split; [exact Hl|]. split; [apply subsector_sets_heads|]. split.
  - apply Forall_forall. intros sp Hsp. apply subsector_sets_perm, Hsp.
  - assert (Hg : forall sp, In sp (subsector_sets S0) -> good_set n sp) by (intros sp Hsp; eapply choice_good; [split; [exact Hnd|exact Hr]|exact Hch|exact Hsp]).
    revert Hg. generalize (subsector_sets S0). induction l as [|sp l IH]; intros Hg; constructor; [|apply IH; intros; apply Hg; right; assumption].
    assert (G : good_set n sp) by (apply Hg; left; reflexivity).
    split; [apply subsector_transformed; assumption|]. split; [apply subsector_swf; assumption|eapply subsector_refactorized; eassumption].
Qed.
Print Assumptions C25_iteration_step.
(** in the sector with [a] first, x_a is the largest of the parameters of the set *)
Theorem C25_image_of_cube : forall n a bs (x : list R), NoDup (a :: bs) -> Forall (fun i => i < n) (a :: bs) ->
  (exists y, in_cube n y /\ @sector_subst R_Fld (a :: bs) y = x) <->
  in_cube n x /\ forall b, In b bs -> (nth b x 0 <= nth a x 0)%R.
Proof. intros n a bs x Hn Hr. apply step_image. split; [exact Hn|]. split; [discriminate|exact Hr]. Qed.
Print Assumptions C25_image_of_cube.
Theorem C25_cover_and_overlap : forall n S0 sps, NoDup S0 -> S0 <> [] -> Forall (fun i => i < n) S0 ->
  map (hd 0) sps = S0 -> Forall (fun sp => Permutation sp S0) sps ->
  (forall x, in_cube n x -> exists sp y, In sp sps /\ in_cube n y /\ @sector_subst R_Fld sp y = x) /\
  (forall sp sp' y y', In sp sps -> In sp' sps -> sp <> sp' -> in_cube n y -> in_cube n y' ->
     @sector_subst R_Fld sp y = @sector_subst R_Fld sp' y' ->
     hd 0 sp <> hd 0 sp' /\ nth (hd 0 sp) (@sector_subst R_Fld sp y) 0%R = nth (hd 0 sp') (@sector_subst R_Fld sp y) 0%R).
Proof.
  intros n S0 sps Hn Hne Hr Hh Hp. rewrite Forall_forall in Hp.
  assert (Hg : forall sp, In sp sps -> exists a bs, sp = a :: bs /\ good_set n (a :: bs) /\ Permutation (a :: bs) S0).
  { intros sp Hsp. specialize (Hp sp Hsp). destruct sp as [|a bs]; [apply Permutation_nil in Hp; congruence|]. exists a, bs. split; [reflexivity|]. split; [|exact Hp]. split; [|split; [discriminate|]].
    - eapply Permutation_NoDup; [symmetry; exact Hp|exact Hn].
    - apply Forall_forall. rewrite Forall_forall in Hr. intros i Hi. apply Hr. eapply Permutation_in; eassumption. }
  split.
  - intros x Hx. destruct (argmax x S0 Hne) as (a & Ha & Hmax). rewrite <- Hh in Ha. apply in_map_iff in Ha as (sp & E & Hsp).
    destruct (Hg sp Hsp) as (a' & bs & -> & G & P). cbn [hd] in E. subst a'. exists (a :: bs). destruct (proj2 (step_image n a bs x G)) as (y & Hy & E).
    { split; [exact Hx|]. intros b Hb. apply Hmax. eapply Permutation_in; [exact P|right; exact Hb]. }
    exists y. auto.
  - intros sp sp' y y' Hsp Hsp' Hd Hy Hy' E. destruct (Hg sp Hsp) as (a & bs & -> & G & P). destruct (Hg sp' Hsp') as (a' & bs' & -> & G' & P').
    cbn [hd]. assert (Haa : a <> a').
    { intros <-. apply Hd. assert (Hnd : NoDup (map (hd 0) sps)) by (rewrite Hh; exact Hn). clear -Hnd Hsp Hsp'.
      apply In_nth_error in Hsp as (i & Hi), Hsp' as (j & Hj). assert (Eij : i = j).
      { rewrite NoDup_nth_error in Hnd. apply Hnd; [rewrite map_length; apply nth_error_Some; congruence|]. rewrite !nth_error_map, Hi, Hj. reflexivity. }
      congruence. }
    split; [exact Haa|]. apply Rle_antisym.
    + rewrite E. apply (proj1 (step_image n a' bs' (@sector_subst R_Fld (a' :: bs') y') G')); [exists y'; auto|].
      assert (Hin : In a (a' :: bs')) by (eapply Permutation_in; [symmetry; exact P'|eapply Permutation_in; [exact P|left; reflexivity]]). destruct Hin; [subst; congruence|assumption].
    + apply (proj1 (step_image n a bs (@sector_subst R_Fld (a :: bs) y) G)); [exists y; auto|].
      assert (Hin : In a' (a :: bs)) by (eapply Permutation_in; [symmetry; exact P|eapply Permutation_in; [exact P'|left; reflexivity]]). destruct Hin; [congruence|assumption].
Qed.
Print Assumptions C25_cover_and_overlap.

Lemma sector_integral_R n ks ls (s : sector R_Fld) : swf n s -> snonneg s ->
  cube_RInt n (fun x => sector_value ks ls s x) = tint R_Fld (svalue R_Fld n ks ls s).
Proof.
  intros H1 H2. rewrite <- (tint_R n) by (apply svalue_wf; assumption). apply cube_RInt_ext. intros x HL. symmetry. apply (svalue_eval R_Fld n); assumption.
Qed.
(** the sum of the integrals over the subsectors is the integral over the sector, for polynomial integrands *)
Theorem C25_integral_preserved : forall n ix ks ls (s : sector R_Fld) l,
  swf n s -> srefactorized ix s -> snonneg s -> NoDup ix -> Forall (fun i => i < n) ix -> iteration_step s ix = Subsectors l ->
  @sumF R_Fld (map (fun s' : sector R_Fld => cube_RInt n (fun y => sector_value ks ls s' y)) l) = cube_RInt n (fun x => sector_value ks ls s x).
Proof.
  intros n ix ks ls s l Hwf Href Hnn Hnd Hr H. unfold iteration_step in H. pose proof (find_singular_set_refactorized R_Fld s ix n Hwf Href Hnd) as Hf.
  destruct (find_singular_set s ix) as [S0| |]; try discriminate. injection H as <-. destruct Hf as (_ & c1 & c & c2 & _ & _ & Hch & _).
  assert (Hg : forall sp, In sp (subsector_sets S0) -> good_set n sp) by (intros sp Hsp; eapply choice_good; [split; [exact Hnd|exact Hr]|exact Hch|exact Hsp]).
  rewrite map_map. destruct Hch as (Hsub & Hl & _). rewrite sector_integral_R by assumption.
  rewrite <- (step_integral R_Fld char0_R n ks ls s S0); try assumption.
  - apply sumF_map_ext. intros sp Hsp. apply sector_integral_R; [apply subsector_swf; auto|apply (subsector_nonneg R_Fld n); auto].
  - eapply sublist_NoDup; eassumption.
  - intros ->. cbn in Hl. lia.
  - apply Forall_forall. rewrite Forall_forall in Hr. intros i Hi. apply Hr. eapply sublist_in; eassumption.
Qed.
Print Assumptions C25_integral_preserved.

(** * C26 *)
Theorem C26_find_singular_set : forall (F : Fld) n (s : sector F) ix, swf n s -> srefactorized ix s -> NoDup ix ->
  match find_singular_set s ix with
  | EndOfDecomposition => standard_form ix s
  | Found S0 => ~ standard_form ix s /\ exists done c rest, scast s = done ++ c :: rest /\
       Forall (fun c => exists t, In t (ptm (snd c)) /\ Forall (fun i => getZ i (fst t) = 0%Z) ix) done /\
       ~ (exists t, In t (ptm (snd c)) /\ Forall (fun i => getZ i (fst t) = 0%Z) ix) /\
       sublist S0 ix /\ 2 <= length S0 /\ nullifies S0 (snd c) /\
       (forall T, sublist T ix -> nullifies T (snd c) -> length S0 <= length T)
  | AssertFailed => False
  end.
Proof.
  intros F n s ix Hwf Href Hnd. pose proof (find_singular_set_refactorized F s ix n Hwf Href Hnd) as H.
  destruct (find_singular_set s ix) as [S0| |]; try exact H. destruct H as (Hns & c1 & c & c2 & Ec & Hc1 & (A & B & C & _) & D).
  split; [exact Hns|]. exists c1, c, c2. repeat split; try assumption.
  intros (t & Ht & Hz). unfold nullifies in C. rewrite Forall_forall in C, Hz. destruct (C t Ht) as (i & Hi & Hpos).
  assert (In i ix) by (eapply sublist_in; eassumption). rewrite (Hz i) in Hpos by assumption. lia.
Qed.
Print Assumptions C26_find_singular_set.
(** the set with the largest sum of powers is taken among all smallest sets *)
Theorem C26_prefers_highest_powers : forall (F : Fld) n (s : sector F) ix S0, swf n s -> srefactorized ix s -> NoDup ix ->
  find_singular_set s ix = Found S0 -> exists c, In c (scast s) /\ nullifies S0 (snd c) /\
    forall T, sublist T ix -> length T = length S0 -> nullifies T (snd c) -> (exposum (snd c) T <= exposum (snd c) S0)%Z.
Proof.
  intros F n s ix S0 Hwf Href Hnd H. pose proof (find_singular_set_refactorized F s ix n Hwf Href Hnd) as Hf. rewrite H in Hf.
  destruct Hf as (_ & c1 & c & c2 & Ec & _ & (A & B & C & D) & _). exists c. split; [rewrite Ec; apply in_app_iff; right; left; reflexivity|]. split; [exact C|].
  intros T HT HL Hz. apply D; try assumption. lia.
Qed.
Print Assumptions C26_prefers_highest_powers.
(** ... but the intended preference for sets that nullify most polynomials is not implemented: for
    (x0 x2 + x1, x1 + x2) the set {x1, x2} nullifies both polynomials and {x0, x1} only one, and {x0, x1} is returned *)
Definition heur : sector Qc_Fld :=
  mkSector [(pconst 3 (qz 1), mkPoly 3 [mon [1;0;1]%Z; mon [0;1;0]%Z]); (pconst 3 (qz 1), mkPoly 3 [mon [0;1;0]%Z; mon [0;0;1]%Z])] [] (pconst 3 (qz 1)).
Theorem C26_most_polynomials_refuted :
  swf 3 heur /\ srefactorized [0;1;2] heur /\ find_singular_set heur [0;1;2] = Found [0;1] /\
  length (filter (fun c => becomes_zero_for (snd c) [0;1]) (scast heur)) = 1 /\
  length (filter (fun c => becomes_zero_for (snd c) [1;2]) (scast heur)) = 2.
Proof.
  split; [unfold swf; cbn; repeat (constructor; [split; [reflexivity|split; [repeat constructor|discriminate]]|]); constructor|].
  split; [unfold srefactorized; cbn; repeat constructor|]. vm_compute. repeat split.
Qed.
Print Assumptions C26_most_polynomials_refuted.

(** * C27 *)
Theorem C27_standard_form_and_tiling : forall n ix fuel (s : sector R_Fld) l,
  swf n s -> srefactorized ix s -> NoDup ix -> Forall (fun i => i < n) ix ->
  iterative_decomposition fuel s ix = Some l ->
  exists paths : list (list (list nat)),
    Forall2 (fun path s' => sector_transformed n s s' (path_subst path) (path_jac path) /\ standard_form ix s') paths l /\
    NoDup paths /\
    (forall path y, In path paths -> in_cube n y -> in_cube n (@path_subst R_Fld path y)) /\
    (forall x, in_cube n x -> exists path y, In path paths /\ in_cube n y /\ @path_subst R_Fld path y = x) /\
    (forall x, generic n x -> forall p q y z, In p paths -> In q paths -> in_cube n y -> in_cube n z ->
       @path_subst R_Fld p y = x -> @path_subst R_Fld q z = x -> p = q /\ y = z).
Proof.
  intros n ix fuel s l Hwf Href Hnd Hr H. destruct (decomposition_paths R_Fld n ix fuel s l (conj Hnd Hr) Hwf Href H) as (paths & Ht & Hp).
  exists paths. split; [exact Hp|]. split; [eapply tree_NoDup; exact Ht|]. split; [|split].
  - intros path y Hin Hy. pose proof (tree_good n paths Ht) as G. rewrite Forall_forall in G. apply path_cube; [apply G, Hin|exact Hy].
  - intros x Hx. apply (tree_cover n paths x Ht Hx).
  - intros x Hx. apply (tree_unique n paths x Ht Hx).
Qed.
Print Assumptions C27_standard_form_and_tiling.
Theorem C27_every_field : forall (F : Fld) n ix fuel (s : sector F) l,
  swf n s -> srefactorized ix s -> NoDup ix -> Forall (fun i => i < n) ix ->
  iterative_decomposition fuel s ix = Some l ->
  exists paths, Forall2 (fun path s' => sector_transformed n s s' (path_subst path) (path_jac path) /\ standard_form ix s') paths l.
Proof.
  intros F n ix fuel s l Hwf Href Hnd Hr H. destruct (decomposition_paths F n ix fuel s l (conj Hnd Hr) Hwf Href H) as (paths & _ & Hp). exists paths. exact Hp.
Qed.
Print Assumptions C27_every_field.
Theorem C27_standard_form_unchanged : forall (F : Fld) fuel (s : sector F) ix, standard_form ix s ->
  iterative_decomposition (S fuel) s ix = Some [s].
Proof.
  intros F fuel s ix H. cbn [iterative_decomposition]. unfold iteration_step. pose proof (find_singular_set_general F s ix) as G.
  assert (E : get_poly_to_transform (scast s) ix = None).
  { apply get_poly_none. unfold standard_form in H. eapply Forall_impl; [|exact H]. intros c Hc. apply has_const_spec, Hc. }
  rewrite E in G. destruct (find_singular_set s ix); [destruct G as (p & G & _); discriminate|reflexivity|destruct G as (p & G & _); discriminate].
Qed.
Print Assumptions C27_standard_form_unchanged.
(** the integral of every polynomial integrand over the unit cube is preserved *)
Theorem C27_integral_preserved : forall n ix fuel ks ls (s : sector R_Fld) l,
  swf n s -> srefactorized ix s -> snonneg s -> NoDup ix -> Forall (fun i => i < n) ix ->
  iterative_decomposition fuel s ix = Some l ->
  @sumF R_Fld (map (fun s' : sector R_Fld => cube_RInt n (fun y => sector_value ks ls s' y)) l) = cube_RInt n (fun x => sector_value ks ls s x).
Proof.
  intros n ix fuel ks ls s l Hwf Href Hnn Hnd Hr H.
  destruct (decomposition_integral R_Fld char0_R n ix ks ls fuel s l (conj Hnd Hr) Hwf Href Hnn H) as [E Hl].
  rewrite sector_integral_R by assumption. rewrite <- E. apply sumF_map_ext. intros s' Hs'. rewrite Forall_forall in Hl. destruct (Hl s' Hs'). apply sector_integral_R; assumption.
Qed.
Print Assumptions C27_integral_preserved.
(** the sectors made from polynomials satisfy the hypotheses above *)
Theorem C27_initial_sectors : forall (F : Fld) cast other jac (s : sector F),
  Forall (fun p => pwf p /\ ptm p <> []) (cast ++ other ++ (match jac with Some j => [j] | None => [] end)) ->
  make_sector cast other jac = Some s ->
  let n := sector_nv s in swf n s /\ srefactorized (seq 0 n) s /\
  Forall2 (fun p c => forall x, length x = n -> Forall (fun v => v <> f0) x -> fmul (peval (fst c) x) (peval (snd c) x) = peval p x) cast (scast s).
Proof. exact make_sector_ok. Qed.
Print Assumptions C27_initial_sectors.
(** x0 + x1 + x0 x2 and x0 x1 + x1 x2 + x0^2: a non-trivial decomposition *)
Definition ex_sec : option (sector Qc_Fld) :=
  make_sector [mkPoly 3 [mon [1;0;0]%Z; mon [0;1;0]%Z; mon [1;0;1]%Z]; mkPoly 3 [mon [1;1;0]%Z; mon [0;1;1]%Z; mon [2;0;0]%Z]] [] None.
Example C27_ex : match ex_sec with
  | Some s => option_map (@length _) (iterative_decomposition 10 s [0;1;2]) = Some 6
  | None => False end.
Proof. vm_compute. reflexivity. Qed.
(** generic points exist *)
Lemma pow23 n m : (2 ^ Z.of_nat n = 3 ^ Z.of_nat m)%Z -> n = 0 /\ m = 0.
Proof.
  intros H. assert (O : Z.odd (3 ^ Z.of_nat m) = true). { rewrite <- Zpower.Zpower_nat_Z. induction m as [|m IH]; [reflexivity|]. cbn [Zpower_nat]. 
    clear. induction m as [|m IH]; [reflexivity|]. change (Zpower_nat 3 (S (S m))) with (3 * Zpower_nat 3 (S m))%Z. rewrite Z.odd_mul, IH. reflexivity. }
  destruct n as [|n].
  - split; [reflexivity|]. destruct m as [|m]; [reflexivity|]. rewrite Nat2Z.inj_succ, Z.pow_succ_r in H by lia. assert (0 < 3 ^ Z.of_nat m)%Z by (apply Z.pow_pos_nonneg; lia). change (2 ^ Z.of_nat 0)%Z with 1%Z in H. lia.
  - rewrite <- H, Nat2Z.inj_succ, Z.pow_succ_r, Z.odd_mul in O by lia. discriminate.
Qed.
Lemma pow23' n m : (2 ^ Z.of_nat n * 3 ^ Z.of_nat m = 1)%Z -> n = 0 /\ m = 0.
Proof.
  intros H. assert (A : (0 < 2 ^ Z.of_nat n)%Z) by (apply Z.pow_pos_nonneg; lia). assert (B : (0 < 3 ^ Z.of_nat m)%Z) by (apply Z.pow_pos_nonneg; lia).
  assert (2 ^ Z.of_nat n = 1)%Z by nia. assert (3 ^ Z.of_nat m = 1)%Z by nia.
  destruct (pow23 n 0) as [-> _]; [change (3 ^ Z.of_nat 0)%Z with 1%Z; lia|]. destruct (pow23 0 m) as [_ ->]; [change (2 ^ Z.of_nat 0)%Z with 1%Z; lia|]. auto.
Qed.
Example C27_generic_ex : generic 2 [/2; /3]%R /\ in_cube 2 [/2; /3]%R.
Proof.
  split; [|split; [reflexivity|repeat constructor; lra]]. split; [reflexivity|]. split; [repeat constructor; lra|].
  intros [|a [|b [|]]] HL H; try discriminate. cbn [meval] in H. change (@zpow R_Fld (/2)%R a * (@zpow R_Fld (/3)%R b * 1) = 1)%R in H.
  assert (P : forall (v : R) k, (v <> 0)%R -> (exists n, k = Z.of_nat n /\ @zpow R_Fld (/v)%R k = / pow v n)%R \/ (exists n, k = (- Z.of_nat n)%Z /\ @zpow R_Fld (/v)%R k = pow v n)%R).
  { intros v k Hv. destruct (Z_le_gt_dec 0 k).
    - left. exists (Z.to_nat k). split; [lia|]. rewrite <- (Z2Nat.id k) at 1 by lia. rewrite (@zpow_of_nat R_Fld). transitivity (pow (/v) (Z.to_nat k)); [apply npow_R|]. apply pow_inv.
    - right. exists (Z.to_nat (-k)). split; [lia|]. replace k with (- Z.of_nat (Z.to_nat (-k)))%Z at 1 by lia. rewrite (@zpow_opp_nat R_Fld) by (cbn; apply Rinv_neq_0_compat, Hv).
      transitivity (/ pow (/v) (Z.to_nat (-k)))%R; [apply (f_equal Rinv), npow_R|]. rewrite pow_inv. apply Rinv_inv. }
  assert (Q2 : forall n, (pow 2 n = IZR (2 ^ Z.of_nat n))%R) by (intros; rewrite <- pow_IZR; reflexivity).
  assert (Q3 : forall n, (pow 3 n = IZR (3 ^ Z.of_nat n))%R) by (intros; rewrite <- pow_IZR; reflexivity).
  assert (N2 : forall n, pow 2 n <> 0%R) by (intros; apply pow_nonzero; lra). assert (N3 : forall n, pow 3 n <> 0%R) by (intros; apply pow_nonzero; lra).
  destruct (P 2%R a ltac:(lra)) as [(n & -> & E1)|(n & -> & E1)]; destruct (P 3%R b ltac:(lra)) as [(m & -> & E2)|(m & -> & E2)]; rewrite E1, E2 in H; clear E1 E2.
  - assert (E : (pow 2 n * pow 3 m = 1)%R) by (apply (f_equal (fun r => r * (pow 2 n * pow 3 m))%R) in H; rewrite Rmult_1_l in H; rewrite <- H; field; auto).
    rewrite Q2, Q3, <- mult_IZR in E. apply eq_IZR in E. apply pow23' in E as [-> ->]. reflexivity.
  - assert (E : (pow 2 n = pow 3 m)%R) by (apply (f_equal (fun r => r * pow 2 n)%R) in H; rewrite Rmult_1_l in H; rewrite <- H; field; auto).
    rewrite Q2, Q3 in E. apply eq_IZR in E. apply pow23 in E as [-> ->]. reflexivity.
  - assert (E : (pow 2 n = pow 3 m)%R) by (apply (f_equal (fun r => r * pow 3 m)%R) in H; rewrite Rmult_1_l in H; rewrite <- H; field; auto).
    rewrite Q2, Q3 in E. apply eq_IZR in E. apply pow23 in E as [-> ->]. reflexivity.
  - assert (E : (pow 2 n * pow 3 m = 1)%R) by (rewrite <- H; ring).
    rewrite Q2, Q3, <- mult_IZR in E. apply eq_IZR in E. apply pow23' in E as [-> ->]. reflexivity.
Qed.
