(** C28-C30: splitting of the integration interval. *)
From Verif Require Import PolyProofs SectorInt CubeInt SplitProofs SplitProofs2 SplitProofs3 SplitReal.
From Verif Require Export SplitSpec.
Local Open Scope nat_scope.

(** * C28 *)
Theorem C28_value : forall (F : Fld) (p : poly F) ix x,
  pdef p x -> NoDup ix -> Forall (fun i => i < pnv p) ix -> Forall (fun t => Forall (fun i => (0 <= getZ i (fst t))%Z) ix) (ptm p) ->
  exists q, remap_one_to_zero p ix = Some q /\ pnv q = pnv p /\ pnormal q /\ pdef q x /\ peval q x = peval p (flip_coords ix x).
Proof.
  intros F p ix x H1 H2 H3 H4. destruct (remap_correct F p ix x H1 H2) as (q & A & B & C & D & E).
  - rewrite Forall_forall in *. intros t Ht. specialize (H4 t Ht). rewrite Forall_forall in *. auto.
  - exists q. auto.
Qed.
Print Assumptions C28_value.
Section A.
Variable F : Fld.
Add Field FldF : (f_th F).
Lemma fsub_fsub (a : F) : fsub f1 (fsub f1 a) = a.
Proof. ring. Qed.
End A.
Lemma flip_flip (F : Fld) ix (x : list F) : flip_coords ix (flip_coords ix x) = x.
Proof.
  apply (nth_ext _ _ f0 f0); rewrite !flip_length; [reflexivity|]. intros j Hj. unfold flip_coords at 1. rewrite flip_length, nth_mapseq by exact Hj.
  unfold flip_coords. rewrite !nth_mapseq by exact Hj. destruct (existsb _ ix); [|reflexivity].
  apply fsub_fsub.
Qed.
(** applied twice: the polynomial function is recovered *)
Theorem C28_involution : forall (F : Fld) n (p : poly F) ix, pnv p = n -> pwf p -> ptm p <> [] -> pnonneg p -> NoDup ix -> Forall (fun i => i < n) ix ->
  exists q r, remap_one_to_zero p ix = Some q /\ remap_one_to_zero q ix = Some r /\ pnonneg q /\ forall x, length x = n -> peval r x = peval p x.
Proof.
  intros F n p ix H1 H2 H3 H4 Hn Hi. destruct (remap_pok F n p ix (conj H1 (conj H2 (conj H3 H4))) Hn Hi) as (q & Q1 & Q2 & _ & Q3).
  destruct (remap_pok F n q ix Q2 Hn Hi) as (r & R1 & R2 & _ & R3). exists q, r. split; [exact Q1|]. split; [exact R1|]. split; [apply Q2|].
  intros x Hx. rewrite R3, Q3 by (rewrite ?flip_length; exact Hx). rewrite flip_flip. reflexivity.
Qed.
Print Assumptions C28_involution.
(** a negative exponent in a remapped variable is not remapped silently *)
Theorem C28_negative_exponent_fails : forall (F : Fld) (p : poly F) ix i t,
  In i ix -> In t (ptm p) -> (getZ i (fst t) < 0)%Z -> remap_one_to_zero p ix = None.
Proof.
  intros F p ix i t Hi Ht Hneg. unfold remap_one_to_zero. replace (remap_terms (pnv p) ix (ptm p)) with (@None (list (term F))); [reflexivity|]. symmetry.
  assert (L : forall l (tp : poly F), In i l -> remap_term_loop (pnv p) (fst t) tp l = None).
  { induction l as [|j l IH]; intros tp Hin; [destruct Hin|]; destruct Hin as [->|Hin]; cbn [remap_term_loop].
    - destruct (Z.ltb_spec (getZ i (fst t)) 0); [reflexivity|lia].
    - destruct (Z.ltb _ 0); [reflexivity|]. destruct (pmul tp _); [apply IH, Hin|reflexivity]. }
  induction (ptm p) as [|u ts IH]; [destruct Ht|]. cbn [remap_terms]. destruct Ht as [->|Ht].
  - unfold remap_term. rewrite L by exact Hi. reflexivity.
  - rewrite (IH Ht). destruct (remap_term _ _ u); reflexivity.
Qed.
Print Assumptions C28_negative_exponent_fails.
Definition qmon (c : Z) (e : list Z) : term Qc_Fld := (e, @zF Qc_Fld c).
Example C28_ex : let p := @mkPoly Qc_Fld 2 [qmon 1 [2;1]%Z; qmon (-3) [1;0]%Z] in
  remap_one_to_zero p [0] = Some (mkPoly 2 [qmon (-3) [0;0]%Z; qmon 1 [0;1]%Z; qmon 3 [1;0]%Z; qmon (-2) [1;1]%Z; qmon 1 [2;1]%Z]) /\ pnonneg p.
Proof. split; [vm_compute; reflexivity|repeat constructor; cbn; lia]. Qed.

(** * C29 *)
(** 2^k sectors, one for each choice of the left or right part of every interval; each is the original after the
    substitution x_i -> v*x_i or x_i -> 1-(1-v)*x_i, at every point, and its Jacobian has the factor prod (v or 1-v) *)
Theorem C29_sectors : forall (F : Fld) n ix vs (s : sector F),
  swf n s -> snonneg s -> smono s -> Forall (fun i => i < n) ix -> length vs = length ix ->
  exists l, split_recursively s ix vs = Some l /\ length l = 2 ^ length ix /\
    Forall2 (fun cs s' => swf n s' /\ snonneg s' /\ smono s' /\ sector_mapped n s s' (split_point ix vs cs) (split_jac vs cs)) (choices (length ix)) l.
Proof.
  intros F n ix vs s H1 H2 H3 Hi HL. destruct (split_ok F n ix vs s (conj H1 (conj H2 H3)) Hi HL) as (l & E & H). exists l. split; [exact E|]. split.
  - rewrite <- choices_length. clear -H. induction H; cbn; congruence.
  - eapply Forall2_impl'; [|exact H]. cbn. intros cs s' ((A & B & C) & D). auto.
Qed.
Print Assumptions C29_sectors.
(** the choices are all the lists of [k] booleans, each once *)
Theorem C29_choices : forall k, NoDup (choices k) /\ forall cs, In cs (choices k) <-> length cs = k.
Proof. intros k. split; [apply choices_NoDup|apply choices_in]. Qed.
Print Assumptions C29_choices.
(** the images of the unit cube under the substitutions cover the unit cube and nothing else; they overlap only where a split coordinate is
    the splitting point *)
Theorem C29_tiling : forall n ix vs, Forall (fun v => (0 < v < 1)%R) vs -> length vs = length ix -> Forall (fun i => i < n) ix ->
  (forall cs y, in_cube n y -> in_cube n (@split_point R_Fld ix vs cs y)) /\
  (forall x, in_cube n x -> exists cs y, In cs (choices (length ix)) /\ in_cube n y /\ @split_point R_Fld ix vs cs y = x) /\
  (NoDup ix -> forall x cs cs' y y', Forall2 (fun i v => nth i x 0%R <> v) ix vs -> In cs (choices (length ix)) -> In cs' (choices (length ix)) -> in_cube n y -> in_cube n y' ->
     @split_point R_Fld ix vs cs y = x -> @split_point R_Fld ix vs cs' y' = x -> cs = cs' /\ y = y').
Proof.
  intros n ix vs Hv HL Hi. split; [|split].
  - intros cs y Hy. apply split_in_cube; assumption.
  - intros x Hx. apply split_cover; assumption.
  - intros Hn x cs cs' y y' Hx Hc Hc' Hy Hy' E E'. apply choices_in in Hc, Hc'. apply (split_unique n ix vs x); assumption.
Qed.
Print Assumptions C29_tiling.
(** the integral over the unit cube is preserved, for all natural exponents of the products and the other polynomials *)
Theorem C29_integral_preserved : forall n ix vs ks ls (s : sector R_Fld) l,
  swf n s -> snonneg s -> smono s -> Forall (fun i => i < n) ix -> Forall (fun v => (0 < v < 1)%R) vs -> split_recursively s ix vs = Some l ->
  @sumF R_Fld (map (fun s' : sector R_Fld => cube_RInt n (fun y => sector_value ks ls s' y)) l) = cube_RInt n (fun x => sector_value ks ls s x).
Proof. intros n ix vs ks ls s l H1 H2 H3. apply split_integral. split; auto. Qed.
Print Assumptions C29_integral_preserved.
Example C29_ex : let s := mkSector [(@mkPoly Qc_Fld 2 [qmon 1 [1;0]%Z], mkPoly 2 [qmon 1 [0;0]%Z; qmon (-1) [0;1]%Z])] [] (@pconst Qc_Fld 2 f1) in
  (swf 2 s /\ snonneg s /\ smono s) /\ option_map (@length _) (split_recursively s [1] [finv (natF 2)]) = Some 2.
Proof. split; [split; [|split]|vm_compute; reflexivity]; repeat constructor; try (intro H; discriminate H); cbn; lia. Qed.

(** * C30 *)
(** the sets are exactly the sublists of the occurring parameters for which the polynomial, with these parameters set to one,
    has no constant term, i.e. vanishes when all the other parameters are zero; each is listed once *)
Theorem C30_singular_sets : forall (F : Fld) (p : poly F), pwf p -> pnonneg p -> ptm p <> [] ->
  NoDup (find_singular_sets_at_one p) /\
  forall set, In set (find_singular_sets_at_one p) <->
    sublist set (filter (appears p) (seq 0 (pnv p))) /\ peval p (map (fun j => if existsb (Nat.eqb j) set then f1 else f0) (seq 0 (pnv p))) = f0.
Proof. intros F p H1 H2 H3. split; [apply find_singular_NoDup|]. intros set. apply find_singular_spec; assumption. Qed.
Print Assumptions C30_singular_sets.
Theorem C30_appears : forall (F : Fld) (p : poly F) i, appears p i = true <-> exists t, In t (ptm p) /\ getZ i (fst t) <> 0%Z.
Proof. exact appears_spec. Qed.
Print Assumptions C30_appears.
(** [split_singular] splits exactly the parameters in some singular set of a polynomial to be cast, restricted to [indices] unless
    [indices] is empty, in increasing order *)
Theorem C30_split_parameters : forall (F : Fld) n (s : sector F) indices, swf n s -> snonneg s -> scast s <> [] ->
  let r := singular_parameters s indices in
  StronglySorted lt r /\ forall i, In i r <-> (indices = [] \/ In i indices) /\
     exists c set, In c (scast s) /\ In set (find_singular_sets_at_one (snd c)) /\ In i set.
Proof.
  intros F n s indices Hw Hn Hne r. destruct (sok_get F n s Hw Hn) as (G & _ & _).
  assert (En : sector_nv s = n). { unfold sector_nv. destruct (scast s) as [|c l]; [congruence|]. apply (G c). left. reflexivity. }
  split.
  - unfold r, singular_parameters. generalize (sector_nv s) as m. intros m. generalize 0 as a. induction m as [|m IH]; intros a; cbn [seq filter]; [constructor|].
    destruct (_ && _); [constructor; [apply IH|]|apply IH]. apply Forall_forall. intros b Hb. apply filter_In in Hb as [Hb _]. apply in_seq in Hb. lia.
  - intros i. unfold r, singular_parameters. rewrite filter_In, in_seq, andb_true_iff, En.
    assert (EX : forall l, existsb (Nat.eqb i) l = true <-> In i l). { intros l. rewrite existsb_exists. split; [intros (j & Hj & E); apply Nat.eqb_eq in E; subst; exact Hj|intros H; exists i; split; [exact H|apply Nat.eqb_refl]]. }
    rewrite EX, in_flat_map. split.
    + intros (_ & (c & Hc & Hi) & Hind). split.
      * destruct indices; [left; reflexivity|right; apply EX, Hind].
      * apply in_concat in Hi as (set & H1 & H2). exists c, set. auto.
    + intros (Hind & c & set & Hc & Hset & Hi). split; [|split].
      * apply find_singular_spec in Hset as [Hset _]; try apply (G c Hc). apply (SplitProofs3.sublist_in _ _ _ Hset) in Hi. apply filter_In in Hi as [Hi _]. apply in_seq in Hi. destruct (G c Hc) as [_ (E & _)]. lia.
      * exists c. split; [exact Hc|]. apply in_concat. exists set. auto.
      * destruct indices; [reflexivity|]. destruct Hind as [E|H]; [discriminate|apply EX, H].
Qed.
Print Assumptions C30_split_parameters.
Example C30_ex : find_singular_sets_at_one (@mkPoly Qc_Fld 2 [qmon 1 [0;0]%Z; qmon (-10) [1;0]%Z; qmon (-1) [0;1]%Z]) = [[1]].
Proof. vm_compute. reflexivity. Qed.
