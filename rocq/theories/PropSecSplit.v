(** C89: sector decomposition with splitting of the integration region. *)
From Coq Require Import QArith Qcanon Reals Lra.
From Verif Require Import PolyProofs SectorProofs SectorProofs2 SectorInt CubeInt SplitProofs SplitProofs2 SplitReal SplitProofs3 PropSector PropSplit SecSplitNonzero SecSplitProofs.
From Verif Require Export SecSplitModel SplitSpec.
Local Open Scope nat_scope.
(** A sector with [n] integration variables as the code writer builds it: rectangular non-empty polynomials, non-negative exponents, one monomial
    factored out of each polynomial to be cast; these are simplified (no monomial twice, no zero coefficient). *)
Definition simplified_sector (n : nat) (s : sector R_Fld) : Prop :=
  swf n s /\ snonneg s /\ smono s /\
  List.Forall (fun c : poly R_Fld * poly R_Fld => NoDup (map fst (ptm (snd c))) /\ List.Forall (fun t : term R_Fld => snd t <> 0%R) (ptm (snd c))) (scast s) /\ scast s <> [].
Lemma simplified_good n s : simplified_sector n s -> good n s /\ scast s <> [].
Proof. intros (A & B & C & D & E). split; [split; [split; [exact A|split; [exact B|exact C]]|exact D]|exact E]. Qed.
Lemma good_simplified n s : good n s -> scast s <> [] -> simplified_sector n s.
Proof. intros ((A & B & C) & D) E. repeat split; try assumption. Qed.
Lemma split_none (points : nat -> R) fuel s ix l : @secondary_with_splitting R_Fld points fuel s ix None = Some l ->
  exists l0, @split_singular R_Fld points s ix = Some l0 /\ @secondary_with_splitting R_Fld points fuel s ix (Some l0) = Some l.
Proof.
  destruct fuel as [|fuel]; [discriminate|]. cbn [secondary_with_splitting]. destruct (@split_singular R_Fld points s ix) as [l0|]; [|discriminate]. intros H. exists l0. split; [reflexivity|exact H].
Qed.
Lemma C89_core : forall n ix ks ls (points : nat -> R) fuel s l, NoDup ix -> List.Forall (fun i => i < n) ix -> (forall k, (0 < points k < 1)%R) -> simplified_sector n s ->
  @secondary_with_splitting R_Fld points fuel s ix None = Some l ->
  total n ks ls l = I n ks ls s /\ List.Forall (fun s' => good n s' /\ length (scast s') = length (scast s) /\ standard_form ix s' /\ singular_parameters s' ix = []) l.
Proof.
  intros n ix ks ls points fuel s l N R Hp Hs H. apply simplified_good in Hs as (G & Ne). apply split_none in H as (l0 & E0 & H).
  destruct (split_length n ix ks ls points Hp s l0 Ne G E0) as (_ & G0 & T0).
  destruct (secondary_good n ix ks ls points (conj N R) Hp (length (scast s))) with (fuel := fuel) (s := s) (lsec := l0) (l := l) as (T & F); [destruct (scast s); [congruence|discriminate]|exact G0|exact H|].
  split; [congruence|exact F].
Qed.
(** the sectors that are returned reproduce the integral of the sector they come from, for all natural powers of the products and of the
    other polynomials, whatever points of the open interval are used for splitting *)
Theorem C89_integral : forall n ix ks ls (points : nat -> R) fuel (s : sector R_Fld) l, NoDup ix -> List.Forall (fun i => i < n) ix -> (forall k, (0 < points k < 1)%R) -> simplified_sector n s ->
  @secondary_with_splitting R_Fld points fuel s ix None = Some l ->
  @sumF R_Fld (map (fun s' : sector R_Fld => cube_RInt n (fun y => sector_value ks ls s' y)) l) = cube_RInt n (fun x => sector_value ks ls s x).
Proof. intros n ix ks ls points fuel s l N R Hp Hs H. exact (proj1 (C89_core n ix ks ls points fuel s l N R Hp Hs H)). Qed.
Print Assumptions C89_integral.
(** every sector that is returned is again simplified, is in standard form, and no further split would be made in it *)
Theorem C89_finished : forall n ix (points : nat -> R) fuel (s : sector R_Fld) l s', NoDup ix -> List.Forall (fun i => i < n) ix -> (forall k, (0 < points k < 1)%R) -> simplified_sector n s ->
  @secondary_with_splitting R_Fld points fuel s ix None = Some l -> In s' l ->
  simplified_sector n s' /\ standard_form ix s' /\ @split_singular R_Fld points s' ix = Some [s'].
Proof.
  intros n ix points fuel s l s' N R Hp Hs H Hin. pose proof (proj2 (C89_core n ix [] [] points fuel s l N R Hp Hs H)) as F. rewrite List.Forall_forall in F. destruct (F s' Hin) as (G & L & S & P). split; [|split].
  - apply good_simplified; [exact G|]. destruct Hs as (_ & _ & _ & _ & Ne). intros E. rewrite E in L. destruct (scast s); [congruence|discriminate].
  - exact S.
  - unfold split_singular. rewrite P. reflexivity.
Qed.
Print Assumptions C89_finished.
Lemma const_nonzero n (p : poly R_Fld) ix : pnv p = n -> pwf p -> pnonneg p -> distinct (ptm p) -> (forall i, i < n -> In i ix) ->
  (exists t, In t (ptm p) /\ List.Forall (fun i => getZ i (fst t) = 0%Z) ix) -> @peval R_Fld p (repeat 0%R n) <> 0%R.
Proof.
  intros <- W Q (N & C) Hall (t & Ht & Hz). refine (eq_ind _ (fun v : R => v <> 0%R) _ _ (@coeff_zero_eval R_Fld p W Q)). unfold coeff_at.
  assert (Et : fst t = zrow (pnv p)).
  { unfold pwf in W. rewrite List.Forall_forall in W, Hz. apply (nth_ext _ _ 0%Z 0%Z); [unfold zrow; rewrite repeat_length; apply W, Ht|]. intros j Hj. rewrite (W t Ht) in Hj. unfold zrow. rewrite nth_repeat. apply (Hz j), Hall, Hj. }
  revert Et. generalize (zrow (pnv p)). intros z Et. rewrite List.Forall_forall in C. specialize (C t Ht). clear -N Ht Et C.
  assert (E : map snd (filter (fun u : term R_Fld => roweqb (fst u) z) (ptm p)) = [snd t]); [|rewrite E; cbn [sumF]; change (snd t + 0 <> 0)%R; lra].
  induction (ptm p) as [|u l IH]; [destruct Ht|]. cbn [map] in N. inversion N as [|? ? N1 N2]; subst. cbn [filter]. destruct Ht as [->|Ht].
  - rewrite (proj2 (roweqb_spec _ _) eq_refl). cbn [map]. f_equal. assert (E : filter (fun u : term R_Fld => roweqb (fst u) (fst t)) l = []); [|rewrite E; reflexivity].
    clear -N1. induction l as [|v l IH]; [reflexivity|]. cbn [filter]. destruct (roweqb (fst v) (fst t)) eqn:E; [|apply IH; intros K; apply N1; right; exact K]. apply roweqb_spec in E. exfalso. apply N1. left. exact E.
  - destruct (roweqb (fst u) (fst t)) eqn:E; [|apply IH; assumption]. apply roweqb_spec in E. exfalso. apply N1. apply in_map_iff. exists t. split; [exact (eq_sym E)|exact Ht].
Qed.
Lemma meval_ext_used (e : list Z) (x y : list R) : length x = length e -> length y = length e -> (forall j, j < length e -> getZ j e <> 0%Z -> nth j x 0%R = nth j y 0%R) -> @meval R_Fld e x = @meval R_Fld e y.
Proof.
  revert x y. induction e as [|k e IH]; intros [|a x] [|b y] Lx Ly H; try discriminate; [reflexivity|]. cbn [meval]. f_equal.
  - destruct (Z.eq_dec k 0) as [->|Hk]; [reflexivity|]. f_equal. apply (H 0%nat); [cbn; lia|exact Hk].
  - apply IH; [cbn in Lx; lia|cbn in Ly; lia|]. intros j Hj Hk. apply (H (S j)); [cbn; lia|exact Hk].
Qed.
Lemma peval_ext_used (p : poly R_Fld) (x y : list R) : pwf p -> length x = pnv p -> length y = pnv p -> (forall j, j < pnv p -> appears p j = true -> nth j x 0%R = nth j y 0%R) -> @peval R_Fld p x = @peval R_Fld p y.
Proof.
  intros W Lx Ly H. unfold peval. apply (@sumF_map_ext R_Fld). intros t Ht. f_equal. unfold pwf in W. rewrite List.Forall_forall in W. pose proof (W t Ht) as L. apply meval_ext_used; [congruence|congruence|].
  intros j Hj Hk. apply H; [lia|]. apply appears_spec. exists t. split; assumption.
Qed.
Lemma sublist_filter {A} (f g : A -> bool) l : sublist (filter (fun a => f a && g a) l) (filter g l).
Proof. induction l as [|a l IH]; [constructor|]. cbn [filter]. destruct (g a) eqn:E; [|rewrite andb_false_r; exact IH]. rewrite andb_true_r. destruct (f a); [constructor 2; exact IH|constructor 3; exact IH]. Qed.
Lemma ones_nil n : @ones_at R_Fld [] n = repeat 0%R n.
Proof. unfold ones_at. generalize 0%nat as a. induction n as [|n IH]; intros a; [reflexivity|]. cbn [repeat seq map existsb]. rewrite IH. reflexivity. Qed.
(** if all the integration variables are decomposed and split, no polynomial to be cast of a returned sector vanishes at a corner of the unit cube *)
Theorem C89_corners : forall n ix (points : nat -> R) fuel (s : sector R_Fld) l s' c (x : list R), NoDup ix -> (forall i, In i ix <-> i < n) -> (forall k, (0 < points k < 1)%R) -> simplified_sector n s ->
  @secondary_with_splitting R_Fld points fuel s ix None = Some l -> In s' l -> In c (scast s') -> length x = n -> List.Forall (fun v => v = 0%R \/ v = 1%R) x -> @peval R_Fld (snd c) x <> 0%R.
Proof.
  intros n ix points fuel s l s' c x N Hix Hp Hs H Hin Hc Lx Hx. assert (R : List.Forall (fun i => i < n) ix) by (apply List.Forall_forall; intros i Hi; apply Hix, Hi).
  pose proof (proj2 (C89_core n ix [] [] points fuel s l N R Hp Hs H)) as F. rewrite List.Forall_forall in F. destruct (F s' Hin) as ((G & D) & L & S & P).
  pose proof G as (W & Nn & _). destruct (sok_get R_Fld n s' W Nn) as (Gc & _). destruct (Gc c Hc) as (_ & (E & Wc & Ne & Q)). unfold sdistinct in D. rewrite List.Forall_forall in D. unfold standard_form in S. rewrite List.Forall_forall in S.
  set (one := fun j => if Req_EM_T (nth j x 0%R) 1 then true else false). set (set1 := filter (fun j => one j && appears (snd c) j) (seq 0 (pnv (snd c)))).
  assert (X : @peval R_Fld (snd c) x = @peval R_Fld (snd c) (@ones_at R_Fld set1 (pnv (snd c)))).
  { apply peval_ext_used; [exact Wc|congruence|unfold ones_at; rewrite map_length, seq_length; reflexivity|]. intros j Hj Ha. transitivity (if existsb (Nat.eqb j) set1 then 1%R else 0%R).
    - assert (Ej : existsb (Nat.eqb j) set1 = one j).
      { apply eq_true_iff_eq. rewrite existsb_exists. split; [intros (k & Hk & Ek); apply Nat.eqb_eq in Ek; subst k; apply filter_In in Hk as (_ & Hk); apply andb_true_iff in Hk; apply Hk|].
        intros Hj1. exists j. split; [|apply Nat.eqb_refl]. apply filter_In. split; [apply in_seq; lia|]. rewrite Hj1, Ha. reflexivity. }
      rewrite Ej. unfold one. destruct (Req_EM_T (nth j x 0%R) 1) as [E1|E1]; [exact E1|]. rewrite List.Forall_forall in Hx. destruct (Hx (nth j x 0%R)) as [H0|H0]; [apply nth_In; lia|exact H0|contradiction].
    - symmetry. exact (@nth_mapseq _ (fun j => if existsb (Nat.eqb j) set1 then @f1 R_Fld else @f0 R_Fld) (pnv (snd c)) j 0%R Hj). }
  intros Z. rewrite X in Z. assert (M : In set1 (find_singular_sets_at_one (snd c))). { apply (@find_singular_spec R_Fld); try assumption. split; [apply sublist_filter|exact Z]. }
  destruct set1 as [|i set2] eqn:Es.
  - apply (const_nonzero n (snd c) ix E Wc Q (D c Hc)); [intros i Hi; apply Hix, Hi|apply S, Hc|]. rewrite E, ones_nil in Z. exact Z.
  - destruct (C30_split_parameters R_Fld n s' ix W Nn) as (_ & Sp); [intros K; rewrite K in Hc; destruct Hc|]. assert (K : In i (singular_parameters s' ix)); [|rewrite P in K; destruct K]. apply Sp. split.
    + right. apply Hix. assert (Hi : In i set1) by (rewrite Es; left; reflexivity). unfold set1 in Hi. apply filter_In in Hi as (Hi & _). apply in_seq in Hi. lia.
    + exists c, (i :: set2). split; [exact Hc|]. split; [exact M|left; reflexivity].
Qed.
Print Assumptions C89_corners.
(** a sector in standard form without singularities at one is returned unchanged *)
Theorem C89_unchanged : forall (F : Fld) (points : nat -> F) fuel (s : sector F) ix, standard_form ix s -> singular_parameters s ix = [] -> secondary_with_splitting points (S (S fuel)) s ix None = Some [s].
Proof.
  intros F points fuel s ix S P. assert (E : split_singular points s ix = Some [s]) by (unfold split_singular; rewrite P; reflexivity).
  change (secondary_with_splitting points (Datatypes.S (Datatypes.S fuel)) s ix None) with
    (match split_singular points s ix with None => None | Some l0 => collect (fun sp => match iterative_decomposition (Datatypes.S fuel) sp ix with None => None | Some ds => collect (fun d => match split_singular points d ix with None => None | Some l => if Nat.eqb (length l) 1 then Some [d] else secondary_with_splitting points (Datatypes.S fuel) d ix (Some l) end) ds end) l0 end).
  rewrite E. unfold collect at 1. cbn [fold_right]. rewrite (C27_standard_form_unchanged F fuel s ix S). unfold collect. cbn [fold_right]. rewrite E. reflexivity.
Qed.
Print Assumptions C89_unchanged.
(** instances: x0 - x1 vanishes at the corners (0,0) and (1,1), 1 - x0 - x1 + x0 x1 wherever one coordinate is one *)
Definition sector_of (p : poly Qc_Fld) : sector Qc_Fld := mkSector [(@pconst Qc_Fld (pnv p) f1, p)] [] (@pconst Qc_Fld (pnv p) f1).
Definition half : nat -> Qc_Fld := fun _ => finv (natF 2).
Example C89_ex : option_map (@length _) (secondary_with_splitting half 10 (sector_of (mkPoly 2 [qmon 1 [1;0]%Z; qmon (-1) [0;1]%Z])) [0;1] None) = Some 18 /\
  option_map (@length _) (secondary_with_splitting half 10 (sector_of (mkPoly 2 [qmon 1 [0;0]%Z; qmon (-1) [0;1]%Z; qmon (-1) [1;0]%Z;qmon 1 [1;1]%Z])) [0;1] None) = Some 4.
Proof. split; vm_compute; reflexivity. Qed.
(** the hypotheses over the reals: 1 + x0 *)
Definition real_sector : sector R_Fld := mkSector [(@pconst R_Fld 1 1%R, @mkPoly R_Fld 1 [([0%Z], 1%R); ([1%Z], 1%R)])] [] (@pconst R_Fld 1 1%R).
Example C89_ex_real : simplified_sector 1 real_sector /\ (forall k : nat, (0 < (fun _ => 1/2) k < 1)%R) /\ @secondary_with_splitting R_Fld (fun _ => (1/2)%R) 2 real_sector [0] None = Some [real_sector].
Proof.
  assert (S : simplified_sector 1 real_sector).
  { split; [|split; [|split; [|split]]]; [repeat constructor; discriminate|repeat constructor; cbn; lia|repeat constructor| |discriminate].
    constructor; [|constructor]. split; [repeat constructor; cbn; intuition discriminate|repeat constructor; apply R1_neq_R0]. }
  split; [exact S|]. split; [intros _; lra|]. apply C89_unchanged.
  - constructor; [|constructor]. exists ([0%Z], 1%R). split; [left; reflexivity|]. repeat constructor.
  - destruct S as (W & N & _ & _ & Ne). destruct (C30_split_parameters R_Fld 1 real_sector [0] W N Ne) as (_ & H). destruct (singular_parameters real_sector [0]) as [|i r]; [reflexivity|]. exfalso.
    destruct (proj1 (H i) (or_introl eq_refl)) as ([K|[<-|[]]] & c & set & [<-|[]] & Hset & Hi); [discriminate|]. cbn [snd] in Hset.
    apply (proj2 (C30_singular_sets R_Fld _ (proj1 (proj2 (proj2 (proj1 (swf_get R_Fld 1 real_sector W) _ (or_introl eq_refl)))))
                (proj2 (proj2 (proj2 (proj2 (proj1 (sok_get R_Fld 1 real_sector W N) _ (or_introl eq_refl))))))
                (proj2 (proj2 (proj2 (proj1 (swf_get R_Fld 1 real_sector W) _ (or_introl eq_refl)))))) ) in Hset as (_ & Hz).
    assert (Eb : existsb (Nat.eqb 0) set = true) by (apply existsb_exists; exists 0%nat; split; [exact Hi|reflexivity]).
    cbn [snd pnv seq map] in Hz. rewrite Eb in Hz. unfold peval in Hz. cbn [ptm map sumF fst snd meval zpow] in Hz. cbn in Hz. change (Pos.to_nat 1) with 1%nat in Hz. cbn in Hz. lra.
Qed.
