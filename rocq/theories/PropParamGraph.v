(** C43 for graphs: the integrand of [LoopIntegralFromGraph] is projective; deviation for bridges with negative powers. *)
From Coq Require Import Reals Lra Lia List ZArith QArith Qreals.
From Verif Require Import PolyProofs RealField PolyReal ParamModel ParamSpec ParamProofs ParamReal ParamStep ParamExp ParamMeasure ParamHom PropParam.
From Verif Require Import GraphSpec GraphModel PropGraph.
Import ListNotations.
Local Open Scope nat_scope.

Section G.
Variable F : Fld.
Lemma rok_upd nv i v e : (0 <= v)%Z -> rok nv e -> rok nv (upd i v e).
Proof. intros Hv [L A]. split; [rewrite upd_length; exact L|apply Forall_upd; assumption]. Qed.
Lemma rok_expo (ils : list (F * (nat * nat))) cut : rok (length ils) (cut_expo F ils cut).
Proof.
  unfold cut_expo, gP. assert (Z : rok (length ils) (repeat 0%Z (length ils))) by apply rok_zrow. revert Z. generalize (repeat 0%Z (length ils)).
  induction cut as [|i cut IH]; intros e Z; cbn [fold_left]; [exact Z|]. apply IH, rok_upd; [lia|exact Z].
Qed.
Lemma graph_U_proper ord (ils : list (F * (nat * nat))) els U : preliminary_U ord ils els = Some U -> proper (length ils) U.
Proof.
  unfold preliminary_U, make_poly, gP. destruct (_ && _)%bool; [|discriminate]. destruct (U_terms ord ils els) as [|t ts] eqn:E; [discriminate|].
  intros Q. injection Q as <-. apply proper_rows. split; [reflexivity|]. cbn [ptm]. rewrite <- E. apply Forall_forall. intros u Hu.
  unfold U_terms in Hu. apply in_flat_map in Hu. destruct Hu as (cut & _ & Hu). destruct (contains_zero _); [contradiction|]. destruct Hu as [<-|[]]. apply rok_expo.
Qed.
Lemma graph_F_proper ord (ils : list (F * (nat * nat))) els n dot Fp : preliminary_F ord ils els n dot = Some Fp -> proper (length ils) Fp.
Proof.
  unfold preliminary_F. destruct (preliminary_U ord ils els) as [U|] eqn:EU; [|discriminate]. pose proof (graph_U_proper _ _ _ _ EU) as PU.
  assert (PT : forall p q r : PolyModel.poly F, proper (length ils) p -> proper (length ils) q -> pmul p q = Some r -> proper (length ils) r).
  { intros p q r A B E. pose proof (proj1 (proper_times F (length ils) p q A B)) as T. unfold ptimes in T. rewrite E in T. exact T. }
  assert (PP : forall p q r : PolyModel.poly F, proper (length ils) p -> proper (length ils) q -> psub_or_add false p q = Some r -> proper (length ils) r).
  { intros p q r A B E. pose proof (proj1 (proper_plus F (length ils) p q A B)) as T. unfold pplus in T. rewrite E in T. exact T. }
  assert (PM : proper (length ils) (mkPoly (gP ils) (Fm_terms F ils))).
  { apply proper_rows. split; [reflexivity|]. cbn [ptm]. apply Forall_forall. intros u Hu. unfold Fm_terms in Hu. apply in_flat_map in Hu.
    destruct Hu as (i & _ & Hu). destruct (feqb _ _); [contradiction|]. destruct Hu as [<-|[]]. cbn [fst]. apply rok_upd; [lia|apply rok_zrow]. }
  assert (P0 : proper (length ils) (mkPoly (gP ils) (F0_terms F ord ils els n dot))).
  { apply proper_rows. split; [reflexivity|]. cbn [ptm]. apply Forall_forall. intros u Hu. unfold F0_terms in Hu. apply in_flat_map in Hu.
    destruct Hu as (cut & _ & Hu). cbv zeta in Hu. destruct (valid2tree _ _ _ _); [|contradiction]. destruct (cutmomenta _ _ _ _); [contradiction|].
    destruct Hu as [<-|[]]. apply rok_expo. }
  assert (PN : forall p : PolyModel.poly F, proper (length ils) p -> proper (length ils) (psub_or_add_num false p (@f0 F))).
  { intros p A. unfold psub_or_add_num. apply proper_simplify. pose proof A as A'. apply proper_rows in A. destruct A as [E A]. apply proper_rows. split; [exact E|].
    cbn [ptm]. constructor; [|exact A]. cbn [fst]. rewrite E. apply rok_zrow. }
  destruct (Fm_terms F ils) as [|m ms] eqn:EM.
  - destruct (F0_terms F ord ils els n dot) as [|t ts] eqn:E0; intros Q.
    + injection Q as <-. apply PN, proper_mul_num, PU.
    + eapply PP; [exact P0| |exact Q]. apply proper_mul_num, PU.
  - destruct (pmul U (mkPoly (gP ils) (m :: ms))) as [UF|] eqn:E1; [|discriminate]. pose proof (PT _ _ _ PU PM E1) as PUF.
    destruct (F0_terms F ord ils els n dot) as [|t ts] eqn:E0; intros Q.
    + injection Q as <-. apply PN, PUF.
    + eapply PP; [exact P0|exact PUF|exact Q].
Qed.
End G.

Lemma U_derivatives_all pw : U_derivatives pw (fun _ => true) = number_of_derivatives pw.
Proof.
  unfold U_derivatives, number_of_derivatives. f_equal.
  assert (G : forall k, map (fun ip : nat * power => Z.to_nat (derivatives (snd ip))) (combine (seq k (length pw)) pw) = map (fun p => Z.to_nat (derivatives p)) pw).
  { induction pw as [|p pw IH]; intros k; [reflexivity|]. cbn [length seq combine map fst snd]. f_equal. apply IH. }
  apply G.
Qed.

(** C43 for [LoopIntegralFromGraph]: numerator 1, exponents computed with the total number of derivatives *)
Theorem C43_graph : forall ord (ils : list (R * (nat * nat))) (els : list (list R * nat)) n dot (U Fp : rpoly) (eps : list R) (pw : list power) (D : R),
  vertex_order ord (map snd ils) -> (forall l, In l els -> vertex (map snd ils) (snd l)) -> ils <> [] -> connected_graph (map snd ils) -> length ord <= length ils ->
  @preliminary_U R_Fld ord ils els = Some U -> @preliminary_F R_Fld ord ils els n dot = Some Fp ->
  length pw = length ils -> U_dependence pw U (fun _ => true) ->
  let P := length pw in let L := (P + 1 - length ord)%nat in let nu := sum_powers eps pw in let value := power_value eps in
  let U' := fun y : list R => peval (loop_U pw U) y in let F' := fun y : list R => peval (loop_U pw Fp) y in
  let integrand := fun y : list R =>
    (product_form U' F' (@exponent_U R_Fld nu D L 0 (number_of_derivatives pw)) (@exponent_F R_Fld nu D L (number_of_derivatives pw))
       (with_UF (@numerator R_Fld value pw D L 0 U Fp (@pconst R_Fld (P + 2) 1%R))) y
     * powers_value (@measure R_Fld value pw) (y ++ [U' y; F' y]))%R in
  forall (c : R) (y : list R), (0 < c)%R -> length y = kept (map dropped_U pw) -> Forall (fun a => (0 < a)%R) y -> (0 < U' y)%R -> (0 < F' y)%R ->
  integrand (map (Rmult c) y) = (Rpower c (- INR (kept (map dropped_U pw))) * integrand y)%R.
Proof.
  intros ord ils els n dot U Fp eps pw D HO HE Hne HC HP EU EF Lp HD P L nu value.
  assert (HU : proper P U) by (unfold P; rewrite Lp; apply (graph_U_proper R_Fld ord ils els U EU)).
  assert (HF : proper P Fp) by (unfold P; rewrite Lp; apply (graph_F_proper R_Fld ord ils els n dot Fp EF)).
  assert (Q := C43_projective eps pw D L 0 U Fp (@pconst R_Fld (P + 2) 1%R) (fun _ => true)). cbv zeta in Q. rewrite U_derivatives_all in Q. cbv zeta. apply Q; clear Q.
  - intros ->. cbn in Lp. destruct ils; [congruence|discriminate].
  - exact HU.
  - exact HF.
  - apply (@proper_const R_Fld).
  - exact HD.
  - intros c x Lx. rewrite <- npow_R. unfold L, P. rewrite Lp.
    apply (proj2 (@C40_homogeneous R_Fld ord ils els U HO HE Hne HP EU) c x). exact (eq_trans Lx Lp).
  - intros c x Lx. rewrite <- npow_R. replace (S L) with (length ils + 2 - length ord) by (unfold L, P; rewrite Lp; lia).
    apply (@C41_homogeneous R_Fld ord ils els n dot Fp HO HE Hne HC HP EF c x). exact (eq_trans Lx Lp).
  - intros c x u f Hc Lx. rewrite Nat.mul_0_r. cbn [pow]. unfold peval. cbn [pconst ptm map fst snd sumF]. rewrite !(@meval_zrow R_Fld). cbn. ring.
Qed.
Print Assumptions C43_graph.

(** Example: one loop bubble, U = x0 + x1, F = x0^2 + 3 x0 x1, powers 1 + eps and -1: one derivative by x1, then x1 = 0 *)
Definition ex_U : rpoly := @mkPoly R_Fld 2 [([1; 0]%Z, 1%R); ([0; 1]%Z, 1%R)].
Definition ex_F : rpoly := @mkPoly R_Fld 2 [([2; 0]%Z, 1%R); ([1; 1]%Z, 3%R)].
Definition ex_pw : list power := [mkPower 1 [1%Q]; mkPower (-1) []].
Lemma ex_U_eval (a b : R) : peval ex_U ([a; b] : list R) = (a + b)%R.
Proof. unfold peval, ex_U. cbn. change (Pos.to_nat 1) with 1. cbn. ring. Qed.
Lemma ex_F_eval (a b : R) : peval ex_F ([a; b] : list R) = (a * a + 3 * a * b)%R.
Proof. unfold peval, ex_F. cbn. change (Pos.to_nat 1) with 1. change (Pos.to_nat 2) with 2. cbn. ring. Qed.
Lemma two (x : list R) : length x = 2 -> exists a b, x = [a; b].
Proof. destruct x as [|a [|b [|]]]; cbn; try discriminate. intros _. exists a, b. reflexivity. Qed.
Example C43_ex : proper 2 ex_U /\ proper 2 ex_F /\ U_dependence ex_pw ex_U (fun _ => true) /\
  (forall (c : R) (x : list R), length x = 2 -> peval ex_U (map (Rmult c) x : list R) = (c ^ 1 * peval ex_U x)%R) /\
  (forall (c : R) (x : list R), length x = 2 -> peval ex_F (map (Rmult c) x : list R) = (c ^ 2 * peval ex_F x)%R) /\
  map derivatives ex_pw = [0; 1]%Z /\ kept (map dropped_U ex_pw) = 1 /\
  (0 < peval (loop_U ex_pw ex_U) ([2%R] : list R))%R /\ (0 < peval (loop_U ex_pw ex_F) ([2%R] : list R))%R.
Proof.
  assert (PU : proper 2 ex_U) by (apply proper_rows; split; [reflexivity|]; repeat constructor; cbn; lia).
  assert (PF : proper 2 ex_F) by (apply proper_rows; split; [reflexivity|]; repeat constructor; cbn; lia).
  split; [exact PU|]. split; [exact PF|]. split.
  { intros i p E Hk. destruct i as [|[|[|i]]]; cbn in E; try discriminate.
    - injection E as <-. exfalso. apply Hk. reflexivity.
    - injection E as <-. exists [1%R; 1%R], 2%R. split; [reflexivity|]. split; [cbn [upd]; rewrite !ex_U_eval; lra|].
      intros j q Hj Eq. destruct j as [|[|[|j]]]; cbn in Eq; try discriminate; lia. }
  split. { intros c x L. destruct (two x L) as (a & b & ->). cbn [map]. rewrite !ex_U_eval. match goal with |- ?x = ?y => change (@eq R x y) end. ring. }
  split. { intros c x L. destruct (two x L) as (a & b & ->). cbn [map]. rewrite !ex_F_eval. match goal with |- ?x = ?y => change (@eq R x y) end. ring. }
  split; [reflexivity|]. split; [reflexivity|].
  split.
  - rewrite (C68_U_F_at_zero ex_pw ex_U [2%R] PU eq_refl). change (embed _ _) with [2%R; 0%R]. rewrite ex_U_eval. lra.
  - rewrite (C68_U_F_at_zero ex_pw ex_F [2%R] PF eq_refl). change (embed _ _) with [2%R; 0%R]. rewrite ex_F_eval. lra.
Qed.

(** C68, deviation: a bubble (lines 1-2 twice) attached by a massless line 2-3 that carries the external momentum p (p^2 = -1)
    and has power -1: U does not depend on that line, the numerator loop keeps the exponent of U, but [exponent_U] of
    [LoopIntegralFromGraph] subtracts the derivative nevertheless: the integrand lacks a factor U. *)
Definition br_ils : list (Qc_Fld * (nat * nat)) := [(ex_q 0, (1, 2)); (ex_q 0, (1, 2)); (ex_q 0, (2, 3))]%nat.
Definition br_els : list (list Qc_Fld * nat) := [([ex_q 1], 1%nat); ([ex_q (-1)], 3%nat)].
Definition br_dot (a b : list Qc_Fld) : Qc_Fld := (ex_q (-1) * nth 0 a 0 * nth 0 b 0)%fld.
Definition br_U : rpoly := @mkPoly R_Fld 3 [([1; 0; 0]%Z, 1%R); ([0; 1; 0]%Z, 1%R)].
Definition br_F : rpoly := @mkPoly R_Fld 3 [([0; 1; 1]%Z, 1%R); ([1; 0; 1]%Z, 1%R); ([1; 1; 0]%Z, 1%R)].
Definition br_pw : list power := [mkPower 1 []; mkPower 1 []; mkPower (-1) []].
Theorem C68_bridge_refuted :
  option_map ex_show (preliminary_U [1; 2; 3]%nat br_ils br_els) = Some [([1; 0; 0]%Z, 1%Q); ([0; 1; 0]%Z, 1%Q)] /\
  option_map ex_show (preliminary_F [1; 2; 3]%nat br_ils br_els 1 br_dot) = Some [([0; 1; 1]%Z, 1%Q); ([1; 0; 1]%Z, 1%Q); ([1; 1; 0]%Z, 1%Q)] /\
  number_of_derivatives br_pw = 1 /\
  forall (D : R), let nu := sum_powers [] br_pw in
  parametric [(2, (1, true)); (1, (0, false)); (0, (0, false))]
    (fun x : list R => length x = 3 /\ (0 < peval br_U x)%R /\ (0 < peval br_F x)%R)
    (product_form (fun x => peval br_U x) (fun x => peval br_F x) (nu - INR 2 * D / 2 - INR 0) (- (nu - INR 1 * D / 2)) (with_UF (@pconst R_Fld 5 1%R)))
    (product_form (fun y => peval (loop_U br_pw br_U) y) (fun y => peval (loop_U br_pw br_F) y)
       (@exponent_U R_Fld nu D 1 0 (number_of_derivatives br_pw) + 1) (@exponent_F R_Fld nu D 1 (number_of_derivatives br_pw))
       (with_UF (@numerator R_Fld (power_value []) br_pw D 1 0 br_U br_F (@pconst R_Fld 5 1%R)))).
Proof.
  split; [vm_compute; reflexivity|]. split; [vm_compute; reflexivity|]. split; [reflexivity|]. intros D nu.
  assert (PU : proper 3 br_U) by (apply proper_rows; split; [reflexivity|]; repeat constructor; cbn; lia).
  assert (PF : proper 3 br_F) by (apply proper_rows; split; [reflexivity|]; repeat constructor; cbn; lia).
  assert (Q := C68_numerator_is_derivative [] br_pw D 1 0 br_U br_F (@pconst R_Fld 5 1%R) (fun _ => false) PU PF (@proper_const R_Fld 5 1%R)).
  cbv zeta in Q. fold nu in Q.
  assert (E : @exponent_U R_Fld nu D 1 0 (U_derivatives br_pw (fun _ => false)) = (@exponent_U R_Fld nu D 1 0 (number_of_derivatives br_pw) + 1)%R).
  { change (U_derivatives br_pw (fun _ => false)) with 0. change (number_of_derivatives br_pw) with 1. unfold exponent_U. rewrite !natF_R'. cbn. field. }
  rewrite <- E. apply Q. intros i p Ei Hk. destruct i as [|[|[|[|i]]]]; cbn in Ei; try discriminate; injection Ei as <-.
  - exfalso. apply Hk. reflexivity.
  - exfalso. apply Hk. reflexivity.
  - repeat constructor.
Qed.
Print Assumptions C68_bridge_refuted.
