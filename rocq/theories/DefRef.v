(** A polynomial for which the sign check fails again at an earlier sample. *)
From Coq Require Import Lia Lra.
From Verif Require Import PolyModel PolySpec DetModel CplxField DefSpec DefCont DefModel DefPoly DefHolo DefMain DefOptModel DefSign.
From Coquelicot Require Import Coquelicot.
Local Open Scope R_scope.
Ltac red_all := cbn -[Rmult Rplus Ropp Rminus Rdiv IZR]; change (Pos.to_nat 1) with 1%nat; change (Pos.to_nat 2) with 2%nat; change (Pos.to_nat 3) with 3%nat; change (Pos.to_nat 4) with 4%nat; change (Pos.to_nat 5) with 5%nat; cbn -[Rmult Rplus Ropp Rminus Rdiv IZR].
Definition quintic : cpoly := @mkPoly C_Fld 1
  ((0%Z :: nil, RtoC (-383/2)) :: (1%Z :: nil, RtoC 1693) :: (2%Z :: nil, RtoC (-5844)) :: (3%Z :: nil, RtoC 9824) :: (4%Z :: nil, RtoC (-8032)) :: (5%Z :: nil, RtoC 2560) :: nil).
Lemma quintic_proper : proper 1 quintic.
Proof. split; [reflexivity|]. split; [unfold pwf|unfold pnonneg]; cbn [quintic ptm pnv]; repeat constructor; cbn; lia. Qed.
Lemma quintic_value a b : snd (peval quintic ((a, b) :: nil) : C) =
  1693 * b - 5844 * (2 * a * b) + 9824 * (3 * a^2 * b - b^3) - 8032 * (4 * a^3 * b - 4 * a * b^3) + 2560 * (5 * a^4 * b - 10 * a^2 * b^3 + b^5).
Proof. unfold peval, quintic. red_all. match goal with |- ?l = ?r => change (@eq R l r) end. ring. Qed.
Lemma quintic_gm a : gm quintic 0 (a :: nil) = 1693 - 11688 * a + 29472 * a^2 - 32128 * a^3 + 12800 * a^4.
Proof. unfold gm, pderive, peval, quintic. red_all. match goal with |- ?l = ?r => change (@eq R l r) end. ring. Qed.
Lemma quintic_point l a : deformed_point 1 quintic (l :: nil) (a :: nil) = (a, - (l * a * (1 - a) * (1693 - 11688 * a + 29472 * a^2 - 32128 * a^3 + 12800 * a^4))) :: nil.
Proof.
  rewrite point_contour_gm by (try apply quintic_proper; reflexivity). cbn [contour seq map nth]. unfold contour. cbn [seq map nth]. rewrite quintic_gm. f_equal. apply injective_projections; cbn [fst snd]; ring.
Qed.
Definition samples2 : list (list R) := ((1/2) :: nil) :: ((3/4) :: nil) :: nil.
Lemma check l a b : snd (peval quintic ((a, - (l * a * (1 - a) * (1693 - 11688 * a + 29472 * a^2 - 32128 * a^3 + 12800 * a^4))) :: nil) : C) = b ->
  passes_sign_check 1 quintic (l :: nil) (a :: nil) = (if Rle_dec b 0 then true else false).
Proof.
  intros H. unfold passes_sign_check. cbn [repeat]. rewrite !quintic_point, H. 
  assert (E : snd (peval quintic ((a, - (0 * a * (1 - a) * (1693 - 11688 * a + 29472 * a^2 - 32128 * a^3 + 12800 * a^4))) :: nil) : C) = 0) by (rewrite quintic_value; ring). rewrite E. reflexivity.
Qed.
Lemma c11 : passes_sign_check 1 quintic (1 :: nil) ((1/2) :: nil) = true.
Proof. rewrite (check 1 (1/2) (-1/4)) by (rewrite quintic_value; field). destruct (Rle_dec _ _); [reflexivity|lra]. Qed.
Lemma c12 : passes_sign_check 1 quintic (1 :: nil) ((3/4) :: nil) = false.
Proof. rewrite (check 1 (3/4) (129/2048)) by (rewrite quintic_value; field). destruct (Rle_dec _ _); [lra|reflexivity]. Qed.
Lemma c21 l : l = 1/2 -> passes_sign_check 1 quintic (l :: nil) ((1/2) :: nil) = false.
Proof. intros ->. rewrite (check (1/2) (1/2) (7/64)) by (rewrite quintic_value; field). destruct (Rle_dec _ _); [lra|reflexivity]. Qed.
Lemma c22 l : l = 1/2 -> passes_sign_check 1 quintic (l :: nil) ((3/4) :: nil) = true.
Proof. intros ->. rewrite (check (1/2) (3/4) (-447/65536)) by (rewrite quintic_value; field). destruct (Rle_dec _ _); [reflexivity|lra]. Qed.
Lemma mp a : a = 1/2 \/ a = 3/4 -> exists t, maximal_parameter quintic (a :: nil) 0 = Some t /\ 1 < t.
Proof.
  intros H. unfold maximal_parameter. change (fst (peval (pderive quintic 0) (map RtoC (a :: nil)) : C)) with (gm quintic 0 (a :: nil)). rewrite quintic_gm. cbn [nth].
  set (d := a * (1 - a) * _). assert (E : d = 1/4 \/ d = 3/16) by (unfold d; destruct H as [->| ->]; [left|right]; field). destruct (Req_EM_T d 0) as [|_]; [lra|].
  eexists. split; [reflexivity|]. destruct E as [->| ->]; rewrite Rabs_right by lra; lra.
Qed.
Lemma phase1 : presample_minimum 1 quintic (1/100) 1 samples2 (repeat 1 1) = 1 :: nil.
Proof.
  destruct (mp (1/2) (or_introl eq_refl)) as (t & E & Ht). destruct (mp (3/4) (or_intror eq_refl)) as (t' & E' & Ht'). unfold presample_minimum, samples2. cbn [fold_left seq map nth repeat]. rewrite E, E'.
  assert (U : forall s, 1 < s -> update_parameter (1/100) 1 1 (Some s) = 1). { intros s Hs. rewrite update_min by lra. unfold Rmin, Rmax. destruct (Rle_dec (1/100) s); [|lra]. destruct (Rle_dec 1 s); lra. }
  rewrite !U by assumption. reflexivity.
Qed.
Lemma result : optimize_deformation_parameters 1 1 quintic 1 (1/100) (1/2) samples2 = Some ((1 * (1/2)) :: nil).
Proof.
  unfold optimize_deformation_parameters. change (match samples2 with nil => Some (repeat 1 1) | _ => ?b end) with b. cbn [samples2]. fold samples2. rewrite phase1. cbn [samples2 decrease_all decrease_loop]. rewrite c11. cbn [map]. 
  rewrite c12, c22 by lra. reflexivity.
Qed.
