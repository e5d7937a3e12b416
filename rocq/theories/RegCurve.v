(** Derivative of a polynomial along a curve; derivative of a product of powers with a numerator that refers to the bases. *)
From Coq Require Import Reals Lra Lia List ZArith.
From Verif Require Import PolyProofs RealField PolyReal ParamModel ParamSpec ParamProofs ParamReal ParamStep RegModel RegSpec.
Import ListNotations.
Local Open Scope nat_scope.

Definition Rsum (l : list R) : R := fold_right Rplus 0%R l.
Lemma Rsum_app a b : Rsum (a ++ b) = (Rsum a + Rsum b)%R.
Proof. unfold Rsum. induction a as [|x a IH]; cbn; [lra|]. rewrite IH. lra. Qed.
Lemma Rsum_ext {A} (f g : A -> R) l : (forall a, In a l -> f a = g a) -> Rsum (map f l) = Rsum (map g l).
Proof. intros H. unfold Rsum. induction l as [|a l IH]; cbn; [reflexivity|]. rewrite (H a) by (left; reflexivity). f_equal. apply IH. intros b Hb. apply H. right. exact Hb. Qed.
Lemma Rsum_plus {A} (f g : A -> R) l : Rsum (map (fun a => (f a + g a)%R) l) = (Rsum (map f l) + Rsum (map g l))%R.
Proof. unfold Rsum. induction l as [|a l IH]; cbn; [lra|]. rewrite IH. lra. Qed.
Lemma Rsum_scal {A} c (f : A -> R) l : Rsum (map (fun a => (c * f a)%R) l) = (c * Rsum (map f l))%R.
Proof. unfold Rsum. induction l as [|a l IH]; cbn; [lra|]. rewrite IH. lra. Qed.
Lemma Rsum_zero {A} (f : A -> R) l : (forall a, In a l -> f a = 0%R) -> Rsum (map f l) = 0%R.
Proof. intros H. unfold Rsum. induction l as [|a l IH]; cbn; [reflexivity|]. rewrite (H a) by (left; reflexivity). rewrite IH; [lra|]. intros b Hb. apply H. right. exact Hb. Qed.

(** sum over all coordinates when one coordinate is changed *)
Lemma Rsum_override (D g : nat -> R) (a : nat) (v : R) n : (a < n)%nat ->
  Rsum (map (fun k => (D k * (if Nat.eqb a k then v else g k))%R) (seq 0 n)) = (Rsum (map (fun k => (D k * g k)%R) (seq 0 n)) + D a * (v - g a))%R.
Proof.
  intros Ha.
  assert (forall m s, (forall k, (D k * (if Nat.eqb a k then v else g k))%R = (D k * g k + (if Nat.eqb a k then D a * (v - g a) else 0))%R) ->
     Rsum (map (fun k => (D k * (if Nat.eqb a k then v else g k))%R) (seq s m)) =
     (Rsum (map (fun k => (D k * g k)%R) (seq s m)) + (if andb (Nat.leb s a) (Nat.ltb a (s + m)) then D a * (v - g a) else 0))%R) as Q.
  { induction m as [|m IH]; intros s H.
    { cbn [seq map]. unfold Rsum. cbn [fold_right]. replace (andb (Nat.leb s a) (Nat.ltb a (s + 0))) with false; [lra|].
      destruct (Nat.leb_spec s a), (Nat.ltb_spec a (s + 0)); try reflexivity; lia. }
    cbn [seq map]. unfold Rsum in *. cbn [fold_right]. rewrite (IH (Datatypes.S s) H). rewrite (H s).
    destruct (Nat.eqb_spec a s) as [->|N].
    - replace (andb (Nat.leb (Datatypes.S s) s) (Nat.ltb s (Datatypes.S s + m))) with false by (destruct (Nat.leb_spec (Datatypes.S s) s); [lia|reflexivity]).
      replace (andb (Nat.leb s s) (Nat.ltb s (s + Datatypes.S m))) with true; [lra|].
      destruct (Nat.leb_spec s s), (Nat.ltb_spec s (s + Datatypes.S m)); try reflexivity; lia.
    - replace (andb (Nat.leb (Datatypes.S s) a) (Nat.ltb a (Datatypes.S s + m))) with (andb (Nat.leb s a) (Nat.ltb a (s + Datatypes.S m))); [lra|].
      destruct (Nat.leb_spec (Datatypes.S s) a), (Nat.ltb_spec a (Datatypes.S s + m)), (Nat.leb_spec s a), (Nat.ltb_spec a (s + Datatypes.S m)); try reflexivity; lia. }
  rewrite (Q n 0).
  - replace (andb (Nat.leb 0 a) (Nat.ltb a (0 + n))) with true; [lra|]. destruct (Nat.leb_spec 0 a), (Nat.ltb_spec a (0 + n)); try reflexivity; lia.
  - intros k. destruct (Nat.eqb_spec a k) as [->|N]; lra.
Qed.

Section Curve.
Variable t0 : R.
Lemma meval_curve (e : list Z) : Forall (fun k => (0 <= k)%Z) e -> forall (cs : list (R -> R)) (ds : list R), length cs = length e -> length ds = length e ->
  (forall k, (k < length e)%nat -> derivable_pt_lim (nth k cs (fun _ => 0%R)) t0 (nth k ds 0%R)) ->
  derivable_pt_lim (fun t => @meval R_Fld e (map (fun c => c t) cs)) t0
    (Rsum (map (fun k => (IZR (getZ k e) * @meval R_Fld (upd k (getZ k e - 1)%Z e) (map (fun c => c t0) cs) * nth k ds 0)%R) (seq 0 (length e)))).
Proof.
  induction 1 as [|a e Ha He IH]; intros [|c cs] [|d ds] L1 L2 H; try discriminate.
  { cbn. apply derivable_pt_lim_const. }
  cbn [length] in *. injection L1 as L1. injection L2 as L2.
  assert (D0 := H 0 ltac:(lia)). cbn [nth] in D0.
  assert (DE := IH cs ds L1 L2 (fun k Hk => H (Datatypes.S k) ltac:(lia))). clear IH.
  assert (Da : derivable_pt_lim (fun t => @zpow R_Fld (c t) a) t0 (IZR a * @zpow R_Fld (c t0) (a - 1) * d)%R).
  { apply (derivable_pt_lim_comp c (fun v => @zpow R_Fld v a) t0 d _ D0). apply zpow_deriv. right. exact Ha. }
  assert (Q := derivable_pt_lim_mult _ _ t0 _ _ Da DE).
  eapply deriv_ext; [|eapply deriv_val; [exact Q|]].
  - intros t. reflexivity.
  - cbv beta. cbn [seq map]. rewrite <- seq_shift, map_map. unfold Rsum at 2. cbn [fold_right]. fold (Rsum (map (fun x : nat => (IZR (getZ (Datatypes.S x) (a :: e)) * @meval R_Fld (upd (Datatypes.S x) (getZ (Datatypes.S x) (a :: e) - 1)%Z (a :: e)) (c t0 :: map (fun c : R -> R => c t0) cs) * nth (Datatypes.S x) (d :: ds) 0)%R) (seq 0 (length e)))).
    rewrite (Rsum_ext (fun x : nat => (IZR (getZ (Datatypes.S x) (a :: e)) * @meval R_Fld (upd (Datatypes.S x) (getZ (Datatypes.S x) (a :: e) - 1)%Z (a :: e)) (c t0 :: map (fun c : R -> R => c t0) cs) * nth (Datatypes.S x) (d :: ds) 0)%R)
       (fun k => (@zpow R_Fld (c t0) a * (IZR (getZ k e) * @meval R_Fld (upd k (getZ k e - 1)%Z e) (map (fun c => c t0) cs) * nth k ds 0))%R)).
    2:{ intros k _. change (getZ (Datatypes.S k) (a :: e)) with (getZ k e). cbn [upd nth meval]. change (@fmul R_Fld) with Rmult. ring. }
    rewrite Rsum_scal. cbn [getZ nth upd meval map]. match goal with |- ?x = ?y => change (@eq R x y) end. change (@fmul R_Fld) with Rmult. unfold getZ. cbn [nth]. ring.
Qed.
Lemma peval_curve nv (p : rpoly) : proper nv p -> forall (cs : list (R -> R)) (ds : list R), length cs = nv -> length ds = nv ->
  (forall k, (k < nv)%nat -> derivable_pt_lim (nth k cs (fun _ => 0%R)) t0 (nth k ds 0%R)) ->
  derivable_pt_lim (fun t => @peval R_Fld p (map (fun c => c t) cs)) t0
    (Rsum (map (fun k => (@peval R_Fld (pderive p k) (map (fun c => c t0) cs) * nth k ds 0)%R) (seq 0 nv))).
Proof.
  intros H cs ds L1 L2 Hd. apply proper_rows in H. destruct H as [_ H].
  rewrite (Rsum_ext _ (fun k => (@lin R_Fld (fun e => @meval R_Fld e (map (fun c => c t0) cs))
      (map (fun t => (upd k (getZ k (fst t) - 1)%Z (fst t), @fmul R_Fld (snd t) (zF (getZ k (fst t))))) (ptm p)) * nth k ds 0)%R)).
  2:{ intros k _. rewrite pderive_lin. reflexivity. }
  unfold peval. induction (ptm p) as [|t ts IH].
  { eapply deriv_val; [apply derivable_pt_lim_const|]. symmetry. apply Rsum_zero. intros k _. cbn. ring. }
  apply Forall_cons_iff in H. destruct H as [[Lt At] H]. specialize (IH H).
  assert (Q := derivable_pt_lim_plus _ _ t0 _ _ (derivable_pt_lim_scal _ (snd t) t0 _ (meval_curve (fst t) At cs ds ltac:(congruence) ltac:(congruence) ltac:(rewrite Lt; exact Hd))) IH).
  eapply deriv_ext; [|eapply deriv_val; [exact Q|]].
  - intros r. unfold plus_fct, mult_real_fct. reflexivity.
  - rewrite <- Rsum_scal, Lt, <- Rsum_plus. apply Rsum_ext. intros k _. cbn [map]. rewrite !(lin_cons R_Fld). cbn [fst snd]. rewrite zF_R. cbn. ring.
Qed.
End Curve.
