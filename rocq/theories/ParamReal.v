(** The numerator loop differentiates U^n F^-m Nu. *)
From Coq Require Import Reals Lra Lia List ZArith.
From Verif Require Import PolyProofs RealField PolyReal ParamModel ParamSpec ParamProofs.
Import ListNotations.
Local Open Scope nat_scope.

Lemma pderive_lin (p : rpoly) i (x : list R) :
  peval (pderive p i) x = @lin R_Fld (fun e => @meval R_Fld e x)
      (map (fun t => (upd i (getZ i (fst t) - 1)%Z (fst t), @fmul R_Fld (snd t) (zF (getZ i (fst t))))) (ptm p)).
Proof.
  unfold pderive. set (full := lin _ _).
  assert (Ef : full = @lin R_Fld (fun e => @meval R_Fld e x)
       (map (fun t => (upd i (getZ i (fst t) - 1)%Z (fst t), @fmul R_Fld (snd t) (zF (getZ i (fst t)))))
          (filter (fun t => negb (Z.eqb (getZ i (fst t)) 0)) (ptm p)))).
  { unfold full. clear. induction (ptm p) as [|t ts IH]; [reflexivity|]. cbn [map filter].
    destruct (Z.eqb_spec (getZ i (fst t)) 0) as [E|E]; cbn [negb map]; rewrite !lin_cons, IH; [|reflexivity].
    cbn [fst snd]. rewrite E. cbn. ring. }
  rewrite Ef. destruct (filter _ (ptm p)) as [|t ts].
  - cbn [map pconst]. unfold peval. cbn [ptm map sumF fst snd]. rewrite (lin_nil R_Fld). cbn. ring.
  - reflexivity.
Qed.

Lemma upd_app_l {A} i (v : A) l m : i < length l -> upd i v (l ++ m) = upd i v l ++ m.
Proof. revert i. induction l as [|a l IH]; intros [|i] H; cbn in *; try lia; [reflexivity|]. f_equal. apply IH. lia. Qed.
Lemma upd_app_r {A} i (v : A) l m : upd (length l + i) v (l ++ m) = l ++ upd i v m.
Proof. induction l as [|a l IH]; cbn; [reflexivity|]. f_equal. apply IH. Qed.
Lemma meval_app (F : Fld) (e e' : list Z) (x y : list F) : length e = length x -> meval (e ++ e') (x ++ y) = fmul (meval e x) (meval e' y).
Proof.
  intros H. revert x H. induction e as [|k e IH]; intros [|a x] H; cbn in *; try discriminate.
  - symmetry. apply (F_1_l (f_th F)) || apply (Rmul_1_l (F_R (f_th F))).
  - rewrite IH by lia. rewrite (Rmul_assoc (F_R (f_th F))). reflexivity.
Qed.

Section Curve.
Variable n i : nat.
Variable x : list R.
Hypothesis Lx : length x = n.
Hypothesis Hi : i < n.
Variable u f : R -> R.
Variable u' f' : R.
Let xi := nth i x 0%R.
Hypothesis Hu : derivable_pt_lim u xi u'.
Hypothesis Hf : derivable_pt_lim f xi f'.
Let X := x ++ [u xi; f xi].

Lemma term_curve (e : list Z) : rok (n + 2) e ->
  derivable_pt_lim (fun t => @meval R_Fld e (upd i t x ++ [u t; f t])) xi
    (IZR (getZ i e) * @meval R_Fld (upd i (getZ i e - 1)%Z e) X
     + IZR (getZ n e) * @meval R_Fld (upd n (getZ n e - 1)%Z e) X * u'
     + IZR (getZ (n + 1) e) * @meval R_Fld (upd (n + 1) (getZ (n + 1) e - 1)%Z e) X * f')%R.
Proof.
  intros [L A].
  assert (exists e0 a b, e = e0 ++ [a; b] /\ length e0 = n) as (e0 & a & b & -> & L0).
  { exists (firstn n e), (nth n e 0%Z), (nth (n + 1) e 0%Z). split; [|rewrite firstn_length; lia].
    rewrite <- (firstn_skipn n e) at 1. f_equal.
    assert (Ls : length (skipn n e) = 2) by (rewrite skipn_length; lia).
    rewrite <- (firstn_skipn n e) at 2 3. 
    rewrite !app_nth2; rewrite firstn_length; try lia.
    replace (n - Nat.min n (length e)) with 0 by lia. replace (n + 1 - Nat.min n (length e)) with 1 by lia.
    destruct (skipn n e) as [|p [|q [|]]]; try discriminate. reflexivity. }
  assert (G1 : getZ i (e0 ++ [a; b]) = getZ i e0) by (unfold getZ; apply app_nth1; lia).
  assert (G2 : getZ n (e0 ++ [a; b]) = a) by (unfold getZ; rewrite app_nth2 by lia; replace (n - length e0) with 0 by lia; reflexivity).
  assert (G3 : getZ (n + 1) (e0 ++ [a; b]) = b) by (unfold getZ; rewrite app_nth2 by lia; replace (n + 1 - length e0) with 1 by lia; reflexivity).
  rewrite G1, G2, G3.
  assert (U2 : forall c, upd n c (e0 ++ [a; b]) = e0 ++ [c; b]) by (intros c; rewrite <- L0, <- (Nat.add_0_r (length e0)), upd_app_r; reflexivity).
  assert (U3 : forall c, upd (n + 1) c (e0 ++ [a; b]) = e0 ++ [a; c]) by (intros c; rewrite <- L0, upd_app_r; reflexivity).
  rewrite upd_app_l by lia. rewrite U2, U3. unfold X.
  apply Forall_app in A. destruct A as [A0 A1]. apply Forall_cons_iff in A1. destruct A1 as [Ha A2]. apply Forall_cons_iff in A2. destruct A2 as [Hb _].
  rewrite (meval_app R_Fld (upd i (getZ i e0 - 1)%Z e0)) by (rewrite upd_length, L0; symmetry; exact Lx).
  rewrite !(meval_app R_Fld e0) by (rewrite L0; symmetry; exact Lx).
  assert (D0 : derivable_pt_lim (fun t => @meval R_Fld e0 (upd i t x)) xi (IZR (getZ i e0) * @meval R_Fld (upd i (getZ i e0 - 1)%Z e0) x)%R).
  { apply meval_deriv; [rewrite Lx; exact Hi|rewrite L0; symmetry; exact Lx|]. right. apply getZ_nonneg. exact A0. }
  assert (Da : derivable_pt_lim (fun t => @zpow R_Fld (u t) a) xi (IZR a * @zpow R_Fld (u xi) (a - 1) * u')%R).
  { apply (derivable_pt_lim_comp u (fun v => @zpow R_Fld v a) xi u' _ Hu). apply zpow_deriv. right. exact Ha. }
  assert (Db : derivable_pt_lim (fun t => @zpow R_Fld (f t) b) xi (IZR b * @zpow R_Fld (f xi) (b - 1) * f')%R).
  { apply (derivable_pt_lim_comp f (fun v => @zpow R_Fld v b) xi f' _ Hf). apply zpow_deriv. right. exact Hb. }
  assert (H := derivable_pt_lim_mult _ _ xi _ _ D0 (derivable_pt_lim_mult _ _ xi _ _ Da Db)).
  eapply deriv_ext; [|eapply deriv_val; [exact H|]].
  - intros t. unfold mult_fct. rewrite (meval_app R_Fld) by (rewrite upd_length, L0; symmetry; exact Lx). cbn. ring.
  - unfold mult_fct. cbn. unfold xi.
    replace (upd i (nth i x 0%R) x) with x by (clear; revert i; induction x as [|c y IH]; intros [|i]; cbn; congruence).
    ring.
Qed.
Lemma poly_curve (p : rpoly) : proper (n + 2) p ->
  derivable_pt_lim (fun t => peval p (upd i t x ++ [u t; f t])) xi
    (peval (pderive p i) X + peval (pderive p n) X * u' + peval (pderive p (n + 1)) X * f')%R.
Proof.
  intros H. apply proper_rows in H. destruct H as [_ H]. rewrite !pderive_lin. unfold peval.
  induction (ptm p) as [|t ts IH].
  { eapply deriv_val; [apply derivable_pt_lim_const|]. cbn. ring. }
  apply Forall_cons_iff in H. destruct H as [Ht H]. specialize (IH H).
  cbn [map]. rewrite !lin_cons. cbn [fst snd]. rewrite !zF_R.
  assert (Q := derivable_pt_lim_plus _ _ xi _ _ (derivable_pt_lim_scal _ (snd t) xi _ (term_curve (fst t) Ht)) IH).
  eapply deriv_val; [exact Q|]. cbn. ring.
Qed.
End Curve.
