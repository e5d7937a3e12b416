(** Polynomials over the reals: [derive] is the analytic partial derivative. *)
From Verif Require Import PolyProofs RealField.

Notation rpoly := (PolyModel.poly R_Fld).

Section D.
Variable i : nat.
Variable x : list R.
Hypothesis Hi : i < length x.
Let xi := nth i x 0%R.
Let at_ (t : R) : list R := upd i t x.

Lemma meval_deriv (e : list Z) : length e = length x -> pow_ok (F:=R_Fld) xi (getZ i e) ->
  derivable_pt_lim (fun t => @meval R_Fld e (at_ t)) xi
    (IZR (getZ i e) * @meval R_Fld (upd i (getZ i e - 1)%Z e) x)%R.
Proof.
  intros He Hok.
  set (c := @meval R_Fld (upd i 0%Z e) x).
  apply deriv_ext with (f := fun t => (c * @zpow R_Fld t (getZ i e))%R).
  { intros t. unfold at_. rewrite (@meval_set_coord R_Fld) by assumption. cbn. unfold c. ring. }
  rewrite (@meval_upd_exp R_Fld i (getZ i e - 1)%Z x e He Hi).
  change (@fmul R_Fld) with Rmult. fold c.
  assert (Hz : derivable_pt_lim (fun t => @zpow R_Fld t (getZ i e)) xi (IZR (getZ i e) * @zpow R_Fld xi (getZ i e - 1))%R)
    by (apply zpow_deriv; exact Hok).
  assert (H := derivable_pt_lim_scal _ c xi _ Hz).
  change (nth i x (@f0 R_Fld)) with xi.
  replace (IZR (getZ i e) * (@zpow R_Fld xi (getZ i e - 1) * c))%R
    with (c * (IZR (getZ i e) * @zpow R_Fld xi (getZ i e - 1)))%R by ring.
  exact H.
Qed.

Lemma lin_deriv (ts : list (term R_Fld)) :
  Forall (fun t => length (fst t) = length x) ts ->
  Forall (fun t => pow_ok (F:=R_Fld) xi (getZ i (fst t))) ts ->
  derivable_pt_lim (fun t => @lin R_Fld (fun e => @meval R_Fld e (at_ t)) ts) xi
    (@lin R_Fld (fun e => @meval R_Fld e x)
      (map (fun t => (upd i (getZ i (fst t) - 1)%Z (fst t), @fmul R_Fld (snd t) (zF (getZ i (fst t))))) ts)).
Proof.
  induction ts as [|t ts IH]; intros HL Hok.
  - apply derivable_pt_lim_const.
  - inversion HL as [|? ? HL1 HL2]; inversion Hok as [|? ? Hok1 Hok2]; subst. cbn [map].
    apply deriv_ext with (f := fun s => (snd t * @meval R_Fld (fst t) (at_ s) + @lin R_Fld (fun e => @meval R_Fld e (at_ s)) ts)%R).
    { intros s. rewrite lin_cons. reflexivity. }
    rewrite lin_cons. cbn [fst snd]. rewrite zF_R.
    assert (H1 := derivable_pt_lim_scal _ (snd t) xi _ (meval_deriv (fst t) HL1 Hok1)).
    assert (H2 := derivable_pt_lim_plus _ _ xi _ _ H1 (IH HL2 Hok2)).
    unfold mult_real_fct, plus_fct in H2.
    eapply deriv_val; [exact H2|].
    apply (f_equal2 Rplus); [|reflexivity]. symmetry. apply Rmult_assoc.
Qed.
End D.

Lemma pderive_correct (p : rpoly) i (x : list R) :
  pwf p -> pdef p x -> i < pnv p ->
  derivable_pt_lim (fun t => peval p (set_coord (F:=R_Fld) i t x)) (nth i x 0%R) (peval (pderive p i) x).
Proof.
  intros Hwf [HL Hdef] Hi. unfold pwf in Hwf. change (@length R x = pnv p) in HL.
  assert (Hi' : i < length x) by lia.
  assert (Hok : Forall (fun t => pow_ok (F:=R_Fld) (nth i x 0%R) (getZ i (fst t))) (ptm p)).
  { eapply Forall_impl; [|exact Hdef]. intros t Ht. cbv beta in Ht. clear -Ht Hi'.
    unfold getZ. revert i Hi'. induction Ht as [|a k x e Ha _ IH]; intros [|i] Hi; cbn in *; try lia; auto. apply IH; lia. }
  assert (HLf : Forall (fun t => length (fst t) = length x) (ptm p)).
  { eapply Forall_impl; [|exact Hwf]. intros t Ht. rewrite Ht. symmetry. exact HL. }
  assert (H := lin_deriv i x Hi' (ptm p) HLf Hok).
  set (full := lin (fun e => @meval R_Fld e x) (map _ (ptm p))) in H.
  assert (E : peval (pderive p i) x = full).
  { unfold pderive.
    assert (Ef : full = @lin R_Fld (fun e => @meval R_Fld e x)
       (map (fun t => (upd i (getZ i (fst t) - 1)%Z (fst t), @fmul R_Fld (snd t) (zF (getZ i (fst t)))))
          (filter (fun t => negb (Z.eqb (getZ i (fst t)) 0)) (ptm p)))).
    { unfold full. clear. induction (ptm p) as [|t ts IH]; [reflexivity|]. cbn [map filter].
      destruct (Z.eqb_spec (getZ i (fst t)) 0) as [E|E]; cbn [negb map]; rewrite !lin_cons, IH; [|reflexivity].
      cbn [fst snd]. rewrite E. cbn. ring. }
    rewrite Ef. destruct (filter _ (ptm p)) as [|t ts].
    - cbn [map pconst]. unfold peval. cbn [ptm map sumF fst snd]. rewrite (lin_nil R_Fld). cbn. ring.
    - reflexivity. }
  rewrite E. exact H.
Qed.
