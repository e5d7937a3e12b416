(** Chain rule for a function of several variables with continuous partial derivatives. *)
From Verif Require Import ExprSpec ExprSmooth ExprMixed.
Local Open Scope R_scope.
Lemma mvt_pd (W : point -> Prop) F Fk k y a b d z : (forall u, near d z u -> W u) -> (forall u, W u -> pd k F u (Fk u)) ->
  near d z (upd y k a) -> near d z (upd y k b) ->
  exists c, near d z (upd y k c) /\ F (upd y k b) - F (upd y k a) = Fk (upd y k c) * (b - a).
Proof.
  intros HW HF Na Nb.
  assert (IN : forall c, Rmin a b <= c <= Rmax a b -> near d z (upd y k c)).
  { intros c Hc j. specialize (Na j). specialize (Nb j). unfold upd in *. destruct (Nat.eqb j k); [|exact Na]. apply Rabs_def2 in Na, Nb. apply Rabs_def1; unfold Rmin, Rmax in Hc; destruct (Rle_dec a b); lra. }
  assert (D : forall c, Rmin a b <= c <= Rmax a b -> derivable_pt_lim (fun t => F (upd y k t)) c (Fk (upd y k c))).
  { intros c Hc. pose proof (HF _ (HW _ (IN c Hc))) as H. unfold pd in H. rewrite upd_at in H. apply (dlim_ext (fun t => F (upd (upd y k c) k t)) _ c _ 1 Rlt_0_1); [intros t _; rewrite upd_upd; reflexivity|exact H]. }
  destruct (Rtotal_order a b) as [L|[E|L]].
  - destruct (MVT_cor2 (fun t => F (upd y k t)) (fun t => Fk (upd y k t)) a b L) as (c & E & Hc). { intros c Hc. apply D. unfold Rmin, Rmax. destruct (Rle_dec a b); lra. }
    exists c. split; [apply IN; unfold Rmin, Rmax; destruct (Rle_dec a b); lra|exact E].
  - subst b. exists a. split; [exact Na|]. lra.
  - destruct (MVT_cor2 (fun t => F (upd y k t)) (fun t => Fk (upd y k t)) b a L) as (c & E & Hc). { intros c Hc. apply D. unfold Rmin, Rmax. destruct (Rle_dec a b); lra. }
    exists c. split; [apply IN; unfold Rmin, Rmax; destruct (Rle_dec a b); lra|]. lra.
Qed.
(** [mix k u z]: the first k coordinates of u, the others of z *)
Definition mix (k : nat) (u z : point) : point := fun j => if Nat.ltb j k then u j else z j.
Lemma mix_S k u z : mix (S k) u z = upd (mix k u z) k (u k).
Proof. apply FunctionalExtensionality.functional_extensionality. intros j. unfold mix, upd. destruct (Nat.ltb_spec j (S k)), (Nat.eqb_spec j k), (Nat.ltb_spec j k); try lia; subst; reflexivity. Qed.
Lemma mix_k k u z : mix k u z = upd (mix k u z) k (z k).
Proof. apply FunctionalExtensionality.functional_extensionality. intros j. unfold mix, upd. destruct (Nat.eqb_spec j k), (Nat.ltb_spec j k); try lia; subst; reflexivity. Qed.
Lemma mix_near k d u z : 0 < d -> (forall j, (j < k)%nat -> Rabs (u j - z j) < d) -> near d z (mix k u z).
Proof. intros D H j. unfold mix. destruct (Nat.ltb_spec j k) as [L|L]; [apply H, L|]. replace (z j - z j) with 0 by ring. rewrite Rabs_R0. exact D. Qed.
Lemma lim_cont f t l : derivable_pt_lim f t l -> forall eps, 0 < eps -> exists d, 0 < d /\ forall s, Rabs s < d -> Rabs (f (t + s) - f t) < eps.
Proof.
  intros H eps He. assert (C : continuity_pt f t) by (apply derivable_continuous_pt; exists l; exact H).
  destruct (C eps He) as (d & D & K). exists d. split; [exact D|]. intros s Hs. destruct (Req_dec s 0) as [->|N]; [rewrite Rplus_0_r; replace (f t - f t) with 0 by ring; rewrite Rabs_R0; exact He|].
  specialize (K (t + s)). unfold dist in K. cbn in K. unfold R_dist in K. apply K. split; [split; [exact I|lra]|]. replace (t + s - t) with s by ring. exact Hs.
Qed.
Section Chain.
Variables (W : point -> Prop) (F : point -> R) (Fp : nat -> point -> R) (gam : R -> point) (dgam : nat -> R) (t0 : R).
Hypothesis HW : opens W.
Hypothesis H0 : W (gam t0).
Lemma small k : (forall j, (j < k)%nat -> derivable_pt_lim (fun t => gam t j) t0 (dgam j)) -> forall eps, 0 < eps -> exists d, 0 < d /\ forall s, Rabs s < d -> forall j, (j < k)%nat -> Rabs (gam (t0 + s) j - gam t0 j) < eps.
Proof.
  induction k as [|k IH]; intros HD eps He; [exists 1; split; [lra|intros s _ j Hj; lia]|].
  destruct (IH (fun j Hj => HD j ltac:(lia)) eps He) as (d1 & D1 & K1). destruct (lim_cont _ _ _ (HD k ltac:(lia)) eps He) as (d2 & D2 & K2). exists (Rmin d1 d2). split; [apply Rmin_pos; assumption|]. intros s Hs j Hj.
  destruct (Nat.eq_dec j k) as [->|N]; [apply K2; eapply Rlt_le_trans; [exact Hs|apply Rmin_r]|apply K1; [eapply Rlt_le_trans; [exact Hs|apply Rmin_l]|lia]].
Qed.
Lemma chain k : (forall j, (j < k)%nat -> derivable_pt_lim (fun t => gam t j) t0 (dgam j)) -> (forall j, (j < k)%nat -> cont W (Fp j)) -> (forall j, (j < k)%nat -> forall u, W u -> pd j F u (Fp j u)) ->
  derivable_pt_lim (fun t => F (mix k (gam t) (gam t0))) t0 (sumR (map (fun j => Fp j (gam t0) * dgam j) (seq 0 k))).
Proof.
  induction k as [|k IH]; intros HD HC HP.
  - cbn. apply (dlim_ext (fun _ => F (mix 0 (gam t0) (gam t0))) _ t0 0 1 Rlt_0_1); [|apply derivable_pt_lim_const]. intros t _. f_equal.
  - rewrite seq_S, map_app. cbn [map Nat.add]. assert (SA : forall l r, sumR (l ++ [r]) = sumR l + r). { intros l r. induction l as [|a l IHl]; cbn; [lra|]. unfold sumR in *. rewrite IHl. lra. } rewrite SA.
    apply (dlim_ext (fun t => F (mix k (gam t) (gam t0)) + (F (mix (S k) (gam t) (gam t0)) - F (mix k (gam t) (gam t0)))) _ t0 _ 1 Rlt_0_1); [intros t _; ring|].
    apply (derivable_pt_lim_plus (fun t => F (mix k (gam t) (gam t0))) (fun t => F (mix (S k) (gam t) (gam t0)) - F (mix k (gam t) (gam t0)))).
    { apply IH; intros j Hj; [apply HD|apply HC|apply HP]; lia. }
    intros eps He. set (L := Fp k (gam t0)). set (c := dgam k).
    destruct (HW _ H0) as (d0 & D0 & N0).
    assert (P1 : 0 < eps / (2 * (Rabs c + 1))). { apply Rdiv_lt_0_compat; [lra|]. pose proof (Rabs_pos c). lra. }
    assert (P2 : 0 < eps / (2 * (Rabs L + 1))). { apply Rdiv_lt_0_compat; [lra|]. pose proof (Rabs_pos L). lra. }
    destruct (HC k ltac:(lia) _ H0 _ P1) as (d1 & D1 & N1).
    set (d := Rmin d0 d1). assert (Dd : 0 < d) by (apply Rmin_pos; assumption).
    destruct (small (S k) HD d Dd) as (e1 & E1 & K1).
    destruct (HD k ltac:(lia) (Rmin 1 (eps / (2 * (Rabs L + 1)))) ltac:(apply Rmin_pos; lra)) as (e2 & K2).
    assert (EP : 0 < Rmin e1 e2) by (apply Rmin_pos; [exact E1|apply cond_pos]). exists (mkposreal _ EP). cbn [pos]. intros s Hs Hn.
    assert (S1 : Rabs s < e1) by (eapply Rlt_le_trans; [exact Hn|apply Rmin_l]). assert (S2 : Rabs s < e2) by (eapply Rlt_le_trans; [exact Hn|apply Rmin_r]).
    specialize (K1 s S1). specialize (K2 s Hs S2). fold c in K2.
    set (y := mix k (gam (t0 + s)) (gam t0)) in *.
    assert (Ny : near d (gam t0) y) by (apply mix_near; [exact Dd|intros j Hj; apply K1; lia]).
    assert (Ny' : near d (gam t0) (mix (S k) (gam (t0 + s)) (gam t0))) by (apply mix_near; [exact Dd|exact K1]).
    rewrite mix_S in Ny'. fold y in Ny'. pose proof Ny as Ny2. unfold y in Ny2. rewrite mix_k in Ny2. fold y in Ny2.
    assert (NW : forall u, near d (gam t0) u -> W u) by (intros u Hu; apply N0; eapply near_le; [|exact Hu]; apply Rmin_l).
    destruct (mvt_pd W F (Fp k) k y (gam t0 k) (gam (t0 + s) k) d (gam t0) NW (HP k ltac:(lia)) Ny2 Ny') as (xi & X1 & X2).
    assert (B0 : F (mix (S k) (gam t0) (gam t0)) - F (mix k (gam t0) (gam t0)) = 0). { rewrite mix_S, <- mix_k. lra. }
    rewrite B0, Rminus_0_r. rewrite mix_S. fold y.
    assert (EY : F y = F (upd y k (gam t0 k))) by (unfold y; rewrite <- mix_k; reflexivity). rewrite EY, X2.
    set (A := Fp k (upd y k xi)) in *. set (q := (gam (t0 + s) k - gam t0 k) / s) in *.
    replace (A * (gam (t0 + s) k - gam t0 k) / s) with (A * q) by (unfold q; field; exact Hs).
    assert (HA : Rabs (A - L) < eps / (2 * (Rabs c + 1))). { apply N1. eapply near_le; [|exact X1]. apply Rmin_r. }
    assert (Q1 : Rabs (q - c) < 1) by (eapply Rlt_le_trans; [exact K2|apply Rmin_l]). assert (Q2 : Rabs (q - c) < eps / (2 * (Rabs L + 1))) by (eapply Rlt_le_trans; [exact K2|apply Rmin_r]).
    replace (A * q - L * c) with ((A - L) * q + L * (q - c)) by ring. eapply Rle_lt_trans; [apply Rabs_triang|]. rewrite !Rabs_mult.
    assert (Q3 : Rabs q <= Rabs c + 1). { replace q with (c + (q - c)) by ring. eapply Rle_trans; [apply Rabs_triang|]. lra. }
    assert (T1 : Rabs (A - L) * Rabs q < eps / 2).
    { apply Rle_lt_trans with (Rabs (A - L) * (Rabs c + 1)); [apply Rmult_le_compat_l; [apply Rabs_pos|exact Q3]|]. pose proof (Rabs_pos c). replace (eps / 2) with (eps / (2 * (Rabs c + 1)) * (Rabs c + 1)) by (field; lra). apply Rmult_lt_compat_r; [lra|exact HA]. }
    assert (T2 : Rabs L * Rabs (q - c) <= eps / 2).
    { pose proof (Rabs_pos L). pose proof (Rabs_pos (q - c)). replace (eps / 2) with ((Rabs L + 1) * (eps / (2 * (Rabs L + 1)))) by (field; lra). apply Rmult_le_compat; lra. }
    lra.
Qed.
End Chain.
