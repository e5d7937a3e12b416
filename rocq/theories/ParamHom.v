(** Homogeneity of the integrand. *)
From Coq Require Import Reals Lra Lia List ZArith.
From Verif Require Import PolyProofs RealField PolyReal ParamModel ParamSpec ParamProofs ParamReal ParamStep ParamExp ParamMeasure.
Import ListNotations.
Local Open Scope nat_scope.

Lemma deriv_ext_loc (f g : R -> R) (x l e : R) : (0 < e)%R -> (forall t, (Rabs (t - x) < e)%R -> f t = g t) ->
  derivable_pt_lim f x l -> derivable_pt_lim g x l.
Proof.
  intros He E Df eps Hp. destruct (Df eps Hp) as [d Hd].
  assert (Hm : (0 < Rmin d e)%R) by (apply Rmin_pos; [apply cond_pos|exact He]). exists (mkposreal _ Hm). intros h Hh Hl. cbn [pos] in Hl.
  rewrite <- !E.
  - apply Hd; [exact Hh|]. eapply Rlt_le_trans; [exact Hl|apply Rmin_l].
  - rewrite Rminus_eq_0. rewrite Rabs_R0. exact He.
  - replace (x + h - x)%R with h by ring. eapply Rlt_le_trans; [exact Hl|apply Rmin_r].
Qed.

Definition scale (c : R) (x : list R) : list R := map (Rmult c) x.
Lemma nth_scale c (x : list R) i : nth i (scale c x) 0%R = (c * nth i x 0)%R.
Proof. unfold scale. revert i. induction x as [|a x IH]; intros [|i]; cbn; try ring. apply IH. Qed.
Lemma upd_scale c i t (x : list R) : scale c (upd i t x) = upd i (c * t)%R (scale c x).
Proof. unfold scale. revert i. induction x as [|a x IH]; intros [|i]; cbn; try reflexivity. f_equal. apply IH. Qed.
Lemma insert_scale c i (x : list R) : scale c (insert_at i 0%R x) = insert_at i 0%R (scale c x).
Proof. unfold scale, insert_at. rewrite map_app. cbn. rewrite firstn_map, skipn_map, Rmult_0_r. reflexivity. Qed.

Definition open_dom (D : list R -> Prop) : Prop := forall i (x : list R), D x -> exists e, (0 < e)%R /\ forall t, (Rabs (t - nth i x 0%R) < e)%R -> D (upd i t x).
Definition cone (D : list R -> Prop) : Prop := forall c (x : list R), (0 < c)%R -> D x -> D (scale c x).

Lemma partial_hom i D f h d : open_dom D -> cone D -> homogeneous_on D d f -> is_partial i D f h -> homogeneous_on D (d - 1) h.
Proof.
  intros O C Hf P c x Hc Dx. fold (scale c x).
  assert (P1 := P (scale c x) (C c x Hc Dx)). rewrite nth_scale in P1.
  assert (L : derivable_pt_lim (fun t => (c * t)%R) (nth i x 0%R) (c * 1)%R) by (apply (derivable_pt_lim_scal id c), derivable_pt_lim_id).
  assert (P2 := derivable_pt_lim_comp (fun t => (c * t)%R) (fun t => f (upd i t (scale c x))) (nth i x 0%R) _ _ L P1).
  assert (P3 := derivable_pt_lim_scal _ (Rpower c d) _ _ (P x Dx)).
  destruct (O i x Dx) as (e & He & Oe).
  assert (P4 : derivable_pt_lim (comp (fun t => f (upd i t (scale c x))) (fun t => (c * t)%R)) (nth i x 0%R) (Rpower c d * h x)%R).
  { eapply deriv_ext_loc; [exact He| |exact P3]. intros t Ht. unfold mult_real_fct, comp. rewrite <- upd_scale.
    symmetry. apply (Hf c (upd i t x) Hc). apply Oe, Ht. }
  assert (E := uniqueness_limite _ _ _ _ P2 P4). rewrite Rmult_1_r in E.
  apply (Rmult_eq_reg_r c); [|lra]. rewrite E. rewrite <- (Rpower_pred c d Hc) at 1. ring.
Qed.
Lemma nth_partial_hom k i D g : open_dom D -> cone D -> forall f d, homogeneous_on D d f -> nth_partial k i D f g -> homogeneous_on D (d - INR k) g.
Proof.
  intros O C. induction k as [|k IH]; cbn [nth_partial]; intros f d Hf P.
  - intros c x Hc Dx. fold (scale c x). rewrite <- (P x Dx). rewrite <- (P (scale c x) (C c x Hc Dx)). rewrite Rminus_0_r. apply Hf; assumption.
  - destruct P as (h & P1 & P2). assert (Hh := partial_hom i D f h d O C Hf P1). assert (Q := IH h _ Hh P2). rewrite S_INR.
    replace (d - (INR k + 1))%R with (d - 1 - INR k)%R by ring. exact Q.
Qed.
Fixpoint final_dom (steps : list (nat * (nat * bool))) (D : list R -> Prop) : list R -> Prop :=
  match steps with [] => D | (i, (k, d)) :: r => if d then final_dom r (fun y => D (insert_at i 0%R y)) else final_dom r D end.
Lemma insert_upd_comm i j t (y : list R) : exists j', insert_at i 0%R (upd j t y) = upd j' t (insert_at i 0%R y) /\ nth j y 0%R = nth j' (insert_at i 0%R y) 0%R \/ upd j t y = y.
Proof.
  destruct (Nat.lt_ge_cases j (length y)) as [Lj|Lj].
  2:{ exists 0. right. revert j Lj. induction y as [|a y IH]; intros [|j] L; cbn in *; try lia; try reflexivity. f_equal. apply IH. lia. }
  exists (if Nat.ltb j i then j else S j). left. destruct (Nat.ltb_spec j i) as [H|H].
  - revert i j Lj H. unfold insert_at. induction y as [|a y IH]; intros [|i] [|j] Lj H; cbn in *; try lia; [split; reflexivity|].
    destruct (IH i j ltac:(lia) ltac:(lia)) as [E1 E2]. split; [f_equal; exact E1|exact E2].
  - revert i j Lj H. unfold insert_at. induction y as [|a y IH]; intros [|i] [|j] Lj H; cbn in *; try lia; [split; reflexivity|split; reflexivity|].
    destruct (IH i j ltac:(lia) ltac:(lia)) as [E1 E2]. split; [f_equal; exact E1|exact E2].
Qed.
Lemma restrict_open i D : open_dom D -> open_dom (fun y => D (insert_at i 0%R y)).
Proof.
  intros O j y Dy. destruct (insert_upd_comm i j 0%R y) as [j0 _]. clear j0.
  assert (A : (exists j', (forall t, insert_at i 0%R (upd j t y) = upd j' t (insert_at i 0%R y)) /\ nth j y 0%R = nth j' (insert_at i 0%R y) 0%R) \/ forall t, upd j t y = y).
  { destruct (Nat.lt_ge_cases j (length y)) as [Lj|Lj].
    2:{ right. intros t. clear -Lj. revert j Lj. induction y as [|a y IH]; intros [|j] L; cbn in *; try lia; try reflexivity. f_equal. apply IH. lia. }
    left. exists (if Nat.ltb j i then j else S j). clear -Lj. destruct (Nat.ltb_spec j i) as [H|H].
    - revert i j Lj H. unfold insert_at. induction y as [|a y IH]; intros [|i] [|j] Lj H; cbn in *; try lia; [split; reflexivity|].
      destruct (IH i j ltac:(lia) ltac:(lia)) as [E1 E2]. split; [intros t; f_equal; apply E1|exact E2].
    - revert i j Lj H. unfold insert_at. induction y as [|a y IH]; intros [|i] [|j] Lj H; cbn in *; try lia; [split; reflexivity|split; reflexivity|].
      destruct (IH i j ltac:(lia) ltac:(lia)) as [E1 E2]. split; [intros t; f_equal; apply E1|exact E2]. }
  destruct A as [(j' & E1 & E2)|E].
  - destruct (O j' _ Dy) as (e & He & Oe). exists e. split; [exact He|]. intros t Ht. rewrite E1. apply Oe. rewrite <- E2. exact Ht.
  - exists 1%R. split; [lra|]. intros t _. rewrite E. exact Dy.
Qed.
Lemma parametric_hom steps : forall D f g d, open_dom D -> cone D -> homogeneous_on D d f -> parametric steps D f g ->
  homogeneous_on (final_dom steps D) (d - INR (list_sum (map (fun s => fst (snd s)) steps))) g.
Proof.
  induction steps as [|[i [k b]] r IH]; cbn [parametric final_dom]; intros D f g d O C Hf P.
  - apply (nth_partial_hom 0 0 D g O C f d Hf P).
  - destruct P as (h & P1 & P2). assert (Hh := nth_partial_hom k i D h O C f d Hf P1).
    cbn [map list_sum fold_right fst snd]. fold (list_sum (map (fun s : nat * (nat * bool) => fst (snd s)) r)). rewrite plus_INR.
    match goal with |- homogeneous_on _ ?e _ => replace e with (d - INR k - INR (list_sum (map (fun s : nat * (nat * bool) => fst (snd s)) r)))%R by ring end.
    destruct b.
    + apply (IH (fun y => D (insert_at i 0%R y)) (fun y => h (insert_at i 0%R y))); [apply restrict_open, O| | |exact P2].
      * intros c x Hc Dx. rewrite <- insert_scale. apply C; assumption.
      * intros c x Hc Dx. fold (scale c x). rewrite <- insert_scale. apply (Hh c _ Hc Dx).
    + apply (IH D h); assumption.
Qed.
Lemma final_dom_embed (kd : list (nat * bool)) : forall n (D : list R -> Prop) (y : list R), length kd <= n ->
  length y + length (filter (fun b => b) (map snd kd)) = n -> (final_dom (rev (combine (seq 0 (length kd)) kd)) D y <-> D (embed (map snd kd) y)).
Proof.
  induction kd as [|[k d] kd IH] using rev_ind; intros n D y Hl Ly; [reflexivity|].
  rewrite rev_combine_snoc. cbn [final_dom]. rewrite app_length in Hl. cbn in Hl. rewrite map_app in *. cbn [map snd] in *.
  rewrite filter_app, app_length in Ly. pose proof (kept_total (map snd kd)) as KT. rewrite map_length in KT. destruct d; cbn [filter length] in Ly.
  - destruct n as [|n]; [lia|]. rewrite embed_snoc_true by lia. rewrite map_length. apply (IH n); lia.
  - rewrite embed_snoc_false by lia. apply (IH n); lia.
Qed.

(** *** the domain where U and F are positive *)
Lemma poly_open (p : rpoly) n i (x : list R) : proper n p -> length x = n -> (0 < peval p x)%R ->
  exists e, (0 < e)%R /\ forall t, (Rabs (t - nth i x 0%R) < e)%R -> (0 < peval p (upd i t x))%R.
Proof.
  intros P L Hp. destruct (Nat.lt_ge_cases i n) as [Hi|Hi].
  - assert (Dp := pderive_correct p i x (proj1 (proj2 P)) (proper_def R_Fld n p x P L) ltac:(destruct P as [-> _]; exact Hi)).
    assert (Cp : continuity_pt (fun t => peval p (upd i t x)) (nth i x 0%R)).
    { apply derivable_continuous_pt. exists (peval (pderive p i) x). exact Dp. }
    assert (E : peval p (upd i (nth i x 0%R) x) = peval p x) by (rewrite upd_nth_id; reflexivity).
    destruct (Cp (peval p x) Hp) as (e & He & Q). exists e. split; [exact He|]. intros t Ht.
    destruct (Req_EM_T (nth i x 0%R) t) as [Et|Et].
    + rewrite <- Et, E. exact Hp.
    + specialize (Q t). cbn [dist R_met] in Q. unfold R_dist in Q. rewrite E in Q.
      assert (Q' : (Rabs (peval p (upd i t x) - peval p x) < peval p x)%R).
      { apply Q. split; [|exact Ht]. split; [exact I|exact Et]. }
      apply Rabs_def2 in Q'. lra.
  - exists 1%R. split; [lra|]. intros t _. replace (upd i t x) with x; [exact Hp|].
    assert (Hx : length x <= i) by lia. clear -Hx. revert i Hx. induction x as [|a x IH]; intros [|i] H; cbn in *; try lia; try reflexivity. f_equal. apply IH. lia.
Qed.
Definition positive_dom (P : nat) (U Fp : rpoly) (x : list R) : Prop := length x = P /\ (0 < peval U x)%R /\ (0 < peval Fp x)%R.
Lemma positive_open P U Fp : proper P U -> proper P Fp -> open_dom (positive_dom P U Fp).
Proof.
  intros HU HF i x (L & A & B). destruct (poly_open U P i x HU L A) as (e1 & H1 & Q1). destruct (poly_open Fp P i x HF L B) as (e2 & H2 & Q2).
  exists (Rmin e1 e2). split; [apply Rmin_pos; assumption|]. intros t Ht. split; [rewrite upd_length; exact L|]. split.
  - apply Q1. eapply Rlt_le_trans; [exact Ht|apply Rmin_l].
  - apply Q2. eapply Rlt_le_trans; [exact Ht|apply Rmin_r].
Qed.
Definition scales (P : nat) (L : nat) (p : rpoly) : Prop := forall (c : R) (x : list R), length x = P -> peval p (scale c x) = (c ^ L * peval p x)%R.
Lemma positive_cone P U Fp L1 L2 : scales P L1 U -> scales P L2 Fp -> cone (positive_dom P U Fp).
Proof.
  intros HU HF c x Hc (L & A & B). split; [unfold scale; rewrite map_length; exact L|]. rewrite HU, HF by exact L.
  split; apply Rmult_lt_0_compat; try assumption; apply pow_lt; exact Hc.
Qed.
Lemma Rpower_scale (c u e : R) (L : nat) : (0 < c)%R -> (0 < u)%R -> Rpower (c ^ L * u) e = (Rpower c (INR L * e) * Rpower u e)%R.
Proof. intros Hc Hu. rewrite <- Rpower_mult_distr by (try apply pow_lt; assumption). rewrite <- (Rpower_pow L c Hc), Rpower_mult. reflexivity. Qed.
Lemma start_hom P L r (U Fp Nu : rpoly) (n m : R) : scales P L U -> scales P (S L) Fp ->
  (forall (c : R) (x : list R) (u f : R), (0 < c)%R -> length x = P -> peval Nu (scale c x ++ [c ^ L * u; c ^ S L * f]%R : list R) = (c ^ (L * r) * peval Nu (x ++ [u; f] : list R))%R) ->
  homogeneous_on (positive_dom P U Fp) (INR L * n - INR (S L) * m + INR (L * r))
   (fun x => (Rpower (peval U x) n * Rpower (peval Fp x) (- m) * peval Nu (x ++ [peval U x; peval Fp x] : list R))%R).
Proof.
  intros HU HF HN c x Hc (Lx & A & B). fold (scale c x). rewrite HU, HF by exact Lx. rewrite HN by assumption. rewrite !Rpower_scale by assumption.
  assert (E : Rpower c (INR L * n - INR (S L) * m + INR (L * r)) = (Rpower c (INR L * n) * Rpower c (INR (S L) * - m) * c ^ (L * r))%R).
  { rewrite <- (Rpower_pow (L * r) c Hc), <- !Rpower_plus. f_equal. ring. }
  rewrite E. set (w := peval Nu _). ring.
Qed.
Lemma monomials_hom (es : list (R * bool)) : forall (c : R) (y : list R), (0 < c)%R -> Forall (fun a => (0 < a)%R) y -> length y = kept (map snd es) ->
  monomials es (scale c y) = (Rpower c (fold_right Rplus 0%R (map (fun e : R * bool => if snd e then 0%R else (fst e - 1)%R) es)) * monomials es y)%R.
Proof.
  unfold kept. induction es as [|[e d] es IH]; intros c y Hc Hy L; cbn [monomials map fold_right fst snd filter] in *.
  - rewrite Rpower_O by exact Hc. ring.
  - destruct d; cbn [negb length] in L.
    + rewrite IH by assumption. rewrite Rplus_0_l. reflexivity.
    + destruct y as [|a y]; [discriminate|]. injection L as L. inversion Hy as [|? ? Ha Hy']; subst. cbn [scale map]. fold (scale c y).
      rewrite (IH c y Hc Hy' L). rewrite <- Rpower_mult_distr by assumption. rewrite Rpower_plus. ring.
Qed.
