(** Proofs about the point allocation. *)
From Verif Require Export AdjustModel.
Local Open Scope R_scope.

Lemma Rltb_spec x y : Rltb x y = true <-> x < y.
Proof. unfold Rltb. destruct (Rlt_dec x y); split; auto; discriminate. Qed.
Lemma Rltb_false x y : Rltb x y = false <-> y <= x.
Proof. unfold Rltb. destruct (Rlt_dec x y); split; intros; try lra; try discriminate; reflexivity. Qed.
Lemma Rleb_spec x y : Rleb x y = true <-> x <= y.
Proof. unfold Rleb. destruct (Rle_dec x y); split; auto; discriminate. Qed.

Definition good (x : comp) : Prop := 0 < cW2 x /\ 0 < cw x /\ 0 < ctau x /\ 0 < cnmin x.
Definition same (x y : comp) : Prop := y = set_n x (cn y).
Lemma same_refl x : same x x. Proof. unfold same, set_n. destruct x; reflexivity. Qed.
Lemma same_set x n : same x (set_n x n). Proof. reflexivity. Qed.
Lemma same_trans x y z : same x y -> same y z -> same x z.
Proof. unfold same. intros -> ->. reflexivity. Qed.
Lemma same_good x y : same x y -> good x -> good y.
Proof. intros ->. exact (fun h => h). Qed.
Lemma same_fields x y : same x y -> cW2 y = cW2 x /\ cw y = cw x /\ ctau y = ctau x /\ cnmin y = cnmin x /\ cnmax y = cnmax x.
Proof. intros ->. cbn. auto. Qed.

Section A.
Variable a : R.
Hypothesis Ha : 0 < a.
Definition term (x : comp) : R := cW2 x * (cw x / Rpower (cn x) a).
Lemma total_cons x l : total a (x :: l) = term x + total a l. Proof. reflexivity. Qed.
Lemma total_app l l' : total a (l ++ l') = total a l + total a l'.
Proof. induction l as [|x l IH]; cbn [app]; [unfold total; cbn; ring|]. rewrite !total_cons, IH. ring. Qed.
Lemma Rpower_pos x y : 0 < Rpower x y. Proof. apply exp_pos. Qed.
Lemma term_pos x : good x -> 0 < term x.
Proof. intros (H1 & H2 & _). unfold term. apply Rmult_lt_0_compat; [exact H1|]. apply Rdiv_lt_0_compat; [exact H2|apply Rpower_pos]. Qed.
Lemma total_nonneg l : Forall good l -> 0 <= total a l.
Proof. induction 1 as [|x l Hx Hl IH]; [unfold total; cbn; lra|]. rewrite total_cons. pose proof (term_pos x Hx). lra. Qed.
Lemma total_pos l : l <> [] -> Forall good l -> 0 < total a l.
Proof. intros Hne H. destruct H as [|x l Hx Hl]; [congruence|]. rewrite total_cons. pose proof (term_pos x Hx). pose proof (total_nonneg l Hl). lra. Qed.
Lemma Rpower_le x y : 0 < x -> x <= y -> Rpower x a <= Rpower y a.
Proof. intros Hx Hy. apply Rle_Rpower_l; lra. Qed.
Lemma term_mono x n n' : good x -> 0 < n -> n <= n' -> term (set_n x n') <= term (set_n x n).
Proof.
  intros (H1 & H2 & _) Hn Hle. unfold term. cbn. apply Rmult_le_compat_l; [lra|]. unfold Rdiv. apply Rmult_le_compat_l; [lra|]. apply Rinv_le_contravar; [apply Rpower_pos|apply Rpower_le; assumption].
Qed.
Lemma term_strict x n n' : good x -> 0 < n -> n < n' -> term (set_n x n') < term (set_n x n).
Proof.
  intros (H1 & H2 & _) Hn Hle. unfold term. cbn. apply Rmult_lt_compat_l; [lra|]. unfold Rdiv. apply Rmult_lt_compat_l; [lra|]. apply Rinv_lt_contravar; [apply Rmult_lt_0_compat; apply Rpower_pos|]. unfold Rpower. apply exp_increasing. apply Rmult_lt_compat_l; [exact Ha|]. apply ln_increasing; lra.
Qed.
Lemma set_n_id x : set_n x (cn x) = x. Proof. destruct x; reflexivity. Qed.
Lemma term_scale x c : 0 < c -> 0 < cn x -> term (set_n x (cn x * c)) = term x / Rpower c a.
Proof.
  intros Hc Hn. unfold term. cbn. rewrite <- Rpower_mult_distr by assumption. field. split; apply Rgt_not_eq, Rpower_pos.
Qed.
Definition scaled (c : R) (l : list comp) : list comp := map (fun x => set_n x (cn x * c)) l.
Lemma total_scaled c l : 0 < c -> Forall (fun x => 0 < cn x) l -> total a (scaled c l) = total a l / Rpower c a.
Proof. intros Hc. induction 1 as [|x l Hx Hl IH]; cbn [scaled map]; [unfold total; cbn; field; apply Rgt_not_eq, Rpower_pos|]. fold (scaled c l). rewrite !total_cons, IH, term_scale by assumption. field. apply Rgt_not_eq, Rpower_pos. Qed.
(** the factor that brings a total to the target *)
Lemma factor_power T V : 0 < T -> 0 < V -> Rpower (Rpower (1 / V * T) (1 / a)) a = T / V.
Proof. intros HT HV. rewrite Rpower_mult. replace (1 / a * a) with 1 by (field; lra). rewrite Rpower_1; [field; lra|]. apply Rmult_lt_0_compat; [apply Rdiv_lt_0_compat; lra|exact HT]. Qed.
Lemma total_factor T V l : 0 < T -> 0 < V -> T = total a l -> Forall (fun x => 0 < cn x) l -> total a (scaled (Rpower (1 / V * T) (1 / a)) l) = V.
Proof. intros HT HV -> Hl. rewrite total_scaled by (apply Rpower_pos || exact Hl). rewrite factor_power by assumption. field. lra. Qed.
Lemma factor_le1 T V : 0 < T -> T <= V -> Rpower (1 / V * T) (1 / a) <= 1.
Proof.
  intros HT HV. replace 1 with (Rpower 1 (1 / a)) at 3 by (unfold Rpower; rewrite ln_1, Rmult_0_r; apply exp_0). apply Rle_Rpower_l; [apply Rlt_le, Rdiv_lt_0_compat; lra|]. split; [apply Rmult_lt_0_compat; [apply Rdiv_lt_0_compat; lra|exact HT]|].
  replace (1 / V * T) with (T / V) by (field; lra). apply Rle_div_l || (apply (Rmult_le_reg_r V); [lra|]; unfold Rdiv; rewrite Rmult_assoc, Rinv_l by lra; lra).
Qed.
Lemma factor_ge1 T V : 0 < V -> V <= T -> 1 <= Rpower (1 / V * T) (1 / a).
Proof.
  intros HV HT. replace 1 with (Rpower 1 (1 / a)) at 1 by (unfold Rpower; rewrite ln_1, Rmult_0_r; apply exp_0). apply Rle_Rpower_l; [apply Rlt_le, Rdiv_lt_0_compat; lra|]. split; [lra|].
  apply (Rmult_le_reg_r V); [lra|]. replace (1 / V * T * V) with T by (field; lra). lra.
Qed.

(** * masks *)
Lemma total_split (m : masked) : total a (map fst m) = total a (sel m) + total a (unsel m).
Proof. unfold sel, unsel. induction m as [|[x b] m IH]; [unfold total; cbn; ring|]. cbn [map filter fst snd]. destruct b; cbn [negb map fst]; rewrite !total_cons, IH; ring. Qed.
Definition rel (P : comp -> bool -> comp -> bool -> Prop) (m m' : masked) : Prop := Forall2 (fun q q' : comp * bool => P (fst q) (snd q) (fst q') (snd q')) m m'.
Lemma sel_put v m : sel (put v m) = map (fun x => set_n x (v x)) (sel m).
Proof. unfold sel, put. induction m as [|[x b] m IH]; [reflexivity|]. cbn [map filter fst snd]. destruct b; cbn [filter snd map fst]; rewrite IH; reflexivity. Qed.
Lemma unsel_put v m : unsel (put v m) = unsel m.
Proof. unfold unsel, put. induction m as [|[x b] m IH]; [reflexivity|]. cbn [map filter fst snd]. destruct b; cbn [filter snd negb map fst]; rewrite IH; reflexivity. Qed.
Lemma sel_scale c m : sel (scale_rest c m) = sel m.
Proof. unfold sel, scale_rest. induction m as [|[x b] m IH]; [reflexivity|]. cbn [map filter fst snd]. destruct b; cbn [filter snd map fst]; rewrite IH; reflexivity. Qed.
Lemma unsel_scale c m : unsel (scale_rest c m) = scaled c (unsel m).
Proof. unfold unsel, scale_rest, scaled. induction m as [|[x b] m IH]; [reflexivity|]. cbn [map filter fst snd]. destruct b; cbn [filter snd negb map fst]; rewrite IH; reflexivity. Qed.
Lemma fst_remask add m : map fst (remask add m) = map fst m.
Proof. unfold remask. rewrite map_map. reflexivity. Qed.
Lemma len_put v m : length (put v m) = length m. Proof. apply map_length. Qed.
Lemma sel_unsel_len (m : masked) : (length (sel m) + length (unsel m) = length m)%nat.
Proof. unfold sel, unsel. induction m as [|[x b] m IH]; [reflexivity|]. cbn [map filter fst snd]. destruct b; cbn; lia. Qed.
Lemma forall_sel (P : comp -> Prop) (m : masked) : Forall (fun q : comp * bool => P (fst q)) m -> Forall P (sel m) /\ Forall P (unsel m).
Proof. unfold sel, unsel. induction 1 as [|[x b] m Hx Hm [I1 I2]]; [split; constructor|]. cbn [map filter fst snd] in *. destruct b; cbn [negb map fst]; split; try constructor; assumption. Qed.
Lemma unsel_remask add m : (forall q, In q m -> snd q = true -> add (fst q) = false) -> existsb add (map fst m) = true -> (length (unsel (remask add m)) < length (unsel m))%nat.
Proof.
  intros Hs H. assert (W : forall m, (length (unsel (remask add m)) <= length (unsel m))%nat).
  { unfold unsel, remask. induction m0 as [|[x b] m0 IH]; [cbn; lia|]. cbn [map filter fst snd]. destruct b; cbn [orb negb]; [exact IH|]. destruct (add x); cbn [negb map length]; lia. }
  revert Hs H. induction m as [|[x b] m IH]; intros Hs H; [discriminate|]. cbn [map existsb fst] in H.
  unfold unsel, remask in *. cbn [map filter fst snd]. destruct b; cbn [orb negb].
  - apply IH; [intros q Hq; apply Hs; right; exact Hq|]. rewrite (Hs (x, true) (or_introl eq_refl) eq_refl : add x = false) in H. exact H.
  - destruct (add x) eqn:E; cbn [negb map length].
    + specialize (W m). unfold unsel, remask in W. lia.
    + apply -> Nat.succ_lt_mono. apply IH; [intros q Hq; apply Hs; right; exact Hq|exact H].
Qed.
Definition unchanged (m : masked) (l : list comp) : Prop := Forall2 same (map fst m) l.
Lemma same_step v c m : Forall2 same (map fst m) (map fst (scale_rest c (put v m))).
Proof. unfold scale_rest, put. induction m as [|[x b] m IH]; [constructor|]. cbn [map fst]. destruct b; cbn; (constructor; [|exact IH]); apply same_set. Qed.
Lemma same_put v m : Forall2 same (map fst m) (map fst (put v m)).
Proof. unfold put. induction m as [|[x b] m IH]; [constructor|]. cbn [map fst]. destruct b; cbn; (constructor; [|exact IH]); [apply same_set|apply same_refl]. Qed.
Lemma Forall2_same_trans l1 l2 l3 : Forall2 same l1 l2 -> Forall2 same l2 l3 -> Forall2 same l1 l3.
Proof. intros H. revert l3. induction H as [|x y l1 l2 Hxy H IH]; intros l3 H3; inversion H3; subst; constructor; [eapply same_trans; eassumption|apply IH; assumption]. Qed.
Lemma same_forall (P : comp -> Prop) l l' : (forall x y, same x y -> P x -> P y) -> Forall2 same l l' -> Forall P l -> Forall P l'.
Proof. intros HP. induction 1 as [|x y l l' Hxy H IH]; intros Hl; constructor; inversion Hl; subst; [eapply HP; eassumption|apply IH; assumption]. Qed.

(** * the raising loop *)
Section Raise.
Variable V : R.
Hypothesis HV : 0 < V.
Record rinv (m : masked) : Prop := {
  r_good : Forall (fun q : comp * bool => good (fst q) /\ 0 < cn (fst q)) m;
  r_total : total a (map fst m) = V;
  r_mask : Forall (fun q : comp * bool => if snd q then cn (fst q) <= cnmin (fst q) else cnmin (fst q) <= cn (fst q)) m }.
Lemma raise_step m : rinv m -> unsel m <> [] -> let m1 := put cnmin m in let VV := Rmax (V - total a (sel m1)) 0 in
  0 < VV /\ total a (unsel m1) <= VV /\
  let m2 := scale_rest (Rpower (1 / VV * total a (unsel m1)) (1 / a)) m1 in
  total a (map fst m2) = V /\ Forall (fun q : comp * bool => good (fst q) /\ 0 < cn (fst q)) m2 /\ Forall (fun q : comp * bool => snd q = true -> cn (fst q) = cnmin (fst q)) m2 /\ Forall2 (fun q q' : comp * bool => cn (fst q') <= Rmax (cn (fst q)) (cnmin (fst q))) m m2.
Proof.
  intros I Hne m1 VV. destruct I as [Ig It Im].
  assert (Hsel : total a (sel m1) <= total a (sel m)).
  { unfold m1. rewrite sel_put. clear - Ig Im Ha. unfold sel. induction m as [|[x b] m IH]; [cbn; lra|]. apply Forall_cons_iff in Ig as [[Hg Hn] Ig]. apply Forall_cons_iff in Im as [Hx Im]. cbn [fst snd] in *. cbn [filter snd map fst]. destruct b; [|apply IH; assumption]. cbn [map fst]. rewrite !total_cons. specialize (IH Ig Im).
    pose proof (term_mono x (cn x) (cnmin x) Hg Hn Hx) as T. rewrite set_n_id in T. lra. }
  assert (Hun : unsel m1 = unsel m) by apply unsel_put.
  assert (Gun : Forall good (unsel m)) by (apply forall_sel; eapply Forall_impl; [|exact Ig]; intros q Hq; apply Hq).
  assert (Nun : Forall (fun x => 0 < cn x) (unsel m)) by (apply (forall_sel (fun x => 0 < cn x)); eapply Forall_impl; [|exact Ig]; intros q Hq; apply Hq).
  pose proof (total_pos _ Hne Gun) as Hpos. pose proof (total_split m) as Hs. rewrite It in Hs.
  assert (EVV : VV = V - total a (sel m1)) by (unfold VV; apply Rmax_left; lra).
  split; [lra|]. split; [rewrite Hun; lra|]. rewrite Hun. intros m2. set (c := Rpower (1 / VV * total a (unsel m)) (1 / a)) in *.
  assert (Hc : 0 < c <= 1) by (split; [apply Rpower_pos|apply factor_le1; lra]).
  split; [|split; [|split]].
  - rewrite total_split. unfold m2. rewrite sel_scale, unsel_scale, Hun. unfold c. rewrite (total_factor (total a (unsel m)) VV) by (assumption || reflexivity || lra). lra.
  - unfold m2, m1, scale_rest, put. clearbody c. clear - Ig Hc. induction m as [|[x b] m IH]; [constructor|]. apply Forall_cons_iff in Ig as [[Hg Hn] Ig]. cbn [map fst snd]. constructor; [|apply IH, Ig]. destruct b; cbn [fst snd] in *; (split; [exact Hg|cbn]); [apply Hg|apply Rmult_lt_0_compat; lra].
  - unfold m2, m1, scale_rest, put. clearbody c. clear. induction m as [|[x b] m IH]; [constructor|]. cbn [map fst snd]. constructor; [|exact IH]. destruct b; cbn; [reflexivity|discriminate].
  - unfold m2, m1, scale_rest, put. clearbody c. clear - Ig Hc. induction m as [|[x b] m IH]; [constructor|]. apply Forall_cons_iff in Ig as [[Hg Hn] Ig]. cbn [map fst snd]. constructor; [|apply IH, Ig]. destruct b; cbn [fst snd set_n cn] in *; [apply Rmax_r|]. eapply Rle_trans; [|apply Rmax_l]. rewrite <- (Rmult_1_r (cn x)) at 2. apply Rmult_le_compat_l; lra.
Qed.
Definition at_min (m : masked) : list comp := map (fun q => set_n (fst q) (cnmin (fst q))) m.
Lemma total_at_min_ge m : Forall (fun q : comp * bool => good (fst q) /\ 0 < cn (fst q)) m -> Forall (fun q : comp * bool => cn (fst q) <= cnmin (fst q)) m -> total a (at_min m) <= total a (map fst m).
Proof.
  induction 1 as [|[x b] m [Hg Hn] Hm IH]; intros H; [cbn; lra|]. apply Forall_cons_iff in H as [Hx H]. cbn [at_min map fst] in *. fold (at_min m). rewrite !total_cons. specialize (IH H). pose proof (term_mono x (cn x) (cnmin x) Hg Hn Hx) as T. rewrite set_n_id in T. lra.
Qed.
Lemma at_min_same m m' : Forall2 same (map fst m) (map fst m') -> at_min m' = at_min m.
Proof. revert m'. induction m as [|[x b] m IH]; intros [|[y c] m'] H; inversion H as [|? ? ? ? Hxy H']; subst; [reflexivity|]. cbn. unfold at_min in IH. rewrite (IH m' H'). f_equal. unfold same in Hxy. cbn in Hxy. rewrite Hxy. reflexivity. Qed.
Lemma raise_loop_correct fuel : forall m, rinv m -> V < total a (at_min m) -> (length (unsel m) < fuel)%nat ->
  exists l, raise_loop fuel a V m = Some (inr l) /\ Forall2 same (map fst m) l /\ total a l = V /\ Forall (fun x => cnmin x <= cn x /\ 0 < cn x) l /\ Forall2 (fun x y => cn y <= Rmax (cn x) (cnmin x)) (map fst m) l.
Proof.
  induction fuel as [|f IH]; intros m I Hmin Hf; [lia|]. cbn [raise_loop]. rewrite len_put.
  assert (Hlen : length (sel (put cnmin m)) = length (sel m)) by (rewrite sel_put; apply map_length). rewrite Hlen.
  destruct (Nat.eqb_spec (length (sel m)) 0) as [E0|E0].
  - exists (map fst (put cnmin m)). assert (Eid : put cnmin m = m).
    { clear - E0. unfold put, sel in *. induction m as [|[x b] m IHm]; [reflexivity|]. cbn [map filter snd fst] in *. destruct b; [discriminate|]. rewrite IHm by exact E0. reflexivity. }
    rewrite Eid. split; [reflexivity|]. destruct I as [Ig It Im]. split; [clear; induction (map fst m); constructor; [apply same_refl|assumption]|]. split; [exact It|]. split.
    + clear - Ig Im E0. unfold sel in E0. induction m as [|[x b] m IHm]; [constructor|]. apply Forall_cons_iff in Ig as [Hg Ig]. apply Forall_cons_iff in Im as [Hx Im]. cbn [map filter snd fst] in *. destruct b; [discriminate|]. constructor; [split; [exact Hx|apply Hg]|apply IHm; assumption].
    + clear. induction (map fst m); constructor; [apply Rmax_l|assumption].
  - assert (Hne : unsel m <> []).
    { intros E. pose proof (sel_unsel_len m) as Hs. assert (Hall : Forall (fun q : comp * bool => cn (fst q) <= cnmin (fst q)) m).
      { destruct I as [_ _ Im]. clear - E Im. unfold unsel in E. induction m as [|[x b] m IHm]; [constructor|]. apply Forall_cons_iff in Im as [Hx Im]. cbn [map filter snd fst negb] in *. destruct b; [constructor; [exact Hx|apply IHm; assumption]|discriminate]. }
      pose proof (total_at_min_ge m (r_good m I) Hall) as T. rewrite (r_total m I) in T. lra. }
    assert (Hnl : length (sel m) <> length m) by (pose proof (sel_unsel_len m); destruct (unsel m); [congruence|cbn in *; lia]). destruct (Nat.eqb_spec (length (sel m)) (length m)) as [|_]; [contradiction|].
    destruct (raise_step m I Hne) as (V1 & V2 & T2 & G2 & M2 & D2). cbv zeta in *. set (m1 := put cnmin m) in *. set (VV := Rmax (V - total a (sel m1)) 0) in *. replace (Rltb 0 VV) with true by (symmetry; apply Rltb_spec; exact V1). cbn [negb]. set (m2 := scale_rest (Rpower (1 / VV * total a (unsel m1)) (1 / a)) m1) in *.
    assert (Hsame : Forall2 same (map fst m) (map fst m2)) by apply same_step.
    assert (HD : Forall2 (fun x y => cn y <= Rmax (cn x) (cnmin x)) (map fst m) (map fst m2)) by (clear - D2; induction D2; cbn; constructor; assumption).
    set (add := fun x => Rltb (cn x) (cnmin x)). destruct (existsb add (map fst m2)) eqn:Ea; cbn [negb].
    + assert (I2 : rinv (remask add m2)).
      { constructor; [| |].
        - unfold remask. clear - G2. induction G2; cbn; constructor; assumption.
        - rewrite fst_remask. exact T2.
        - unfold remask. clear - M2 Ha. induction M2 as [|[x b] mm Hx Hm IHm]; cbn [map]; constructor; [|exact IHm]. cbn [fst snd] in *. unfold add. destruct b; cbn [orb]; [rewrite (Hx eq_refl); lra|]. destruct (Rltb (cn x) (cnmin x)) eqn:E; [apply Rltb_spec in E; lra|apply Rltb_false in E; exact E]. }
      destruct (IH (remask add m2)) as (l & E & S & T & B & D).
      * exact I2.
      * rewrite (at_min_same m (remask add m2)) by (rewrite fst_remask; exact Hsame). exact Hmin.
      * assert (length (unsel (remask add m2)) < length (unsel m2))%nat.
        { apply unsel_remask; [|exact Ea]. intros q Hq Hs. rewrite Forall_forall in M2. specialize (M2 q Hq Hs). unfold add. rewrite M2. apply Rltb_false. lra. }
        assert (length (unsel m2) = length (unsel m)) by (unfold m2; rewrite unsel_scale; unfold scaled; rewrite map_length; unfold m1; rewrite unsel_put; reflexivity). lia.
      * exists l. split; [exact E|]. rewrite fst_remask in S, D. split; [eapply Forall2_same_trans; eassumption|]. split; [exact T|]. split; [exact B|].
        clear - HD D Hsame. revert l D. induction HD as [|x y l1 l2 Hxy H IHH]; intros l D; inversion D; subst; constructor; [|inversion Hsame; subst; apply IHH; assumption].
        inversion Hsame as [|? ? ? ? Sxy ?]; subst. destruct (same_fields _ _ Sxy) as (_ & _ & _ & Em & _). rewrite Em in *. eapply Rle_trans; [eassumption|]. apply Rmax_lub; [exact Hxy|apply Rmax_r].
    + exists (map fst m2). split; [reflexivity|]. split; [exact Hsame|]. split; [exact T2|]. split; [|exact HD].
      clear - Ea G2. induction m2 as [|[x b] mm IHm]; [constructor|]. apply Forall_cons_iff in G2 as [Hg G2]. cbn [map fst existsb] in *. apply orb_false_iff in Ea as [E1 Ea]. constructor; [|apply IHm; assumption]. split; [|apply Hg]. unfold add in E1. apply Rltb_false in E1. exact E1.
Qed.
(** the level: unmasked entries are proportional to a weight, masked ones would be below their floor at this level *)
Definition level (K : comp -> R) (lam : R) (m : masked) : Prop := Forall (fun q : comp * bool => if snd q then lam * K (fst q) <= cnmin (fst q) /\ cn (fst q) <= cnmin (fst q) else cn (fst q) = lam * K (fst q)) m.
Lemma raise_loop_level K fuel : (forall x n, K (set_n x n) = K x) -> forall m lam l, rinv m -> 0 < lam -> Forall (fun q : comp * bool => 0 < K (fst q)) m -> level K lam m ->
  raise_loop fuel a V m = Some (inr l) -> exists lam', 0 < lam' /\ Forall (fun x => cn x = lam' * K x \/ (cn x = cnmin x /\ lam' * K x <= cnmin x)) l.
Proof.
  intros HK. induction fuel as [|f IH]; intros m lam l I Hl HKp HL E; [discriminate|]. cbn [raise_loop] in E. rewrite len_put in E.
  assert (Hlen : length (sel (put cnmin m)) = length (sel m)) by (rewrite sel_put; apply map_length). rewrite Hlen in E.
  destruct (Nat.eqb_spec (length (sel m)) 0) as [E0|E0].
  - injection E as <-. exists lam. split; [exact Hl|]. clear - E0 HL. unfold sel, put, level in *. induction m as [|[x b] m IHm]; [constructor|]. apply Forall_cons_iff in HL as [Hx HL]. cbn [map filter snd fst] in *. destruct b; [discriminate|]. constructor; [left; exact Hx|apply IHm; assumption].
  - destruct (Nat.eqb_spec (length (sel m)) (length m)) as [|Hnl]; [discriminate|]. assert (Hne : unsel m <> []) by (intros E'; pose proof (sel_unsel_len m) as Hs; rewrite E' in Hs; cbn in Hs; lia).
    destruct (raise_step m I Hne) as (V1 & V2 & T2 & G2 & M2 & D2). cbv zeta in *. set (m1 := put cnmin m) in *. set (VV := Rmax (V - total a (sel m1)) 0) in *. replace (Rltb 0 VV) with true in E by (symmetry; apply Rltb_spec; exact V1). cbn [negb] in E. set (c := Rpower (1 / VV * total a (unsel m1)) (1 / a)) in *. set (m2 := scale_rest c m1) in *.
    assert (Hpos : 0 < total a (unsel m1)). { unfold m1. rewrite unsel_put. apply total_pos; [exact Hne|]. apply forall_sel. eapply Forall_impl; [|apply (r_good m I)]. intros q Hq. apply Hq. }
    assert (Hc : 0 < c <= 1) by (split; [apply Rpower_pos|apply factor_le1; assumption]).
    assert (L2 : Forall (fun q : comp * bool => if snd q then c * lam * K (fst q) <= cnmin (fst q) /\ cn (fst q) = cnmin (fst q) else cn (fst q) = c * lam * K (fst q)) m2).
    { unfold m2, m1, scale_rest, put. clearbody c. clear - HL HK Hc Hl HKp. unfold level in HL. induction m as [|[x b] m IHm]; [constructor|]. apply Forall_cons_iff in HL as [Hx HL]. apply Forall_cons_iff in HKp as [Kx HKp]. cbn [map fst snd] in *. constructor; [|apply IHm; assumption].
      destruct b; cbn [fst snd set_n cn cnmin] in *; rewrite HK.
      - split; [|reflexivity]. destruct Hx as [Hx _]. eapply Rle_trans; [|exact Hx]. assert (0 < lam * K x) by (apply Rmult_lt_0_compat; assumption). rewrite Rmult_assoc. rewrite <- (Rmult_1_l (lam * K x)) at 2. apply Rmult_le_compat_r; lra.
      - rewrite Hx. ring. }
    assert (Hcl : 0 < c * lam) by (apply Rmult_lt_0_compat; lra).
    set (add := fun x => Rltb (cn x) (cnmin x)) in *. destruct (existsb add (map fst m2)) eqn:Ea; cbn [negb] in E.
    + assert (I2 : rinv (remask add m2)).
      { constructor; [| |].
        - unfold remask. clear - G2. induction G2; cbn; constructor; assumption.
        - rewrite fst_remask. exact T2.
        - unfold remask. clear - M2 Ha. induction M2 as [|[x b] mm Hx Hm IHm]; cbn [map]; constructor; [|exact IHm]. cbn [fst snd] in *. unfold add. destruct b; cbn [orb]; [rewrite (Hx eq_refl); lra|]. destruct (Rltb (cn x) (cnmin x)) eqn:E; [apply Rltb_spec in E; lra|apply Rltb_false in E; exact E]. }
      apply (IH (remask add m2) (c * lam) l); [exact I2|exact Hcl| | |exact E].
      * unfold remask, m2, m1, scale_rest, put. clearbody c. clear - HKp HK. induction HKp as [|[x b] mm Hx Hm IHm]; [constructor|]. cbn [map fst snd] in *. constructor; [|exact IHm]. destruct b; cbn; rewrite HK; exact Hx.
      * unfold level, remask. clear - L2. induction L2 as [|[x b] mm Hx Hm IHm]; cbn [map]; constructor; [|exact IHm]. cbn [fst snd] in *. unfold add. destruct b; cbn [orb]; [lra|]. destruct (Rltb (cn x) (cnmin x)) eqn:E; [apply Rltb_spec in E; lra|exact Hx].
    + injection E as <-. exists (c * lam). split; [exact Hcl|]. clear - L2. induction L2 as [|[x b] mm Hx Hm IHm]; cbn [map]; constructor; [|exact IHm]. cbn [fst snd] in *. destruct b; [right; tauto|left; exact Hx].
Qed.
End Raise.

(** * the capping loop *)
Section Cap.
Variable V : R.
Hypothesis HV : 0 < V.
Record cinv (m : masked) : Prop := {
  c_good : Forall (fun q : comp * bool => good (fst q) /\ 0 < cn (fst q) /\ 0 < cnmax (fst q)) m;
  c_total : total a (map fst m) = V;
  c_mask : Forall (fun q : comp * bool => if snd q then cnmax (fst q) <= cn (fst q) else cn (fst q) <= cnmax (fst q)) m }.
Definition at_max (m : masked) : list comp := map (fun q : comp * bool => set_n (fst q) (cnmax (fst q))) m.
Lemma at_max_same m m' : Forall2 same (map fst m) (map fst m') -> at_max m' = at_max m.
Proof. revert m'. induction m as [|[x b] m IH]; intros [|[y c] m'] H; inversion H as [|? ? ? ? Hxy H']; subst; [reflexivity|]. cbn. unfold at_max in IH. rewrite (IH m' H'). f_equal. unfold same in Hxy. cbn in Hxy. rewrite Hxy. reflexivity. Qed.
Lemma sel_put_max_le m : Forall (fun q : comp * bool => good (fst q) /\ 0 < cn (fst q) /\ 0 < cnmax (fst q)) m ->
  total a (sel (put cnmax m)) <= total a (at_max m) /\ (unsel m <> [] -> total a (sel (put cnmax m)) < total a (at_max m)).
Proof.
  unfold sel, unsel, put, at_max. induction 1 as [|[x b] m (Hg & Hn & Hx) Hm [IH1 IH2]]; [split; [cbn; lra|intros H; destruct (H eq_refl)]|]. cbn [map filter fst snd] in *.
  assert (G : good (set_n x (cnmax x))) by exact Hg. pose proof (term_pos _ G). destruct b; cbn [filter snd map fst negb]; rewrite ?total_cons.
  - split; [lra|]. intros Hne. specialize (IH2 Hne). lra.
  - split; [lra|]. intros _. lra.
Qed.
Lemma cap_step m : cinv m -> unsel m <> [] -> let m1 := put cnmax m in let VV := V - total a (sel m1) in 0 < VV ->
  VV <= total a (unsel m1) /\
  let m2 := scale_rest (Rpower (1 / VV * total a (unsel m1)) (1 / a)) m1 in
  total a (map fst m2) = V /\ Forall (fun q : comp * bool => good (fst q) /\ 0 < cn (fst q) /\ 0 < cnmax (fst q)) m2 /\ Forall (fun q : comp * bool => snd q = true -> cn (fst q) = cnmax (fst q)) m2.
Proof.
  intros I Hne m1 VV HVV. destruct I as [Ig It Im].
  assert (Hsel : total a (sel m) <= total a (sel m1)).
  { unfold m1. rewrite sel_put. clear - Ig Im Ha. unfold sel. induction m as [|[x b] m IH]; [cbn; lra|]. apply Forall_cons_iff in Ig as [(Hg & Hn & Hp) Ig]. apply Forall_cons_iff in Im as [Hx Im]. cbn [fst snd] in *. cbn [filter snd map fst]. destruct b; [|apply IH; assumption]. cbn [map fst]. rewrite !total_cons. specialize (IH Ig Im).
    pose proof (term_mono x (cnmax x) (cn x) Hg Hp Hx) as T. rewrite set_n_id in T. lra. }
  assert (Hun : unsel m1 = unsel m) by apply unsel_put.
  assert (Gun : Forall good (unsel m)) by (apply forall_sel; eapply Forall_impl; [|exact Ig]; intros q Hq; apply Hq).
  assert (Nun : Forall (fun x => 0 < cn x) (unsel m)) by (apply (forall_sel (fun x => 0 < cn x)); eapply Forall_impl; [|exact Ig]; intros q Hq; apply Hq).
  pose proof (total_pos _ Hne Gun) as Hpos. pose proof (total_split m) as Hs. rewrite It in Hs.
  assert (EVV : VV = V - total a (sel m1)) by reflexivity.
  split; [rewrite Hun; lra|]. rewrite Hun. intros m2. set (c := Rpower (1 / VV * total a (unsel m)) (1 / a)) in *.
  assert (Hc : 0 < c) by apply Rpower_pos.
  split; [|split].
  - rewrite total_split. unfold m2. rewrite sel_scale, unsel_scale, Hun. unfold c. rewrite (total_factor (total a (unsel m)) VV) by (assumption || reflexivity || lra). lra.
  - unfold m2, m1, scale_rest, put. clearbody c. clear - Ig Hc. induction m as [|[x b] m IH]; [constructor|]. apply Forall_cons_iff in Ig as [(Hg & Hn & Hp) Ig]. cbn [map fst snd]. constructor; [|apply IH, Ig]. destruct b; cbn [fst snd] in *; (split; [exact Hg|cbn]); (split; [|exact Hp]); [apply Hp|apply Rmult_lt_0_compat; lra].
  - unfold m2, m1, scale_rest, put. clearbody c. clear. induction m as [|[x b] m IH]; [constructor|]. cbn [map fst snd]. constructor; [|exact IH]. destruct b; cbn; [reflexivity|discriminate].
Qed.
Lemma put_nothing v m : length (sel m) = 0%nat -> put v m = m.
Proof. unfold put, sel. induction m as [|[x b] m IHm]; intros E0; [reflexivity|]. cbn [map filter snd fst] in *. destruct b; [discriminate|]. rewrite IHm by exact E0. reflexivity. Qed.
Lemma same_list_refl l : Forall2 same l l.
Proof. induction l; constructor; [apply same_refl|assumption]. Qed.
(** every outcome of the loop: bounds, and the reason for stopping early *)
Lemma cap_loop_correct fuel : forall m, cinv m -> (length (unsel m) < fuel)%nat ->
  (exists l, cap_loop fuel a V m = Some (inr l) /\ Forall2 same (map fst m) l /\ total a l = V /\ Forall (fun x => cn x <= cnmax x /\ 0 < cn x) l)
  \/ (exists l, cap_loop fuel a V m = Some (inl (ReturnFloat l)) /\ Forall2 same (map fst m) l /\ Forall (fun x => cn x <= cnmax x /\ 0 < cn x) l /\
       ((Forall (fun x => cn x = cnmax x) l /\ V <= total a (at_max m)) \/ V < total a (at_max m)))
  \/ (cap_loop fuel a V m = Some (inl AssertionError) /\ V < total a (at_max m)).
Proof.
  induction fuel as [|f IH]; intros m I Hf; [lia|]. cbn [cap_loop]. rewrite len_put.
  assert (Hlen : length (sel (put cnmax m)) = length (sel m)) by (rewrite sel_put; apply map_length). rewrite Hlen.
  assert (Hcap : Forall (fun x => cn x <= cnmax x /\ 0 < cn x) (map fst (put cnmax m))).
  { destruct I as [Ig _ Im]. clear - Ig Im. unfold put. induction m as [|[x b] m IHm]; [constructor|]. apply Forall_cons_iff in Ig as [(Hg & Hn & Hp) Ig]. apply Forall_cons_iff in Im as [Hx Im]. cbn [map fst snd] in *. constructor; [|apply IHm; assumption]. destruct b; cbn; [split; [lra|exact Hp]|split; assumption]. }
  destruct (sel_put_max_le m (c_good m I)) as [L1 L2].
  destruct (Nat.eqb_spec (length (sel m)) 0) as [E0|E0].
  - left. exists (map fst (put cnmax m)). split; [reflexivity|]. split; [apply same_put|]. split; [|exact Hcap]. rewrite (put_nothing cnmax m E0). apply I.
  - destruct (Nat.eqb_spec (length (sel m)) (length m)) as [E1|E1].
    + right. left. exists (map fst (put cnmax m)). split; [reflexivity|]. split; [apply same_put|]. split; [exact Hcap|]. left.
      assert (Hu : unsel m = []) by (pose proof (sel_unsel_len m); destruct (unsel m); [reflexivity|cbn in *; lia]).
      split.
      * clear - Hu. unfold unsel, put in *. induction m as [|[x b] m IHm]; [constructor|]. cbn [map filter snd fst negb] in *. destruct b; [|discriminate]. constructor; [reflexivity|apply IHm, Hu].
      * destruct I as [Ig It Im]. rewrite <- It. clear - Ha Ig Im Hu. unfold unsel, at_max in *. induction m as [|[x b] m IHm]; [cbn; lra|]. apply Forall_cons_iff in Ig as [(Hg & Hn & Hp) Ig]. apply Forall_cons_iff in Im as [Hx Im]. cbn [map filter snd fst negb] in *. destruct b; [|discriminate]. rewrite !total_cons. specialize (IHm Ig Im Hu). pose proof (term_mono x (cnmax x) (cn x) Hg Hp Hx) as T. rewrite set_n_id in T. lra.
    + assert (Hne : unsel m <> []) by (intros E'; pose proof (sel_unsel_len m) as Hs; rewrite E' in Hs; cbn in Hs; lia). specialize (L2 Hne).
      destruct (Rltb (V - total a (sel (put cnmax m))) 0) eqn:Ev.
      * apply Rltb_spec in Ev. right. left. exists (map fst (put cnmax m)). split; [reflexivity|]. split; [apply same_put|]. split; [exact Hcap|]. right. lra.
      * destruct (Rltb 0 (V - total a (sel (put cnmax m)))) eqn:Ev2; cbn [negb].
        2:{ right. right. split; [reflexivity|]. apply Rltb_false in Ev, Ev2. lra. }
        apply Rltb_spec in Ev2. destruct (cap_step m I Hne Ev2) as (V2 & T2 & G2 & M2). cbv zeta in *. set (m1 := put cnmax m) in *. set (m2 := scale_rest _ m1) in *.
        assert (Hsame : Forall2 same (map fst m) (map fst m2)) by apply same_step.
        set (add := fun x => Rltb (cnmax x) (cn x)). destruct (existsb add (map fst m2)) eqn:Ea; cbn [negb].
        -- assert (I2 : cinv (remask add m2)).
           { constructor; [| |].
             - unfold remask. clear - G2. induction G2; cbn; constructor; assumption.
             - rewrite fst_remask. exact T2.
             - unfold remask. clear - M2 Ha. induction M2 as [|[x b] mm Hx Hm IHm]; cbn [map]; constructor; [|exact IHm]. cbn [fst snd] in *. unfold add. destruct b; cbn [orb]; [rewrite (Hx eq_refl); lra|]. destruct (Rltb (cnmax x) (cn x)) eqn:E; [apply Rltb_spec in E; lra|apply Rltb_false in E; exact E]. }
           assert (Hf2 : (length (unsel (remask add m2)) < f)%nat).
           { assert (length (unsel (remask add m2)) < length (unsel m2))%nat.
             { apply unsel_remask; [|exact Ea]. intros q Hq Hs. rewrite Forall_forall in M2. specialize (M2 q Hq Hs). unfold add. rewrite M2. apply Rltb_false. lra. }
             assert (length (unsel m2) = length (unsel m)) by (unfold m2; rewrite unsel_scale; unfold scaled; rewrite map_length; unfold m1; rewrite unsel_put; reflexivity). lia. }
           specialize (IH (remask add m2) I2 Hf2). rewrite fst_remask in IH.
           assert (Emax : at_max (remask add m2) = at_max m) by (apply at_max_same; rewrite fst_remask; exact Hsame). rewrite Emax in IH.
           destruct IH as [(l & E & S1 & T & B)|[(l & E & S1 & B & D)|(E & D)]].
           ++ left. exists l. split; [exact E|]. split; [eapply Forall2_same_trans; eassumption|]. split; assumption.
           ++ right. left. exists l. split; [exact E|]. split; [eapply Forall2_same_trans; eassumption|]. split; assumption.
           ++ right. right. split; assumption.
        -- left. exists (map fst m2). split; [reflexivity|]. split; [exact Hsame|]. split; [exact T2|].
           clear - Ea G2. induction m2 as [|[x b] mm IHm]; [constructor|]. apply Forall_cons_iff in G2 as [(Hg & Hn & Hp) G2]. cbn [map fst existsb] in *. apply orb_false_iff in Ea as [E1 Ea]. constructor; [|apply IHm; assumption]. split; [|exact Hn]. unfold add in E1. apply Rltb_false in E1. exact E1.
Qed.
End Cap.

(** * the solution without bounds *)
Definition K (x : comp) : R := Rpower (cw x / ctau x * cW2 x) (1 / (a + 1)).
Lemma K_set x n : K (set_n x n) = K x. Proof. reflexivity. Qed.
Lemma unbounded_spec V l : 0 < V -> l <> [] -> Forall good l ->
  Forall2 same l (unbounded a V l) /\ total a (unbounded a V l) = V /\ Forall (fun x => 0 < cn x) (unbounded a V l) /\ exists lam, 0 < lam /\ Forall (fun x => cn x = lam * K x) (unbounded a V l).
Proof.
  intros HV Hne Hg. unfold unbounded. set (l1 := map (fun x => set_n x (Rpower (cw x / ctau x * cW2 x) (1 / (a + 1)))) l). set (c := Rpower (1 / V * total a l1) (1 / a)).
  assert (G1 : Forall good l1) by (unfold l1; clear l1 c Hne; induction Hg; cbn; constructor; assumption).
  assert (N1 : Forall (fun x => 0 < cn x) l1) by (unfold l1; clear l1 c Hne Hg G1; induction l; cbn; constructor; [apply Rpower_pos|assumption]).
  assert (Hne1 : l1 <> []) by (unfold l1; destruct l; [congruence|discriminate]).
  pose proof (total_pos l1 Hne1 G1) as Tp. assert (Hc : 0 < c) by apply Rpower_pos.
  split; [clearbody c; unfold l1; rewrite map_map; clear; induction l as [|x l IH]; cbn; constructor; [reflexivity|exact IH]|]. split; [apply (total_factor (total a l1) V); auto|].
  split; [clearbody c; clear - N1 Hc; induction N1; cbn; constructor; [apply Rmult_lt_0_compat; assumption|assumption]|].
  exists c. split; [exact Hc|]. clearbody c. unfold l1. rewrite map_map. clear. induction l as [|x l IH]; [constructor|]. cbn [map]. constructor; [|exact IH]. cbn. unfold K. cbn. ring.
Qed.
(** the tangent of a convex function *)
Lemma tangent n m : 0 < n -> 0 < m -> / Rpower n a - a * (/ Rpower n (a + 1)) * (m - n) <= / Rpower m a.
Proof.
  intros Hn Hm. set (t := m / n). assert (Ht : 0 < t) by (apply Rdiv_lt_0_compat; assumption). assert (Em : m = n * t) by (unfold t; field; lra).
  clearbody t. subst m. rewrite <- Rpower_mult_distr by assumption. rewrite Rinv_mult_distr by (apply Rgt_not_eq, Rpower_pos). rewrite Rpower_plus, Rpower_1 by assumption.
  assert (E : / Rpower n a - a * / (Rpower n a * n) * (n * t - n) = / Rpower n a * (1 - a * (t - 1))) by (field; split; first [apply Rgt_not_eq, Rpower_pos | lra]). rewrite E.
  apply Rmult_le_compat_l; [apply Rlt_le, Rinv_0_lt_compat, Rpower_pos|]. rewrite <- Rpower_Ropp. unfold Rpower.
  pose proof (exp_ineq1_le (- a * ln t)) as E1. assert (L : ln t <= t - 1). { pose proof (exp_ineq1_le (ln t)) as E2. rewrite exp_ln in E2 by exact Ht. lra. }
  assert (a * ln t <= a * (t - 1)) by (apply Rmult_le_compat_l; lra). lra.
Qed.
Lemma K_power lam x : good x -> 0 < lam -> Rpower (lam * K x) (a + 1) = Rpower lam (a + 1) * (cw x / ctau x * cW2 x).
Proof.
  intros (H1 & H2 & H3 & H4) Hl. rewrite <- Rpower_mult_distr by (assumption || apply Rpower_pos). unfold K. rewrite Rpower_mult. replace (1 / (a + 1) * (a + 1)) with 1 by (field; lra). rewrite Rpower_1; [reflexivity|]. apply Rmult_lt_0_compat; [apply Rdiv_lt_0_compat; assumption|assumption].
Qed.
Lemma one_integral lam x m : good x -> 0 < lam -> 0 < cn x -> cnmin x <= m -> (cn x = lam * K x \/ (cn x = cnmin x /\ lam * K x <= cnmin x)) ->
  ctau x * cn x + Rpower lam (a + 1) / a * term x <= ctau x * m + Rpower lam (a + 1) / a * term (set_n x m).
Proof.
  intros Hg Hl Hn Hm Hx. pose proof (K_power lam x Hg Hl) as KP. destruct Hg as (H1 & H2 & H3 & H4). unfold term. cbn.
  assert (Hm0 : 0 < m) by lra. pose proof (tangent (cn x) m Hn Hm0) as T. set (mu := Rpower lam (a + 1)) in *. assert (Hmu : 0 < mu) by apply Rpower_pos.
  set (c := mu / a * (cW2 x * cw x)). assert (Hc : 0 < c) by (unfold c; apply Rmult_lt_0_compat; [apply Rdiv_lt_0_compat; assumption|apply Rmult_lt_0_compat; assumption]).
  replace (mu / a * (cW2 x * (cw x / Rpower (cn x) a))) with (c * / Rpower (cn x) a) by (unfold c; field; split; first [apply Rgt_not_eq, Rpower_pos | lra]).
  replace (mu / a * (cW2 x * (cw x / Rpower m a))) with (c * / Rpower m a) by (unfold c; field; split; first [apply Rgt_not_eq, Rpower_pos | lra]).
  assert (T2 : c * (/ Rpower (cn x) a - a * / Rpower (cn x) (a + 1) * (m - cn x)) <= c * / Rpower m a) by (apply Rmult_le_compat_l; [lra|exact T]).
  (* the slope *)
  set (r := Rpower (lam * K x) (a + 1) / Rpower (cn x) (a + 1)). assert (Hs : c * (a * / Rpower (cn x) (a + 1)) = ctau x * r).
  { unfold r. rewrite KP. unfold c. field. repeat split; try lra. apply Rgt_not_eq, Rpower_pos. }
  assert (Hd : 0 <= (m - cn x) * (1 - r)).
  { assert (KK : 0 < lam * K x) by (apply Rmult_lt_0_compat; [exact Hl|apply Rpower_pos]). destruct Hx as [E|[E L]].
    - replace r with 1; [lra|]. unfold r. rewrite E. field. apply Rgt_not_eq, Rpower_pos.
    - apply Rmult_le_pos; [lra|]. assert (r <= 1); [|lra]. unfold r. apply (Rmult_le_reg_r (Rpower (cn x) (a + 1))); [apply Rpower_pos|]. unfold Rdiv. rewrite Rmult_assoc, Rinv_l, Rmult_1_r, Rmult_1_l by (apply Rgt_not_eq, Rpower_pos). apply Rle_Rpower_l; [lra|split; [exact KK|lra]]. }
  assert (Hd2 : 0 <= ctau x * ((m - cn x) * (1 - r))) by (apply Rmult_le_pos; lra).
  assert (c * / Rpower (cn x) a - ctau x * r * (m - cn x) <= c * / Rpower m a).
  { rewrite <- Hs. eapply Rle_trans; [|exact T2]. right. ring. }
  nra.
Qed.
End A.
