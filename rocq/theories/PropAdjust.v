(** Property C52: the numbers of points proposed by disteval (adjust_1d_n, adjust_n). *)
From Verif Require Import AdjustProofs.
Local Open Scope R_scope.

(** the predicted variance of an amplitude and the cost of n points for each integral *)
Definition predicted (a : R) (l : list comp) (n : list R) : R := fold_right Rplus 0 (map (fun p => cW2 (fst p) * cw (fst p) / Rpower (snd p) a) (combine l n)).
Definition cost (l : list comp) (n : list R) : R := fold_right Rplus 0 (map (fun p => ctau (fst p) * snd p) (combine l n)).
Definition at_least (n m : list R) : Prop := Forall2 (fun x y => y <= x) n m.
(** the assertions at the beginning of the function *)
Definition positive_data (l : list comp) : Prop := Forall (fun x => 0 < cW2 x /\ 0 < cw x /\ 0 < ctau x /\ 0 < cnmin x) l.

Lemma predicted_cons a x l y n : predicted a (x :: l) (y :: n) = cW2 x * cw x / Rpower y a + predicted a l n. Proof. reflexivity. Qed.
Lemma cost_cons x l y n : cost (x :: l) (y :: n) = ctau x * y + cost l n. Proof. reflexivity. Qed.
Lemma total_predicted a l l' : Forall2 same l l' -> total a l' = predicted a l (map cn l').
Proof.
  induction 1 as [|x y l l' Hxy H IH]; [reflexivity|]. cbn [map]. rewrite total_cons, predicted_cons, IH. f_equal. unfold term. destruct (same_fields _ _ Hxy) as (-> & -> & _). unfold Rdiv. ring.
Qed.
Lemma set_total a v l : total a (map (fun x => set_n x (v x)) l) = predicted a l (map v l).
Proof. induction l as [|x l IH]; [reflexivity|]. cbn [map]. rewrite total_cons, predicted_cons, IH. f_equal. unfold term. cbn. unfold Rdiv. ring. Qed.
Lemma same_length l l' : Forall2 same l l' -> length l = length l'.
Proof. induction 1; cbn; congruence. Qed.
Lemma unsel_le (m : masked) : (length (unsel m) <= length m)%nat. Proof. pose proof (sel_unsel_len m). lia. Qed.
Lemma fst_start t l : map fst (start_mask t l) = l. Proof. unfold start_mask. rewrite map_map. apply map_id. Qed.
Lemma Forall2_both {A B} (P Q : A -> B -> Prop) l l' : Forall2 P l l' -> Forall2 Q l l' -> Forall2 (fun x y => P x y /\ Q x y) l l'.
Proof. induction 1; intros H2; inversion H2; subst; constructor; auto. Qed.
Lemma floor_ge l l' : Forall2 same l l' -> Forall (fun x => cnmin x <= cn x) l' -> at_least (map cn l') (map cnmin l).
Proof. induction 1 as [|x y l l' Hxy H IH]; intros Hf; [constructor|]. apply Forall_cons_iff in Hf as [H1 Hf]. cbn. constructor; [destruct (same_fields _ _ Hxy) as (_ & _ & _ & <- & _); exact H1|apply IH, Hf]. Qed.
Lemma ceil_le l l' : Forall2 same l l' -> Forall (fun x => cn x <= cnmax x) l' -> at_least (map cnmax l) (map cn l').
Proof. induction 1 as [|x y l l' Hxy H IH]; intros Hf; [constructor|]. apply Forall_cons_iff in Hf as [H1 Hf]. cbn. constructor; [destruct (same_fields _ _ Hxy) as (_ & _ & _ & _ & <-); exact H1|apply IH, Hf]. Qed.
Lemma good_same l l' : Forall2 same l l' -> Forall good l -> Forall good l'.
Proof. apply same_forall. intros x y. apply same_good. Qed.

Lemma positive_floor l : positive_data l -> forallb positiveb (map (fun x => set_n x (cnmin x)) l) = true.
Proof. intros H. apply forallb_forall. intros y Hy. apply in_map_iff in Hy as (x & <- & Hx). unfold positive_data in H. rewrite Forall_forall in H. destruct (H x Hx) as (P1 & P2 & P3 & P4). unfold positiveb. cbn. rewrite !(proj2 (Rltb_spec _ _)) by assumption. reflexivity. Qed.
Lemma not_positive a V allow l : ~ positive_data l -> adjust_1d_n a V allow l = Some AssertionError.
Proof.
  intros H. unfold adjust_1d_n. destruct (forallb positiveb (map (fun x => set_n x (cnmin x)) l)) eqn:E; [|reflexivity]. exfalso. apply H. unfold positive_data. rewrite forallb_forall in E. apply Forall_forall. intros x Hx. specialize (E _ (in_map _ _ _ Hx)). unfold positiveb in E. cbn in E.
  apply andb_prop in E as [E E4]. apply andb_prop in E as [E E3]. apply andb_prop in E as [E1 E2]. apply Rltb_spec in E1, E2, E3, E4. auto.
Qed.
(** the last stage, for any starting point with the right total *)
Lemma raise_final a V l0 l : 0 < a -> 0 < V -> Forall2 same l0 l -> Forall good l -> Forall (fun x => 0 < cn x) l -> total a l = V -> V < predicted a l0 (map cnmin l0) ->
  exists l', raise_loop (S (length l)) a V (start_mask (fun x => Rltb (cn x) (cnmin x)) l) = Some (inr l') /\ Forall2 same l0 l' /\ total a l' = V /\ Forall (fun x => cnmin x <= cn x /\ 0 < cn x) l' /\
    Forall2 (fun x y => cn y <= Rmax (cn x) (cnmin x)) l l' /\
    (forall lam, 0 < lam -> Forall (fun x => cn x = lam * K a x) l -> exists lam', 0 < lam' /\ Forall (fun x => cn x = lam' * K a x \/ (cn x = cnmin x /\ lam' * K a x <= cnmin x)) l').
Proof.
  intros Ha HV Hs Hg Hn Ht Hmin. set (m := start_mask (fun x => Rltb (cn x) (cnmin x)) l).
  assert (Ef : map fst m = l) by apply fst_start.
  assert (I : rinv a V m).
  { constructor; [|rewrite Ef; exact Ht|].
    - unfold m, start_mask. clear - Hg Hn. induction l; [constructor|]. apply Forall_cons_iff in Hg as [G1 Hg]. apply Forall_cons_iff in Hn as [N1 Hn]. cbn. constructor; [split; assumption|apply IHl; assumption].
    - unfold m, start_mask. clear. induction l as [|x l IH]; [constructor|]. cbn [map]. constructor; [|exact IH]. cbn. destruct (Rltb (cn x) (cnmin x)) eqn:E; [apply Rltb_spec in E; lra|apply Rltb_false in E; exact E]. }
  assert (Hm : V < total a (at_min m)).
  { unfold at_min. assert (E : map (fun q : comp * bool => set_n (fst q) (cnmin (fst q))) m = map (fun x => set_n x (cnmin x)) l) by (unfold m, start_mask; rewrite map_map; reflexivity). rewrite E. replace (map (fun x => set_n x (cnmin x)) l) with (map (fun x => set_n x (cnmin x)) l0); [rewrite set_total; exact Hmin|].
    clear - Hs. induction Hs as [|x y l0 l Hxy H IH]; [reflexivity|]. cbn. rewrite IH. f_equal. rewrite Hxy. reflexivity. }
  assert (Hf : (length (unsel m) < S (length l))%nat) by (pose proof (unsel_le m); unfold m, start_mask in *; rewrite map_length in *; lia).
  destruct (raise_loop_correct a Ha V (S (length l)) m I Hm Hf) as (l' & E & S1 & T & B & D). rewrite Ef in S1, D.
  exists l'. split; [exact E|]. split; [eapply Forall2_same_trans; eassumption|]. split; [exact T|]. split; [exact B|]. split; [exact D|].
  intros lam Hl HK. apply (raise_loop_level a Ha V (K a) (S (length l)) (K_set a) m lam l'); [exact I|exact Hl| | |exact E].
  - unfold m, start_mask. clear. induction l; cbn; constructor; [apply Rpower_pos|assumption].
  - unfold level, m, start_mask. clear - HK. induction HK as [|x l Hx HK IH]; [constructor|]. cbn [map]. constructor; [|exact IH]. cbn. destruct (Rltb (cn x) (cnmin x)) eqn:E; [|exact Hx]. apply Rltb_spec in E. rewrite <- Hx. lra.
Qed.

(** without a largest lattice: either the floor is good enough, or the target is met exactly, no integral is below its floor,
    and no other choice reaching the target is cheaper *)
Theorem C52_unlimited : forall a V l, 0 < a -> 0 < V -> positive_data l ->
  (predicted a l (map cnmin l) <= V /\ exists l', adjust_1d_n a V true l = Some (ReturnFloat l') /\ map cn l' = map cnmin l) \/
  (V < predicted a l (map cnmin l) /\ exists l', adjust_1d_n a V true l = Some (ReturnInt l') /\
     predicted a l (map cn l') = V /\ at_least (map cn l') (map cnmin l) /\
     forall m, at_least m (map cnmin l) -> predicted a l m <= V -> cost l (map cn l') <= cost l m).
Proof.
  intros a V l Ha HV Hg. unfold adjust_1d_n. rewrite (positive_floor l Hg). cbn [negb]. set (l0 := map (fun x => set_n x (cnmin x)) l). assert (T0 : total a l0 = predicted a l (map cnmin l)) by apply set_total.
  assert (S0 : Forall2 same l l0) by (unfold l0; clear; induction l; cbn; constructor; [reflexivity|assumption]).
  destruct (Rleb (total a l0) V) eqn:E0.
  - left. apply Rleb_spec in E0. split; [lra|]. exists l0. split; [reflexivity|]. unfold l0. rewrite map_map. reflexivity.
  - right. assert (Hlt : V < predicted a l (map cnmin l)) by (destruct (Rlt_dec V (predicted a l (map cnmin l))); [assumption|]; assert (Rleb (total a l0) V = true) by (apply Rleb_spec; lra); congruence).
    split; [exact Hlt|]. assert (G0 : Forall good l0) by (eapply good_same; [exact S0|exact Hg]).
    assert (Hne : l0 <> []) by (intros E; rewrite E in T0; unfold total in T0; cbn in T0; lra).
    destruct (unbounded_spec a Ha V l0 HV Hne G0) as (S1 & T1 & N1 & lam & Hlam & HK). set (l1 := unbounded a V l0) in *.
    assert (S01 : Forall2 same l l1) by (eapply Forall2_same_trans; eassumption). assert (G1 : Forall good l1) by (eapply good_same; eassumption).
    destruct (raise_final a V l l1 Ha HV S01 G1 N1 T1 Hlt) as (l' & E & S2 & T & B & D & L). rewrite E.
    replace (forallb (fun x => Rleb (cnmin x) (cn x)) l') with true.
    2:{ symmetry. apply forallb_forall. intros x Hx. rewrite Forall_forall in B. apply Rleb_spec, (B x Hx). }
    exists l'. split; [reflexivity|]. split; [rewrite <- (total_predicted a l l' S2); exact T|]. split; [apply floor_ge; [exact S2|]; eapply Forall_impl; [|exact B]; intros x Hx; apply Hx|].
    intros m Hm Hp. destruct (L lam Hlam HK) as (lam' & Hl' & Hlev).
    assert (Hmu : 0 < Rpower lam' (a + 1) / a) by (apply Rdiv_lt_0_compat; [apply Rpower_pos|exact Ha]). set (mu := Rpower lam' (a + 1) / a) in *.
    assert (Lag : cost l (map cn l') + mu * total a l' <= cost l m + mu * predicted a l m).
    { assert (G2 : Forall good l') by (eapply good_same; eassumption). clear - Ha S2 B Hlev Hm Hl' G2. revert m Hm. induction S2 as [|x y l l' Hxy H IH]; intros m Hm.
      - inversion Hm; subst. unfold cost, predicted, total. cbn. lra.
      - cbn [map] in Hm. inversion Hm as [|z ? m' ? Hz Hm']; subst. cbn [map]. rewrite total_cons, !cost_cons, predicted_cons.
        apply Forall_cons_iff in B as [[B1 B2] B]. apply Forall_cons_iff in Hlev as [L1 Hlev]. apply Forall_cons_iff in G2 as [G1 G2].
        specialize (IH B Hlev G2 m' Hm'). destruct (same_fields _ _ Hxy) as (F1 & F2 & F3 & F4 & _).
        pose proof (one_integral a Ha lam' y z G1 Hl' B2 ltac:(rewrite F4; exact Hz) L1) as O. fold mu in O. rewrite F3 in O.
        replace (cW2 x * cw x / Rpower z a) with (term a (set_n y z)) by (unfold term; cbn; rewrite F1, F2; unfold Rdiv; ring). lra. }
    rewrite T in Lag. assert (mu * predicted a l m <= mu * V) by (apply Rmult_le_compat_l; lra). lra.
Qed.
Print Assumptions C52_unlimited.

(** with a largest lattice for each integral: whenever the target can be reached at all with them, the answer stays between the floor and
    the largest lattice and reaches the target *)
Theorem C52_capped : forall a V l, 0 < a -> 0 < V -> positive_data l -> Forall (fun x => cnmin x <= cnmax x) l -> predicted a l (map cnmax l) <= V ->
  exists l', (adjust_1d_n a V false l = Some (ReturnFloat l') \/ adjust_1d_n a V false l = Some (ReturnInt l')) /\
    predicted a l (map cn l') <= V /\ at_least (map cn l') (map cnmin l) /\ at_least (map cnmax l) (map cn l') /\
    (V < predicted a l (map cnmin l) -> predicted a l (map cn l') = V).
Proof.
  intros a V l Ha HV Hg Hmm Hmax. unfold adjust_1d_n. rewrite (positive_floor l Hg). cbn [negb]. set (l0 := map (fun x => set_n x (cnmin x)) l). assert (T0 : total a l0 = predicted a l (map cnmin l)) by apply set_total.
  assert (S0 : Forall2 same l l0) by (unfold l0; clear; induction l; cbn; constructor; [reflexivity|assumption]).
  destruct (Rleb (total a l0) V) eqn:E0.
  - apply Rleb_spec in E0. assert (En : map cn l0 = map cnmin l) by (unfold l0; rewrite map_map; reflexivity). exists l0. split; [left; reflexivity|]. rewrite En. split; [lra|]. split; [clear; induction l; cbn; constructor; [lra|assumption]|]. split; [|lra].
    clear - Hmm. induction Hmm; cbn; constructor; assumption.
  - assert (Hlt : V < predicted a l (map cnmin l)) by (destruct (Rlt_dec V (predicted a l (map cnmin l))); [assumption|]; assert (Rleb (total a l0) V = true) by (apply Rleb_spec; lra); congruence).
    assert (G0 : Forall good l0) by (eapply good_same; [exact S0|exact Hg]).
    assert (Hne : l0 <> []) by (intros E; rewrite E in T0; unfold total in T0; cbn in T0; lra).
    destruct (unbounded_spec a Ha V l0 HV Hne G0) as (S1 & T1 & N1 & _). set (l1 := unbounded a V l0) in *.
    assert (S01 : Forall2 same l l1) by (eapply Forall2_same_trans; eassumption). assert (G1 : Forall good l1) by (eapply good_same; eassumption).
    assert (M1 : Forall (fun x => cnmin x <= cnmax x) l1) by (revert Hmm; apply same_forall; [|exact S01]; intros x y Hxy; destruct (same_fields _ _ Hxy) as (_ & _ & _ & -> & ->); auto).
    set (m := start_mask (fun x => Rltb (cnmax x) (cn x)) l1). assert (Ef : map fst m = l1) by apply fst_start.
    assert (I : cinv a V m).
    { constructor; [|rewrite Ef; exact T1|].
      - unfold m, start_mask. clear - G1 N1 M1. induction l1 as [|x l9 IH]; [constructor|]. apply Forall_cons_iff in G1 as [G1 Gs]. apply Forall_cons_iff in N1 as [N1 Ns]. apply Forall_cons_iff in M1 as [M1 Ms]. cbn. constructor; [cbn|apply IH; assumption]. split; [exact G1|]. split; [exact N1|]. destruct G1 as (_ & _ & _ & P). lra.
      - unfold m, start_mask. clear. induction l1 as [|x l9 IH]; [constructor|]. cbn [map]. constructor; [|exact IH]. cbn. destruct (Rltb (cnmax x) (cn x)) eqn:E; [apply Rltb_spec in E; lra|apply Rltb_false in E; exact E]. }
    assert (Hf : (length (unsel m) < S (length l1))%nat) by (pose proof (unsel_le m); unfold m, start_mask in *; rewrite map_length in *; lia).
    assert (Emax : total a (at_max m) = predicted a l (map cnmax l)).
    { rewrite <- set_total. f_equal. unfold at_max, m, start_mask. rewrite map_map. cbn [fst]. clear - S01. induction S01 as [|x y l l1 Hxy H IH]; [reflexivity|]. cbn. rewrite IH. f_equal. rewrite Hxy. reflexivity. }
    destruct (cap_loop_correct a Ha V (S (length l1)) m I Hf) as [(l2 & E & S2 & T & B)|[(l2 & E & S2 & B & D)|(E & D)]]; rewrite E; rewrite ?Ef in *; [| |lra].
    + assert (S02 : Forall2 same l l2) by (eapply Forall2_same_trans; eassumption).
      destruct (raise_final a V l l2 Ha HV S02) as (l' & E' & S3 & T3 & B3 & D3 & _); [eapply good_same; eassumption|eapply Forall_impl; [|exact B]; intros x Hx; apply Hx|exact T|exact Hlt|]. rewrite E'.
      replace (forallb (fun x => Rleb (cnmin x) (cn x)) l') with true.
      2:{ symmetry. apply forallb_forall. intros x Hx. rewrite Forall_forall in B3. apply Rleb_spec, (B3 x Hx). }
      exists l'. split; [right; reflexivity|]. rewrite <- (total_predicted a l l' S3), T3. split; [lra|]. split; [apply floor_ge; [exact S3|]; eapply Forall_impl; [|exact B3]; intros x Hx; apply Hx|]. split; [|reflexivity].
      apply ceil_le; [exact S3|]. assert (S23 : Forall2 same l2 l'). { clear - S02 S3. revert l' S3. induction S02 as [|x y l l2 Hxy H IH]; intros l' S3; inversion S3 as [|? z ? l3 Hxz S3']; subst; constructor; [|apply IH, S3']. unfold same in *. rewrite Hxz at 1. rewrite Hxy. reflexivity. }
      assert (M2 : Forall (fun x => cnmin x <= cnmax x) l2) by (revert Hmm; apply same_forall; [|exact S02]; intros x y Hxy; destruct (same_fields _ _ Hxy) as (_ & _ & _ & -> & ->); auto).
      clear - B D3 S23 M2. induction S23 as [|x y l2 l' Hxy H IH]; [constructor|]. inversion D3; subst. apply Forall_cons_iff in B as [B1 B]. apply Forall_cons_iff in M2 as [M1 M2]. constructor; [|apply IH; assumption].
      destruct (same_fields _ _ Hxy) as (_ & _ & _ & _ & ->). eapply Rle_trans; [eassumption|]. apply Rmax_lub; [apply B1|exact M1].
    + assert (S02 : Forall2 same l l2) by (eapply Forall2_same_trans; eassumption). destruct D as [[D1 D2]|D]; [|lra].
      assert (En : map cn l2 = map cnmax l). { clear - D1 S02. induction S02 as [|x y l l2 Hxy H IH]; [reflexivity|]. apply Forall_cons_iff in D1 as [D1 D2]. cbn. rewrite IH by exact D2. f_equal. destruct (same_fields _ _ Hxy) as (_ & _ & _ & _ & <-). exact D1. }
      exists l2. split; [left; reflexivity|]. rewrite En. split; [exact Hmax|]. split; [clear - Hmm; induction Hmm; cbn; constructor; assumption|]. split; [clear; induction l; cbn; constructor; [lra|assumption]|]. intros _. lra.
Qed.
Print Assumptions C52_capped.
(** and in any case the largest lattices are never exceeded *)
Theorem C52_never_above_cap : forall a V l, 0 < a -> 0 < V -> positive_data l -> Forall (fun x => cnmin x <= cnmax x) l ->
  match adjust_1d_n a V false l with
  | Some (ReturnFloat l') | Some (ReturnInt l') => at_least (map cnmax l) (map cn l')
  | Some AssertionError => V < predicted a l (map cnmax l)
  | None => False
  end.
Proof.
  intros a V l Ha HV Hg Hmm. unfold adjust_1d_n. rewrite (positive_floor l Hg). cbn [negb]. set (l0 := map (fun x => set_n x (cnmin x)) l). assert (T0 : total a l0 = predicted a l (map cnmin l)) by apply set_total.
  assert (S0 : Forall2 same l l0) by (unfold l0; clear; induction l; cbn; constructor; [reflexivity|assumption]).
  destruct (Rleb (total a l0) V) eqn:E0.
  - assert (En : map cn l0 = map cnmin l) by (unfold l0; rewrite map_map; reflexivity). rewrite En. clear - Hmm. induction Hmm; cbn; constructor; assumption.
  - assert (Hlt : V < predicted a l (map cnmin l)) by (destruct (Rlt_dec V (predicted a l (map cnmin l))); [assumption|]; assert (Rleb (total a l0) V = true) by (apply Rleb_spec; lra); congruence).
    assert (G0 : Forall good l0) by (eapply good_same; [exact S0|exact Hg]).
    assert (Hne : l0 <> []) by (intros E; rewrite E in T0; unfold total in T0; cbn in T0; lra).
    destruct (unbounded_spec a Ha V l0 HV Hne G0) as (S1 & T1 & N1 & _). set (l1 := unbounded a V l0) in *.
    assert (S01 : Forall2 same l l1) by (eapply Forall2_same_trans; eassumption). assert (G1 : Forall good l1) by (eapply good_same; eassumption).
    assert (M1 : Forall (fun x => cnmin x <= cnmax x) l1) by (revert Hmm; apply same_forall; [|exact S01]; intros x y Hxy; destruct (same_fields _ _ Hxy) as (_ & _ & _ & -> & ->); auto).
    set (m := start_mask (fun x => Rltb (cnmax x) (cn x)) l1). assert (Ef : map fst m = l1) by apply fst_start.
    assert (I : cinv a V m).
    { constructor; [|rewrite Ef; exact T1|].
      - unfold m, start_mask. clear - G1 N1 M1. induction l1 as [|x l9 IH]; [constructor|]. apply Forall_cons_iff in G1 as [G1 Gs]. apply Forall_cons_iff in N1 as [N1 Ns]. apply Forall_cons_iff in M1 as [M1 Ms]. cbn. constructor; [cbn|apply IH; assumption]. split; [exact G1|]. split; [exact N1|]. destruct G1 as (_ & _ & _ & P). lra.
      - unfold m, start_mask. clear. induction l1 as [|x l9 IH]; [constructor|]. cbn [map]. constructor; [|exact IH]. cbn. destruct (Rltb (cnmax x) (cn x)) eqn:E; [apply Rltb_spec in E; lra|apply Rltb_false in E; exact E]. }
    assert (Hf : (length (unsel m) < S (length l1))%nat) by (pose proof (unsel_le m); unfold m, start_mask in *; rewrite map_length in *; lia).
    assert (Emax : total a (at_max m) = predicted a l (map cnmax l)).
    { rewrite <- set_total. f_equal. unfold at_max, m, start_mask. rewrite map_map. cbn [fst]. clear - S01. induction S01 as [|x y l l1 Hxy H IH]; [reflexivity|]. cbn. rewrite IH. f_equal. rewrite Hxy. reflexivity. }
    destruct (cap_loop_correct a Ha V (S (length l1)) m I Hf) as [(l2 & E & S2 & T & B)|[(l2 & E & S2 & B & D)|(E & D)]]; rewrite E; rewrite ?Ef in *.
    + assert (S02 : Forall2 same l l2) by (eapply Forall2_same_trans; eassumption).
      destruct (raise_final a V l l2 Ha HV S02) as (l' & E' & S3 & T3 & B3 & D3 & _); [eapply good_same; eassumption|eapply Forall_impl; [|exact B]; intros x Hx; apply Hx|exact T|exact Hlt|]. rewrite E'.
      replace (forallb (fun x => Rleb (cnmin x) (cn x)) l') with true.
      2:{ symmetry. apply forallb_forall. intros x Hx. rewrite Forall_forall in B3. apply Rleb_spec, (B3 x Hx). }
      apply ceil_le; [exact S3|]. assert (S23 : Forall2 same l2 l'). { clear - S02 S3. revert l' S3. induction S02 as [|x y l l2 Hxy H IH]; intros l' S3; inversion S3 as [|? z ? l3 Hxz S3']; subst; constructor; [|apply IH, S3']. unfold same in *. rewrite Hxz at 1. rewrite Hxy. reflexivity. }
      assert (M2 : Forall (fun x => cnmin x <= cnmax x) l2) by (revert Hmm; apply same_forall; [|exact S02]; intros x y Hxy; destruct (same_fields _ _ Hxy) as (_ & _ & _ & -> & ->); auto).
      clear - B D3 S23 M2. induction S23 as [|x y l2 l' Hxy H IH]; [constructor|]. inversion D3; subst. apply Forall_cons_iff in B as [B1 B]. apply Forall_cons_iff in M2 as [M1 M2]. constructor; [|apply IH; assumption].
      destruct (same_fields _ _ Hxy) as (_ & _ & _ & _ & ->). eapply Rle_trans; [eassumption|]. apply Rmax_lub; [apply B1|exact M1].
    + apply ceil_le; [eapply Forall2_same_trans; eassumption|]. eapply Forall_impl; [|exact B]. intros x Hx. apply Hx.
    + lra.
Qed.
Print Assumptions C52_never_above_cap.

(** * the integer numbers that are returned *)
Definition integer (x : R) : Prop := exists k, x = IZR k.
Lemma trunc_spec x : truncR x <= x < truncR x + 1 /\ integer (truncR x).
Proof. unfold truncR, integer. destruct (base_Int_part x) as [H1 H2]. split; [lra|eauto]. Qed.
Lemma trunc_ge_int x k : integer k -> k <= x -> k <= truncR x.
Proof.
  intros [z ->] H. destruct (trunc_spec x) as [[_ H2] _]. unfold truncR in *. apply IZR_le. assert (H3 : IZR z < IZR (Int_part x) + 1) by lra. rewrite <- plus_IZR in H3. apply lt_IZR in H3. lia.
Qed.
Lemma trunc_bound a N l : 0 < a -> 1 <= N -> integer N -> Forall (fun x => 0 <= cW2 x * cw x) l -> forall n, length n = length l -> Forall (fun y => N <= y) n -> predicted a l (map truncR n) <= Rpower ((N + 1) / N) a * predicted a l n.
Proof.
  intros Ha HN Hi. induction 1 as [|x l Hx Hl IH]; intros [|y n] Hlen Hn; try discriminate; [unfold predicted; cbn; lra|]. apply Forall_cons_iff in Hn as [Hy Hn]. cbn [map]. rewrite !predicted_cons.
  specialize (IH n ltac:(cbn in Hlen; lia) Hn). set (q := Rpower ((N + 1) / N) a) in *. pose proof (trunc_ge_int y N Hi Hy) as Ht. destruct (trunc_spec y) as [[T1 T2] _].
  enough (cW2 x * cw x / Rpower (truncR y) a <= q * (cW2 x * cw x / Rpower y a)) by lra. unfold Rdiv. replace (q * (cW2 x * cw x * / Rpower y a)) with (cW2 x * cw x * (q * / Rpower y a)) by ring. apply Rmult_le_compat_l; [exact Hx|].
  assert (Hle : y <= (N + 1) / N * truncR y). { apply (Rmult_le_reg_r N); [lra|]. replace ((N + 1) / N * truncR y * N) with ((N + 1) * truncR y) by (field; lra). nra. }
  assert (Hp : Rpower y a <= q * Rpower (truncR y) a). { unfold q. rewrite Rpower_mult_distr; [|apply Rdiv_lt_0_compat; lra|lra]. apply Rle_Rpower_l; [lra|]. split; lra. }
  apply (Rmult_le_reg_r (Rpower y a * Rpower (truncR y) a)); [apply Rmult_lt_0_compat; apply Rpower_pos|].
  replace (/ Rpower (truncR y) a * (Rpower y a * Rpower (truncR y) a)) with (Rpower y a) by (field; apply Rgt_not_eq, Rpower_pos).
  replace (q * / Rpower y a * (Rpower y a * Rpower (truncR y) a)) with (q * Rpower (truncR y) a) by (field; apply Rgt_not_eq, Rpower_pos). exact Hp.
Qed.
Lemma at_least_length n m : at_least n m -> length n = length m. Proof. induction 1; cbn; congruence. Qed.
(** what the function hands back (truncated to integers): not below the floor, and the target is met up to the truncation *)
Theorem C52_returned : forall a V l N, 0 < a -> 0 < V -> positive_data l -> 1 <= N -> integer N -> Forall (fun x => N <= cnmin x /\ integer (cnmin x)) l ->
  exists r v, adjust_1d_n a V true l = Some r /\ returned r = Some v /\ at_least v (map cnmin l) /\ Forall integer v /\ predicted a l v <= Rpower ((N + 1) / N) a * V.
Proof.
  intros a V l N Ha HV Hg HN Hi Hmin. assert (Hq : 1 <= Rpower ((N + 1) / N) a).
  { replace 1 with (Rpower 1 a) at 1 by (unfold Rpower; rewrite ln_1, Rmult_0_r; apply exp_0). apply Rle_Rpower_l; [lra|]. split; [lra|]. apply (Rmult_le_reg_r N); [lra|]. replace ((N + 1) / N * N) with (N + 1) by (field; lra). lra. }
  destruct (C52_unlimited a V l Ha HV Hg) as [(H1 & l' & E & En)|(H1 & l' & E & Ev & Hl & _)].
  - exists (ReturnFloat l'), (map cn l'). split; [exact E|]. split; [reflexivity|]. rewrite En. split; [clear; induction l; cbn; constructor; [lra|assumption]|]. split; [clear - Hmin; induction Hmin; cbn; constructor; [tauto|assumption]|]. nra.
  - exists (ReturnInt l'), (map truncR (map cn l')). split; [exact E|]. split; [cbn; rewrite map_map; reflexivity|]. split.
    + clear - Hmin Hl. revert Hl. generalize (map cn l') as n. intros n Hl. revert n Hl. induction Hmin as [|x l [H1 H2] Hm IH]; intros n Hl; cbn [map] in Hl; inversion Hl; subst; cbn [map]; [constructor|]. constructor; [apply trunc_ge_int; assumption|apply IH; assumption].
    + split; [clear; induction l'; cbn; constructor; [apply trunc_spec|assumption]|]. rewrite <- Ev. apply trunc_bound; try assumption.
      * eapply Forall_impl; [|exact Hg]. intros x (P1 & P2 & _). cbv beta. apply Rlt_le, Rmult_lt_0_compat; assumption.
      * apply at_least_length in Hl. rewrite !map_length in *. exact Hl.
      * clear - Hmin Hl. revert Hl. generalize (map cn l') as n. intros n Hl. revert n Hl. induction Hmin as [|x l [H1 H2] Hm IH]; intros n Hl; cbn [map] in Hl; inversion Hl; subst; constructor; [lra|apply IH; assumption].
Qed.
Print Assumptions C52_returned.
(** the truncation can indeed miss the target: one integral, 10 / n = 4 needs 2.5 points, 2 are proposed *)
Theorem C52_truncation_refuted : exists l V, positive_data l /\ 0 < V /\ exists r v, adjust_1d_n 1 V true l = Some r /\ returned r = Some v /\ V < predicted 1 l v.
Proof.
  set (x := mkC 1 10 1 1 100 0). assert (Hg : positive_data [x]) by (repeat constructor; cbn; lra). exists [x], 4. split; [exact Hg|]. split; [lra|].
  assert (P1 : predicted 1 [x] (map cnmin [x]) = 10) by (unfold predicted; cbn; rewrite Rpower_1 by lra; field).
  destruct (C52_unlimited 1 4 [x] ltac:(lra) ltac:(lra) Hg) as [(H1 & _)|(H1 & l' & E & Ev & Hl & _)]; [lra|]. exists (ReturnInt l'), (map truncR (map cn l')). split; [exact E|]. split; [cbn; rewrite map_map; reflexivity|].
  destruct l' as [|y [|z l']]; cbn in Hl; inversion Hl as [|? ? ? ? Hy Hr]; subst; [|inversion Hr]. cbn in Hy. unfold predicted in *. cbn in *. rewrite Rpower_1 in Ev by lra.
  assert (Ey : cn y = 5 / 2). { assert (E2 : 1 * 10 / cn y * cn y = 4 * cn y) by (rewrite <- Ev; ring). unfold Rdiv in E2. rewrite Rmult_assoc, Rinv_l in E2 by lra. lra. }
  assert (Et : truncR (cn y) = 2). { unfold truncR. f_equal. rewrite Ey. destruct (base_Int_part (5 / 2)) as [B1 B2]. assert (C1 : IZR (Int_part (5 / 2)) < 3) by lra. assert (C2 : 1 < IZR (Int_part (5 / 2))) by lra. apply lt_IZR in C1, C2. lia. }
  rewrite Et, Rpower_1 by lra. lra.
Qed.
(** with largest lattices that make the target unreachable the answer may be below the floor (the caller clips it) *)
Theorem C52_below_floor_refuted : exists l V l', positive_data l /\ 0 < V /\ Forall (fun x => cnmin x <= cnmax x) l /\ adjust_1d_n 1 V false l = Some (ReturnFloat l') /\ ~ at_least (map cn l') (map cnmin l).
Proof.
  set (x := mkC 1 100 1 1 2 0). set (y := mkC 1 (1 / 100) 1 5 100 0). exists [x; y], 1. eexists.
  split; [repeat constructor; cbn; lra|]. split; [lra|]. split; [repeat constructor; cbn; lra|].
  assert (Q1 : Rpower (100 / 1 * 1) (1 / (1 + 1)) = 10). { replace (1 / (1 + 1)) with (/ 2) by field. rewrite Rpower_sqrt by lra. replace (100 / 1 * 1) with (10 * 10) by field. apply sqrt_square. lra. }
  assert (Q2 : Rpower (1 / 100 / 1 * 1) (1 / (1 + 1)) = 1 / 10). { replace (1 / (1 + 1)) with (/ 2) by field. rewrite Rpower_sqrt by lra. replace (1 / 100 / 1 * 1) with (1 / 10 * (1 / 10)) by field. apply sqrt_square. lra. }
  assert (Er : 1 / 1 = 1) by field.
  assert (EU : unbounded 1 1 (map (fun x => set_n x (cnmin x)) [x; y]) = [set_n x 101; set_n y (101 / 100)]).
  { unfold unbounded. cbn [map x y set_n cn cw ctau cW2 cnmin cnmax]. rewrite Q1, Q2. unfold total, set_n. cbn [map fold_right cn cw cW2 x y set_n]. rewrite !(Rpower_1 10), !(Rpower_1 (1 / 10)) by lra. rewrite Er. rewrite !Rpower_1 by lra. cbn. f_equal; [f_equal; field|f_equal; f_equal; field]. }
  split.
  - unfold adjust_1d_n. rewrite positive_floor by (repeat constructor; cbn; lra). cbn [negb]. rewrite EU. replace (Rleb _ 1) with false.
    2:{ symmetry. unfold Rleb, total. cbn. rewrite !Rpower_1 by lra. destruct (Rle_dec _ 1); [lra|reflexivity]. }
    cbv iota. cbn [cap_loop length start_mask map fst snd set_n cn cnmax x y]. replace (Rltb 2 101) with true by (symmetry; apply Rltb_spec; lra). replace (Rltb 100 (101 / 100)) with false by (symmetry; apply Rltb_false; lra).
    cbn [put map fst snd set_n cn cnmax cW2 cw ctau cnmin sel filter length Nat.eqb]. unfold total, set_n. cbn [map fst fold_right cn cw cW2 cnmax x y]. rewrite (Rpower_1 2) by lra. replace (Rltb (1 - (1 * (100 / 2) + 0)) 0) with true by (symmetry; apply Rltb_spec; lra). reflexivity.
  - cbn. intros H. inversion H; subst. inversion H5; subst. lra.
Qed.

(** * several amplitudes *)
(** predicted variance of one amplitude: weights of the row, variances w, numbers of points n *)
Definition row_variance (a : R) (row w n : list R) : R := fold_right Rplus 0 (map (fun p => fst p * fst (snd p) / Rpower (snd (snd p)) a) (combine row (combine w n))).
Lemma row_variance_cons a r row x w y n : row_variance a (r :: row) (x :: w) (y :: n) = r * x / Rpower y a + row_variance a row w n. Proof. reflexivity. Qed.
(** the state between two amplitudes *)
Definition st_ok (N : R) (l : list comp) : Prop := Forall (fun x => 0 <= cw x /\ 0 < ctau x /\ N <= cnmin x /\ integer (cnmin x)) l.
Lemma use_row_fields row l : length row = length l -> map cw (use_row row l) = map cw l /\ map ctau (use_row row l) = map ctau l /\ map cnmin (use_row row l) = map cnmin l /\ map cW2 (use_row row l) = row.
Proof.
  unfold use_row. revert row. induction l as [|x l IH]; intros [|r row] H; try discriminate; [repeat split|]. destruct (IH row ltac:(cbn in H; lia)) as (E1 & E2 & E3 & E4). cbn [combine map cw ctau cnmin cW2 fst snd]. rewrite E1, E2, E3, E4. auto.
Qed.
Lemma use_row_ok N row l : st_ok N l -> length row = length l -> st_ok N (use_row row l).
Proof. unfold use_row, st_ok. intros H. revert row. induction H as [|x l Hx H IH]; intros [|r row] E; try discriminate; [constructor|]. cbn. constructor; [exact Hx|apply IH; cbn in E; lia]. Qed.
Lemma predicted_row a l : predicted a l (map cnmin l) = row_variance a (map cW2 l) (map cw l) (map cnmin l).
Proof. induction l as [|x l IH]; [reflexivity|]. cbn [map]. rewrite predicted_cons, row_variance_cons, IH. reflexivity. Qed.
Lemma inactive_zero x : active x = false -> cW2 x * cw x = 0.
Proof. unfold active. destruct (Req_EM_T (cw x) 0) as [E|]; [rewrite E; intros _; ring|]. destruct (Req_EM_T (cW2 x) 0) as [E|]; [rewrite E; intros _; ring|]. discriminate. Qed.
Lemma active_nonzero x : active x = true -> cW2 x <> 0 /\ cw x <> 0.
Proof. unfold active. destruct (Req_EM_T (cw x) 0) as [E|]; [discriminate|]. destruct (Req_EM_T (cW2 x) 0) as [E|]; [discriminate|]. auto. Qed.
Lemma assign_spec a N l : st_ok N l -> forall v, at_least v (map cnmin (filter active l)) -> Forall integer v ->
  st_ok N (assign l v) /\ map cw (assign l v) = map cw l /\ map cW2 (assign l v) = map cW2 l /\ at_least (map cnmin (assign l v)) (map cnmin l) /\
  predicted a (assign l v) (map cnmin (assign l v)) = predicted a (filter active l) v.
Proof.
  induction 1 as [|x l Hx H IH]; intros v Hv Hi.
  - inversion Hv; subst. repeat split; constructor.
  - cbn [filter assign] in *. destruct (active x) eqn:Ea.
    + cbn [map] in Hv. inversion Hv as [|y ? v' ? Hy Hv']; subst. apply Forall_cons_iff in Hi as [I1 Hi]. destruct (IH v' Hv' Hi) as (J1 & J2 & J3 & J4 & J5). cbn [map cw cW2 cnmin]. rewrite !predicted_cons. cbn [cW2 cw cnmin]. rewrite J2, J3, J5.
      split; [constructor; [cbn; destruct Hx as (X1 & X2 & X3 & X4); repeat split; try assumption; lra|exact J1]|]. split; [reflexivity|]. split; [reflexivity|]. split; [constructor; assumption|reflexivity].
    + destruct (IH v Hv Hi) as (J1 & J2 & J3 & J4 & J5). cbn [map]. rewrite predicted_cons, J2, J3, J5. split; [constructor; assumption|]. split; [reflexivity|]. split; [reflexivity|]. split; [constructor; [lra|exact J4]|]. rewrite (inactive_zero x Ea). unfold Rdiv. ring.
Qed.
Lemma adjust_row_ok a N l row V : 0 < a -> 1 <= N -> integer N -> 0 < V -> st_ok N l -> length row = length l -> Forall (fun r => 0 <= r) row ->
  exists l', adjust_row a true l (row, V) = Some l' /\ st_ok N l' /\ map cw l' = map cw l /\ at_least (map cnmin l') (map cnmin l) /\ row_variance a row (map cw l') (map cnmin l') <= Rpower ((N + 1) / N) a * V.
Proof.
  intros Ha HN Hi HV Hs Hlen Hr. unfold adjust_row. cbn [fst snd]. set (l1 := use_row row l). destruct (use_row_fields row l Hlen) as (E1 & E2 & E3 & E4). fold l1 in E1, E2, E3, E4.
  pose proof (use_row_ok N row l Hs Hlen) as Hs1. fold l1 in Hs1. assert (Hq : 0 < Rpower ((N + 1) / N) a) by apply Rpower_pos.
  assert (Hid : forall l, at_least (map cnmin l) (map cnmin l)) by (clear; induction l; cbn; constructor; [lra|assumption]).
  destruct (Nat.eqb_spec (length (filter active l1)) 0) as [E0|E0].
  - exists l1. split; [reflexivity|]. split; [exact Hs1|]. split; [exact E1|]. split; [rewrite <- E3; apply Hid|]. rewrite <- E4, <- predicted_row. assert (Z : predicted a l1 (map cnmin l1) = 0).
    { clearbody l1. clear - E0. induction l1 as [|x l9 IH]; [reflexivity|]. cbn [filter] in E0. destruct (active x) eqn:Ea; [discriminate|]. cbn [map]. rewrite predicted_cons, (IH E0), (inactive_zero x Ea). unfold Rdiv. ring. }
    rewrite Z. apply Rlt_le, Rmult_lt_0_compat; assumption.
  - assert (P : positive_data (filter active l1) /\ Forall (fun x => N <= cnmin x /\ integer (cnmin x)) (filter active l1)).
    { assert (W : Forall (fun x => 0 <= cW2 x) l1) by (clearbody l1; clear - E4 Hr; revert row E4 Hr; induction l1 as [|x l9 IH]; intros row E4 Hr; [constructor|]; cbn in E4; subst row; apply Forall_cons_iff in Hr as [R1 Hr]; constructor; [exact R1|eapply IH; [reflexivity|exact Hr]]).
      clearbody l1. clear - W Hs1 HN. unfold positive_data. induction Hs1 as [|x l9 (X1 & X2 & X3 & X4) H IH]; [split; constructor|]. apply Forall_cons_iff in W as [W1 W]. destruct (IH W) as [I1 I2]. cbn [filter]. destruct (active x) eqn:Ea; [|split; assumption]. destruct (active_nonzero x Ea) as [Z1 Z2]. split; constructor; try assumption; [|split; assumption].
      repeat split; try lra. }
    destruct P as [P1 P2]. destruct (C52_returned a V (filter active l1) N Ha HV P1 HN Hi P2) as (r & v & Er & Ev & Hv & Hvi & Hp). rewrite Er, Ev.
    destruct (assign_spec a N l1 Hs1 v Hv Hvi) as (J1 & J2 & J3 & J4 & J5). exists (assign l1 v). split; [reflexivity|]. split; [exact J1|]. split; [rewrite J2; exact E1|]. split; [rewrite <- E3; exact J4|].
    rewrite <- E4, <- J3, <- predicted_row, J5. exact Hp.
Qed.
Lemma at_least_trans x y z : at_least x y -> at_least y z -> at_least x z.
Proof. unfold at_least. intros H. revert z. induction H; intros z Hz; inversion Hz; subst; constructor; [lra|auto]. Qed.
Lemma row_variance_mono a row w n m : 0 < a -> Forall (fun r => 0 <= r) row -> Forall (fun r => 0 <= r) w -> Forall (fun y => 0 < y) m -> length row = length m -> length w = length m -> at_least n m -> row_variance a row w n <= row_variance a row w m.
Proof.
  intros Ha Hr Hw Hm L1 L2 H. revert row w Hr Hw L1 L2. induction H as [|x y n m Hxy H IH]; intros [|r row] [|z w] Hr Hw L1 L2; try discriminate; [unfold row_variance; cbn; lra|]. rewrite !row_variance_cons. apply Forall_cons_iff in Hr as [R1 Hr]. apply Forall_cons_iff in Hw as [W1 Hw]. apply Forall_cons_iff in Hm as [M1 Hm].
  specialize (IH Hm row w Hr Hw ltac:(cbn in L1; lia) ltac:(cbn in L2; lia)). enough (r * z / Rpower x a <= r * z / Rpower y a) by lra. unfold Rdiv. apply Rmult_le_compat_l; [apply Rmult_le_pos; assumption|]. apply Rinv_le_contravar; [apply Rpower_pos|]. apply Rle_Rpower_l; lra.
Qed.
(** all amplitudes together: no integral gets fewer points than before, and every amplitude meets its target up to the rounding to integers *)
Theorem C52_all_amplitudes : forall a N l rows, 0 < a -> 1 <= N -> integer N ->
  Forall (fun x => 0 <= cw x /\ 0 < ctau x /\ N <= cnmin x /\ integer (cnmin x)) l ->
  Forall (fun rV => length (fst rV) = length l /\ Forall (fun r => 0 <= r) (fst rV) /\ 0 < snd rV) rows ->
  exists l', adjust_n a true l rows = Some l' /\ at_least (map cnmin l') (map cnmin l) /\ Forall integer (map cnmin l') /\
    Forall (fun rV => row_variance a (fst rV) (map cw l) (map cnmin l') <= Rpower ((N + 1) / N) a * snd rV) rows.
Proof.
  intros a N l rows Ha HN Hi Hl Hrows.
  enough (exists l', adjust_n a true l rows = Some l' /\ st_ok N l' /\ map cw l' = map cw l /\ at_least (map cnmin l') (map cnmin l) /\ Forall (fun rV => row_variance a (fst rV) (map cw l) (map cnmin l') <= Rpower ((N + 1) / N) a * snd rV) rows) as (l' & E & S1 & _ & L & B).
  { exists l'. split; [exact E|]. split; [exact L|]. split; [|exact B]. clear - S1. induction S1 as [|x l' Hx H IH]; cbn; constructor; [apply Hx|exact IH]. }
  induction Hrows as [|[row V] rows (H1 & H2 & H3) Hrows IH].
  - exists l. cbn. repeat split; auto. clear. induction l; cbn; constructor; [lra|assumption].
  - destruct IH as (l1 & E & S1 & W1 & L1 & B1). cbn [fst snd] in *. unfold adjust_n in *. cbn [fold_right]. rewrite E.
    assert (Len : length l1 = length l) by (pose proof (f_equal (@length R) W1) as Q; rewrite !map_length in Q; exact Q).
    destruct (adjust_row_ok a N l1 row V Ha HN Hi H3 S1 ltac:(lia) H2) as (l' & E' & S2 & W2 & L2 & B2). exists l'. split; [exact E'|]. split; [exact S2|]. split; [congruence|]. split; [eapply at_least_trans; eassumption|].
    constructor; [cbn [fst snd]; rewrite <- W1, <- W2; exact B2|].
    assert (Lm : length (map cnmin l1) = length l) by (rewrite map_length; exact Len).
    assert (Hpos : Forall (fun y => 0 < y) (map cnmin l1)) by (clear - S1 HN; induction S1 as [|x l9 Hx H IH]; cbn; constructor; [lra|exact IH]).
    assert (Hw : Forall (fun y => 0 <= y) (map cw l)) by (clear - Hl; induction Hl as [|x l Hx H IH]; cbn; constructor; [apply Hx|exact IH]).
    clear - Ha Hrows B1 L2 Lm Hpos Hw. induction B1 as [|[r v] rows Hb B1 IH]; [constructor|]. apply Forall_cons_iff in Hrows as [(Q1 & Q2 & Q3) Hrows]. cbn [fst snd] in *. constructor; [|apply IH; assumption]. cbn [fst snd].
    eapply Rle_trans; [|exact Hb]. apply row_variance_mono; try assumption; rewrite ?map_length in *; lia.
Qed.
Print Assumptions C52_all_amplitudes.
(** the hypotheses are met by two integrals and two amplitudes *)
Example C52_ex : exists l', adjust_n 2 true [mkC 0 (1/2) 1 1009 0 0; mkC 0 3 2 2039 0 0] [([1; 0], 1 / 10 ^ 9); ([4; 9], 1 / 10 ^ 8)] = Some l' /\ at_least (map cnmin l') [1009; 2039].
Proof.
  destruct (C52_all_amplitudes 2 1009 [mkC 0 (1/2) 1 1009 0 0; mkC 0 3 2 2039 0 0] [([1; 0], 1 / 10 ^ 9); ([4; 9], 1 / 10 ^ 8)]) as (l' & E & L & _).
  - lra.
  - lra.
  - exists 1009%Z. reflexivity.
  - constructor; [|constructor; [|constructor]]; cbn; (split; [lra|]; split; [lra|]; split; [lra|]); [exists 1009%Z|exists 2039%Z]; reflexivity.
  - repeat constructor; cbn; lra.
  - exists l'. split; [exact E|exact L].
Qed.
