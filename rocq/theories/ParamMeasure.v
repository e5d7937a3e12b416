(** The powers, the measure, and homogeneity. *)
From Coq Require Import Reals Lra Lia List ZArith QArith Qround Qreals.
From Coq Require Lqa RMicromega.
From Verif Require Import PolyProofs RealField PolyReal ParamModel ParamSpec ParamProofs ParamReal ParamStep ParamExp.
Import ListNotations.
Local Open Scope nat_scope.

(** *** powers *)
Lemma is_int_spec (q : Q) : is_int q = true <-> exists z, q == inject_Z z.
Proof.
  unfold is_int. rewrite Z.eqb_eq. split.
  - intros H. exists (Qnum q / Zpos (Qden q))%Z. unfold Qeq, inject_Z. cbn. pose proof (Z_div_mod_eq_full (Qnum q) (Zpos (Qden q))). lia.
  - intros [z E]. unfold Qeq, inject_Z in E. cbn in E. rewrite Z.mul_1_r in E. rewrite E. apply Z_mod_mult.
Qed.
Lemma is_int_floor (q : Q) : is_int q = true -> q == inject_Z (Qfloor q).
Proof. intros H. apply is_int_spec in H. destruct H as [z E]. rewrite E at 2. rewrite Qfloor_Z. exact E. Qed.
Lemma floor_lt_1 (q : Q) : ~ (1 <= q)%Q -> (Qfloor q <= 0)%Z.
Proof.
  intros H. destruct (Z_lt_le_dec 0 (Qfloor q)) as [L|L]; [|lia]. exfalso. apply H. apply Qle_trans with (inject_Z (Qfloor q)); [|apply Qfloor_le].
  change 1%Q with (inject_Z 1). rewrite <- Zle_Qle. lia.
Qed.
Lemma derivatives_cases (p : power) :
  ((1 <= at0 p)%Q /\ derivatives p = 0%Z) \/
  (~ (1 <= at0 p)%Q /\ is_int (at0 p) = true /\ at0 p == inject_Z (- derivatives p) /\ (0 <= derivatives p)%Z) \/
  (~ (1 <= at0 p)%Q /\ is_int (at0 p) = false /\ derivatives p = (1 - Qfloor (at0 p))%Z /\ (0 <= derivatives p)%Z).
Proof.
  unfold derivatives. destruct (Qle_bool 1 (at0 p)) eqn:E1.
  - left. apply Qle_bool_iff in E1. auto.
  - right. assert (N : ~ (1 <= at0 p)%Q) by (intros H; apply Qle_bool_iff in H; congruence). pose proof (floor_lt_1 _ N).
    destruct (is_int (at0 p)) eqn:E2; [left|right].
    + split; [exact N|]. split; [reflexivity|]. rewrite Z.abs_neq by lia. split; [|lia]. rewrite Z.opp_involutive. apply is_int_floor, E2.
    + split; [exact N|]. split; [reflexivity|]. rewrite Z.abs_neq by lia. split; lia.
Qed.

Lemma dropped_spec (p : power) : dropped_numerator p = true <-> dropped_U p = true.
Proof.
  unfold dropped_numerator, dropped_U, power_is_zero, eff_power. cbn [at0 regs]. unfold regfree at 1. cbn [regs]. fold (regfree p).
  rewrite !Bool.andb_true_iff, Qeq_bool_iff, Qle_bool_iff.
  destruct (derivatives_cases p) as [[A E]|[(N & I & E & K)|(N & I & E & K)]].
  - rewrite E. split; [intros [H _]|intros [_ H]]; exfalso; change (inject_Z 0) with 0%Q in *; Lqa.lra.
  - split; [intros [_ R]|intros [[R _] _]]; split; auto.
    + rewrite E. change 0%Q with (inject_Z 0). rewrite <- Zle_Qle. lia.
    + rewrite E. rewrite <- inject_Z_plus. replace (- derivatives p + derivatives p)%Z with 0%Z by lia. reflexivity.
  - split; [intros [H R]|intros [[_ H] _]]; [|congruence]. exfalso.
    assert (I' : is_int (at0 p) = true).
    { apply is_int_spec. exists (- derivatives p)%Z. rewrite inject_Z_opp. Lqa.lra. }
    congruence.
Qed.
Lemma dropped_agree (p : power) : dropped_numerator p = dropped_U p /\ dropped_measure p = dropped_U p.
Proof.
  assert (A : dropped_numerator p = dropped_U p) by (apply Bool.eq_true_iff_eq, dropped_spec). split; [exact A|].
  rewrite <- A. unfold dropped_measure, dropped_numerator. destruct (power_is_zero (eff_power p)) eqn:E; [|rewrite Bool.andb_false_r; reflexivity].
  rewrite Bool.andb_true_r. unfold power_is_zero in E. apply Bool.andb_true_iff in E. destruct E as [E R]. rewrite R. cbn [andb].
  apply is_int_spec. exists 0%Z. apply Qeq_bool_iff in E. exact E.
Qed.
Lemma value_regfree eps (p : power) q : regfree p = true -> at0 p == q -> power_value eps p = Q2R q.
Proof.
  intros RF E. unfold power_value. rewrite (Qeq_eqR _ _ E).
  assert (Z : fold_right Rplus 0%R (map (fun ce : Q * R => (Q2R (fst ce) * snd ce)%R) (combine (regs p) eps)) = 0%R).
  { unfold regfree in RF. generalize (regs p) RF. clear. intros l. revert eps. induction l as [|c l IH]; intros [|e eps] H; cbn in *; try reflexivity.
    apply Bool.andb_true_iff in H. destruct H as [A B]. rewrite IH by exact B. apply Qeq_bool_iff in A. rewrite (Qeq_eqR _ _ A), RMicromega.Q2R_0. ring. }
  rewrite Z. ring.
Qed.

(** *** embedding *)
Lemma embed_length ds : forall (y : list R), kept ds <= length y -> length (embed ds y) = length y + length (filter (fun b => b) ds).
Proof.
  unfold kept. induction ds as [|[|] ds IH]; intros y L; cbn [embed filter negb length] in *.
  - lia.
  - rewrite IH by exact L. lia.
  - destruct y as [|a y]; cbn [length] in *; [lia|]. rewrite IH by lia. lia.
Qed.
Lemma embed_snoc_true ds : forall (y : list R), kept ds <= length y -> embed (ds ++ [true]) y = insert_at (length ds) 0%R (embed ds y).
Proof.
  unfold kept, insert_at. induction ds as [|[|] ds IH]; intros y L; cbn [embed app filter negb length firstn skipn] in *.
  - reflexivity.
  - f_equal. apply IH. exact L.
  - destruct y as [|a y]; cbn [length] in *; [lia|]. cbn [app firstn]. f_equal. apply IH. lia.
Qed.
Lemma embed_snoc_false ds : forall (y : list R), kept ds + 1 <= length y -> embed (ds ++ [false]) y = embed ds y.
Proof.
  unfold kept. induction ds as [|[|] ds IH]; intros y L; cbn [embed app filter negb length] in *.
  - destruct y; cbn in *; [lia|reflexivity].
  - f_equal. apply IH. exact L.
  - destruct y as [|a y]; cbn [length] in *; [lia|]. f_equal. apply IH. lia.
Qed.
Lemma kept_app a b : kept (a ++ b) = kept a + kept b.
Proof. unfold kept. rewrite filter_app, app_length. reflexivity. Qed.
Lemma kept_total ds : kept ds + length (filter (fun b => b) ds) = length ds.
Proof. unfold kept. induction ds as [|[|] ds IH]; cbn; lia. Qed.

(** dropping parameters from a polynomial: value with zeros inserted *)
Lemma drop_loop_eval (ds : list bool) : forall n (p : rpoly) (y : list R), proper n p -> length ds <= n ->
  length y + length (filter (fun b => b) ds) = n -> peval (drop_loop ds p) y = peval p (embed ds y).
Proof.
  induction ds as [|d ds IH] using rev_ind; intros n p y P Hl Ly; [reflexivity|].
  unfold drop_loop. rewrite rev_combine_snoc. cbn [fold_left fst snd]. rewrite app_length in Hl. cbn in Hl.
  rewrite filter_app, app_length in Ly. pose proof (kept_total ds) as KT. destruct d; cbn [filter length] in Ly.
  - destruct n as [|n]; [lia|]. destruct (proper_drop R_Fld n p (length ds) P ltac:(lia)) as [P' E].
    assert (Q := IH n (drop0 (length ds) p) y P' ltac:(lia) ltac:(lia)). unfold drop_loop in Q. eapply eq_trans; [exact Q|].
    rewrite embed_snoc_true by lia. apply E. change (@length (car R_Fld)) with (@length R). rewrite embed_length; lia.
  - assert (Q := IH n p y P ltac:(lia) ltac:(lia)). unfold drop_loop in Q. eapply eq_trans; [exact Q|].
    rewrite embed_snoc_false by lia. reflexivity.
Qed.

(** *** measure *)
Lemma replace_insert n i (p : rpoly) (y : list R) (a b : R) : proper (S n + 2) p -> i < S n -> length y = n ->
  proper (n + 2) (@preplace R_Fld p i 0%R true) /\
  peval (@preplace R_Fld p i 0%R true) (y ++ [a; b] : list R) = peval p (insert_at i 0%R y ++ [a; b] : list R).
Proof.
  intros P Hi L. split.
  - apply proper_rows in P. destruct P as [E P]. apply proper_rows. unfold preplace. cbn [pnv ptm]. split; [rewrite E; lia|]. rewrite Forall_map. cbn [fst].
    eapply Forall_impl; [|exact P]. cbv beta. intros t [Lt A]. split; [rewrite delete_nth_length by lia; lia|]. apply Forall_delete, A.
  - rewrite <- (drop_eval n i p y a b P Hi L). unfold drop0. symmetry. apply (@psimplify_eval R_Fld).
Qed.
Lemma measure_drops (pw : list power) : forall n (fs : list (rpoly * R)) (y : list R) (a b : R),
  Forall (fun f => proper (n + 2) (fst f)) fs -> length pw <= n -> length y + length (filter (fun b => b) (map dropped_measure pw)) = n ->
  powers_value (fold_left (fun fs (ip : nat * power) =>
      if dropped_measure (snd ip) then map (fun f => (@preplace R_Fld (fst f) (fst ip) 0%R true, snd f)) fs else fs)
    (rev (combine (seq 0 (length pw)) pw)) fs) (y ++ [a; b]) = powers_value fs (embed (map dropped_measure pw) y ++ [a; b]).
Proof.
  induction pw as [|p pw IH] using rev_ind; intros n fs y a b P Hl Ly; [reflexivity|].
  rewrite rev_combine_snoc. cbn [fold_left fst snd]. rewrite app_length in Hl. cbn in Hl. rewrite map_app in *. cbn [map] in *.
  rewrite filter_app, app_length in Ly. pose proof (kept_total (map dropped_measure pw)) as KT. rewrite map_length in KT.
  destruct (dropped_measure p); cbn [filter length] in Ly.
  - destruct n as [|n]; [lia|]. assert (Ln : length y + length (filter (fun b => b) (map dropped_measure pw)) = n) by lia.
    rewrite (IH n) ; [|rewrite Forall_map; cbn [fst]; rewrite Forall_forall in *; intros f Hf; apply (replace_insert n _ (fst f) (repeat 0%R n) a b (P f Hf)); [lia|apply repeat_length] |lia|exact Ln].
    rewrite embed_snoc_true by lia. rewrite map_length. unfold powers_value. f_equal. rewrite map_map. apply map_ext_in. intros f Hf. cbn [fst snd]. f_equal.
    rewrite Forall_forall in P. apply (replace_insert n _ (fst f)); [apply P; exact Hf|lia|]. rewrite embed_length; lia.
  - rewrite (IH n) by (assumption || lia). rewrite embed_snoc_false by lia. reflexivity.
Qed.
Lemma symbol_nth nv i (x : list R) : length x = nv -> i < nv -> peval (@psymbol R_Fld nv i) x = nth i x 0%R.
Proof.
  intros L Hi. unfold peval, psymbol. cbn [ptm map fst snd sumF].
  assert (Q := @meval_upd_exp R_Fld i 1%Z x (zrow nv) ltac:(rewrite zrow_length; symmetry; exact L) ltac:(change (@length (car R_Fld) x) with (@length R x); lia)).
  assert (Z : upd i 0%Z (zrow nv) = zrow nv).
  { clear. unfold zrow. revert i. induction nv as [|nv IH]; intros [|i]; cbn; try reflexivity. f_equal. apply IH. }
  rewrite Q, Z, (@meval_zrow R_Fld). cbn. change (Pos.to_nat 1) with 1%nat. cbn. ring.
Qed.
Definition factor (value : power -> R) (X : list R) (ip : nat * power) : R :=
  if in_0_1 (eff_power (snd ip)) then 1%R else Rpower (nth (fst ip) X 0%R) (value (eff_power (snd ip)) - 1)%R.
Lemma factors_value (value : power -> R) (P : nat) (X : list R) (l : list (nat * power)) : length X = P + 2 -> Forall (fun ip => fst ip < P) l ->
  powers_value (flat_map (fun ip : nat * power => if in_0_1 (eff_power (snd ip)) then []
                                    else [(@psymbol R_Fld (P + 2) (fst ip), (value (eff_power (snd ip)) - 1)%R)]) l) X
  = fold_right Rmult 1%R (map (factor value X) l).
Proof.
  intros L H. unfold powers_value. induction H as [|ip l Hi H IH]; [reflexivity|]. cbn [flat_map map fold_right]. unfold factor at 1.
  destruct (in_0_1 (eff_power (snd ip))); cbn [app map fold_right fst snd].
  - rewrite IH. ring.
  - rewrite IH. f_equal. f_equal. apply symbol_nth; lia.
Qed.
Lemma factor_monomials eps (pw : list power) : forall (pre y : list R) (a b : R), kept (map dropped_U pw) = length y ->
  fold_right Rmult 1%R (map (factor (power_value eps) (pre ++ embed (map dropped_U pw) y ++ [a; b])) (combine (seq (length pre) (length pw)) pw))
  = monomials (map (fun p => (power_value eps (eff_power p), dropped_U p)) pw) y.
Proof.
  induction pw as [|p pw IH]; intros pre y a b K; [reflexivity|]. cbn [map length seq combine fold_right monomials embed].
  unfold kept in *. cbn [map filter] in K. pose proof (dropped_agree p) as [DA _]. unfold factor at 1. cbn [fst snd].
  destruct (dropped_U p) eqn:D; cbn [negb length] in K.
  - assert (I : in_0_1 (eff_power p) = true).
    { unfold dropped_numerator, power_is_zero in DA. apply Bool.andb_true_iff in DA. destruct DA as [A B]. unfold in_0_1. rewrite A, B. reflexivity. }
    rewrite I, Rmult_1_l. assert (Q := IH (pre ++ [0%R]) y a b K). rewrite app_length in Q. cbn [length] in Q. rewrite Nat.add_1_r in Q.
    rewrite <- app_assoc in Q. exact Q.
  - destruct y as [|c y]; cbn [length] in K; [discriminate|]. injection K as K.
    assert (Q := IH (pre ++ [c]) y a b K). rewrite app_length in Q. cbn [length] in Q. rewrite Nat.add_1_r in Q. rewrite <- app_assoc in Q. cbn [app] in *.
    rewrite Q. f_equal. rewrite app_nth2 by lia. rewrite Nat.sub_diag. cbn [nth].
    destruct (in_0_1 (eff_power p)) eqn:I; [|reflexivity]. unfold in_0_1 in I. apply Bool.andb_true_iff in I. destruct I as [R I].
    assert (E1 : at0 (eff_power p) == 1%Q).
    { apply Bool.orb_true_iff in I. destruct I as [I|I]; apply Qeq_bool_iff in I; [|exact I]. exfalso.
      unfold dropped_numerator, power_is_zero in DA. rewrite R in DA. apply Qeq_bool_iff in I. rewrite I in DA. discriminate. }
    rewrite (value_regfree eps _ _ R E1), RMicromega.Q2R_1. replace (1 - 1)%R with 0%R by ring. unfold Rpower. rewrite Rmult_0_l, exp_0. reflexivity.
Qed.
Lemma measure_eval eps (pw : list power) (y : list R) (a b : R) : pw <> [] -> length y = kept (map dropped_U pw) ->
  powers_value (@measure R_Fld (power_value eps) pw) (y ++ [a; b]) = monomials (map (fun p => (power_value eps (eff_power p), dropped_U p)) pw) y.
Proof.
  intros Hne Ly. assert (DM : map dropped_measure pw = map dropped_U pw) by (apply map_ext; intros p; apply dropped_agree).
  set (P := length pw).
  pose proof (kept_total (map dropped_U pw)) as KT. rewrite map_length in KT. fold P in KT.
  assert (LX : length (embed (map dropped_U pw) y ++ [a; b]) = P + 2) by (rewrite app_length, embed_length by lia; cbn; lia).
  assert (Fi : Forall (fun ip : nat * power => fst ip < P) (combine (seq 0 P) pw)).
  { apply Forall_forall. intros [i p] Hi. apply in_combine_l in Hi. apply in_seq in Hi. cbn. lia. }
  assert (FV := factors_value (power_value eps) P (embed (map dropped_U pw) y ++ [a; b]) (combine (seq 0 P) pw) LX Fi).
  change (powers_value (measure_factors (F := R_Fld) (power_value eps) pw) (embed (map dropped_U pw) y ++ [a; b])
    = fold_right Rmult 1%R (map (factor (power_value eps) (embed (map dropped_U pw) y ++ [a; b])) (combine (seq 0 P) pw))) in FV.
  assert (FM := factor_monomials eps pw [] y a b ltac:(lia)). cbn [length app] in FM. fold P in FM.
  unfold measure. fold P. cbn [f0].
  assert (FS : forall fs : list (rpoly * R), Forall (fun f => proper (P + 2) (fst f)) fs ->
    powers_value fs (embed (map dropped_U pw) y ++ [a; b]) = monomials (map (fun p => (power_value eps (eff_power p), dropped_U p)) pw) y ->
    powers_value (fold_left (fun fs (ip : nat * power) =>
      if dropped_measure (snd ip) then map (fun f => (@preplace R_Fld (fst f) (fst ip) 0%R true, snd f)) fs else fs)
    (rev (combine (seq 0 (length pw)) pw)) fs) (y ++ [a; b]) = monomials (map (fun p => (power_value eps (eff_power p), dropped_U p)) pw) y).
  { intros fs Pf E. rewrite (measure_drops pw P) by (try exact Pf; try (rewrite DM); unfold P in *; lia). rewrite DM. exact E. }
  destruct (measure_factors (F := R_Fld) (power_value eps) pw) as [|f0' fs'] eqn:EF.
  all: try rewrite EF in FV.
  - apply FS.
    + constructor; [cbn [fst]; apply (@proper_const R_Fld)|constructor].
    + rewrite <- FM, <- FV. unfold powers_value. cbn [map fold_right fst snd].
      replace (@peval R_Fld (@pconst R_Fld (P + 2) (@f1 R_Fld)) (embed (map dropped_U pw) y ++ [a; b])) with 1%R.
      * unfold Rpower. rewrite ln_1, Rmult_0_r, exp_0. ring.
      * unfold peval. cbn [pconst ptm map fst snd sumF]. rewrite (@meval_zrow R_Fld). cbn. ring.
  - apply FS.
    + rewrite <- EF. unfold measure_factors. fold P. apply Forall_forall. intros f Hf. apply in_flat_map in Hf. destruct Hf as (ip & _ & Hf).
      destruct (in_0_1 _); [contradiction|]. destruct Hf as [<-|[]]. cbn [fst]. apply symbol_proper.
    + rewrite <- FM, <- FV. reflexivity.
Qed.
