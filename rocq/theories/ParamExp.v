(** The exponent of U left over by the loop of [numerator]. *)
From Coq Require Import Reals Lra Lia List ZArith.
From Verif Require Import PolyProofs RealField PolyReal ParamModel ParamSpec ParamProofs ParamReal ParamStep.
Import ListNotations.
Local Open Scope nat_scope.

Lemma no_coeff_indep nv (p : rpoly) i (x : list R) (t : R) : proper nv p -> length x = nv -> i < nv -> any_coeff (pderive p i) = false ->
  peval p (upd i t x) = peval p x.
Proof.
  intros P L Hi A. apply proper_rows in P. destruct P as [_ P].
  assert (B : Forall (fun u : term R_Fld => getZ i (fst u) = 0%Z \/ snd u = 0%R) (ptm p)).
  { apply Forall_forall. intros u Hu. destruct (Z.eq_dec (getZ i (fst u)) 0) as [E|E]; [left; exact E|right].
    unfold pderive in A. set (nz := filter _ (ptm p)) in A.
    assert (Hn : In u nz) by (apply filter_In; split; [exact Hu|apply Bool.negb_true_iff, Z.eqb_neq, E]).
    destruct nz as [|a0 nz0]; [contradiction|]. unfold any_coeff in A. cbn [ptm] in A.
    assert (Q : negb (feqb (@fmul R_Fld (snd u) (zF (getZ i (fst u)))) (@f0 R_Fld)) = false).
    { destruct (negb (feqb (@fmul R_Fld (snd u) (zF (getZ i (fst u)))) (@f0 R_Fld))) eqn:Q; [|reflexivity]. exfalso.
      assert (W : existsb (fun t0 : term R_Fld => negb (feqb (snd t0) (@f0 R_Fld)))
         (map (fun t0 : list Z * R_Fld => (upd i (getZ i (fst t0) - 1)%Z (fst t0), @fmul R_Fld (snd t0) (zF (getZ i (fst t0))))) (a0 :: nz0)) = true).
      { apply existsb_exists. eexists. split; [apply in_map; exact Hn|]. exact Q. }
      rewrite W in A. discriminate. }
    apply Bool.negb_false_iff, feqb_spec in Q. change (snd u * @zF R_Fld (getZ i (fst u)) = 0)%R in Q. rewrite zF_R in Q.
    apply Rmult_integral in Q. destruct Q as [Q|Q]; [exact Q|]. apply eq_IZR_R0 in Q. contradiction. }
  unfold peval. f_equal. apply map_ext_in. intros u Hu. rewrite Forall_forall in P, B. destruct (P u Hu) as [Lu _].
  destruct (B u Hu) as [E|E].
  - apply (f_equal2 (@fmul R_Fld)); [reflexivity|].
    assert (W : forall v : R, @meval R_Fld (fst u) (upd i v x) = @meval R_Fld (upd i 0%Z (fst u)) x).
    { intros v. assert (Q := @meval_set_coord R_Fld i v x (fst u)). rewrite E in Q. 
      assert (Q' := Q ltac:(rewrite Lu; symmetry; exact L) ltac:(change (@length (car R_Fld) x) with (@length R x); rewrite L; exact Hi)).
      eapply eq_trans; [exact Q'|]. cbn. apply Rmult_1_l. }
    rewrite W. rewrite <- (upd_nth_id i x) at 2. rewrite W. reflexivity.
  - rewrite E. cbn. ring.
Qed.
Lemma indep_no_coeff (p : rpoly) i : Forall (fun u : term R_Fld => getZ i (fst u) = 0%Z) (ptm p) -> any_coeff (pderive p i) = false.
Proof.
  intros A. unfold pderive. replace (filter _ (ptm p)) with (@nil (term R_Fld)).
  - unfold any_coeff. cbn [pconst ptm existsb snd]. rewrite (proj2 (feqb_spec R_Fld _ _) eq_refl). reflexivity.
  - induction A as [|u l E A IH]; [reflexivity|]. cbn [filter]. rewrite E. cbn [Z.eqb negb]. exact IH.
Qed.
Lemma many_sn k i : forall s : rstate, @eq R (sn (many_derivatives k i s)) (sn s - (if any_coeff (pderive (sU s) i) then INR k else 0))%R.
Proof.
  induction k as [|k IH]; intros s; cbn [many_derivatives].
  - generalize (sn s : R). intros r. destruct (any_coeff _); cbn [INR]; symmetry; apply Rminus_0_r.
  - rewrite IH. cbn [one_derivative sU]. unfold one_derivative. cbn [sn]. destruct (any_coeff _).
    + rewrite S_INR. generalize (sn s : R). intros r. cbn. change (r - 1 - INR k = r - (INR k + 1))%R. ring.
    + reflexivity.
Qed.

(** the parameters dropped after position [i] are zero *)
Definition later_zero (kd : list (nat * bool)) (i : nat) (z : list R) : Prop :=
  forall j k, i < j -> nth_error kd j = Some (k, true) -> nth j z 0%R = 0%R.
Definition dep_ok (kd : list (nat * bool)) (dep : nat -> bool) (n : nat) (U : list R -> R) (rows : list (term R_Fld)) : Prop :=
  forall i k d, nth_error kd i = Some (k, d) -> k <> 0 ->
    if dep i then exists (z : list R) (t : R), length z = n /\ later_zero kd i z /\ U z <> U (upd i t z)
    else Forall (fun u : term R_Fld => getZ i (fst u) = 0%Z) rows.
Definition counted (dep : nat -> bool) (kd : list (nat * bool)) : nat :=
  list_sum (map (fun ik : nat * (nat * bool) => if dep (fst ik) then fst (snd ik) else 0) (combine (seq 0 (length kd)) kd)).

Lemma delete_upd {A} i j (v : A) l : i < j -> delete_nth j (upd i v l) = upd i v (delete_nth j l).
Proof. revert i j. induction l as [|a l IH]; intros [|i] [|j] H; cbn; try lia; try reflexivity. f_equal. apply IH. lia. Qed.
Lemma nth_delete {A} i j (l : list A) d : i < j -> nth i (delete_nth j l) d = nth i l d.
Proof. revert i j. induction l as [|a l IH]; intros [|i] [|j] H; cbn; try lia; try reflexivity. apply IH. lia. Qed.
Lemma reinsert (j : nat) (z : list R) : j < length z -> nth j z 0%R = 0%R -> insert_at j 0%R (delete_nth j z) = z.
Proof.
  unfold insert_at. revert j. induction z as [|a z IH]; intros [|j] L E; cbn in *; try lia; [congruence|]. f_equal. apply IH; [lia|exact E].
Qed.
Lemma Forall_rows_drop (p : rpoly) i j : i < j -> Forall (fun u : term R_Fld => getZ i (fst u) = 0%Z) (ptm p) ->
  Forall (fun u : term R_Fld => getZ i (fst u) = 0%Z) (ptm (drop0 j p)).
Proof.
  intros Hj A. unfold drop0. apply (psimplify_rows R_Fld (fun e => getZ i e = 0%Z)).
  - unfold preplace. cbn [ptm]. rewrite Forall_map. cbn [fst]. eapply Forall_impl; [|exact A]. cbv beta. intros u E.
    unfold getZ in *. rewrite nth_delete by exact Hj. exact E.
  - unfold getZ, zrow. apply nth_repeat.
Qed.
Lemma loop_sn (kd : list (nat * bool)) dep : forall n (s : rstate), length kd <= n -> inv n s -> dep_ok kd dep n (Uv s) (ptm (sU s)) ->
  @eq R (sn (num_loop kd s)) (sn s - INR (counted dep kd))%R.
Proof.
  induction kd as [|[k d] kd IH] using rev_ind; intros n s Hl I C.
  - cbn. symmetry. apply Rminus_0_r.
  - rewrite app_length in Hl. cbn in Hl. unfold num_loop. rewrite rev_combine_snoc. cbn [fold_left].
    set (i := length kd). assert (Hi : i < n) by (unfold i; lia).
    change (num_step s (i, (k, d))) with (if d then drop_parameter i (many_derivatives k i s) else many_derivatives k i s).
    destruct (many_correct k n i s I Hi) as [I1 _]. destruct (many_fields k i s) as (FU & FF & _). pose proof (many_sn k i s) as Sn.
    set (s1 := many_derivatives k i s) in *.
    assert (En : nth_error (kd ++ [(k, d)]) i = Some (k, d)) by (rewrite nth_error_app2 by (unfold i; lia); unfold i; rewrite Nat.sub_diag; reflexivity).
    assert (Elt : forall j v, j < i -> nth_error kd j = v -> nth_error (kd ++ [(k, d)]) j = v) by (intros j v Hj E; rewrite nth_error_app1 by exact Hj; exact E).
    assert (S1 : @eq R (sn s1) (sn s - INR (if dep i then k else 0))%R).
    { rewrite Sn. destruct (Nat.eq_dec k 0) as [->|Hk].
      { cbn [INR]. destruct (any_coeff _), (dep i); reflexivity. }
      specialize (C i k d En Hk). destruct (dep i).
      - destruct C as (z & t & Lz & _ & Hz). destruct (any_coeff (pderive (sU s) i)) eqn:Ec; [reflexivity|]. exfalso. apply Hz.
        unfold Uv. assert (Q := no_coeff_indep (n + 2) (sU s) i (z ++ [0%R; 0%R]) t (i_U _ _ I)).
        rewrite upd_app_l in Q by lia. symmetry. apply Q; [rewrite app_length; cbn; lia|lia|exact Ec].
      - rewrite (indep_no_coeff (sU s) i C). reflexivity. }
    assert (C1 : dep_ok kd dep n (Uv s1) (ptm (sU s1)) /\ (d = true -> forall z, length z = n -> forall i' : nat, i' < i -> later_zero (kd ++ [(k, d)]) i' z -> nth i z 0%R = 0%R)).
    { split.
      - intros i' k' d' E Hk. assert (Hi' : i' < i) by (unfold i; apply nth_error_Some; congruence).
        specialize (C i' k' d' (Elt i' _ Hi' E) Hk). unfold Uv in *. rewrite FU. destruct (dep i'); [|exact C].
        destruct C as (z & t & Lz & Z & Hz). exists z, t. split; [exact Lz|]. split; [|exact Hz].
        intros j kj Hj Ej. apply (Z j kj Hj). apply Elt; [|exact Ej]. unfold i. apply nth_error_Some. congruence.
      - intros -> z Lz i' Hi' Z. apply (Z i k Hi' En). }
    destruct C1 as [C1 _].
    assert (Fin : counted dep (kd ++ [(k, d)]) = counted dep kd + (if dep i then k else 0)).
    { unfold counted. rewrite app_length. cbn [length]. rewrite seq_app. cbn [seq]. rewrite combine_snoc by (rewrite seq_length; reflexivity).
      rewrite map_app, list_sum_app. cbn [map fst snd list_sum fold_right]. fold i. cbn [Nat.add]. lia. }
    rewrite Fin, plus_INR.
    destruct n as [|n']; [lia|]. destruct d.
    + assert (I2 : inv n' (drop_parameter i s1)) by (apply drop_parameter_inv; assumption).
      assert (C2 : dep_ok kd dep n' (Uv (drop_parameter i s1)) (ptm (sU (drop_parameter i s1)))).
      { intros i' k' d' E Hk. assert (Hi' : i' < i) by (unfold i; apply nth_error_Some; congruence).
        specialize (C i' k' d' (Elt i' _ Hi' E) Hk). destruct (dep i').
        - destruct C as (z & t & Lz & Z & Hz). pose proof (Z i k Hi' En) as Zi.
          exists (delete_nth i z), t. assert (Ld : length (delete_nth i z) = n') by (rewrite delete_nth_length by lia; lia).
          split; [exact Ld|]. split.
          + intros j kj Hj Ej. assert (Hji : j < i) by (unfold i; apply nth_error_Some; congruence).
            rewrite nth_delete by exact Hji. apply (Z j kj Hj). apply Elt; assumption.
          + destruct (drop_parameter_eval n' i s1 (delete_nth i z) I1 Hi Ld) as (E1 & _).
            assert (Lu : length (upd i' t (delete_nth i z)) = n') by (rewrite upd_length; exact Ld).
            destruct (drop_parameter_eval n' i s1 (upd i' t (delete_nth i z)) I1 Hi Lu) as (E2 & _).
            rewrite E1, E2. rewrite <- delete_upd by exact Hi'. rewrite !reinsert.
            * unfold Uv in *. rewrite FU. exact Hz.
            * rewrite upd_length. lia.
            * rewrite nth_upd. replace (Nat.eqb i' i) with false by (symmetry; apply Nat.eqb_neq; lia). cbn. exact Zi.
            * lia.
            * exact Zi.
        - unfold drop_parameter. cbn [sU]. apply Forall_rows_drop; [exact Hi'|]. rewrite FU. exact C. }
      assert (J := IH n' (drop_parameter i s1) ltac:(lia) I2 C2). unfold num_loop in J. fold i in J. rewrite J. unfold drop_parameter. cbn [sn]. rewrite S1.
      generalize (sn s : R) (INR (counted dep kd)) (INR (if dep i then k else 0)). intros r1 r2 r3. change (r1 - r3 - r2 = r1 - (r2 + r3))%R. ring.
    + assert (J := IH (S n') s1 ltac:(lia) I1 C1). unfold num_loop in J. fold i in J. rewrite J. rewrite S1.
      generalize (sn s : R) (INR (counted dep kd)) (INR (if dep i then k else 0)). intros r1 r2 r3. change (r1 - r3 - r2 = r1 - (r2 + r3))%R. ring.
Qed.
