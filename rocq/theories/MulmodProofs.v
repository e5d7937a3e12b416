From Coq Require Import ZArith Reals Lra Lia Psatz.
From Flocq Require Import Core Relative.
From Verif Require Import MulmodModel.
Local Open Scope Z_scope.

Lemma u64_small z : 0 <= z < 2 ^ 64 -> u64 z = z.
Proof. intros H. apply Z.mod_small, H. Qed.
Lemma s64_small z : - 2 ^ 63 <= z < 2 ^ 63 -> s64 z = z.
Proof.
  intros H. unfold s64, u64. destruct (Z_lt_le_dec z 0) as [N|N].
  - assert (E : z mod 2 ^ 64 = z + 2 ^ 64). { symmetry. apply (Z.mod_unique_pos z (2^64) (-1)); lia. }
    rewrite E. destruct (Z.ltb_spec (z + 2 ^ 64) (2 ^ 63)); lia.
  - rewrite Z.mod_small by lia. destruct (Z.ltb_spec z (2 ^ 63)); lia.
Qed.
Lemma s64_mod a b : u64 a = u64 b -> s64 a = s64 b.
Proof. unfold s64. intros ->. reflexivity. Qed.
Lemma u64_sub a b : u64 (u64 a - u64 b) = u64 (a - b).
Proof. unfold u64. rewrite <- Zminus_mod. reflexivity. Qed.

Local Open Scope R_scope.
Lemma double_int z : (Z.abs z < 2 ^ 53)%Z -> double (IZR z) = IZR z.
Proof.
  intros H. unfold double. apply round_generic; [apply valid_rnd_N|]. apply generic_format_FLT. exists (Float radix2 z 0); cbn [Fnum Fexp].
  - unfold F2R. cbn. ring.
  - exact H.
  - lia.
Qed.
Lemma double_rel x : / IZR (2 ^ 60) <= x -> exists e, Rabs e <= / IZR (2 ^ 53) /\ double x = x * (1 + e).
Proof.
  intros H. assert (P0 : 0 < / IZR (2 ^ 60)) by (apply Rinv_0_lt_compat, (IZR_lt 0); reflexivity).
  assert (B : bpow radix2 (-1074 + 53 - 1) <= Rabs x).
  { rewrite Rabs_pos_eq by lra. apply Rle_trans with (bpow radix2 (-60)); [apply bpow_le; lia|]. replace (bpow radix2 (-60)) with (/ IZR (2 ^ 60)); [exact H|]. reflexivity. }
  pose proof (relative_error_N_FLT_ex radix2 (-1074) 53 ltac:(reflexivity) (fun x => negb (Z.even x)) x B) as (e & He & E). exists e. split; [|exact E].
  apply Rle_trans with (1 := He). change (bpow radix2 (-53 + 1)) with (/ IZR (2 ^ 52)). apply Req_le. replace (IZR (2 ^ 53)) with (2 * IZR (2 ^ 52)) by (rewrite <- mult_IZR; reflexivity). rewrite Rinv_mult. reflexivity.
Qed.
Lemma quotient_ok a b k : (0 <= a <= k)%Z -> (0 <= b <= k)%Z -> (0 < k < 2 ^ 53)%Z -> (-3 * k <= a * b - quotient a b k * k <= 4 * k)%Z /\ (0 <= quotient a b k < 2 ^ 55)%Z.
Proof.
  intros Ha Hb Hk. unfold quotient. rewrite !double_int by lia.
  assert (K0 : 0 < IZR k) by (apply (IZR_lt 0); lia).
  assert (K1 : IZR k <= IZR (2 ^ 53)) by (apply IZR_le; lia).
  destruct (Z.eq_dec (a * b) 0) as [Z0|NZ].
  { rewrite <- mult_IZR, Z0. unfold double. rewrite !round_0 by apply valid_rnd_N. unfold Rdiv. rewrite Rmult_0_l, round_0 by apply valid_rnd_N. rewrite Ztrunc_IZR. cbn [u64]. change (u64 0) with 0%Z. lia. }
  assert (P1 : (1 <= a * b)%Z) by nia.
  assert (R1 : 1 <= IZR a * IZR b) by (rewrite <- mult_IZR; apply IZR_le, P1).
  set (T := IZR a * IZR b) in *.
  assert (TK : T <= IZR k * IZR k). { unfold T. apply Rmult_le_compat; try apply IZR_le; lia. }
  set (u := / IZR (2 ^ 53)). assert (Up : 0 < u) by (apply Rinv_0_lt_compat, (IZR_lt 0); reflexivity).
  assert (Uk : IZR k * u <= 1). { unfold u. apply Rmult_le_reg_r with (IZR (2 ^ 53)); [apply (IZR_lt 0); reflexivity|]. rewrite Rmult_assoc, Rinv_l, Rmult_1_r by (apply not_0_IZR; discriminate). lra. }
  assert (Us : u <= / 1000). { unfold u. apply Rinv_le; [lra|]. apply (IZR_le 1000). vm_compute. discriminate. }
  destruct (double_rel T) as (e1 & He1 & E1).
  { apply Rle_trans with (/ 1); [apply Rinv_le; [lra|apply (IZR_le 1); vm_compute; discriminate]|lra]. }
  fold u in He1. rewrite E1. apply Rabs_le_inv in He1.
  assert (Q0 : 0 < / IZR k) by (apply Rinv_0_lt_compat, K0).
  assert (QL : u <= T * / IZR k). { apply Rle_trans with (1 * / IZR k); [rewrite Rmult_1_l; unfold u; apply Rinv_le; assumption|apply Rmult_le_compat_r; lra]. }
  destruct (double_rel (T * (1 + e1) / IZR k)) as (e2 & He2 & E2).
  { unfold Rdiv. replace (T * (1 + e1) * / IZR k) with (T * / IZR k * (1 + e1)) by ring.
    apply Rle_trans with (u * (1 - u)); [|apply Rmult_le_compat; lra].
    apply Rle_trans with (u * / 2); [|apply Rmult_le_compat_l; lra]. unfold u. rewrite <- Rinv_mult, <- mult_IZR. apply Rinv_le; [apply (IZR_lt 0); reflexivity|apply IZR_le; vm_compute; discriminate]. }
  fold u in He2. rewrite E2. apply Rabs_le_inv in He2.
  set (q := T * / IZR k) in *.
  assert (Tq : T = q * IZR k) by (unfold q; rewrite Rmult_assoc, Rinv_l, Rmult_1_r by lra; reflexivity).
  replace (T * (1 + e1) / IZR k * (1 + e2)) with (q * (1 + e1) * (1 + e2)) by (unfold q, Rdiv; ring).
  assert (qk : q <= IZR k). { apply Rmult_le_reg_r with (IZR k); [exact K0|]. rewrite <- Tq. exact TK. }
  assert (qu : q * u <= 1) by (apply Rle_trans with (IZR k * u); [apply Rmult_le_compat_r; lra|exact Uk]).
  assert (qp : 0 < q) by lra.
  set (q' := q * (1 + e1) * (1 + e2)).
  assert (D : Rabs (q' - q) <= 201 / 100).
  { replace (q' - q) with (q * e1 + q * e2 + q * e1 * e2) by (unfold q'; ring).
    assert (A1 : Rabs (q * e1) <= 1). { rewrite Rabs_mult, (Rabs_pos_eq q) by lra. apply Rle_trans with (q * u); [apply Rmult_le_compat_l; [lra|apply Rabs_le; lra]|exact qu]. }
    assert (A2 : Rabs (q * e2) <= 1). { rewrite Rabs_mult, (Rabs_pos_eq q) by lra. apply Rle_trans with (q * u); [apply Rmult_le_compat_l; [lra|apply Rabs_le; lra]|exact qu]. }
    assert (A3 : Rabs (q * e1 * e2) <= / 1000). { rewrite Rabs_mult. apply Rle_trans with (1 * / 1000); [|lra]. apply Rmult_le_compat; try apply Rabs_pos; [exact A1|apply Rabs_le; lra]. }
    apply Rle_trans with (1 := Rabs_triang _ _). apply Rle_trans with (Rabs (q * e1) + Rabs (q * e2) + Rabs (q * e1 * e2)); [apply Rplus_le_compat_r, Rabs_triang|]. lra. }
  apply Rabs_le_inv in D.
  assert (q'0 : 0 <= q'). { unfold q'. apply Rmult_le_pos; [apply Rmult_le_pos|]; lra. }
  rewrite Ztrunc_floor by exact q'0.
  pose proof (Zfloor_lb q') as L1. pose proof (Zfloor_ub q') as L2. set (c := Zfloor q') in *.
  assert (c0 : (0 <= c)%Z). { apply Z.lt_succ_r, lt_IZR. rewrite succ_IZR. lra. }
  assert (c1 : (c < 2 ^ 55)%Z). { apply lt_IZR. apply Rle_lt_trans with (1 := L1). apply Rle_lt_trans with (IZR (2 ^ 53) + 201 / 100); [lra|]. replace (IZR (2 ^ 55)) with (4 * IZR (2 ^ 53)) by (rewrite <- mult_IZR; reflexivity). pose proof (IZR_le 1000 (2 ^ 53) ltac:(vm_compute; discriminate)). lra. }
  rewrite u64_small by lia. split; [|lia].
  split; apply le_IZR; rewrite minus_IZR, !mult_IZR; fold T; rewrite Tq.
  - change (IZR (-3)) with (-3). assert (-3 <= q - IZR c) by lra. nra.
  - assert (q - IZR c <= 4) by lra. nra.
Qed.
Local Open Scope Z_scope.
Lemma rem_fix a b c k : 0 < k -> let r := Z.rem (a * b - c * k) k in (if r <? 0 then r + k else r) = (a * b) mod k.
Proof.
  intros Hk r. pose proof (Z.rem_bound_abs (a * b - c * k) k ltac:(lia)) as B. fold r in B.
  pose proof (Z.quot_rem' (a * b - c * k) k) as Q. fold r in Q. set (d := Z.quot (a * b - c * k) k) in *.
  destruct (Z.ltb_spec r 0).
  - apply (Z.mod_unique_pos _ _ (c + d - 1)); lia.
  - apply (Z.mod_unique_pos _ _ (c + d)); lia.
Qed.
Lemma large_ok a b k : 0 <= a <= k -> 0 <= b <= k -> 0 < k < 2 ^ 53 ->
  Z.rem (s64 (u64 (a * b) - u64 (quotient a b k * k))) (s64 k) = Z.rem (a * b - quotient a b k * k) k.
Proof.
  intros Ha Hb Hk. destruct (quotient_ok a b k Ha Hb Hk) as [Q1 Q2]. rewrite (s64_small k) by lia. f_equal.
  rewrite (s64_mod _ (a * b - quotient a b k * k)) by apply u64_sub. apply s64_small. lia.
Qed.
