(** C72: multiplication modulo the lattice size (model MulmodModel). *)
From Coq Require Import ZArith Reals Lra Lia.
From Flocq Require Import Core.
From Verif Require Import MulmodModel MulmodProofs.
Local Open Scope Z_scope.

Theorem C72_mulmod : forall a b k, 0 <= a <= k -> 0 <= b <= k -> 0 < k < 2 ^ 53 -> mulmod a b k = (a * b) mod k.
Proof.
  intros a b k Ha Hb Hk. unfold mulmod. destruct (Z.leb_spec k 3037000499) as [L|L].
  - rewrite u64_small; [reflexivity|]. split; [nia|]. apply Z.le_lt_trans with (3037000499 * 3037000499); [nia|]. vm_compute. reflexivity.
  - cbv zeta. rewrite (large_ok a b k Ha Hb Hk). pose proof (rem_fix a b (quotient a b k) k ltac:(lia)) as R. cbv zeta in R. pose proof (Z.mod_pos_bound (a * b) k ltac:(lia)) as M.
    destruct (_ <? 0); rewrite R; apply u64_small; lia.
Qed.
Theorem C72_mul_mod : forall a b k, 0 <= a < k -> 0 <= b < k -> k < 2 ^ 52 -> mul_mod a b k = IZR ((a * b) mod k).
Proof.
  intros a b k Ha Hb Hk. unfold mul_mod. rewrite (large_ok a b k) by lia. cbv zeta. pose proof (rem_fix a b (quotient a b k) k ltac:(lia)) as R. cbv zeta in R. pose proof (Z.mod_pos_bound (a * b) k ltac:(lia)) as M.
  destruct (_ <? 0).
  - assert (E : u64 (u64 (Z.rem (a * b - quotient a b k * k) k) + k) = u64 (Z.rem (a * b - quotient a b k * k) k + k)). { unfold u64. apply Zplus_mod_idemp_l. }
    rewrite E, R, u64_small by lia. apply double_int. lia.
  - rewrite R. apply double_int. lia.
Qed.
(** The result can be used as index: it is in the range. *)
Theorem C72_range : forall a b k, 0 <= a <= k -> 0 <= b <= k -> 0 < k < 2 ^ 53 -> 0 <= mulmod a b k < k.
Proof. intros a b k Ha Hb Hk. rewrite C72_mulmod by assumption. apply Z.mod_pos_bound. lia. Qed.
(** a lattice over the limit of the first branch, where the product has more than 64 bits *)
Example C72_ex : mulmod 9007199254740000 9007199254740001 9007199254740989 = (9007199254740000 * 9007199254740001) mod 9007199254740989 /\ 2 ^ 64 <= 9007199254740000 * 9007199254740001.
Proof. split; [apply C72_mulmod; lia|vm_compute; discriminate]. Qed.
