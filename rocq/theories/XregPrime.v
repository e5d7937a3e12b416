(** There are ascending sequences of primes (the hypothesis of C78 can be met). *)
From mathcomp Require Import ssreflect ssrfun ssrbool eqtype ssrnat div prime.
From Coq Require Import ZArith Znumtheory Lia.
From Verif Require Import XregSpec.
Lemma Zprime_of p : prime.prime p -> Znumtheory.prime (Z.of_nat p).
Proof.
  move=> Pp. apply/prime_alt. split.
  - move/prime_gt1: Pp => /ltP. lia.
  - move=> n [H1 H2] D. have Hn : n = Z.of_nat (Z.to_nat n) by lia.
    rewrite Hn in D. have Dn : (Z.to_nat n %| p)%nat.
    { case: D => k Hk. have Kpos : (0 <= k)%Z by nia. apply/dvdnP. exists (Z.to_nat k). apply: Nat2Z.inj. rewrite Hk -multE Nat2Z.inj_mul (Z2Nat.id k Kpos). reflexivity. }
    move/primeP: Pp => [_ /(_ _ Dn)] /orP [/eqP E|/eqP E]; lia.
Qed.
Fixpoint next (k : nat) : nat := match k with O => 2 | S k => s2val (prime_above (next k)) end.
Lemma next_prime k : prime.prime (next k) /\ (next k < next (S k))%coq_nat.
Proof.
  split; first by case: k => [//|k] /=; case: (prime_above (next k)). by rewrite /=; case: (prime_above (next k)) => q /= /ltP.
Qed.
Lemma primes_exist : exists p, prime_sequence p.
Proof.
  exists (fun k => Z.of_nat (next (Z.to_nat (k - 1)))). move=> k Hk. have [P1 P2] := next_prime (Z.to_nat (k - 1)). split; first exact: Zprime_of.
  have -> : Z.to_nat (k + 1 - 1) = S (Z.to_nat (k - 1)) by lia. lia.
Qed.
