(** Property C24, the Jacobian determinant. *)
From mathcomp Require Import all_ssreflect all_fingroup all_algebra.
Import GRing.Theory.
Local Open Scope ring_scope.
Set Implicit Arguments. Unset Strict Implicit. Unset Printing Implicit Defensive.

(** the matrix of partial derivatives of x_b -> x_a x_b (entries: C24_partial_derivatives) has determinant x_a^k, over
    every commutative ring *)
Theorem C24_jacobian_determinant : forall (K : comRingType) n (x : 'I_n -> K) (a : 'I_n) (bs : seq 'I_n),
  uniq bs -> a \notin bs ->
  \det (\matrix_(i < n, j < n) (if i \in bs then (if i == j then x a else if j == a then x i else 0) else if i == j then 1 else 0))
  = x a ^+ size bs.
Proof.
move=> K n x a bs Hu Ha. rewrite /determinant (bigD1 (1%g : 'S_n)) //= odd_perm1 expr0 mul1r.
rewrite [X in _ + X]big1 ?addr0; last first.
  move=> s Hs.
  have [i Hi] : exists i, s i != i.
    apply/existsP; apply: contraR Hs; rewrite negb_exists => /forallP H. apply/eqP/permP => i. rewrite perm1. by apply/eqP; move: (H i); rewrite negbK.
  have [j Hj] : exists j, (j \notin bs) && (s j != j) || ((j \in bs) && (s j != j) && (s j != a)).
    case Eb: (i \in bs); last by exists i; rewrite Eb Hi.
    case Ea: (s i == a); last by exists i; rewrite Eb Hi Ea orbT.
    exists a. rewrite (negbTE Ha) /=. apply/orP; left. apply/eqP => E.
    have: s i == s a by rewrite E. by rewrite (inj_eq perm_inj) => /eqP Eia; move: Ha; rewrite -Eia Eb.
  rewrite (bigD1 j) //= mxE. case/orP: Hj => /andP [].
    by move=> /negbTE -> Hne; rewrite eq_sym (negbTE Hne) mul0r mulr0.
  by move=> /andP [-> Hne] Hna; rewrite eq_sym (negbTE Hne) (negbTE Hna) mul0r mulr0.
rewrite (eq_bigr (fun i => if i \in bs then x a else 1)); last by move=> i _; rewrite mxE perm1 eqxx.
rewrite -big_mkcond /= -(big_uniq _ Hu) /=. by rewrite big_const_seq count_predT iter_mulr_1.
Qed.
Print Assumptions C24_jacobian_determinant.
