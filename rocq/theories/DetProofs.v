From mathcomp Require Import all_ssreflect all_algebra.
From Verif Require Import PolyModel DetModel.
Set Implicit Arguments. Unset Strict Implicit. Unset Printing Implicit Defensive.
Import GRing.Theory.
Local Open Scope ring_scope.

Section DetP.
Variable R : comRingType.
Let add (x y : R) := x + y. Let sub (x y : R) := x - y. Let mul (x y : R) := x * y.
Definition mx_of (n : nat) (M : list (list R)) : 'M[R]_n := \matrix_(i, j) entry 0 M i j.

Lemma nth_delete (A : Type) (d : A) (i : nat) : forall (l : list A) j,
  List.nth j (delete_nth i l) d = List.nth (bump i j) l d.
Proof.
have Hnil : forall k, List.nth k [::] d = d by case.
elim: i => [|i IH] [|a l] j.
- by rewrite !Hnil.
- by rewrite /bump leq0n.
- by rewrite !Hnil.
- case: j => [|j] /=; first by []. by rewrite IH /bump ltnS; case: (leq i j).
Qed.
Lemma minor_mx n (M : list (list R)) (j : 'I_n.+1) : 
  mx_of n (minor j M) = row' ord0 (col' j (mx_of n.+1 M)).
Proof.
apply/matrixP => i k; rewrite !mxE /entry /minor /=.
have -> : List.nth i (List.map (delete_nth j) (List.tl M)) [::] = delete_nth j (List.nth (bump 0 i) M [::]).
  case: M => [|r M] /=; first by case: (nat_of_ord i) ; case: (nat_of_ord j).
  rewrite /=. have -> : @nil R = delete_nth j [::] by case: (nat_of_ord j).
  by rewrite List.map_nth; case: (nat_of_ord j).
by rewrite nth_delete.
Qed.
Lemma fold_terms (t : nat -> R) n : forall s a, List.fold_left (add_term add sub t) (List.seq s n) a
   = a + \sum_(i < n) (-1) ^+ (addn s i) * t (addn s i).
Proof.
elim: n => [|n IH] s a /=; first by rewrite big_ord0 addr0.
rewrite IH big_ord_recl addn0 addrA; congr (_ + _).
- rewrite /add_term /add /sub. have -> : Nat.even s = ~~ odd s.
    elim: s {IH} => // s IHs. by rewrite PeanoNat.Nat.even_succ -PeanoNat.Nat.negb_even IHs.
  by rewrite -signr_odd; case: (odd s); rewrite /= ?expr1 ?expr0 ?mulN1r ?mul1r.
- by apply: eq_bigr => i _; rewrite /bump /= addnS addSn.
Qed.
Lemma det_rec_correct n : forall M : list (list R), det_rec 0 add sub mul n.+1 M = \det (mx_of n.+1 M).
Proof.
elim: n => [|n IH] M; first by rewrite [mx_of 1 M]mx11_scalar det_scalar1 /= mxE.
have Hexp : \det (mx_of n.+2 M) = \sum_(i < n.+2) (-1) ^+ i * (mul (entry 0 M 0 i) (det_rec 0 add sub mul n.+1 (minor i M))).
  rewrite (expand_det_row _ ord0); apply: eq_bigr => j _.
  rewrite mxE /cofactor IH minor_mx /mul /=. by rewrite add0n mulrCA.
have -> : det_rec 0 add sub mul n.+2 M =
  List.fold_left (add_term add sub (fun i => mul (entry 0 M 0 i) (det_rec 0 add sub mul n.+1 (minor i M))))
    (List.seq 1 n.+1) (mul (entry 0 M 0 0) (det_rec 0 add sub mul n.+1 (minor 0 M))) by [].
rewrite Hexp fold_terms [in RHS]big_ord_recl. congr (_ + _). by rewrite expr0 mul1r.
Qed.
Lemma parallel_det_correct (M : list (list R)) n : length M = n.+1 ->
  parallel_det_rec 0 add sub mul M = \det (mx_of n.+1 M).
Proof.
move=> HL; rewrite /parallel_det_rec HL.
case: n HL => [|n] HL; first by rewrite [mx_of 1 M]mx11_scalar det_scalar1 /= mxE.
rewrite fold_terms add0r (expand_det_row _ ord0). apply: eq_bigr => j _; rewrite !add0n.
rewrite mxE /cofactor /mul /= add0n. rewrite [in RHS]mulrCA. congr (_ * (_ * _)).
by rewrite -minor_mx -det_rec_correct.
Qed.
Theorem det_is_det (M : list (list R)) : 
  match det 0 add sub mul M with
  | Some d => exists n, length M = n.+1 /\ List.Forall (fun r => length r = n.+1) M /\ d = \det (mx_of n.+1 M)
  | None => M = [::] \/ exists r, List.In r M /\ length r <> length M
  end.
Proof.
rewrite /det /is_square. case E: (List.forallb _ M) => /=; last first.
  right. elim: M (length M) E => // r M IH n /=.
  case E: (PeanoNat.Nat.eqb (length r) n) => /=.
  - move=> H. case: (IH _ H) => r' [H1 H2]. exists r'. split; [by right|exact H2].
  - move=> _. exists r. split; [by left|]. by apply PeanoNat.Nat.eqb_neq.
case: M E => [|r M] E; first by left. 
exists (length M). split; [by []|split; [|exact: det_rec_correct]].
apply/List.Forall_forall => r' Hr'. by move/List.forallb_forall: E => /(_ _ Hr') /PeanoNat.Nat.eqb_eq.
Qed.
Theorem parallel_det_is_det (M : list (list R)) : parallel_det 0 add sub mul M = det 0 add sub mul M.
Proof.
rewrite /det /parallel_det. case: (_ && _)%bool (erefl (is_square M && ~~ PeanoNat.Nat.eqb (length M) 0)%bool) => //.
case: M => [|r M] // _. by rewrite (@parallel_det_correct _ (length M)) // -det_rec_correct.
Qed.
End DetP.
