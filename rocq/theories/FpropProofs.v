From mathcomp Require Import all_ssreflect all_algebra.
From Verif Require Import PolyModel DetModel DetProofs FpropModel FpropSpec.
Import GRing.Theory.
Set Implicit Arguments. Unset Strict Implicit. Unset Printing Implicit Defensive.
Local Open Scope ring_scope.

Section Adj.
Variable K : fieldType.
Lemma adj_entry n (A : list (list K)) (i j : 'I_n.+1) : entry 0 (adjugate_rec n.+1 A) i j = (\adj (mx_of n.+1 A)) i j.
Proof.
case: n i j => [|n] i j.
  rewrite !ord1 /adjugate_rec /= !mxE /cofactor /= addn0 expr0 mul1r. by rewrite det_mx00.
rewrite /adjugate_rec [Nat.eqb _ _]/= /entry.
set f := fun i0 => _.
have -> : List.nth i (List.map f (List.seq 0 n.+2)) [::] = f (i : nat).
  rewrite (@List.nth_indep _ _ _ _ (f 0%nat)); last by rewrite List.map_length List.seq_length; apply/ltP; exact: ltn_ord.
  by rewrite List.map_nth List.seq_nth ?add0n //; apply/ltP; exact: ltn_ord.
rewrite /f; set h := fun j0 => _.
rewrite (@List.nth_indep _ _ _ _ (h 0%nat)); last by rewrite List.map_length List.seq_length; apply/ltP; exact: ltn_ord.
rewrite List.map_nth List.seq_nth; last by apply/ltP; exact: ltn_ord.
rewrite /h /adjugate mxE /cofactor. congr (_ * _).
- rewrite addnC. have H : forall s, Nat.even s = ~~ odd s.
    elim=> // s IHs. by rewrite PeanoNat.Nat.even_succ -PeanoNat.Nat.negb_even IHs.
  rewrite /= H plusE -signr_odd. by case: (odd _).
- have -> : (n.+2 - 1)%coq_nat = n.+1 by [].
  rewrite /kdet_rec det_rec_correct. congr (\det _).
  apply/matrixP => a b; rewrite !mxE /entry /minor_ij /=.
  have -> : List.nth a (List.map (delete_nth i) (delete_nth j A)) [::] = delete_nth i (List.nth a (delete_nth j A) [::]).
    elim: (delete_nth j A) (nat_of_ord a) => [|r B IH] [|m] //=; by case: (nat_of_ord i).
  by rewrite !nth_delete.
Qed.
Lemma nth_map_seq (T : Type) (f : nat -> T) (d : T) (n i : nat) : (i < n)%nat -> List.nth i (List.map f (List.seq 0 n)) d = f i.
Proof.
move=> H. rewrite (@List.nth_indep _ _ _ _ (f 0%nat)); last by rewrite List.map_length List.seq_length; exact/ltP.
by rewrite List.map_nth List.seq_nth //; exact/ltP.
Qed.
End Adj.
Lemma adjZ' (K : fieldType) n (c : K) (A : 'M[K]_n.+1) : \adj (c *: A) = c ^+ n *: \adj A.
Proof.
apply/matrixP => i j; rewrite !mxE /cofactor. rewrite mulrCA. congr (_ * _).
by rewrite linearZ /= linearZ /= detZ.
Qed.
Lemma plusE' a b : (a + b)%coq_nat = addn a b. Proof. by rewrite plusE. Qed.

Section Lists.
Variable K : fieldType.
Implicit Types (T S : Type).
Lemma lsumE T (f : T -> K) l : List.fold_right (fun t s => f t + s) 0 l = \sum_(t <- l) f t.
Proof. elim: l => [|t l IH] /=; by rewrite ?big_nil ?big_cons ?IH. Qed.
Lemma lapp T (f : T -> K) a b : \sum_(t <- List.app a b) f t = \sum_(t <- a) f t + \sum_(t <- b) f t.
Proof. exact: big_cat. Qed.
Lemma lmap T S (f : S -> K) (h : T -> S) l : \sum_(t <- List.map h l) f t = \sum_(t <- l) f (h t).
Proof. elim: l => [|t l IH] /=; by rewrite ?big_nil ?big_cons ?IH. Qed.
Lemma lflat T S (f : S -> K) (h : T -> list S) l : \sum_(t <- List.flat_map h l) f t = \sum_(t <- l) \sum_(u <- h t) f u.
Proof. elim: l => [|t l IH] /=; by rewrite ?big_nil ?big_cons ?lapp ?IH. Qed.
Lemma lfilter T (f : T -> K) (b : T -> bool) l : \sum_(t <- List.filter b l) f t = \sum_(t <- l) (if b t then f t else 0).
Proof. elim: l => [|t l IH] /=; rewrite ?big_nil // big_cons -IH. by case: (b t); rewrite ?big_cons ?add0r. Qed.
Lemma lext T (P : T -> Prop) (f h : T -> K) l : List.Forall P l -> (forall t, P t -> f t = h t) -> \sum_(t <- l) f t = \sum_(t <- l) h t.
Proof. move=> HF H. elim: HF => [|t r Ht Hr IH]; by rewrite ?big_nil // !big_cons IH H. Qed.
Lemma lseq (f : nat -> K) n : \sum_(i <- List.seq 0 n) f i = \sum_(i < n) f i.
Proof.
have H : forall s, \sum_(i <- List.seq s n) f i = \sum_(i < n) f (s + i)%nat; last by rewrite H.
elim: n => [|n IH] s; first by rewrite big_nil big_ord0.
rewrite /= big_cons big_ord_recl IH addn0. congr (_ + _). by apply: eq_bigr => i _; rewrite /bump /= addnS addSn.
Qed.
Lemma fold_ksum l : ksum l = \sum_(t <- l) t :> K.
Proof. elim: l => [|t l IH] /=; by rewrite ?big_nil ?big_cons ?IH. Qed.
End Lists.

(** ** exponent lists of degree at most two *)
Section Exps.
Variables (K : fieldType) (D : nat) (g : nat -> K).
Notation vec := (nat -> K).
Definition vnth (i : nat) (v : list vec) : vec := List.nth i v (fun _ => 0).
Lemma deg0 e : total e = 0%nat -> (forall i, List.nth i e 0%nat = 0%nat) /\ (forall v : list vec, factors e v = List.nil) /\ List.forallb (Nat.eqb 0) e.
Proof.
elim: e => [|a e IH]; first by move=> _; split; [case|split].
rewrite /total /= => H. have [Ha He] : a = 0%nat /\ List.list_sum e = 0%nat by case: a H.
case: (IH He) => H1 [H2 H3]. rewrite Ha. split; first by case. split; last by [].
case=> [//|u v] /=. exact: H2.
Qed.
Lemma deg1 e : total e = 1%nat -> exists a, [/\ (a < List.length e)%nat, forall i, List.nth i e 0%nat = (i == a) &
  forall v : list vec, List.length v = List.length e -> factors e v = List.cons (vnth a v) List.nil].
Proof.
elim: e => [//|b e IH]. rewrite /total /=. case: b => [|[|b]] H //.
- case: (IH H) => a [H1 H2 H3]. exists a.+1. split=> //; first by case.
  case=> [//|u v] /= [Hv]. by rewrite H3.
- have He : total e = 0%nat by case: H. case: (deg0 He) => H1 [H2 _]. exists 0%nat. split=> //; first by case.
  case=> [//|u v] /= _. by rewrite H2.
Qed.
Lemma deg2 e : total e = 2%nat -> exists a b, [/\ (a <= b)%nat, (b < List.length e)%nat, forall i, List.nth i e 0%nat = ((i == a) + (i == b))%nat &
  forall v : list vec, List.length v = List.length e -> factors e v = List.cons (vnth a v) (List.cons (vnth b v) List.nil)].
Proof.
elim: e => [//|c e IH]. rewrite /total /=. case: c => [|[|[|c]]] H //.
- case: (IH H) => a [b [H0 H1 H2 H3]]. exists a.+1, b.+1. split=> //; first by case.
  case=> [//|u v] /= [Hv]. by rewrite H3.
- have He : total e = 1%nat by case: H. case: (deg1 He) => b [H1 H2 H3]. exists 0%nat, b.+1. split=> //; first by case.
  case=> [//|u v] /= [Hv]. by rewrite H3.
- have He : total e = 0%nat by case: H. case: (deg0 He) => H1 [H2 _]. exists 0%nat, 0%nat. split=> //; first by case.
  case=> [//|u v] /= _. by rewrite H2.
Qed.
Lemma dotC u v : dot D g u v = dot D g v u.
Proof. apply: eq_bigr => m _. by rewrite mulrAC. Qed.
End Exps.
