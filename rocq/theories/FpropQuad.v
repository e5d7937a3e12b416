From mathcomp Require Import all_ssreflect all_algebra.
From Verif Require Import PolyModel DetModel DetProofs FpropModel FpropSpec FpropProofs FpropSquare.
Import GRing.Theory.
Set Implicit Arguments. Unset Strict Implicit. Unset Printing Implicit Defensive.
Local Open Scope ring_scope.

From Coq Require Import Ring.
Section Gen.
Variables (T : Type) (o i : T) (pl mu sb : T -> T -> T) (op : T -> T).
Hypothesis rt : ring_theory o i pl mu sb op eq.
Add Ring Tring : rt.
Lemma gen1 d a b c : sb (sb (mu d (mu d a)) (mu d (mu d b))) (sb (mu d (mu d b)) (mu d c)) = pl (mu (mu d d) (sb a (mu (pl i i) b))) (mu d c).
Proof. ring. Qed.
Lemma gen2 d a b c j : mu (mu d d) (pl (sb a (mu (pl i i) b)) j) = sb (pl (mu (mu d d) (sb a (mu (pl i i) b))) (mu d c)) (mu d (sb c (mu d j))).
Proof. ring. Qed.
Lemma gen3 a b c d e f h : pl (sb a (mu (pl i i) b)) (sb c (mu (pl i i) d)) = sb (pl (pl e f) (pl f c)) (mu (pl i i) (pl h d)) ->
  pl (sb a e) (mu (pl i i) (sb (sb h f) b)) = o.
Proof. intro H. assert (X : pl (sb a (mu (pl i i) b)) (sb c (mu (pl i i) d)) = sb (pl (pl e f) (pl f c)) (mu (pl i i) (pl h d))) by exact H.
replace (pl (sb a e) (mu (pl i i) (sb (sb h f) b))) with (sb (pl (sb a (mu (pl i i) b)) (sb c (mu (pl i i) d))) (sb (pl (pl e f) (pl f c)) (mu (pl i i) (pl h d)))) by ring.
rewrite X. ring. Qed.
Lemma gen4 a b c d : sb (sb a (mu d b)) (sb (mu d b) (mu d c)) = pl (sb a (mu d (mu (pl i i) b))) (mu d c).
Proof. ring. Qed.
Lemma gen5 r a d s j : sb (mu r (pl a (mu d s))) (mu (mu r d) (pl s j)) = mu r (sb a (mu d j)).
Proof. ring. Qed.
Lemma gen6 c e a g u v : mu (mu e a) (mu (mu g (mu c u)) (mu c v)) = mu (mu c (mu c e)) (mu a (mu (mu g u) v)).
Proof. ring. Qed.
Lemma gen7 x1 x2 m1 m2 d : pl (mu (mu (op x2) (op x2)) d) (pl (mu (op (pl x1 x2)) (mu (op m1) x1)) (pl (mu (mu (op (pl x1 x2)) x2) d) (mu (op (pl x1 x2)) (mu (op m2) x2))))
  = pl (mu (op (mu x1 x2)) d) (mu (pl x1 x2) (pl (mu m1 x1) (mu m2 x2))).
Proof. ring. Qed.
End Gen.
Section Quad.
Variable K : fieldType.
Lemma Krt : ring_theory (0 : K) 1 (fun a b => a + b) (fun a b => a * b) (fun a b => a - b) (fun a => - a) eq.
Proof. split=> *; rewrite ?add0r ?mul1r ?addrA ?mulrA ?mulrDl ?subrr //; [exact: addrC|exact: mulrC]. Qed.
Lemma arith1 (d a b c : K) : d * (d * a) - d * (d * b) - (d * (d * b) - d * c) = d * d * (a - (1 + 1) * b) + d * c :> K.
Proof. exact: (gen1 Krt). Qed.
Lemma arith2 (d a b c j : K) : d * d * (a - (1 + 1) * b + j) = d * d * (a - (1 + 1) * b) + d * c - d * (c - d * j) :> K.
Proof. exact: (gen2 Krt). Qed.
Lemma arith3 (a b c d e f h : K) : a - (1 + 1) * b + (c - (1 + 1) * d) = e + f + (f + c) - (1 + 1) * (h + d) -> a - e + (1 + 1) * (h - f - b) = 0 :> K.
Proof. exact: (gen3 Krt). Qed.
Lemma arith4 (a b c d : K) : a - d * b - (d * b - d * c) = a - d * ((1 + 1) * b) + d * c :> K.
Proof. exact: (gen4 Krt). Qed.
Lemma arith5 (r a d s j : K) : r * (a + d * s) - r * d * (s + j) = r * (a - d * j) :> K.
Proof. exact: (gen5 Krt). Qed.
Lemma arith6 (c e a g u v : K) : e * a * (g * (c * u) * (c * v)) = c * (c * e) * (a * (g * u * v)) :> K.
Proof. exact: (gen6 Krt). Qed.
Lemma arith7 (x1 x2 m1 m2 d : K) : (- x2 * - x2) * d + ((- (x1 + x2) * (- m1 * x1)) + ((- (x1 + x2) * x2) * d + (- (x1 + x2) * (- m2 * x2))))
  = - (x1 * x2) * d + (x1 + x2) * (m1 * x1 + m2 * x2) :> K.
Proof. exact: (gen7 Krt). Qed.
Variables (D : nat) (g : nat -> K).
Notation vec := (nat -> K).
Notation dot := (dot D g).
Definition comp L (v : nat -> vec) (m : nat) : 'cV[K]_L := \col_a v a m.
Definition form L (A : 'M[K]_L) (u v : nat -> vec) : K := \sum_(a < L) \sum_(b < L) A a b * dot (u a) (v b).
Lemma formE L (A : 'M[K]_L) u v : form A u v = \sum_(m < D) g m * ((comp L u m)^T *m A *m comp L v m) 0 0.
Proof.
rewrite /form /FpropSpec.dot.
transitivity (\sum_(a < L) \sum_(b < L) \sum_(m < D) g m * (u a m * A a b * v b m)).
  apply: eq_bigr => a _. apply: eq_bigr => b _. rewrite mulr_sumr. apply: eq_bigr => m _.
  by rewrite mulrA mulrCA -!mulrA; congr (_ * _); rewrite mulrCA.
under eq_bigr => a _ do rewrite exchange_big /=.
rewrite exchange_big /=. apply: eq_bigr => m _. rewrite mxE.
rewrite exchange_big /= mulr_sumr. apply: eq_bigr => b _. rewrite !mxE mulr_suml mulr_sumr.
apply: eq_bigr => a _. by rewrite !mxE.
Qed.
Lemma quad_scalar L (A : 'M[K]_L) (k q : 'cV[K]_L) : A^T = A ->
  let l := \det A *: k - \adj A *m q in
  (l^T *m A *m l) 0 0 = \det A ^+ 2 * ((k^T *m A *m k) 0 0 - 2%:R * (k^T *m q) 0 0) + \det A * (q^T *m \adj A *m q) 0 0.
Proof.
move=> HA l. have HadjT : (\adj A)^T = \adj A by rewrite trmx_adj HA.
set d := \det A. have H1 : A *m l = d *: (A *m k) - d *: q.
  by rewrite mulmxBr -scalemxAr mulmxA mul_mx_adj mul_scalar_mx.
have H2 : l^T = d *: k^T - q^T *m \adj A by rewrite linearB /= linearZ /= trmx_mul HadjT.
have Hqk : (q^T *m k) 0 0 = (k^T *m q) 0 0 by rewrite (_ : q^T *m k = (k^T *m q)^T) ?mxE // trmx_mul trmxK.
rewrite -mulmxA H1 H2 mulmxBl !mulmxBr -!scalemxAl -!scalemxAr.
rewrite [q^T *m \adj A *m (A *m k)]mulmxA -[q^T *m \adj A *m A]mulmxA mul_adj_mx mul_mx_scalar -/d -scalemxAl mulmxA.
set a := k^T *m A *m k. set b := k^T *m q. set c := q^T *m \adj A *m q.
have -> : (d *: (d *: a) - d *: (d *: b) - (d *: (d *: (q^T *m k)) - d *: c)) 0 0 = d * (d * a 0 0) - d * (d * b 0 0) - (d * (d * (q^T *m k) 0 0) - d * c 0 0) by rewrite !mxE.
rewrite Hqk -/b expr2. exact: arith1.
Qed.
End Quad.
