From mathcomp Require Import all_ssreflect all_algebra.
From Verif Require Import PolyModel DetModel DetProofs FpropModel FpropSpec FpropProofs FpropSquare FpropQuad FpropMain.
Import GRing.Theory.
Set Implicit Arguments. Unset Strict Implicit. Unset Printing Implicit Defensive.
Local Open Scope ring_scope.

Section AdjMul.
Lemma adj_mul_reg (R : idomainType) n (A B : 'M[R]_n) : \det A != 0 -> \det B != 0 -> \adj (A *m B) = \adj B *m \adj A.
Proof.
move=> HA HB. have Hd : \det (A *m B) != 0 by rewrite det_mulmx mulf_neq0.
have H1 : (A *m B) *m \adj (A *m B) = (A *m B) *m (\adj B *m \adj A).
  rewrite mul_mx_adj mulmxA -(mulmxA A) mul_mx_adj mul_mx_scalar -scalemxAl mul_mx_adj det_mulmx.
  by rewrite scale_scalar_mx mulrC.
have H2 := congr1 (fun Z => \adj (A *m B) *m Z) H1. rewrite /= in H2. rewrite (mulmxA (\adj _) (A *m B)) (mulmxA (\adj _) (A *m B) (_ *m _)) mul_adj_mx !mul_scalar_mx in H2.
apply/matrixP => i j. move/matrixP: H2 => /(_ i j). rewrite !mxE. by move/(mulfI Hd).
Qed.
Variable K : fieldType.
Lemma adj_mul n (A B : 'M[K]_n) : \adj (A *m B) = \adj B *m \adj A.
Proof.
have E (Z : 'M[K]_n) : map_mx (horner_eval 0) (char_poly_mx (- Z)) = Z.
  apply/matrixP => i j. rewrite !mxE /horner_eval. by rewrite !hornerE hornerMn hornerX mul0rn sub0r opprK.
have H (Z : 'M[K]_n) : \det (char_poly_mx (- Z)) != 0 by apply: monic_neq0; exact: char_poly_monic.
rewrite -{1 2}(E A) -{1 2}(E B) -map_mxM -!map_mx_adj -map_mxM. congr map_mx. exact: adj_mul_reg.
Qed.
End AdjMul.
Section Route.
Variables (K : fieldType) (n : nat).
Hypothesis two : 2%:R != 0 :> K.
Notation L := n.+1.
Implicit Types (A B M R : 'M[K]_L) (u v w q s : 'cV[K]_L).
Definition sc (Z : 'M[K]_1) : K := Z 0 0.
Lemma scD a b : sc (a + b) = sc a + sc b. Proof. by rewrite /sc mxE. Qed.
Lemma scN a : sc (- a) = - sc a. Proof. by rewrite /sc mxE. Qed.
Lemma scZ c a : sc (c *: a) = c * sc a. Proof. by rewrite /sc mxE. Qed.
Lemma scT a : sc a^T = sc a. Proof. by rewrite /sc mxE. Qed.
Lemma sc_swap A u v : A^T = A -> sc (u^T *m A *m v) = sc (v^T *m A *m u).
Proof. move=> H. by rewrite -scT !trmx_mul trmxK H mulmxA. Qed.
Lemma sc_swap1 u v : sc (u^T *m v) = sc (v^T *m u).
Proof. by rewrite -scT !trmx_mul trmxK. Qed.
Lemma two_inj (a : K) : a + a = 0 -> a = 0.
Proof. move=> H. apply: (mulfI two). by rewrite mulr0 mulr_natl mulr2n. Qed.
Lemma quad_zero A u : A^T = A -> (forall v, sc (v^T *m A *m v) + sc (v^T *m u) = 0) -> A = 0 /\ u = 0.
Proof.
move=> HA H.
have Hlin v : sc (v^T *m u) = 0.
  apply: two_inj. have H1 := H v. have H2 := H (- v). rewrite [(- v)^T]raddfN /= !mulNmx mulmxN opprK !scN in H2.
  have := congr2 (fun a b => a - b) H1 H2. by rewrite subrr opprD opprK addrACA subrr add0r.
have Hq v : sc (v^T *m A *m v) = 0 by move: (H v); rewrite Hlin addr0.
have Hd (i j : 'I_L) : sc ((delta_mx i 0)^T *m A *m delta_mx j 0) = A i j.
  by rewrite /sc -colE trmx_delta -rowE !mxE.
split.
- apply/matrixP => i j. rewrite [RHS]mxE. apply: two_inj.
  have := Hq (delta_mx i 0 + delta_mx j 0). rewrite [(_ + _)^T]raddfD /= !mulmxDl !mulmxDr !scD !Hd.
  have -> : A i i = 0 by rewrite -Hd Hq. have -> : A j j = 0 by rewrite -Hd Hq.
  have -> : A j i = A i j by rewrite -[in LHS]HA mxE. by rewrite add0r addr0.
- apply/matrixP => i j. rewrite ord1 [RHS]mxE -(Hlin (delta_mx i 0)) /sc trmx_delta -rowE mxE. by [].
Qed.
Variables (D : nat) (g : nat -> K).
Hypothesis Hg : forall m : 'I_D, g m != 0.
Definition W M (q : nat -> 'cV[K]_L) (j : K) (k : nat -> 'cV[K]_L) : K :=
  \sum_(m < D) g m * (sc ((k m)^T *m M *m k m) - 2%:R * sc ((k m)^T *m q m)) + j.
Lemma route_core M M' R (q q' s : nat -> 'cV[K]_L) j j' : M^T = M -> M'^T = M' ->
  (forall k, W M' q' j' k = W M q j (fun m => R *m k m + s m)) ->
  (forall m : 'I_D, M' = R^T *m M *m R /\ q' m = R^T *m (q m - M *m s m)) /\
  j' = \sum_(m < D) g m * (sc ((s m)^T *m M *m s m) - 2%:R * sc ((s m)^T *m q m)) + j.
Proof.
move=> HM HM' H.
have H0 : j' = \sum_(m < D) g m * (sc ((s m)^T *m M *m s m) - 2%:R * sc ((s m)^T *m q m)) + j.
  have := H (fun _ => 0). rewrite /W big1 ?add0r => [->|m _].
  - congr (_ + _). apply: eq_bigr => m _. by rewrite mulmx0 add0r.
  - by rewrite trmx0 !mul0mx /sc mxE mulr0 subr0 mulr0.
split=> // m.
set A := M' - R^T *m M *m R. set u := 2%:R *: (R^T *m (q m - M *m s m) - q' m).
have HA : A^T = A by rewrite /A linearB /= !trmx_mul trmxK HM HM' mulmxA.
have Hz : forall v, sc (v^T *m A *m v) + sc (v^T *m u) = 0.
  move=> v. have := H (fun m' => if m' == m :> nat then v else 0).
  rewrite /W H0 addrA => /addIr. rewrite (bigD1 m) //= eqxx [X in _ + X + _ = _]big1 ?addr0; last first.
    move=> m' Hm'. rewrite -val_eqE /= in Hm'. by rewrite (negbTE Hm') trmx0 !mul0mx /sc mxE mulr0 subr0 mulr0.
  rewrite (bigD1 m) //= [X in _ = X](bigD1 m) //= eqxx.
  set X1 := \sum_(i < D | _) _. set X2 := \sum_(i < D | _) _.
  have -> : X2 = X1.
    apply: eq_bigr => m' Hm'. rewrite -val_eqE /= in Hm'. by rewrite (negbTE Hm') mulmx0 add0r.
  rewrite addrA => /addIr. rewrite -mulrDr => /(mulfI (Hg m)).
  have E1 : v^T *m R^T *m M *m (R *m v) = v^T *m (R^T *m M *m R) *m v by rewrite !mulmxA.
  have E2 : sc ((s m)^T *m M *m (R *m v)) = sc (v^T *m R^T *m M *m s m).
    by rewrite (sc_swap _ _ HM) trmx_mul.
  have E3 : v^T *m (2%:R *: (R^T *m (q m - M *m s m) - q' m)) = 2%:R *: (v^T *m R^T *m q m - v^T *m R^T *m M *m s m - v^T *m q' m).
    by rewrite -scalemxAr !mulmxBr !mulmxA.
  have E0 : v^T *m A *m v = v^T *m M' *m v - v^T *m (R^T *m M *m R) *m v by rewrite /A mulmxBr mulmxBl.
  rewrite E0 /u E3 scZ [(R *m v + s m)^T]raddfD /= trmx_mul !mulmxDl !mulmxDr !scD !scN E1 E2.
  set a := sc (v^T *m M' *m v). set b := sc (v^T *m q' m). set c := sc ((s m)^T *m M *m s m). set d := sc ((s m)^T *m q m).
  set e := sc (v^T *m (R^T *m M *m R) *m v). set f := sc (v^T *m R^T *m M *m s m). set h := sc (v^T *m R^T *m q m).
  move=> X. exact (@arith3 K a b c d e f h X).
case: (quad_zero HA Hz) => /subr0_eq -> /eqP. rewrite scaler_eq0 (negbTE two) /= => /eqP /subr0_eq ->. by [].
Qed.
Lemma F_core M R (q q' s : nat -> 'cV[K]_L) j j' : M^T = M ->
  (forall m : 'I_D, q' m = R^T *m (q m - M *m s m)) ->
  j' = \sum_(m < D) g m * (sc ((s m)^T *m M *m s m) - 2%:R * sc ((s m)^T *m q m)) + j ->
  \sum_(m < D) g m * sc ((q' m)^T *m \adj (R^T *m M *m R) *m q' m) - \det (R^T *m M *m R) * j'
  = \det R ^+ 2 * (\sum_(m < D) g m * sc ((q m)^T *m \adj M *m q m) - \det M * j).
Proof.
move=> HM Hq ->. have HadjT : (\adj M)^T = \adj M by rewrite trmx_adj HM.
set r := \det R. have Hdet : \det (R^T *m M *m R) = r ^+ 2 * \det M by rewrite !det_mulmx det_tr -/r expr2 mulrAC.
have Hadj : \adj (R^T *m M *m R) = \adj R *m \adj M *m (\adj R)^T by rewrite !adj_mul trmx_adj mulmxA.
have Hm (m : 'I_D) : sc ((q' m)^T *m \adj (R^T *m M *m R) *m q' m) = r ^+ 2 * (sc ((q m)^T *m \adj M *m q m)
   - \det M * (2%:R * sc ((s m)^T *m q m)) + \det M * sc ((s m)^T *m M *m s m)).
  rewrite Hq Hadj trmx_mul trmxK. set w := q m - M *m s m.
  have E1 : w^T *m R *m (\adj R *m \adj M *m (\adj R)^T) *m (R^T *m w) = r ^+ 2 *: (w^T *m \adj M *m w).
    rewrite !mulmxA -(mulmxA w^T) mul_mx_adj -/r mul_mx_scalar -!scalemxAl.
    rewrite -(mulmxA (w^T *m \adj M)) -trmx_mul mul_mx_adj -/r tr_scalar_mx mul_mx_scalar -scalemxAl scalerA -expr2. by [].
  rewrite E1 scZ. congr (_ * _). rewrite /w [(_ - _)^T]raddfB /= trmx_mul HM.
  set d := \det M.
  have E2 : \adj M *m (q m - M *m s m) = \adj M *m q m - d *: s m by rewrite mulmxBr mulmxA mul_adj_mx mul_scalar_mx.
  rewrite -mulmxA E2 mulmxBl !mulmxBr -!scalemxAr !mulmxA -(mulmxA (s m)^T M (\adj M)) mul_mx_adj -/d mul_mx_scalar -scalemxAl.
  rewrite !scD !scN !scD !scN !scZ (sc_swap1 (q m)).
  exact: arith4.
under eq_bigr => m _ do rewrite Hm.
rewrite Hdet. set d := \det M.
transitivity (r ^+ 2 * (\sum_(m < D) g m * sc ((q m)^T *m \adj M *m q m) + d * (\sum_(m < D) g m * (sc ((s m)^T *m M *m s m) - 2%:R * sc ((s m)^T *m q m))))
   - r ^+ 2 * d * (\sum_(m < D) g m * (sc ((s m)^T *m M *m s m) - 2%:R * sc ((s m)^T *m q m)) + j)).
- congr (_ - _). rewrite mulr_sumr -big_split /= mulr_sumr. apply: eq_bigr => m _. rewrite mulrCA. congr (_ * _).
  rewrite [X in _ = _ + X]mulrCA -mulrDr. congr (_ * _). by rewrite mulrBr addrAC -addrA.
- exact: arith5.
Qed.
End Route.
