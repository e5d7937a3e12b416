(** Determinant identities behind Stokes' theorem. *)
From mathcomp Require Import all_ssreflect all_algebra perm.
Set Implicit Arguments. Unset Strict Implicit. Unset Printing Implicit Defensive.
Import GRing.Theory.
Local Open Scope ring_scope.
Section Alg.
Variable R : comRingType.
Variable n : nat.
Implicit Types (M : 'M[R]_n.+1).
Definition setrow M (r : 'I_n.+1) (v : 'I_n.+1 -> R) : 'M[R]_n.+1 := \matrix_(i, j) (if i == r then v j else M i j).
Definition unit_row (a : 'I_n.+1) : 'I_n.+1 -> R := fun j => (j == a)%:R.
Lemma cofactor_setrow M r v j : cofactor (setrow M r v) r j = cofactor M r j.
Proof.
rewrite /cofactor; congr (_ * _); congr (\det _); apply/matrixP=> i k; rewrite !mxE.
by rewrite eq_sym (negbTE (neq_lift _ _)).
Qed.
Lemma det_setrow M r v : \det (setrow M r v) = \sum_j v j * cofactor M r j.
Proof.
rewrite (expand_det_row _ r); apply: eq_bigr => j _.
by rewrite cofactor_setrow mxE eqxx.
Qed.
Lemma det_unit M r a : \det (setrow M r (unit_row a)) = cofactor M r a.
Proof.
rewrite det_setrow (bigD1 a) //= /unit_row eqxx mul1r big1 ?addr0 // => j ja.
by rewrite (negbTE ja) mul0r.
Qed.
Lemma det_lin M r v : \det (setrow M r v) = \sum_a v a * \det (setrow M r (unit_row a)).
Proof. rewrite det_setrow; apply: eq_bigr => a _; by rewrite det_unit. Qed.
Lemma det_same M r s v : r != s -> (forall j, M s j = v j) -> \det (setrow M r v) = 0.
Proof.
move=> rs H; apply: (determinant_alternate (i1 := r) (i2 := s)) => // j.
by rewrite !mxE eqxx eq_sym (negbTE rs) H.
Qed.
(** (A) the gradient part *)
Lemma div_gradient M r (g : 'I_n.+1 -> R) : g r = 0 ->
  \sum_a (\sum_s g s * M s a) * \det (setrow M r (unit_row a)) = 0.
Proof.
move=> gr.
transitivity (\sum_a \sum_s g s * (M s a * \det (setrow M r (unit_row a)))).
  apply: eq_bigr => a _; rewrite mulr_suml; apply: eq_bigr => s _; by rewrite mulrA.
rewrite exchange_big /=; apply: big1 => s _; rewrite -mulr_sumr -det_lin.
have [->|sr] := eqVneq s r; first by rewrite gr mul0r.
by rewrite (@det_same _ _ s) ?mulr0 // eq_sym.
Qed.
(** antisymmetry under the exchange of two rows *)
Lemma anti M r s v w : r != s -> \det (setrow (setrow M s w) r v) = - \det (setrow (setrow M s v) r w).
Proof.
move=> rs.
have E : setrow (setrow M s w) r v = xrow r s (setrow (setrow M s v) r w).
  apply/matrixP => i j; rewrite !mxE.
  case: tpermP => [->|->|/eqP ir /eqP is_].
  - by rewrite eqxx eq_sym (negbTE rs) eqxx.
  - by rewrite eqxx eq_sym (negbTE rs) eqxx.
  - by rewrite (negbTE ir) (negbTE is_).
rewrite E xrowE det_mulmx det_perm odd_tperm rs /= expr1 mulN1r //.
Qed.
(** (C) the second derivatives *)
Lemma div_hessian M r s (H : 'I_n.+1 -> 'I_n.+1 -> R) : r != s -> (forall a b, H a b = H b a) ->
  (forall x : R, x + x = 0 -> x = 0) ->
  \sum_a \det (setrow (setrow M s (H a)) r (unit_row a)) = 0.
Proof.
move=> rs Hs two.
have comm v w : setrow (setrow M s v) r w = setrow (setrow M r w) s v.
  apply/matrixP => i j; rewrite !mxE; case: (eqVneq i r) => [->|ir] //; by rewrite (negbTE rs).
set S := (X in X = _).
have ES : S = \sum_a \sum_b H a b * \det (setrow (setrow M s (unit_row b)) r (unit_row a)).
  rewrite /S; apply: eq_bigr => a _; rewrite comm det_lin; apply: eq_bigr => b _; by rewrite comm.
apply: two; rewrite {1}ES {1}exchange_big ES /= -big_split /=; apply: big1 => a _.
rewrite -big_split /=; apply: big1 => b _.
by rewrite Hs (@anti M r s (unit_row b) (unit_row a)) // mulrN addrC subrr.
Qed.
(** the faces *)
Lemma face M r k al : r != k -> (forall b, M k b = al * unit_row k b) -> \det (setrow M r (unit_row k)) = 0.
Proof.
move=> rk E.
have -> : setrow M r (unit_row k) = setrow (setrow M r (unit_row k)) k (fun b => al * unit_row k b).
  apply/matrixP => i j; rewrite !mxE; case: (eqVneq i k) => // ->; by rewrite eq_sym (negbTE rk) E.
rewrite det_lin; apply: big1 => a _.
case: (eqVneq a k) => [->|ak]; last by rewrite /unit_row (negbTE ak) mulr0 mul0r.
rewrite (@det_same _ k r) ?mulr0 // 1?eq_sym // => j; by rewrite mxE eqxx.
Qed.
End Alg.
(** the component of the parameter *)
Lemma det_block (R : comRingType) n (M : 'M[R]_n.+1) : \det (setrow M ord0 (unit_row R ord0)) = \det (row' ord0 (col' ord0 M)).
Proof. by rewrite det_unit /cofactor addn0 expr0 mul1r. Qed.
(** Leibniz rule for determinants (formal): the sum over the permutations, exchanged *)
Lemma leibniz_exchange (R : comRingType) n (M : 'M[R]_n.+1) (D : 'I_n.+1 -> 'I_n.+1 -> R) :
  \sum_(s : 'S_n.+1) (-1) ^+ s * (\sum_i \prod_j (if j == i then D i (s i) else M j (s j))) = \sum_i \det (setrow M i (D i)).
Proof.
transitivity (\sum_(s : 'S_n.+1) \sum_i (-1) ^+ s * \prod_j (if j == i then D i (s i) else M j (s j))).
  apply: eq_bigr => s _; by rewrite mulr_sumr.
rewrite exchange_big /=; apply: eq_bigr => i _; apply: eq_bigr => s _; congr (_ * _).
apply: eq_bigr => j _; rewrite !mxE; by case: (eqVneq j i) => [->|].
Qed.
