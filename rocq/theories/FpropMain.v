From mathcomp Require Import all_ssreflect all_algebra.
From Verif Require Import PolyModel DetModel DetProofs FpropModel FpropSpec FpropProofs FpropSquare FpropQuad.
Import GRing.Theory.
Set Implicit Arguments. Unset Strict Implicit. Unset Printing Implicit Defensive.
Local Open Scope ring_scope.

Lemma add_exp_contract (K : fieldType) (D : nat) (g : nat -> K) (E : nat) (p : list (nat -> K)) e1 e2 : List.length e1 = E -> List.length e2 = E -> List.length p = E -> total e1 = 1%nat -> total e2 = 1%nat ->
  contract D g (factors (add_exp e1 e2) p) = dot D g (single (factors e1 p)) (single (factors e2 p)).
Proof.
elim: e1 e2 p E => [|a e1 IH] [|b e2] [|u p] [|m] //= [H1] [H2] [H3].
rewrite /total /= !plusE'. case: a => [|[|a]] //; case: b => [|[|b]] //.
- rewrite add0n => T1 T2. by rewrite (IH e2 p m).
- rewrite !add0n !add1n => T1 [T2]. case: (deg0 K T2) => _ [-> _]. case: (deg1 K T1) => c [Hc Hn Hf].
  have -> : factors (add_exp e1 e2) p = factors e1 p.
    have : total e2 = 0%nat by []. rewrite /total. clear -H1 H2 . move: H1 H2. rewrite /add_exp.
    elim: e1 e2 p m => [|a e1 IH] [|b e2] [|v p] [|m] //= [A1] [A2]. rewrite !plusE' => H. 
    have [-> He] : b = 0%nat /\ List.list_sum e2 = 0%nat by case: b H.
    by rewrite addn0 (IH e2 p m).
  rewrite Hf ?H1 // /=. exact: dotC.
- rewrite !add0n !add1n => [[T1]] T2. case: (deg0 K T1) => _ [-> _]. case: (deg1 K T2) => c [Hc Hn Hf].
  have -> : factors (add_exp e1 e2) p = factors e2 p.
    have : total e1 = 0%nat by []. rewrite /total. clear -H1 H2 . move: H1 H2. rewrite /add_exp.
    elim: e1 e2 p m => [|a e1 IH] [|b e2] [|v p] [|m] //= [A1] [A2]. rewrite !plusE' => H. 
    have [-> He] : a = 0%nat /\ List.list_sum e1 = 0%nat by case: a H.
    by rewrite add0n (IH e2 p m).
  by rewrite Hf ?H2.
- rewrite !add1n => [[T1]] [T2]. case: (deg0 K T1) => _ [-> _]. case: (deg0 K T2) => _ [-> _].
  have -> : factors (add_exp e1 e2) p = List.nil; last by [].
    apply: (proj1 (proj2 (deg0 K _))). move: T1 T2. rewrite /total. clear -H1 H2. move: H1 H2. rewrite /add_exp.
    elim: e1 e2 m => [|a e1 IH] [|b e2] [|m] //= [A1] [A2]. rewrite !plusE' => T1 T2.
    have [-> He] : a = 0%nat /\ List.list_sum e1 = 0%nat by case: a T1.
    have [-> He2] : b = 0%nat /\ List.list_sum e2 = 0%nat by case: b T2.
    by rewrite !add0n (IH e2 m).
Qed.
Section Main.
Variables (K : fieldType) (D : nat) (g : nat -> K) (n E : nat).
Notation L := n.+1.
Notation vec := (nat -> K).
Notation dot := (dot D g).
Variables (props : list (expr K)).
Hypothesis Hwf : wf L E props.
Definition Mx (x : list K) : 'M[K]_L := \matrix_(i, j) M_entry props x i j.
Lemma mx_ofM x : mx_of L (FpropModel.M L props x) = Mx x.
Proof. apply/matrixP => i j. rewrite !mxE /entry /FpropModel.M !nth_map_seq //. Qed.
Lemma UE x : U L props x = \det (Mx x).
Proof. by rewrite /U /kdet_rec det_rec_correct mx_ofM. Qed.
Lemma aME x (i j : 'I_L) : aM L props x i j = (\adj (Mx x)) i j.
Proof. by rewrite /aM adj_entry mx_ofM. Qed.
Lemma MxT x : (Mx x)^T = Mx x.
Proof. apply/matrixP => i j. rewrite !mxE. exact: M_sym. Qed.
Definition qv (p : list vec) x (a : nat) : vec := qvec p (Q props x a).
Lemma Q_deg x a : (a < L)%nat -> List.Forall (fun t => List.length t.2 = E /\ total t.2 = 1%nat) (Q props x a).
Proof.
move=> Ha. apply/List.Forall_forall => t /List.in_map_iff [s [<- /List.filter_In [Hs Hl]]].
move/List.Forall_forall: (wf_sum x Hwf) => /(_ _ Hs) [HL [HE Hd]]. split=> //=.
move: Hl. rewrite /linear_in eqbE /kexp /no_loop /= forallb_total => /andP [/eqP H1 /eqP H2].
have Ha' : (a < List.length (mk s))%nat by rewrite HL.
move: Hd. rewrite -(upd_total Ha') H1 H2 !plusE' addn0. case=> //; rewrite add1n; by case.
Qed.
Lemma ext_pmul (p : list vec) c e1 e2 : List.length p = E ->
  List.Forall (fun t : K * list nat => List.length t.2 = E /\ total t.2 = 1%nat) e1 ->
  List.Forall (fun t : K * list nat => List.length t.2 = E /\ total t.2 = 1%nat) e2 ->
  ext_value D g p (pmul (pscale c e1) e2) = c * dot (qvec p e1) (qvec p e2).
Proof.
move=> Hp F1 F2. rewrite /ext_value lsumE /pmul lflat /pscale lmap /qvec.
rewrite dotC dot_sumr.
rewrite mulr_sumr. under [RHS]eq_bigr => t _ do rewrite dotC dot_sumr.
apply: (lext F1) => t [L1 T1]. rewrite lmap /= !mulr_sumr. apply: (lext F2) => s [L2 T2] /=.
rewrite (add_exp_contract D g L1 L2 Hp T1 T2) -!mulrA. by [].
Qed.
Lemma ext_F (p : list vec) x : List.length p = E ->
  ext_value D g p (F L props x) = form D g (\adj (Mx x)) (qv p x) (qv p x) - U L props x * ext_value D g p (J props x).
Proof.
move=> Hp. rewrite /F /ext_value lsumE lapp lflat lseq. congr (_ + _).
- apply: eq_bigr => i _. rewrite lflat lseq. apply: eq_bigr => j _. rewrite -lsumE -aME.
  apply: ext_pmul => //; apply: Q_deg; exact: ltn_ord.
- rewrite /pscale lmap lsumE mulr_sumr -sumrN. apply: eq_bigr => t _ /=. by rewrite !mulNr mulrA.
Qed.
Hypothesis two : 2%:R != 0 :> K.
Variables (x : list K) (k p : list vec).
Hypothesis (Hk : List.length k = L) (Hp : List.length p = E).
Definition lv (a : nat) : vec := fun m => U L props x * vnth a k m - \sum_(b < L) aM L props x a b * qv p x b m.
Lemma dotE (u v : nat -> vec) : \sum_(a < L) dot (u a) (v a) = \sum_(m < D) g m * ((comp L u m)^T *m comp L v m) 0 0.
Proof.
rewrite /FpropSpec.dot exchange_big /=. apply: eq_bigr => m _. rewrite mxE mulr_sumr. apply: eq_bigr => a _. by rewrite !mxE mulrA.
Qed.
Theorem square : U L props x ^+ 2 * weighted D g props x k p =
  form D g (Mx x) lv lv - U L props x * ext_value D g p (F L props x).
Proof.
rewrite (weighted_quadratic D g two x Hwf Hk Hp) ext_F //.
have -> : \sum_(a < L) \sum_(b < L) M_entry props x a b * dot (vnth a k) (vnth b k) = form D g (Mx x) (fun a => vnth a k) (fun a => vnth a k).
  apply: eq_bigr => a _. apply: eq_bigr => b _. by rewrite mxE.
rewrite (dotE (fun a => vnth a k) (qv p x)) !formE.
have Hl m : comp L lv m = \det (Mx x) *: comp L (fun a => vnth a k) m - \adj (Mx x) *m comp L (qv p x) m.
  apply/matrixP => a b. rewrite !mxE /lv UE. congr (_ - _). apply: eq_bigr => c _. by rewrite aME !mxE.
under [X in _ = X - _]eq_bigr => m _ do rewrite Hl (quad_scalar _ _ (MxT x)) mulrDr.
rewrite big_split /= UE.
set d := \det (Mx x). set j := ext_value _ _ _ _.
have -> : \sum_(m < D) g m * (d * ((comp L (qv p x) m)^T *m \adj (Mx x) *m comp L (qv p x) m) 0 0)
   = d * \sum_(m < D) g m * ((comp L (qv p x) m)^T *m \adj (Mx x) *m comp L (qv p x) m) 0 0.
  rewrite mulr_sumr. apply: eq_bigr => m _. by rewrite mulrCA.
set A := \sum_(m < D) g m * ((comp L (fun a => vnth a k) m)^T *m Mx x *m comp L (fun a => vnth a k) m) 0 0.
set B := \sum_(m < D) g m * ((comp L (fun a => vnth a k) m)^T *m comp L (qv p x) m) 0 0.
set C := \sum_(m < D) g m * ((comp L (qv p x) m)^T *m \adj (Mx x) *m comp L (qv p x) m) 0 0.
have -> : \sum_(m < D) g m * (d ^+ 2 * (((comp L (fun a => vnth a k) m)^T *m Mx x *m comp L (fun a => vnth a k) m) 0 0 - 2%:R * ((comp L (fun a => vnth a k) m)^T *m comp L (qv p x) m) 0 0))
  = d ^+ 2 * (A - 2%:R * B).
  rewrite /A /B (mulr_sumr _ _ _ 2%:R) -sumrB mulr_sumr. apply: eq_bigr => m _. rewrite mulrCA. congr (_ * _). rewrite mulrBr. congr (_ - _). exact: mulrCA.
rewrite expr2. exact: arith2.
Qed.
End Main.
