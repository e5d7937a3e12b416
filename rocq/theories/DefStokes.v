(** The integral of a holomorphic function over a deformed cube does not depend on the deformation. *)
From mathcomp Require Import all_ssreflect all_algebra perm.
From Coq Require Import Reals Lia.
From Verif Require Import PolyModel DefSpec DefAna DefCont.
From Coquelicot Require Import Coquelicot.
From Verif Require Import DefRing DefAlg.
Set Implicit Arguments. Unset Strict Implicit. Unset Printing Implicit Defensive.
Import GRing.Theory.
Local Open Scope ring_scope.
(** ** big operators *)
Lemma isd_bigsum (I : Type) (r : list I) (f : I -> R -> C) x (l : I -> C) : (forall i, isd (f i) x (l i)) -> isd (fun v => \sum_(i <- r) f i v) x (\sum_(i <- r) l i).
Proof.
move=> H. elim: r => [|i r IH].
- rewrite big_nil. apply: isd_ext (isd_const _ x) => v. by rewrite big_nil.
- rewrite big_cons. apply: isd_ext (isd_plus _ _ _ _ _ (H i) IH) => v. by rewrite big_cons.
Qed.
Lemma isd_eq f x l m : l = m -> isd f x l -> isd f x m. Proof. by move=> ->. Qed.
Lemma isd_bigprod m : forall (f : 'I_m -> R -> C) x (l : 'I_m -> C), (forall i, isd (f i) x (l i)) ->
  isd (fun v => \prod_(j < m) f j v) x (\sum_(i < m) \prod_(j < m) (if j == i then l i else f j x)).
Proof.
elim: m => [|m IH] f x l H.
- rewrite big_ord0. apply: isd_ext (isd_const (RtoC 1) x) => v. by rewrite big_ord0.
- have := isd_mult _ _ _ _ _ (H ord0) (IH (fun j => f (lift ord0 j)) x (fun j => l (lift ord0 j)) (fun j => H (lift ord0 j))).
  move=> X. apply: isd_ext (isd_eq _ X) => [v|].
  + by rewrite big_ord_recl.
  + rewrite [in RHS]big_ord_recl; congr (_ + _).
    * rewrite [in RHS]big_ord_recl /=. by [].
    * change (f ord0 x * (\sum_(i < m) \prod_(j < m) (if j == i then l (lift ord0 i) else f (lift ord0 j) x)) =
        \sum_(i < m) \prod_(j < m.+1) (if j == lift ord0 i then l (lift ord0 i) else f j x)).
      rewrite mulr_sumr; apply: eq_bigr => i _. rewrite big_ord_recl /=; congr (_ * _).
Qed.
Lemma isd_det n (E : R -> 'M[C]_n.+1) x (D : 'I_n.+1 -> 'I_n.+1 -> C) : (forall i j, isd (fun v => E v i j) x (D i j)) ->
  isd (fun v => \det (E v)) x (\sum_i \det (setrow (E x) i (D i))).
Proof.
move=> H. rewrite -leibniz_exchange. rewrite /determinant. apply: isd_bigsum => s.
have X := isd_mult _ _ _ _ _ (isd_const ((-1) ^+ s : C) x) (@isd_bigprod n.+1 (fun i v => E v i (s i)) x (fun i => D i (s i)) (fun i => H i (s i))).
apply: isd_eq X. change ((0 : C) * (\prod_i E x i (s i)) + (-1) ^+ s * (\sum_i \prod_j (if j == i then D i (s i) else E x j (s j))) = 
   (-1) ^+ s * \sum_i \prod_j (if j == i then D i (s i) else E x j (s j))).
by rewrite mul0r add0r.
Qed.
Lemma ccat_bigsum N (I : Type) (r : list I) (f : I -> list R -> C) p : (forall i, ccat N (f i) p) -> ccat N (fun v => \sum_(i <- r) f i v) p.
Proof.
move=> H. elim: r => [|i r IH].
- move=> eps He. case: (ccat_const N (RtoC 0) p eps He) => d [Hd Q]. exists d; split=> // q Hq Hc. rewrite !big_nil. exact (Q q Hq Hc).
- move=> eps He. case: (ccat_plus _ _ _ _ (H i) IH eps He) => d [Hd Q]. exists d; split=> // q Hq Hc. rewrite !big_cons. exact (Q q Hq Hc).
Qed.
Lemma ccat_bigprod N (I : Type) (r : list I) (f : I -> list R -> C) p : (forall i, ccat N (f i) p) -> ccat N (fun v => \prod_(i <- r) f i v) p.
Proof.
move=> H. elim: r => [|i r IH].
- move=> eps He. case: (ccat_const N (RtoC 1) p eps He) => d [Hd Q]. exists d; split=> // q Hq Hc. rewrite !big_nil. exact (Q q Hq Hc).
- move=> eps He. case: (ccat_mult _ _ _ _ (H i) IH eps He) => d [Hd Q]. exists d; split=> // q Hq Hc. rewrite !big_cons. exact (Q q Hq Hc).
Qed.
Lemma ccat_det N n (E : list R -> 'M[C]_n.+1) p : (forall i j, ccat N (fun x => E x i j) p) -> ccat N (fun x => \det (E x)) p.
Proof.
move=> H. rewrite /determinant. apply: ccat_bigsum => s. apply: (ccat_mult _ (fun _ => ((-1) ^+ s : C))). exact: ccat_const.
by apply: ccat_bigprod.
Qed.
Lemma bigsum_csum m (f : nat -> C) : \sum_(i < m) f i = csum m f.
Proof. elim: m => [|m IH]; first by rewrite big_ord0. by rewrite big_ord_recr /= IH. Qed.
Lemma fst_csum m f : fst (csum m f) = rsum m (fun a => fst (f a)). Proof. elim: m => [|m IH] //=. by rewrite IH. Qed.
Lemma snd_csum m f : snd (csum m f) = rsum m (fun a => snd (f a)). Proof. elim: m => [|m IH] //=. by rewrite IH. Qed.
Lemma C_two (x : C) : x + x = 0 -> x = 0.
Proof. case: x => a b [A B]. apply: injective_projections => /=. move: A; clear; move=> A; Lra.lra. move: B; clear; move=> B; Lra.lra. Qed.
Lemma upd_same (p : list R) a : (Nat.lt a (length p)) -> upd a (List.nth a p 0%R) p = p.
Proof. elim: p a => [|u p IH] [|a] H //=; try (simpl in H; lia). rewrite IH //. simpl in H. lia. Qed.

Section Stokes.
Variable n : nat.
Variables (z : nat -> list R -> C) (J : nat -> nat -> list R -> C) (H : nat -> nat -> nat -> list R -> C).
Hypothesis Dz : forall j a p, Nat.lt j n -> Nat.lt a n.+1 -> in_cube n.+1 p -> isd (fun v => z j (upd a v p)) (List.nth a p 0%R) (J j a p).
Hypothesis DJ : forall j a b p, Nat.lt j n -> Nat.lt a n.+1 -> Nat.lt b n.+1 -> in_cube n.+1 p -> isd (fun v => J j b (upd a v p)) (List.nth a p 0%R) (H j a b p).
Hypothesis Hsym : forall j a b p, Nat.lt j n -> Nat.lt a n.+1 -> Nat.lt b n.+1 -> in_cube n.+1 p -> H j a b p = H j b a p.
Hypothesis Cz : forall j p, Nat.lt j n -> in_cube n.+1 p -> ccat n.+1 (z j) p.
Hypothesis CJ : forall j a p, Nat.lt j n -> Nat.lt a n.+1 -> in_cube n.+1 p -> ccat n.+1 (J j a) p.
Hypothesis CH : forall j a b p, Nat.lt j n -> Nat.lt a n.+1 -> Nat.lt b n.+1 -> in_cube n.+1 p -> ccat n.+1 (H j a b) p.
Hypothesis Face : forall j b p, Nat.lt j n -> Nat.lt b n.+1 -> b <> j.+1 -> in_cube n.+1 p -> List.nth j.+1 p 0%R = 0%R \/ List.nth j.+1 p 0%R = 1%R -> J j b p = RtoC 0.
Variables (G : list C -> C) (DG : nat -> list C -> C).
Definition zv (p : list R) : list C := List.map (fun j => z j p) (List.seq 0 n).
Hypothesis HG : forall p, in_cube n.+1 p -> holomorphic_at n G DG (zv p).

Definition Jm (p : list R) (r c : nat) : C := match r with O => (c == 0%nat)%:R | S j => J j c p end.
Definition Mx (p : list R) : 'M[C]_n.+1 := \matrix_(r, c) Jm p r c.
Definition DJm (a : nat) (p : list R) (r c : nat) : C := match r with O => 0 | S j => H j a c p end.
Definition ha (a : nat) (p : list R) : C := G (zv p) * \det (setrow (Mx p) ord0 (@unit_row C_comRingType n (inord a))).
Definition grad (p : list R) (r : nat) : C := match r with O => 0 | S j => DG j (zv p) end.
Definition da (a : nat) (p : list R) : C :=
  (\sum_(r < n.+1) grad p r * Jm p r a) * \det (setrow (Mx p) ord0 (@unit_row C_comRingType n (inord a))) +
  G (zv p) * \sum_(i < n.+1) (if i == ord0 then 0 else \det (setrow (setrow (Mx p) i (fun b => DJm a p i b)) ord0 (@unit_row C_comRingType n (inord a)))).
Lemma ordlt m (i : 'I_m) : Nat.lt i m. Proof. apply/ssrnat.ltP. exact: ltn_ord. Qed.
Lemma ltb a m : Nat.lt a m -> (a < m)%nat. Proof. by move=> h; apply/ssrnat.ltP. Qed.
Lemma isd_ha a p : Nat.lt a n.+1 -> in_cube n.+1 p -> isd (fun v => ha a (upd a v p)) (List.nth a p 0%R) (da a p).
Proof.
move=> Ha Hp. set x := List.nth a p 0%R.
have Ep : upd a x p = p by apply: upd_same; rewrite (proj1 Hp).
have D1 : isd (fun v => G (zv (upd a v p))) x (\sum_(r < n.+1) grad p r * Jm p r a).
  have := @isd_chain n G DG (fun j v => z j (upd a v p)) x (fun j => J j a p).
  rewrite /= -/x. have -> : List.map (fun j => z j (upd a x p)) (List.seq 0 n) = zv p by rewrite Ep.
  move=> /(_ (HG Hp) (fun j Hj => Dz Hj Ha Hp)). apply: isd_eq.
  rewrite big_ord_recl /= mul0r add0r -bigsum_csum. by [].
have Hb (b : 'I_n.+1) : Nat.lt b n.+1 := ordlt b.
set D := fun (i b : 'I_n.+1) => if i == ord0 then (0 : C) else DJm a p i b.
have D2 : isd (fun v => \det (setrow (Mx (upd a v p)) ord0 (@unit_row C_comRingType n (inord a)))) x
   (\sum_i \det (setrow (setrow (Mx p) ord0 (@unit_row C_comRingType n (inord a))) i (D i))).
  have := @isd_det n (fun v => setrow (Mx (upd a v p)) ord0 (@unit_row C_comRingType n (inord a))) x D.
  rewrite /= Ep. apply=> i j. rewrite /D.
  case: (unliftP ord0 i) => [k ->|->].
  - rewrite eq_sym (negbTE (neq_lift _ _)). 
    have X := @DJ k a j p (ordlt k) Ha (ordlt j) Hp.
    apply: isd_ext X => v. by rewrite !mxE eq_sym (negbTE (neq_lift _ _)).
  - rewrite eqxx. apply: isd_ext (isd_const (@unit_row C_comRingType n (inord a) j) x) => v. by rewrite !mxE eqxx.
have := isd_mult _ _ _ _ _ D1 D2. rewrite Ep. apply: isd_eq.
rewrite /da; congr (_ + _). 
change (G (zv p) * (\sum_i \det (setrow (setrow (Mx p) ord0 (@unit_row C_comRingType n (inord a))) i (D i))) =
  G (zv p) * \sum_(i < n.+1) (if i == ord0 then 0 else \det (setrow (setrow (Mx p) i (fun b => DJm a p i b)) ord0 (@unit_row C_comRingType n (inord a))))).
congr (_ * _). apply: eq_bigr => i _. rewrite /D. case: eqP => [->|/eqP Ne].
- rewrite det_setrow; apply: big1 => b _; by rewrite mul0r.
- congr (\det _). apply/matrixP => r c; rewrite !mxE. case: (eqVneq r i) => [->|] //. by rewrite (negbTE Ne).
Qed.
Lemma cont_G p : in_cube n.+1 p -> ccat n.+1 (fun x => G (zv x)) p.
Proof. move=> Hp. apply: ccat_comp. apply: holo_cont; exact: (HG Hp). by move=> j Hj; apply: Cz. Qed.
Lemma cont_M p (i b : 'I_n.+1) : in_cube n.+1 p -> ccat n.+1 (fun x => Jm x i b) p.
Proof.
move=> Hp. case: i => [[|j] Hj] /=; first exact: ccat_const. apply: CJ => //. apply/ssrnat.ltP. exact: Hj. exact: ordlt.
Qed.
Lemma cont_D a p : in_cube n.+1 p -> ccat n.+1 (fun x => \det (setrow (Mx x) ord0 (@unit_row C_comRingType n (inord a)))) p.
Proof.
move=> Hp. apply: ccat_det => i j. case E : (i == ord0).
- apply: ccat_ext (ccat_const _ (@unit_row C_comRingType n (inord a) j) p) => // x _. by rewrite !mxE E.
- apply: ccat_ext (cont_M i j Hp) => // x _. by rewrite !mxE E.
Qed.
Lemma cont_ha a p : in_cube n.+1 p -> ccat n.+1 (ha a) p.
Proof. move=> Hp. apply: ccat_mult; [exact: cont_G|exact: cont_D]. Qed.
Lemma cont_da a p : Nat.lt a n.+1 -> in_cube n.+1 p -> ccat n.+1 (da a) p.
Proof.
move=> Ha Hp. have CG := cont_G Hp. have CM i b := cont_M i b Hp. have CD := cont_D a Hp.
rewrite /da. apply: ccat_plus.
- apply: ccat_mult => //. apply: ccat_bigsum => r. apply: ccat_mult.
  + case: r => [[|j] Hj] /=; first exact: ccat_const. apply: (@ccat_comp n.+1 n (DG j) z p).
    * apply: (proj2 (HG Hp)). apply/ssrnat.ltP. exact: Hj.
    * by move=> i Hi; apply: Cz.
  + have := CM r (inord a). by rewrite inordK //; apply: ltb.
- apply: ccat_mult => //. apply: ccat_bigsum => i. case E : (i == ord0); first exact: ccat_const.
  apply: ccat_det => r c. case E' : (r == ord0).
  + apply: ccat_ext (ccat_const _ (@unit_row C_comRingType n (inord a) c) p) => // x _. by rewrite !mxE E'.
  + case E2 : (r == i).
    * have X : ccat n.+1 (fun x => DJm a x i c) p.
        case: i {E E2} => [[|j] Hj] /=; first exact: ccat_const. apply: CH => //. apply/ssrnat.ltP. exact: Hj. exact: ordlt.
      apply: ccat_ext X => // x _. by rewrite !mxE E' E2.
    * apply: ccat_ext (CM r c) => // x _. by rewrite !mxE E' E2.
Qed.
Lemma div_zero p : in_cube n.+1 p -> csum n.+1 (fun a => da a p) = RtoC 0.
Proof.
move=> Hp. rewrite -bigsum_csum /da big_split /= -[RHS]addr0; congr (_ + _).
- have := @div_gradient C_comRingType n (Mx p) ord0 (fun r => grad p r) erefl.
  move=> X. rewrite -[RHS]X. apply: eq_bigr => a _. congr (_ * _).
  + apply: eq_bigr => s _. by rewrite !mxE.
  + by rewrite inord_val.
- rewrite -mulr_sumr exchange_big /= big1 ?mulr0 // => i _. case E : (i == ord0); first by rewrite big1.
  have X := @div_hessian C_comRingType n (Mx p) ord0 i (fun a b => DJm a p i b).
  rewrite -[RHS]X.
  + apply: eq_bigr => a _. by rewrite inord_val.
  + by rewrite eq_sym E.
  + move=> a b. case: i {X} E => [[|j] Hj] //= _. apply: Hsym => //; try exact: ordlt. apply/ssrnat.ltP. exact: Hj.
  + exact: C_two.
Qed.
Lemma face_zero a p : Nat.lt 0 a -> Nat.lt a n.+1 -> in_cube n.+1 p -> List.nth a p 0%R = 0%R \/ List.nth a p 0%R = 1%R -> ha a p = RtoC 0.
Proof.
case: a => [|j] Ha0 Ha Hp Hf; first lia. have Hj : Nat.lt j n by lia. rewrite /ha.
have lj : (j.+1 < n.+1)%nat by apply: ltb.
rewrite (@face C_comRingType n (Mx p) ord0 (inord j.+1) (J j j.+1 p)) ?mulr0 //.
- apply/eqP => /(congr1 (@nat_of_ord _)). by rewrite inordK.
- move=> b. rewrite mxE inordK // /=. rewrite /unit_row. case: (eqVneq b (inord j.+1)) => [->|Ne].
  + by rewrite inordK // mulr1.
  + rewrite mulr0. apply: Face => //; first exact: ordlt. move=> E. move/eqP: Ne; apply. apply: val_inj => /=. by rewrite E inordK.
Qed.
Definition detJ (p : list R) : C := \det (\matrix_(i < n, j < n) J i j.+1 p).
Lemma ha0 p : ha 0 p = G (zv p) * detJ p.
Proof.
rewrite /ha /detJ. have -> : (inord 0 : 'I_n.+1) = ord0 by apply: ord_inj; rewrite inordK.
rewrite det_block; congr (_ * \det _). apply/matrixP => i j. by rewrite !mxE.
Qed.
Lemma minus_cube f : continuous_on_cube n.+1 f -> cube_integral n (fun xs => f (1%R :: xs) - f (0%R :: xs))%R = 0%R ->
  cube_integral n (fun xs => f (1%R :: xs)) = cube_integral n (fun xs => f (0%R :: xs)).
Proof.
move=> Cf E.
have S1 : continuous_on_cube n (fun xs => f (1%R :: xs)) by apply: TransProofs.slice => //; split; Lra.lra.
have S0 : continuous_on_cube n (fun xs => f (0%R :: xs)) by apply: TransProofs.slice => //; split; Lra.lra.
have SM : continuous_on_cube n (fun xs => f (1%R :: xs) - f (0%R :: xs))%R.
  move=> eps He. case: (S1 (eps / 2)%R) => [|d [Hd Q]]; first Lra.lra. case: (S0 (eps / 2)%R) => [|e [Hpe Q']]; first Lra.lra.
  exists (Rmin d e). split; first exact: Rmin_glb_lt. move=> x y Hx Hy Hxy.
  have := Q x y Hx Hy (F2_weaken _ _ _ _ (Rmin_l d e) Hxy). have := Q' x y Hx Hy (F2_weaken _ _ _ _ (Rmin_r d e) Hxy).
  have -> : (f (1%R :: x) - f (0%R :: x) - (f (1%R :: y) - f (0%R :: y)) = (f (1%R :: x) - f (1%R :: y)) + - (f (0%R :: x) - f (0%R :: y)))%R by ring.
  move=> A B. apply: Rle_lt_trans (Rabs_triang _ _) _. rewrite Rabs_Ropp. Lra.lra.
have := @cube_plus n _ _ SM S0. rewrite E Rplus_0_l => <-. apply: cube_ext => x _. ring.
Qed.
Theorem deformed_integral : ccube_integral n (fun x => Cmult (detJ (1%R :: x)) (G (zv (1%R :: x)))) = ccube_integral n (fun x => Cmult (detJ (0%R :: x)) (G (zv (0%R :: x)))).
Proof.
have CA a : Nat.lt a n.+1 -> continuous_on_cube n.+1 (fun p => fst (da a p)) /\ continuous_on_cube n.+1 (fun p => snd (da a p)).
  move=> Ha. apply: ccat_coc => p Hp. exact: cont_da.
have C0 : continuous_on_cube n.+1 (fun p => fst (ha 0 p)) /\ continuous_on_cube n.+1 (fun p => snd (ha 0 p)).
  apply: ccat_coc => p Hp. exact: cont_ha.
have E x : Cmult (detJ x) (G (zv x)) = ha 0 x by rewrite ha0 mulrC.
have X1 := @stokes_cube n (fun a p => fst (ha a p)) (fun a p => fst (da a p)).
have X2 := @stokes_cube n (fun a p => snd (ha a p)) (fun a p => snd (da a p)).
rewrite /ccube_integral; apply: (f_equal2 pair).
- transitivity (cube_integral n (fun x => fst (ha 0 (1%R :: x)))); first by apply: cube_ext => x _; rewrite E.
  transitivity (cube_integral n (fun x => fst (ha 0 (0%R :: x)))); last by apply: cube_ext => x _; rewrite E.
  apply: (minus_cube (proj1 C0)). apply: X1.
  + move=> a Ha. exact: (proj1 (CA a Ha)).
  + move=> a Ha p Hp. exact: (proj1 (isd_ha Ha Hp)).
  + move=> a [Ha0 Ha] p Hp Hf. by rewrite (face_zero Ha0 Ha Hp Hf).
  + move=> p Hp. by rewrite -(fst_csum n.+1 (fun a => da a p)) div_zero.
- transitivity (cube_integral n (fun x => snd (ha 0 (1%R :: x)))); first by apply: cube_ext => x _; rewrite E.
  transitivity (cube_integral n (fun x => snd (ha 0 (0%R :: x)))); last by apply: cube_ext => x _; rewrite E.
  apply: (minus_cube (proj2 C0)). apply: X2.
  + move=> a Ha. exact: (proj2 (CA a Ha)).
  + move=> a Ha p Hp. exact: (proj2 (isd_ha Ha Hp)).
  + move=> a [Ha0 Ha] p Hp Hf. by rewrite (face_zero Ha0 Ha Hp Hf).
  + move=> p Hp. by rewrite -(snd_csum n.+1 (fun a => da a p)) div_zero.
Qed.
End Stokes.
