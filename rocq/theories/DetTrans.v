(** The determinant of DetModel over the integers does not change under transposition. *)
From Coq Require Import ZArith.
From mathcomp Require Import all_ssreflect all_algebra.
From Coq Require Import Lia.
From Verif Require Import PolyModel DetModel DetProofs GeoModel.
Set Implicit Arguments. Unset Strict Implicit. Unset Printing Implicit Defensive.
Import GRing.Theory.

Definition toZ (i : int) : Z := match i with Posz n => Z.of_nat n | Negz n => Z.opp (Z.of_nat n.+1) end.
Definition ofZ (z : Z) : int := match z with Z0 => Posz 0 | Zpos p => Posz (Pos.to_nat p) | Zneg p => Negz (Pos.to_nat p).-1 end.
Lemma toZ_ofZ z : toZ (ofZ z) = z.
Proof.
case: z => [|p|p] //=; first by rewrite positive_nat_Z.
have H := Pos2Nat.is_pos p. have : (Pos.to_nat p).-1.+1 = Pos.to_nat p by lia.
by lia.
Qed.
Lemma toZ_opp i : toZ (- i)%R = Z.opp (toZ i).
Proof. by case: i => [[|n]|n]. Qed.
Lemma toZ_add i j : toZ (i + j)%R = Z.add (toZ i) (toZ j).
Proof.
case: i => m; case: j => n.
- change (Z.of_nat (Nat.add m n) = Z.add (Z.of_nat m) (Z.of_nat n)). lia.
- change (toZ (if leq n.+1 m then Posz (subn m n.+1) else Negz (subn n m)) = Z.add (Z.of_nat m) (Z.opp (Z.of_nat n.+1))).
  case: leqP => /leP H; [change (Z.opp (Z.of_nat (S (Nat.sub n m))) = Z.add (Z.of_nat m) (Z.opp (Z.of_nat n.+1)))|change (Z.of_nat (Nat.sub m n.+1) = Z.add (Z.of_nat m) (Z.opp (Z.of_nat n.+1)))]; lia.
- change (toZ (if leq m.+1 n then Posz (subn n m.+1) else Negz (subn m n)) = Z.add (Z.opp (Z.of_nat m.+1)) (Z.of_nat n)).
  case: leqP => /leP H; [change (Z.opp (Z.of_nat (S (Nat.sub m n))) = Z.add (Z.opp (Z.of_nat m.+1)) (Z.of_nat n))|change (Z.of_nat (Nat.sub n m.+1) = Z.add (Z.opp (Z.of_nat m.+1)) (Z.of_nat n))]; lia.
- change (Z.opp (Z.of_nat (S (S (Nat.add m n)))) = Z.add (Z.opp (Z.of_nat m.+1)) (Z.opp (Z.of_nat n.+1))). lia.
Qed.
Lemma toZ_sub i j : toZ (i - j)%R = Z.sub (toZ i) (toZ j).
Proof. by rewrite toZ_add toZ_opp. Qed.
Lemma toZ_mul i j : toZ (i * j)%R = Z.mul (toZ i) (toZ j).
Proof.
have Hp : forall m n : nat, toZ (Posz (muln m n)) = Z.mul (Z.of_nat m) (Z.of_nat n) by move=> m n /=; rewrite -Nat2Z.inj_mul.
case: i => m; case: j => n; rewrite /GRing.mul /=.
- exact: Hp.
- change (toZ (- Posz (muln m n.+1))%R = Z.mul (Z.of_nat m) (Z.opp (Z.of_nat n.+1))). rewrite toZ_opp Hp. lia.
- change (toZ (- Posz (muln n m.+1))%R = Z.mul (Z.opp (Z.of_nat m.+1)) (Z.of_nat n)). rewrite toZ_opp Hp. lia.
- change (toZ (Posz (muln m.+1 n.+1)) = Z.mul (Z.opp (Z.of_nat m.+1)) (Z.opp (Z.of_nat n.+1))). rewrite Hp. lia.
Qed.
Section Hom.
Variables (A B : Type) (zA : A) (addA subA mulA : A -> A -> A) (zB : B) (addB subB mulB : B -> B -> B) (h : A -> B).
Hypotheses (h0 : h zA = zB) (hadd : forall a b, h (addA a b) = addB (h a) (h b)) (hsub : forall a b, h (subA a b) = subB (h a) (h b))
  (hmul : forall a b, h (mulA a b) = mulB (h a) (h b)).
Lemma entry_hom M i j : entry zB (List.map (List.map h) M) i j = h (entry zA M i j).
Proof.
rewrite /entry. have -> : List.nth i (List.map (List.map h) M) [::] = List.map h (List.nth i M [::]) by rewrite (List.map_nth (List.map h) M [::] i).
by rewrite -h0 List.map_nth.
Qed.
Lemma delete_hom i (l : list A) : delete_nth i (List.map h l) = List.map h (delete_nth i l).
Proof. elim: l i => [|a l IH] [|i] //=. by rewrite IH. Qed.
Lemma minor_hom i M : minor i (List.map (List.map h) M) = List.map (List.map h) (minor i M).
Proof. rewrite /minor. case: M => [|r M] //=. rewrite !List.map_map. apply: List.map_ext => l. exact: delete_hom. Qed.
Lemma fold_hom (tA : nat -> A) (tB : nat -> B) l : (forall i, tB i = h (tA i)) -> forall a,
  List.fold_left (add_term addB subB tB) l (h a) = h (List.fold_left (add_term addA subA tA) l a).
Proof. move=> Ht. elim: l => [|i l IH] a //=. rewrite -IH /add_term Ht. by case: (Nat.even i); rewrite ?hadd ?hsub. Qed.
Lemma det_rec_hom D : forall M, det_rec zB addB subB mulB D (List.map (List.map h) M) = h (det_rec zA addA subA mulA D M).
Proof.
elim: D => [|D IH] M; first by rewrite /= h0. case: D IH => [|D] IH; first exact: entry_hom.
change (det_rec zB addB subB mulB D.+2 (List.map (List.map h) M)) with
 (let term i := mulB (entry zB (List.map (List.map h) M) 0 i) (det_rec zB addB subB mulB D.+1 (minor i (List.map (List.map h) M))) in
  List.fold_left (add_term addB subB term) (List.seq 1 D.+1) (term 0)).
change (det_rec zA addA subA mulA D.+2 M) with
 (let term i := mulA (entry zA M 0 i) (det_rec zA addA subA mulA D.+1 (minor i M)) in
  List.fold_left (add_term addA subA term) (List.seq 1 D.+1) (term 0)).
cbv zeta.
have Ht : forall i, mulB (entry zB (List.map (List.map h) M) 0 i) (det_rec zB addB subB mulB D.+1 (minor i (List.map (List.map h) M)))
   = h (mulA (entry zA M 0 i) (det_rec zA addA subA mulA D.+1 (minor i M))) by move=> i; rewrite hmul entry_hom minor_hom IH.
by rewrite Ht (fold_hom _ Ht).
Qed.
End Hom.

Definition detZ := det_rec Z0 Z.add Z.sub Z.mul.
Lemma detZ_int D (M : list (list Z)) : detZ D M = toZ (det_rec (0 : int)%R (fun x y => x + y)%R (fun x y => x - y)%R (fun x y => x * y)%R D (List.map (List.map ofZ) M)).
Proof.
rewrite -(@det_rec_hom int Z 0%R (fun x y => x + y)%R (fun x y => x - y)%R (fun x y => x * y)%R Z0 Z.add Z.sub Z.mul toZ erefl toZ_add toZ_sub toZ_mul).
congr (detZ _ _). rewrite List.map_map. rewrite -[LHS]List.map_id. apply: List.map_ext => r. rewrite List.map_map -[LHS]List.map_id. apply: List.map_ext => z. by rewrite toZ_ofZ.
Qed.
Lemma entry_ofZ M i j : entry (0 : int)%R (List.map (List.map ofZ) M) i j = ofZ (entry Z0 M i j).
Proof. exact: (@entry_hom Z int Z0 0%R ofZ erefl). Qed.
Lemma detZ_transpose n (M : list (list Z)) : length M = n -> detZ n (transposeZ n M) = detZ n M.
Proof.
case: n => [|n] HL //. rewrite !detZ_int. congr toZ. rewrite !det_rec_correct -det_tr. congr (\det _)%R.
apply/matrixP => i j. rewrite !mxE !entry_ofZ. congr ofZ. rewrite /entry /transposeZ.
have Hj : lt j n.+1 by apply/ltP. have Hi : lt i n.+1 by apply/ltP.
rewrite (@List.nth_indep _ _ j [::] (colZ O M)); last by rewrite List.map_length List.seq_length.
rewrite (List.map_nth (fun j => colZ j M)) List.seq_nth //= /colZ.
rewrite (@List.nth_indep _ _ i Z0 (getZ j [::])); last by rewrite List.map_length HL.
by rewrite (List.map_nth (getZ j)).
Qed.
