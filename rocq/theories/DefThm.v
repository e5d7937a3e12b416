(** The deformed integrand of the model has the integral of the undeformed one. *)
From mathcomp Require Import all_ssreflect all_algebra perm.
From Coq Require Import Reals Lia.
From Verif Require Import PolyModel PolySpec DetModel DetProofs CplxField DefSpec DefCont DefModel DefPoly DefHolo DefMain DefAna.
From Coquelicot Require Import Coquelicot.
From Verif Require Import DefRing DefAlg DefStokes.
Set Implicit Arguments. Unset Strict Implicit. Unset Printing Implicit Defensive.
Import GRing.Theory.
Local Open Scope ring_scope.
Lemma nth_map_seq (A : Type) (d : A) (f : nat -> A) n i : Nat.lt i n -> List.nth i (List.map f (List.seq 0 n)) d = f i.
Proof. move=> H. rewrite (List.nth_indep _ d (f 0%nat)); last by rewrite List.map_length List.seq_length. by rewrite List.map_nth List.seq_nth. Qed.
Lemma entry_jac n F lam x i j : Nat.lt i n -> Nat.lt j n -> entry (RtoC 0) (contourdef_Jacobian n F lam x) i j = deval x (dderive j (deformed_variable n F lam i)).
Proof. move=> Hi Hj. rewrite /entry /contourdef_Jacobian (nth_map_seq _ _ Hi) (nth_map_seq _ _ Hj). by []. Qed.
Lemma code_det n F lam x : Nat.lt 0 n -> contourdef_Jacobian_determinant n F lam x = Some (\det (\matrix_(i < n, j < n) deval x (dderive j (deformed_variable n F lam i)))).
Proof.
case: n => [|n] Hn; first lia. rewrite /contourdef_Jacobian_determinant.
set M := contourdef_Jacobian n.+1 F lam x.
have LM : length M = n.+1 by rewrite /M /contourdef_Jacobian List.map_length List.seq_length.
have RM r : List.In r M -> length r = n.+1. { rewrite /M /contourdef_Jacobian List.in_map_iff => [[i [<- _]]]. by rewrite List.map_length List.seq_length. }
have := @det_is_det C_comRingType M.
change (det 0 (fun x y : C => x + y) (fun x y : C => x - y) (fun x y : C => x * y) M) with (det (RtoC 0) Cplus Cminus Cmult M).
case: (det _ _ _ _ M) => [d [m [HL [HF ->]]]|[E|[r [Hr HN]]]].
- rewrite LM in HL. have E : m = n by lia. subst m. congr (Some _). congr (\det _). apply/matrixP => i j. rewrite !mxE. exact: (entry_jac F lam x (ordlt i) (ordlt j)).
- rewrite E /= in LM. lia.
- case: HN. rewrite LM. exact: RM.
Qed.
Section T.
Variables (n : nat) (F : cpoly) (lam : list R) (p : nat -> nat) (rest : list C -> C) (Drest : nat -> list C -> C) (g : nat -> list R -> R).
Hypothesis Hn : Nat.lt 0 n.
Hypothesis PF : proper n F.
Hypothesis Hg : forall k x, Nat.lt k n -> in_cube n x -> is_derive (fun v => fst (peval F (List.map RtoC (upd k v x)) : C)) (List.nth k x 0%R) (g k x).
Hypothesis Hrest : forall t x, (0 <= t <= 1)%R -> in_cube n x -> holomorphic_at n rest Drest (contour n g lam t x).
Let z (j : nat) (q : list R) : C := ev q (zpe n F lam j).
Let J (j a : nat) (q : list R) : C := ev q (dv a (zpe n F lam j)).
Let H (j a b : nat) (q : list R) : C := ev q (dv a (dv b (zpe n F lam j))).
Lemma gE k x : Nat.lt k n -> in_cube n x -> g k x = gm F k x.
Proof. move=> Hk Hx. apply: (@gm_unique n F PF) => //. exact: (proj1 Hx). exact: Hg. Qed.
Lemma zv_contour t x : in_cube n x -> zv n z (t :: x) = contour n g lam t x.
Proof.
move=> Hx. rewrite /zv /contour. apply: List.map_ext_in => k /List.in_seq Hk.
rewrite /z zpe_val //; [|lia|exact: (proj1 Hx)]. rewrite gE //. lia.
Qed.
Lemma cube_inv q : in_cube n.+1 q -> exists t x, q = t :: x /\ (0 <= t <= 1)%R /\ in_cube n x.
Proof.
case=> L A. case: q L A => [|t x] // L A. exists t, x. inversion A; subst. split; [by []|split; [by []|split; [|by []]]]. simpl in L. lia.
Qed.
Lemma point_contour x : in_cube n x -> deformed_point n F lam x = contour n g lam 1%R x.
Proof.
move=> Hx. rewrite /deformed_point /contour. apply: List.map_ext_in => k /List.in_seq Hk.
rewrite eval_deformed //; [|lia|exact: (proj1 Hx)]. rewrite gE //; last by lia. apply: injective_projections => /=; ring.
Qed.
Lemma cpt_contour t x k : Nat.lt k n -> cpt (contour n g lam t x) k = (List.nth k x 0%R, (- (t * List.nth k lam 0 * List.nth k x 0 * (1 - List.nth k x 0) * g k x))%R).
Proof. move=> Hk. by rewrite /contour cpt_map. Qed.
Lemma contour0 x : in_cube n x -> contour n g lam 0%R x = List.map RtoC x.
Proof.
move=> Hx. apply: (List.nth_ext _ _ (RtoC 0) (RtoC 0)); first by rewrite /contour !List.map_length List.seq_length (proj1 Hx).
move=> k. rewrite /contour List.map_length List.seq_length => Hk. rewrite nth_map_seq // nth_mapR. apply: injective_projections => /=; ring.
Qed.
Lemma split_monomial x : in_cube n x ->
  Cmult (monomials n (fun k w => cpow w (p k)) x) (additional_deformation_factor n F lam (fun k w => cpow w (p k)) x) = cmonomial n p (deformed_point n F lam x).
Proof.
move=> Hx. rewrite /monomials /additional_deformation_factor cprod_mult cmonomial_cprod. apply: cprod_ext => k Hk.
rewrite -cpow_mult point_contour // cpt_contour // eval_factor //; last exact: (proj1 Hx). congr (cpow _ _).
rewrite gE //. apply: injective_projections => /=; ring.
Qed.
Theorem main : (forall x, in_cube n x -> exists v, deformed_integrand n F lam (fun k w => cpow w (p k)) rest x = Some v) /\
  ccube_integral n (fun x => value (deformed_integrand n F lam (fun k w => cpow w (p k)) rest x)) =
  ccube_integral n (fun x => Cmult (cmonomial n p (List.map RtoC x)) (rest (List.map RtoC x))).
Proof.
case: (holo_monomial n p n (le_n n)) => Dm HDm.
set G := fun w => Cmult (cmonomial n p w) (rest w).
set DG := fun j w => Cplus (Cmult (Dm j w) (rest w)) (Cmult (cmonomial n p w) (Drest j w)).
have HG q : in_cube n.+1 q -> holomorphic_at n G DG (zv n z q).
  move=> Hq. case: (cube_inv Hq) => t [x [-> [Ht Hx]]]. rewrite zv_contour //. apply: holo_mult => //. exact: Hrest.
have M := @deformed_integral n z J H.
have VAL x : in_cube n x -> deformed_integrand n F lam (fun k w => cpow w (p k)) rest x =
    Some (Cmult (detJ n J (1%R :: x)) (G (zv n z (1%R :: x)))).
  move=> Hx. rewrite /deformed_integrand /cal_I code_det // zv_contour // -point_contour // /G -split_monomial //. congr (Some _).
  have -> : \det (\matrix_(i < n, j < n) deval x (dderive j (deformed_variable n F lam i))) = detJ n J (1%R :: x).
    rewrite /detJ. congr (\det _). apply/matrixP => i j. rewrite !mxE /J zpe_jac1 //; try exact: ordlt. exact: (proj1 Hx).
  set A := detJ n J _. set B := monomials _ _ _. set D := additional_deformation_factor _ _ _ _ _. set E := rest _. change (Cmult B (Cmult (Cmult A D) E) = Cmult A (Cmult (Cmult B D) E)). ring.
split; first by move=> x Hx; exists (Cmult (detJ n J (1%R :: x)) (G (zv n z (1%R :: x)))); exact: VAL.
have EX f f' : (forall x, in_cube n x -> f x = f' x) -> ccube_integral n f = ccube_integral n f'.
  move=> E. rewrite /ccube_integral. apply: (f_equal2 pair); apply: cube_ext => x Hx; by rewrite E.
rewrite (EX _ (fun x => Cmult (detJ n J (1%R :: x)) (G (zv n z (1%R :: x))))); last by move=> x Hx; rewrite VAL.
rewrite [RHS](EX _ (fun x => Cmult (detJ n J (0%R :: x)) (G (zv n z (0%R :: x))))).
- apply: (M _ _ _ _ _ _ _ G DG HG).
  + move=> j a q Hj Ha Hq. apply: ev_isd. by rewrite (proj1 Hq).
  + move=> j a b q Hj Ha Hb Hq. apply: (ev_isd (dv b (zpe n F lam j))). by rewrite (proj1 Hq).
  + move=> j a b q _ _ _ _. exact: ev_sym.
  + move=> j q _ Hq. exact: ev_ccat.
  + move=> j a q _ _ Hq. exact: ev_ccat.
  + move=> j a b q _ _ _ Hq. exact: ev_ccat.
  + move=> j b q Hj Hb Nb Hq Hf. exact (@zpe_face n F lam PF j b q Hj Hb Nb Hq Hf).
- move=> x Hx. rewrite zv_contour // contour0 // /G.
  have -> : detJ n J (0%R :: x) = RtoC 1; last first.
    set A := cmonomial _ _ _. set B := rest _. change (Cmult A B = Cmult (RtoC 1) (Cmult A B)). ring.
  rewrite /detJ. have -> : (\matrix_(i < n, j < n) J i j.+1 (0%R :: x)) = 1%:M; last by rewrite det1.
  apply/matrixP => i j. rewrite !mxE /J zpe_jac0 //; try exact: ordlt; last exact: (proj1 Hx).
  case: (Nat.eqb_spec j i) => E.
  + have -> : i = j by apply: ord_inj. by rewrite eqxx.
  + case: eqP => // E'. case: E. by rewrite E'.
Qed.
End T.
