(** The deformed variables of the model: values, derivatives, faces. *)
From Coq Require Import Lia Lra.
From Verif Require Import PolyModel PolySpec DetModel CplxField DefSpec DefCont DefModel DefPoly DefHolo.
From Coquelicot Require Import Coquelicot.
Local Open Scope R_scope.
Lemma meval_zrow n (x : list C) : @meval C_Fld (zrow n) x = RtoC 1.
Proof. revert x. induction n as [|n IH]; intros [|a x]; try reflexivity. change (zrow (S n)) with (0%Z :: zrow n). cbn [meval zpow]. rewrite IH. change (Cmult (RtoC 1) (RtoC 1) = RtoC 1). ring. Qed.
Lemma meval_unit n k (x : list C) : (k < n)%nat -> length x = n -> @meval C_Fld (upd k 1%Z (zrow n)) x = nth k x (RtoC 0).
Proof.
  revert k x. induction n as [|n IH]; intros k [|a x] Hk L; try lia; try discriminate. change (zrow (S n)) with (0%Z :: zrow n). destruct k as [|k]; cbn [upd meval nth].
  - rewrite meval_zrow. change (Cmult (Cmult a (RtoC 1)) (RtoC 1) = a). ring.
  - rewrite IH by (cbn in L; lia). cbn [zpow]. match goal with |- @eq _ (fmul _ ?w) _ => change (Cmult (RtoC 1) w = w) end. ring.
Qed.
Lemma nth_mapR k (x : list R) : nth k (map RtoC x) (RtoC 0) = RtoC (nth k x 0).
Proof. exact (map_nth RtoC x 0 k). Qed.
Lemma eval_mono n k c x : (k < n)%nat -> length x = n -> peval (mono n k c) (map RtoC x) = Cmult c (RtoC (nth k x 0)).
Proof.
  intros Hk L. unfold peval, mono. cbn [ptm map sumF fst snd]. rewrite meval_unit by (try rewrite map_length; assumption). rewrite nth_mapR. change (Cplus (Cmult c (RtoC (nth k x 0))) (RtoC 0) = Cmult c (RtoC (nth k x 0))). ring.
Qed.
Lemma eval_one_minus n k x : (k < n)%nat -> length x = n -> peval (one_minus n k) (map RtoC x) = RtoC (1 - nth k x 0).
Proof.
  intros Hk L. unfold peval, one_minus. cbn [ptm map sumF fst snd]. rewrite meval_unit by (try rewrite map_length; assumption). rewrite meval_zrow, nth_mapR.
  change (Cplus (Cmult (RtoC (-1)) (RtoC (nth k x 0))) (Cplus (Cmult (RtoC 1) (RtoC 1)) (RtoC 0)) = RtoC (1 - nth k x 0)). apply injective_projections; cbn; ring.
Qed.
Lemma eval_const n c x : peval (pconst n (c : C_Fld)) (map RtoC x) = c.
Proof. unfold peval, pconst. cbn [ptm map sumF fst snd]. rewrite meval_zrow. change (Cplus (Cmult c (RtoC 1)) (RtoC 0) = c). ring. Qed.
Lemma zrow_nonneg n : List.Forall (fun e => (0 <= e)%Z) (zrow n).
Proof. apply Forall_forall. intros k Hk. apply repeat_spec in Hk. lia. Qed.
Lemma unit_nonneg n k : List.Forall (fun e => (0 <= e)%Z) (upd k 1%Z (zrow n)).
Proof. revert k. induction n as [|n IH]; intros [|k]; try constructor; try lia; [apply zrow_nonneg|apply IH]. Qed.
Lemma proper_mono n k c : proper n (mono n k c).
Proof. split; [reflexivity|]. split; (constructor; [|constructor]); cbn [fst]; [rewrite upd_len; apply repeat_length|apply unit_nonneg]. Qed.
Lemma proper_one_minus n k : proper n (one_minus n k).
Proof. split; [reflexivity|]. split; (constructor; [|constructor; [|constructor]]); cbn [fst]; try (rewrite ?upd_len; apply repeat_length); [apply unit_nonneg|apply zrow_nonneg]. Qed.
Lemma getZ_unit n k b : getZ b (upd k 1%Z (zrow n)) = if (Nat.eqb b k && Nat.ltb k n)%bool then 1%Z else 0%Z.
Proof.
  unfold getZ. revert k b. induction n as [|n IH]; intros k b; [destruct k, b; cbn; try reflexivity; rewrite andb_false_r; reflexivity|].
  change (zrow (S n)) with (0%Z :: zrow n). destruct k as [|k], b as [|b]; cbn [upd nth]; try reflexivity.
  - unfold zrow. rewrite nth_repeat. reflexivity.
  - rewrite IH. reflexivity.
Qed.
Lemma getZ_zrow n b : getZ b (zrow n) = 0%Z. Proof. apply nth_repeat. Qed.
Lemma deriv_mono_other n k b c x : b <> k -> peval (pderive (mono n k c) b) (map RtoC x) = RtoC 0.
Proof. intros N. unfold pderive, mono. cbn [ptm pnv filter fst]. rewrite getZ_unit. destruct (Nat.eqb_spec b k); [contradiction|]. cbn [andb Z.eqb negb]. apply eval_const. Qed.
Lemma deriv_one_minus_other n k b x : b <> k -> peval (pderive (one_minus n k) b) (map RtoC x) = RtoC 0.
Proof. intros N. unfold pderive, one_minus. cbn [ptm pnv filter fst]. rewrite getZ_unit, getZ_zrow. destruct (Nat.eqb_spec b k); [contradiction|]. cbn [andb Z.eqb negb]. apply eval_const. Qed.

Section M.
Variables (n : nat) (F : cpoly) (lam : list R).
Hypothesis PF : proper n F.
Definition gm (k : nat) (x : list R) : R := fst (peval (pderive F k) (map RtoC x) : C).
Definition shift (k : nat) : dexpr := DProd (DPoly (mono n k (Cmult (Copp Ci) (RtoC (nth k lam 0))))) (DProd (DPoly (one_minus n k)) (DReal (dderive k (DPoly F)))).
Lemma dproper_shift k : dproper n (shift k).
Proof. cbn. split; [apply proper_mono|]. split; [apply proper_one_minus|]. apply proper_derive, PF. Qed.
Definition zpe (k : nat) : pe := PA (tr 1 (DPoly (mono n k (RtoC 1)))) (PM (PV 0) (tr 1 (shift k))).
Lemma agree1 t x : agree 1 (t :: x) x. Proof. intros i _. reflexivity. Qed.
Lemma agree0 x : agree 0 x x. Proof. intros i _. reflexivity. Qed.
Lemma eval_shift k x : (k < n)%nat -> length x = n -> deval x (shift k) = (0, - (nth k lam 0 * nth k x 0 * (1 - nth k x 0) * gm k x)).
Proof.
  intros Hk L. cbn [shift deval dderive]. rewrite eval_mono, eval_one_minus by assumption. fold (gm k x). apply injective_projections; cbn; ring.
Qed.
Lemma eval_deformed k x : (k < n)%nat -> length x = n -> deval x (deformed_variable n F lam k) = (nth k x 0, - (nth k lam 0 * nth k x 0 * (1 - nth k x 0) * gm k x)).
Proof.
  intros Hk L. change (deformed_variable n F lam k) with (DSum (DPoly (mono n k (RtoC 1))) (shift k)). cbn [deval]. fold (deval x (shift k)). change (deval x (shift k)) with (deval x (shift k)).
  rewrite (eval_shift k x Hk L). rewrite eval_mono by assumption. apply injective_projections; cbn; ring.
Qed.
Lemma eval_factor k x : (k < n)%nat -> length x = n -> deval x (deformation_factor n F lam k) = (1, - (nth k lam 0 * (1 - nth k x 0) * gm k x)).
Proof.
  intros Hk L. cbn [deformation_factor deval dderive]. rewrite !eval_const, eval_one_minus by assumption. fold (gm k x). apply injective_projections; cbn; ring.
Qed.
Lemma zpe_val k t x : (k < n)%nat -> length x = n -> ev (t :: x) (zpe k) = (nth k x 0, - (t * nth k lam 0 * nth k x 0 * (1 - nth k x 0) * gm k x)).
Proof.
  intros Hk L. unfold zpe. cbn [ev]. rewrite (ev_tr n _ 1 x L (agree1 t x)) by (apply proper_mono). rewrite (ev_tr n _ 1 x L (agree1 t x)) by (apply dproper_shift).
  rewrite (eval_shift k x Hk L). cbn [deval nth]. rewrite eval_mono by assumption. apply injective_projections; cbn; ring.
Qed.
Lemma zpe_jac k b t x : (k < n)%nat -> (b < n)%nat -> length x = n ->
  ev (t :: x) (dv (S b) (zpe k)) = Cplus (deval x (dderive b (DPoly (mono n k (RtoC 1))))) (Cmult (RtoC t) (deval x (dderive b (shift k)))).
Proof.
  intros Hk Hb L. unfold zpe. cbn [ev dv]. change (S b) with (1 + b)%nat. rewrite (dv_tr n _ 1 x b L (agree1 t x) Hb) by (apply proper_mono).
  rewrite (dv_tr n _ 1 x b L (agree1 t x) Hb) by (apply dproper_shift). cbn [nth Nat.eqb Nat.add]. ring.
Qed.
Lemma zpe_jac1 k b x : (k < n)%nat -> (b < n)%nat -> length x = n -> ev (1 :: x) (dv (S b) (zpe k)) = deval x (dderive b (deformed_variable n F lam k)).
Proof.
  intros Hk Hb L. rewrite zpe_jac by assumption. change (deformed_variable n F lam k) with (DSum (DPoly (mono n k (RtoC 1))) (shift k)). cbn [dderive deval]. 
  match goal with |- Cplus ?a (Cmult _ ?w) = Cplus _ ?v => change v with w end. ring.
Qed.
Lemma deriv_mono_same k x : (k < n)%nat -> length x = n -> peval (pderive (mono n k (RtoC 1)) k) (map RtoC x) = RtoC 1.
Proof.
  intros Hk L. unfold pderive, mono. cbn [ptm pnv filter fst]. rewrite getZ_unit, Nat.eqb_refl, (proj2 (Nat.ltb_lt k n) Hk). cbn [andb Z.eqb negb map fst snd]. rewrite getZ_unit, Nat.eqb_refl, (proj2 (Nat.ltb_lt k n) Hk). cbn [andb]. change (1 - 1)%Z with 0%Z.
  replace (upd k 0%Z (upd k 1%Z (zrow n))) with (zrow n).
  - unfold peval. cbn [ptm map sumF fst snd]. rewrite meval_zrow. change (Cplus (Cmult (Cmult (RtoC 1) (Cplus (RtoC 1) (RtoC 0))) (RtoC 1)) (RtoC 0) = RtoC 1). ring.
  - clear. revert k. induction n as [|m IH]; intros [|k]; try reflexivity. change (zrow (S m)) with (0%Z :: zrow m). cbn [upd]. f_equal. apply IH.
Qed.
Lemma zpe_jac0 k b x : (k < n)%nat -> (b < n)%nat -> length x = n -> ev (0 :: x) (dv (S b) (zpe k)) = if Nat.eqb b k then RtoC 1 else RtoC 0.
Proof.
  intros Hk Hb L. rewrite zpe_jac by assumption. cbn [dderive deval]. destruct (Nat.eqb_spec b k) as [->|N]; [rewrite deriv_mono_same by assumption|rewrite deriv_mono_other by assumption]; ring.
Qed.
Lemma dv_tr_other P a : forall e s, (a < s)%nat -> ev P (dv a (tr s e)) = RtoC 0.
Proof.
  intros e s Ha. induction e as [q|u IHu v IHv|u IHu v IHv|u IHu]; cbn [tr dv ev].
  - unfold cpe. induction (ptm q) as [|t ts IH]; cbn [termsP dv ev]; [reflexivity|]. rewrite IH, dv_monoP_other by exact Ha. ring.
  - rewrite IHu, IHv. ring.
  - rewrite IHu, IHv. ring.
  - rewrite IHu. reflexivity.
Qed.
Lemma zpe_face j b p : (j < n)%nat -> (b < S n)%nat -> b <> S j -> in_cube (S n) p -> nth (S j) p 0 = 0 \/ nth (S j) p 0 = 1 -> ev p (dv b (zpe j)) = RtoC 0.
Proof.
  intros Hj Hb N [L _] Hf. destruct p as [|t x]; [discriminate|]. assert (Lx : length x = n) by (cbn in L; lia). cbn [nth] in Hf. destruct b as [|b].
  - unfold zpe. cbn [ev dv]. rewrite !dv_tr_other by lia. rewrite (ev_tr n _ 1 x Lx (agree1 t x)) by (apply dproper_shift). rewrite (eval_shift j x Hj Lx). cbn [Nat.eqb].
    apply injective_projections; cbn; destruct Hf as [-> | ->]; ring.
  - rewrite zpe_jac by (try assumption; lia). cbn [shift dderive deval]. rewrite !deriv_mono_other, deriv_one_minus_other by lia. rewrite eval_mono, eval_one_minus by assumption.
    destruct Hf as [-> | ->]; [|replace (1 - 1) with 0 by ring]; ring.
Qed.
(** the real parts of the derivatives are determined by [F] *)
Lemma gm_unique (g : R) k x : (k < n)%nat -> length x = n -> is_derive (fun v => fst (peval F (map RtoC (upd k v x)) : C)) (nth k x 0) g -> g = gm k x.
Proof.
  intros Hk L H. assert (Hk' : (k < length x)%nat) by (rewrite L; exact Hk). pose proof (ev_isd (tr 0 (DPoly F)) k x Hk') as [A _].
  pose proof (dv_tr n x 0 x k L (agree0 x) Hk (DPoly F) PF) as EE. cbn [Nat.add] in EE. rewrite EE in A. cbn [dderive deval] in A. fold (gm k x) in A.
  assert (A' : is_derive (fun v => fst (peval F (map RtoC (upd k v x)) : C)) (nth k x 0) (gm k x)).
  { eapply is_derive_ext; [|exact A]. intros v. cbv beta. f_equal. rewrite (ev_tr n (upd k v x) 0 (upd k v x)); [reflexivity|rewrite upd_len; exact L|apply agree0|exact PF]. }
  rewrite <- (is_derive_unique _ _ _ H). apply is_derive_unique. exact A'.
Qed.
End M.
(** ** the whole integrand *)
Lemma npow_cpow w m : @npow C_Fld w m = cpow w m. Proof. induction m as [|m IH]; cbn [npow cpow]; [reflexivity|rewrite IH; reflexivity]. Qed.
Lemma cpow_mult a b m : cpow (Cmult a b) m = Cmult (cpow a m) (cpow b m). Proof. induction m as [|m IH]; cbn [cpow]; [ring|rewrite IH; ring]. Qed.
Lemma cprod_S k f : cprod (S k) f = Cmult (cprod k f) (f k).
Proof. unfold cprod. rewrite seq_S, map_app, fold_right_app. cbn [map fold_right Nat.add]. generalize (map f (seq 0 k)). intros l. induction l as [|a l IH]; cbn [fold_right]; [ring|rewrite IH; ring]. Qed.
Lemma cprod_ext k f g : (forall j, (j < k)%nat -> f j = g j) -> cprod k f = cprod k g.
Proof. induction k as [|k IH]; intros H; [reflexivity|]. rewrite !cprod_S, IH by (intros; apply H; lia). rewrite H by lia. reflexivity. Qed.
Lemma cprod_mult k f g : Cmult (cprod k f) (cprod k g) = cprod k (fun j => Cmult (f j) (g j)).
Proof. induction k as [|k IH]; [cbn; ring|]. rewrite !cprod_S, <- IH. ring. Qed.
Lemma cmonomial_cprod n p w : cmonomial n p w = cprod n (fun k => cpow (cpt w k) (p k)).
Proof. induction n as [|n IH]; cbn [cmonomial]; [reflexivity|]. rewrite cprod_S, <- IH. reflexivity. Qed.
Lemma holo_pow n k m : (k < n)%nat -> exists D, forall z, holomorphic_at n (fun w => cpow (cpt w k) m) D z.
Proof.
  intros Hk. induction m as [|m [D IH]]; cbn [cpow]; [exists (fun _ _ => RtoC 0); intros; apply holo_const|].
  eexists. intros z. apply (holo_mult n z (fun w => cpt w k) _ (fun w => cpow (cpt w k) m) _ (holo_coord n z k Hk) (IH z)).
Qed.
Lemma holo_monomial n p : forall m, (m <= n)%nat -> exists D, forall z, holomorphic_at n (cmonomial m p) D z.
Proof.
  induction m as [|m IH]; intros Hm; cbn [cmonomial]; [exists (fun _ _ => RtoC 0); intros; apply holo_const|].
  destruct (IH ltac:(lia)) as [D HD]. destruct (holo_pow n m (p m) ltac:(lia)) as [E HE]. eexists. intros z.
  exact (holo_mult n z (cmonomial m p) D (fun w => cpow (cpt w m) (p m)) E (HD z) (HE z)).
Qed.
