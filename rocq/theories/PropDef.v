(** C82: the contour deformation does not change the integral.  C83: the choice of the deformation parameters. *)
From Coq Require Import Lia Lra.
From Verif Require Import PolyModel PolySpec DetModel CplxField DefSpec DefCont DefModel DefPoly DefHolo DefMain DefThm DefOptModel DefSign DefRef.
From Coquelicot Require Import Coquelicot.
Local Open Scope R_scope.
Lemma with_entry_upd k v : forall x, (k < length x)%nat -> with_entry k v x = upd k v x.
Proof.
  unfold with_entry. induction k as [|k IH]; intros [|a x] H; cbn in *; try lia; [reflexivity|]. f_equal. apply IH. lia.
Qed.
Lemma grad_upd n (F : cpoly) g : real_gradient n (fun w => peval F w : C) g ->
  forall k x, (k < n)%nat -> in_cube n x -> is_derive (fun v => fst (peval F (map RtoC (upd k v x)) : C)) (nth k x 0) (g k x).
Proof.
  intros H k x Hk Hx. specialize (H k x Hk Hx). eapply is_derive_ext; [|exact H]. intros v. cbv beta. rewrite with_entry_upd by (rewrite (proj1 Hx); exact Hk). reflexivity.
Qed.
(** the gradient exists: the code's derivative of the polynomial *)
Lemma gm_gradient n (F : cpoly) : proper n F -> real_gradient n (fun w => peval F w : C) (fun k x => gm F k x).
Proof.
  intros PF k x Hk Hx. assert (L := proj1 Hx). assert (Hk' : (k < length x)%nat) by (rewrite L; exact Hk).
  pose proof (ev_isd (tr 0 (DPoly F)) k x Hk') as A. pose proof (dv_tr n x 0 x k L (agree0 x) Hk (DPoly F) PF) as EE. cbn [Nat.add dderive deval] in EE. rewrite EE in A. destruct A as [A _].
  eapply is_derive_ext; [|exact A]. intros v. cbv beta. rewrite (ev_tr n (upd k v x) 0 (upd k v x)); [|rewrite upd_len; exact L|apply agree0|exact PF]. cbn [deval].
  rewrite with_entry_upd by exact Hk'. reflexivity.
Qed.
Lemma proper_pw n F : proper n F <-> pnv F = n /\ List.Forall (fun t => length (fst t) = n /\ List.Forall (fun e => (0 <= e)%Z) (fst t)) (ptm F).
Proof.
  unfold proper, pwf, pnonneg. split.
  - intros (E & W & N). split; [exact E|]. rewrite E in W. apply Forall_forall. intros t Ht. split; [exact (proj1 (Forall_forall _ _) W t Ht)|exact (proj1 (Forall_forall _ _) N t Ht)].
  - intros (E & H). split; [exact E|]. rewrite E. split; apply Forall_forall; intros t Ht; apply (proj1 (Forall_forall _ _) H t Ht).
Qed.
(** ** C82 *)
(** each deformed variable is x_k - i lambda_k x_k (1 - x_k) d Re F/dx_k; the end points of the integration range stay fixed *)
Theorem C82_point : forall n (F : cpoly) lam x g, proper n F -> in_cube n x -> real_gradient n (fun w => peval F w : C) g ->
  deformed_point n F lam x = contour n g lam 1 x /\
  forall k, (k < n)%nat -> nth k x 0 = 0 \/ nth k x 0 = 1 -> cpt (deformed_point n F lam x) k = RtoC (nth k x 0).
Proof.
  intros n F lam x g PF Hx Hg. assert (E : deformed_point n F lam x = contour n g lam 1 x).
  { rewrite (point_contour_gm n F lam x (proj1 Hx)). apply map_ext_in. intros k Hk. apply in_seq in Hk. rewrite (gm_unique n F PF (g k x) k x) by (try exact (proj1 Hx); try (apply (grad_upd n F g Hg); [|exact Hx]); lia). reflexivity. }
  split; [exact E|]. intros k Hk H. rewrite E, cpt_contour by exact Hk.
  apply injective_projections; cbn [fst snd]; [reflexivity|]. destruct H as [-> | ->]; cbn; ring.
Qed.
(** the entries of the Jacobian are the partial derivatives of the deformed variables *)
Theorem C82_jacobian : forall n (F : cpoly) lam x i j, proper n F -> in_cube n x -> (i < n)%nat -> (j < n)%nat ->
  isd (fun v => cpt (deformed_point n F lam (with_entry j v x)) i) (nth j x 0) (nth j (nth i (contourdef_Jacobian n F lam x) nil) (RtoC 0)).
Proof.
  intros n F lam x i j PF [L Hx] Hi Hj. assert (Hj' : (j < length x)%nat) by (rewrite L; exact Hj).
  assert (EJ : nth j (nth i (contourdef_Jacobian n F lam x) nil) (RtoC 0) = deval x (dderive j (deformed_variable n F lam i))) by exact (entry_jac F lam x Hi Hj). rewrite EJ.
  assert (DP : dproper n (deformed_variable n F lam i)). { change (dproper n (DSum (DPoly (mono n i (RtoC 1))) (shift n F lam i))). split; [apply proper_mono|apply dproper_shift; exact PF]. }
  rewrite <- (dv_tr n x 0 x j L (agree0 x) Hj _ DP). cbn [Nat.add]. eapply isd_ext; [|apply ev_isd; exact Hj']. intros v. cbv beta. rewrite with_entry_upd by exact Hj'.
  rewrite (ev_tr n (upd j v x) 0 (upd j v x)); [|rewrite upd_len; exact L|apply agree0|exact DP]. unfold deformed_point. symmetry. exact (cpt_map n (fun k => deval (upd j v x) (deformed_variable n F lam k)) i Hi).
Qed.
(** the integral is the undeformed one when the integrand has no singularity between the two contours *)
Theorem C82_integral : forall n (F : cpoly) lam p rest Drest g, (0 < n)%nat -> proper n F -> real_gradient n (fun w => peval F w : C) g ->
  (forall t x, 0 <= t <= 1 -> in_cube n x -> holomorphic_at n rest Drest (contour n g lam t x)) ->
  (forall x, in_cube n x -> exists v, deformed_integrand n F lam (fun k w => cpow w (p k)) rest x = Some v) /\
  ccube_integral n (fun x => value (deformed_integrand n F lam (fun k w => cpow w (p k)) rest x)) =
  ccube_integral n (fun x => Cmult (cmonomial n p (map RtoC x)) (rest (map RtoC x))).
Proof. intros n F lam p rest Drest g Hn PF Hg Hr. exact (main p Hn PF (grad_upd n F g Hg) Hr). Qed.
Lemma holo_cpow n G DG (P : list C -> Prop) m : (forall z, P z -> holomorphic_at n G DG z) -> exists D, forall z, P z -> holomorphic_at n (fun w => cpow (G w) m) D z.
Proof.
  intros H. induction m as [|m [D IH]]; cbn [cpow]; [eexists; intros z _; apply holo_const|]. eexists. intros z Hz. apply (holo_mult n z G _ _ _ (H z Hz) (IH z Hz)).
Qed.
Lemma cpow_nz w m : w <> RtoC 0 -> cpow w m <> RtoC 0.
Proof. intros H. induction m as [|m IH]; cbn [cpow]; [intros E; injection E; lra|apply Cmult_neq_0; assumption]. Qed.
Lemma holo_zpow n G DG (P : list C -> Prop) e : (forall z, P z -> holomorphic_at n G DG z /\ G z <> RtoC 0) -> exists D, forall z, P z -> holomorphic_at n (fun w => czpow (G w) e) D z.
Proof.
  intros H. unfold czpow. destruct (Z.leb 0 e); [apply (holo_cpow n G DG); intros z Hz; apply H, Hz|].
  destruct (holo_cpow n G DG P (Z.to_nat (- e))) as [D HD]; [intros z Hz; apply H, Hz|]. eexists. intros z Hz. refine (holo_inv n z _ _ _ (HD z Hz)). apply cpow_nz, H, Hz.
Qed.
Lemma contour_len n g lam t x : length (contour n g lam t x) = n. Proof. unfold contour. rewrite map_length, seq_length. reflexivity. Qed.
(** with the Feynman prescription F - i delta, a deformation along which Im F <= 0 leaves the integral of U * (F - i delta)^e unchanged *)
Theorem C82_idelta : forall n (F U : cpoly) lam p g delta e, (0 < n)%nat -> proper n F -> proper n U -> real_gradient n (fun w => peval F w : C) g -> 0 < delta ->
  (forall t x, 0 <= t <= 1 -> in_cube n x -> snd (peval F (contour n g lam t x) : C) <= 0) ->
  let f w := Cmult (peval U w) (czpow (Cminus (peval F w) (0, delta)) e) in
  (forall x, in_cube n x -> exists v, deformed_integrand n F lam (fun k w => cpow w (p k)) f x = Some v) /\
  ccube_integral n (fun x => value (deformed_integrand n F lam (fun k w => cpow w (p k)) f x)) =
  ccube_integral n (fun x => Cmult (cmonomial n p (map RtoC x)) (f (map RtoC x))).
Proof.
  intros n F U lam p g delta e Hn PF PU Hg Hd Him f. destruct (holo_poly n F PF) as [DF HF]. destruct (holo_poly n U PU) as [DU HU].
  set (P := fun z => length z = n /\ snd (peval F z : C) <= 0).
  destruct (holo_zpow n (fun w => Cminus (peval F w) (0, delta)) (fun j w => Cplus (DF j w) (RtoC 0)) P e) as [DE HE].
  { intros z [Lz Hz]. split; [exact (holo_plus n z (fun w => peval F w : C) DF (fun _ => Copp (0, delta)) _ (HF z Lz) (holo_const n z _))|].
    intros E. apply (f_equal snd) in E. cbn in E. change (snd (peval F z : C) + - delta = 0) in E. lra. }
  apply (C82_integral n F lam p f (fun j w => Cplus (Cmult (DU j w) (czpow (Cminus (peval F w) (0, delta)) e)) (Cmult (peval U w) (DE j w))) g Hn PF Hg). intros t x Ht Hx.
  apply (holo_mult n _ (fun w => peval U w : C) DU _ DE); [apply HU, contour_len|apply HE]. split; [apply contour_len|apply Him; assumption].
Qed.
(** the monomials that are factored out: x_k^p times the deformation factor to the same power is the deformed variable to the power,
    for every power function that is multiplicative for a positive real factor *)
Theorem C82_split : forall n (F : cpoly) lam x (pw : nat -> C -> C), proper n F -> in_cube n x -> (forall k, (k < n)%nat -> 0 < nth k x 0) ->
  (forall k r w, (k < n)%nat -> 0 < r -> pw k (Cmult (RtoC r) w) = Cmult (pw k (RtoC r)) (pw k w)) ->
  Cmult (monomials n pw x) (additional_deformation_factor n F lam pw x) = cprod n (fun k => pw k (cpt (deformed_point n F lam x) k)).
Proof.
  intros n F lam x pw PF [L Hx] Hpos Hpw. unfold monomials, additional_deformation_factor. rewrite cprod_mult. apply cprod_ext. intros k Hk. rewrite <- Hpw by auto. f_equal.
  unfold deformed_point. rewrite (cpt_map n (fun k => deval x (deformed_variable n F lam k)) k Hk). rewrite eval_deformed, eval_factor by assumption. apply injective_projections; cbn; ring.
Qed.
(** *** a case: F = x_0 x_1 - 1/2 vanishes inside the square, its deformation has Im F <= 0 *)
Definition hyperbola : cpoly := @mkPoly C_Fld 2 (((1 :: 1 :: nil)%Z, RtoC 1) :: ((0 :: 0 :: nil)%Z, RtoC (-1/2)) :: nil).
Definition unit_poly : cpoly := @mkPoly C_Fld 2 (((0 :: 0 :: nil)%Z, RtoC 1) :: nil).
Lemma hyperbola_proper : proper 2 hyperbola.
Proof. apply proper_pw. split; [reflexivity|]. repeat constructor; cbn; lia. Qed.
Lemma unit_proper : proper 2 unit_poly.
Proof. apply proper_pw. split; [reflexivity|]. repeat constructor; cbn; lia. Qed.
Lemma hyperbola_gm0 a b : gm hyperbola 0 (a :: b :: nil) = b.
Proof. unfold gm, pderive, peval, hyperbola. red_all. match goal with |- ?l = ?r => change (@eq R l r) end. ring. Qed.
Lemma hyperbola_gm1 a b : gm hyperbola 1 (a :: b :: nil) = a.
Proof. unfold gm, pderive, peval, hyperbola. red_all. match goal with |- ?l = ?r => change (@eq R l r) end. ring. Qed.
Lemma hyperbola_value a b c d : snd (peval hyperbola ((a, b) :: (c, d) :: nil) : C) = a * d + b * c.
Proof. unfold peval, hyperbola. red_all. match goal with |- ?l = ?r => change (@eq R l r) end. ring. Qed.
Lemma hyperbola_negative t x : 0 <= t <= 1 -> in_cube 2 x -> snd (peval hyperbola (contour 2 (fun k x => gm hyperbola k x) (1 :: 1 :: nil) t x) : C) <= 0.
Proof.
  intros Ht [L Hx]. destruct x as [|a [|b [|]]]; try discriminate. inversion Hx as [|? ? Ha Hx']; subst. inversion Hx' as [|? ? Hb _]; subst. unfold contour. cbn [seq map nth].
  rewrite hyperbola_value, hyperbola_gm0, hyperbola_gm1.
  assert (0 <= t * 1 * b * (1 - b) * a) by (repeat apply Rmult_le_pos; lra). assert (0 <= t * 1 * a * (1 - a) * b) by (repeat apply Rmult_le_pos; lra).
  assert (0 <= a * (t * 1 * b * (1 - b) * a)) by (apply Rmult_le_pos; lra). assert (0 <= t * 1 * a * (1 - a) * b * b) by (apply Rmult_le_pos; lra). lra.
Qed.
(** 1/(x_0 x_1 - 1/2 - i/1000), with a factor x_0 that is kept undeformed *)
Example C82_case :
  let p := fun k => match k with O => 1%nat | _ => 0%nat end in
  let f w := Cmult (peval unit_poly w) (czpow (Cminus (peval hyperbola w) (0, 1/1000)) (-1)) in
  ccube_integral 2 (fun x => value (deformed_integrand 2 hyperbola (1 :: 1 :: nil) (fun k w => cpow w (p k)) f x)) =
  ccube_integral 2 (fun x => Cmult (cmonomial 2 p (map RtoC x)) (f (map RtoC x))).
Proof.
  intros p f. refine (proj2 (C82_idelta 2 hyperbola unit_poly (1 :: 1 :: nil) p (fun k x => gm hyperbola k x) (1/1000) (-1)%Z _ hyperbola_proper unit_proper (gm_gradient 2 hyperbola hyperbola_proper) _ hyperbola_negative)); [lia|lra].
Qed.
(** ** C83 *)
(** to first order in the deformation the imaginary part of F falls by sum_k lambda_k x_k (1 - x_k) (d Re F/dx_k)^2 *)
Theorem C83_first_order : forall n (F : cpoly) lam x g, proper n F -> in_cube n x -> real_gradient n (fun w => peval F w : C) g ->
  is_derive (fun s => snd (peval F (contour n g lam s x) : C)) 0 (- rsumS n (fun k => nth k lam 0 * nth k x 0 * (1 - nth k x 0) * (g k x) ^ 2)).
Proof.
  intros n F lam x g PF Hx Hg. assert (E : forall k, (k < n)%nat -> g k x = gm F k x) by (intros k Hk; apply (gm_unique n F PF); [exact Hk|exact (proj1 Hx)|exact (grad_upd n F g Hg k x Hk Hx)]).
  assert (Es : rsumS n (fun k => nth k lam 0 * nth k x 0 * (1 - nth k x 0) * (g k x) ^ 2) = rsumS n (fun k => nth k lam 0 * nth k x 0 * (1 - nth k x 0) * (gm F k x) ^ 2)).
  { assert (G : forall m, (m <= n)%nat -> rsumS m (fun k => nth k lam 0 * nth k x 0 * (1 - nth k x 0) * (g k x) ^ 2) = rsumS m (fun k => nth k lam 0 * nth k x 0 * (1 - nth k x 0) * (gm F k x) ^ 2)); [|apply G, le_n].
    induction m as [|m IH]; intros Hm; cbn [rsumS]; [reflexivity|]. rewrite IH, E by lia. reflexivity. }
  rewrite Es. eapply is_derive_ext; [|exact (first_order n F PF lam x (proj1 Hx))]. intros s. cbv beta. f_equal. f_equal. apply map_ext_in. intros k Hk. apply in_seq in Hk. rewrite E by lia. reflexivity.
Qed.
(** the first phase's value of a parameter: between the bounds; not above any sample's 1/|x_k (1-x_k) d Re F/dx_k| (or the minimum); and
    one of these or the maximum *)
Definition shift_size (g : nat -> list R -> R) (j : nat) (x : list R) : R := Rabs (nth j x 0 * (1 - nth j x 0) * g j x).
Lemma mp_shift n (F : cpoly) g j x : proper n F -> in_cube n x -> (j < n)%nat -> real_gradient n (fun w => peval F w : C) g ->
  maximal_parameter F x j = if Req_EM_T (shift_size g j x) 0 then None else Some (1 / shift_size g j x).
Proof.
  intros PF Hx Hj Hg. unfold maximal_parameter, shift_size. rewrite (gm_unique n F PF (g j x) j x Hj (proj1 Hx) (grad_upd n F g Hg j x Hj Hx)). unfold gm. set (d := _ * _ * _).
  destruct (Req_EM_T d 0) as [E|E]; destruct (Req_EM_T (Rabs d) 0) as [E'|E']; try reflexivity; [rewrite E, Rabs_R0 in E'; lra|apply Rabs_no_R0 in E; contradiction].
Qed.
Theorem C83_first_phase : forall n (F : cpoly) mn mx samples g, proper n F -> List.Forall (in_cube n) samples -> real_gradient n (fun w => peval F w : C) g -> mn <= mx ->
  let lam := presample_minimum n F mn mx samples (repeat mx n) in
  length lam = n /\ forall j, (j < n)%nat ->
    mn <= nth j lam 0 <= mx /\
    (forall x, In x samples -> shift_size g j x <> 0 -> nth j lam 0 <= Rmax mn (1 / shift_size g j x)) /\
    (nth j lam 0 = mx \/ exists x, In x samples /\ shift_size g j x <> 0 /\ nth j lam 0 = Rmax mn (1 / shift_size g j x)).
Proof.
  intros n F mn mx samples g PF Hs Hg Hm lam. assert (N : forall j, (j < n)%nat -> nth j (repeat mx n) 0 = mx). { intros j Hj. rewrite (nth_indep _ 0 mx) by (rewrite repeat_length; exact Hj). apply nth_repeat. }
  destruct (presample_spec n F mn mx Hm samples (repeat mx n) (repeat_length _ _)) as [L Q]; [intros j Hj; rewrite N by exact Hj; lra|]. fold lam in L, Q. split; [exact L|]. intros j Hj.
  destruct (Q j Hj) as (A & B & Cc). rewrite N in A, Cc by exact Hj. split; [exact A|]. split.
  - intros x Hx Hd. apply (B x _ Hx). rewrite (mp_shift n F g j x PF (proj1 (Forall_forall _ _) Hs x Hx) Hj Hg). destruct (Req_EM_T _ 0); [contradiction|reflexivity].
  - destruct Cc as [E|(x & t & Hx & E & Et)]; [left; exact E|right; exists x]. rewrite (mp_shift n F g j x PF (proj1 (Forall_forall _ _) Hs x Hx) Hj Hg) in E. destruct (Req_EM_T _ 0) as [|Hd]; [discriminate|].
    injection E as <-. split; [exact Hx|]. split; [exact Hd|exact Et].
Qed.
(** the loops end; the result is the first phase's times a power of the decrease factor, and passes the sign check at the last sample *)
Theorem C83_terminates : forall n (F : cpoly) mx mn factor samples, proper n F -> List.Forall (in_cube n) samples -> samples <> nil -> 0 <= mn <= mx -> 0 < factor < 1 ->
  exists fuel m, let lam := map (fun l => l * factor ^ m) (presample_minimum n F mn mx samples (repeat mx n)) in
    optimize_deformation_parameters fuel n F mx mn factor samples = Some lam /\
    snd (peval F (deformed_point n F lam (last samples nil)) : C) <= snd (peval F (map RtoC (last samples nil)) : C).
Proof.
  intros n F mx mn factor samples PF Hs Hne Hb Hf. set (l0 := presample_minimum n F mn mx samples (repeat mx n)).
  destruct (C83_first_phase n F mn mx samples _ PF Hs (gm_gradient n F PF) ltac:(lra)) as [L Q]. fold l0 in L, Q.
  assert (H0 : List.Forall (fun l => 0 <= l) l0). { apply Forall_forall. intros l Hl. destruct (In_nth _ _ 0 Hl) as (j & Hj & <-). rewrite L in Hj. destruct (Q j Hj) as [A _]. lra. }
  destruct (second_phase n F PF factor Hf samples l0 Hs H0) as (fuel & m & A & B). exists fuel, m. cbv zeta. split.
  - unfold optimize_deformation_parameters. destruct samples; [contradiction|]. exact A.
  - assert (El : last (map Some samples) None = Some (last samples nil)).
    { clear -Hne. induction samples as [|x [|y s] IH]; [contradiction|reflexivity|]. cbn [map last] in *. apply IH. discriminate. }
    specialize (B _ El). unfold passes_sign_check in B. destruct (Rle_dec _ _) as [H|]; [|discriminate]. refine (Rle_trans _ _ _ H _). right. f_equal. f_equal.
    assert (Hin : In (last samples nil) samples) by (clear -Hne; destruct (exists_last Hne) as (l & a & ->); rewrite last_last; apply in_or_app; right; left; reflexivity).
    assert (Hc := proj1 (Forall_forall _ _) Hs _ Hin). rewrite (point_contour_gm n F _ _ (proj1 Hc)). rewrite <- (contour_0 n F nil). exact (contour0 nil _ Hc).
Qed.
(** more iterations do not change a result *)
Theorem C83_deterministic : forall n (F : cpoly) mx mn factor samples fuel fuel' r r', optimize_deformation_parameters fuel n F mx mn factor samples = Some r ->
  optimize_deformation_parameters fuel' n F mx mn factor samples = Some r' -> r = r'.
Proof.
  intros n F mx mn factor samples fuel fuel' r r' H H'. unfold optimize_deformation_parameters in *. destruct samples as [|x s]; [congruence|].
  apply (all_fuel n F factor _ fuel (Nat.max fuel fuel') _ _ (Nat.le_max_l _ _)) in H. apply (all_fuel n F factor _ fuel' (Nat.max fuel fuel') _ _ (Nat.le_max_r _ _)) in H'. congruence.
Qed.
(** the imaginary displacement of every coordinate of every sample is at most 1, unless the minimum forbids it *)
Theorem C83_displacement : forall n (F : cpoly) mx mn factor samples fuel lam g x j, proper n F -> List.Forall (in_cube n) samples -> 0 <= mn <= mx -> 0 < factor < 1 ->
  real_gradient n (fun w => peval F w : C) g -> optimize_deformation_parameters fuel n F mx mn factor samples = Some lam -> In x samples -> (j < n)%nat ->
  0 <= nth j lam 0 <= mx /\ Rabs (snd (cpt (deformed_point n F lam x) j)) <= Rmax 1 (mn * shift_size g j x).
Proof.
  intros n F mx mn factor samples fuel lam g x j PF Hs Hb Hf Hg H Hx Hj. assert (Hne : samples <> nil) by (intros ->; inversion Hx).
  destruct (C83_terminates n F mx mn factor samples PF Hs Hne Hb Hf) as (fuel' & m & A & _). cbv zeta in A. rewrite (C83_deterministic _ _ _ _ _ _ _ _ _ _ H A).
  destruct (C83_first_phase n F mn mx samples g PF Hs Hg ltac:(lra)) as [L Q]. destruct (Q j Hj) as (B & D & _). set (l0 := presample_minimum n F mn mx samples (repeat mx n)) in *.
  rewrite (nth_map0 (factor ^ m) l0 j). assert (P : 0 < factor ^ m <= 1). { split; [apply pow_lt; lra|]. rewrite <- (pow1 m). apply pow_incr. lra. }
  set (a := nth j l0 0) in *. set (q := factor ^ m) in *. assert (A1 : 0 <= a * q) by (apply Rmult_le_pos; lra). assert (A2 : a * q <= a * 1) by (apply Rmult_le_compat_l; lra). split; [lra|].
  destruct (C82_point n F (map (fun l => l * q) l0) x g PF (proj1 (Forall_forall _ _) Hs x Hx) Hg) as [E _]. rewrite E, cpt_contour by exact Hj. cbn [snd]. rewrite nth_map0. fold a.
  specialize (D x Hx). unfold shift_size in *. set (d := nth j x 0 * (1 - nth j x 0) * g j x) in *.
  replace (- (1 * (a * q) * nth j x 0 * (1 - nth j x 0) * g j x)) with (- ((a * q) * d)) by (unfold d; ring). rewrite Rabs_Ropp, Rabs_mult, (Rabs_right (a * q)) by lra.
  assert (Hd0 := Rabs_pos d). destruct (Req_dec (Rabs d) 0) as [Z|NZ]; [rewrite Z, Rmult_0_r; pose proof (Rmax_l 1 (mn * 0)); lra|]. specialize (D NZ).
  assert (Hd : 0 < Rabs d) by lra. apply Rle_trans with (Rmax mn (1 / Rabs d) * Rabs d); [apply Rmult_le_compat_r; lra|]. unfold Rmax at 1. destruct (Rle_dec mn (1 / Rabs d)).
  - replace (1 / Rabs d * Rabs d) with 1 by (field; lra). apply Rmax_l.
  - apply Rmax_r.
Qed.
(** without presamples the maximum is used *)
Theorem C83_no_presamples : forall n (F : cpoly) mx mn factor fuel, optimize_deformation_parameters fuel n F mx mn factor nil = Some (repeat mx n).
Proof. reflexivity. Qed.
(** the result need not pass the sign check at the other samples: the second phase never goes back to an earlier sample *)
Theorem C83_all_samples_refuted : ~ (forall n (F : cpoly) mx mn factor samples fuel lam x, proper n F -> List.Forall (in_cube n) samples -> 0 <= mn <= mx -> 0 < factor < 1 ->
  optimize_deformation_parameters fuel n F mx mn factor samples = Some lam -> In x samples ->
  snd (peval F (deformed_point n F lam x) : C) <= snd (peval F (map RtoC x) : C)).
Proof.
  intros H. specialize (H 1%nat quintic 1 (1/100) (1/2) samples2 1%nat ((1 * (1/2)) :: nil) ((1/2) :: nil) quintic_proper). 
  assert (Hc : List.Forall (in_cube 1) samples2) by (repeat constructor; cbn; lra).
  specialize (H Hc ltac:(lra) ltac:(lra) result (or_introl eq_refl)). pose proof (c21 (1 * (1/2)) ltac:(lra)) as N. unfold passes_sign_check in N. destruct (Rle_dec _ _) as [|N']; [discriminate|]. apply N'.
  eapply Rle_trans; [exact H|]. right. f_equal. f_equal. rewrite (point_contour_gm 1 quintic) by reflexivity. symmetry.
  rewrite <- (contour_0 1 quintic nil). assert (Hi : in_cube 1 ((1/2) :: nil)) by (inversion Hc; assumption). exact (contour0 nil _ Hi).
Qed.
(** a case for the theorems of C83: the two samples above *)
Example C83_case : proper 1 quintic /\ List.Forall (in_cube 1) samples2 /\ samples2 <> nil /\ 0 <= 1/100 <= 1 /\ 0 < 1/2 < 1 /\ real_gradient 1 (fun w => peval quintic w : C) (fun k x => gm quintic k x) /\
  optimize_deformation_parameters 1 1 quintic 1 (1/100) (1/2) samples2 = Some ((1 * (1/2)) :: nil).
Proof.
  split; [exact quintic_proper|]. split; [repeat constructor; cbn; lra|]. split; [discriminate|]. split; [lra|]. split; [lra|]. split; [exact (gm_gradient 1 quintic quintic_proper)|exact result].
Qed.
