(** C42, C43, C68: propagator powers, projectivity, and the meaning of the numerator. *)
From Coq Require Import Reals Lra Lia List ZArith QArith Qround Qreals.
From Coq Require Lqa.
From Verif Require Import PolyProofs RealField PolyReal ParamModel ParamSpec ParamProofs ParamReal ParamStep ParamExp ParamMeasure ParamHom.
Import ListNotations.
Local Open Scope nat_scope.

(** C42: number of derivatives for every rational power *)
Theorem C42_power_split : forall p : power,
  let k := derivatives p in let final := (at0 p + inject_Z k)%Q in
  (0 <= k)%Z /\
  ((exists z, (z <= 0)%Z /\ at0 p == inject_Z z) -> final == 0%Q /\ forall j, (0 <= j < k)%Z -> (at0 p + inject_Z j < 0)%Q) /\
  (~ (exists z, (z <= 0)%Z /\ at0 p == inject_Z z) -> (1 <= final)%Q /\ forall j, (0 <= j < k)%Z -> (at0 p + inject_Z j < 1)%Q).
Proof.
  intros p k final. unfold final, k. clear final k.
  assert (IL : forall a b, (a <= b)%Z -> (inject_Z a <= inject_Z b)%Q) by (intros a b H; rewrite <- Zle_Qle; exact H).
  destruct (derivatives_cases p) as [[A E]|[(N & I & E & K)|(N & I & E & K)]].
  - rewrite E. split; [lia|]. split.
    + intros (z & Hz & Ez). exfalso. pose proof (IL z 0%Z Hz) as Q. change (inject_Z 0) with 0%Q in Q. Lqa.lra.
    + intros _. split; [change (inject_Z 0) with 0%Q; Lqa.lra|lia].
  - split; [exact K|]. split.
    + intros _. split; [rewrite E at 1|].
      * rewrite inject_Z_opp. ring.
      * intros j Hj. rewrite E. assert (J : (inject_Z j < inject_Z (derivatives p))%Q) by (rewrite <- Zlt_Qlt; lia). rewrite inject_Z_opp. Lqa.lra.
    + intros NE. exfalso. apply NE. exists (- derivatives p)%Z. split; [lia|exact E].
  - split; [exact K|]. split.
    + intros (z & Hz & Ez). exfalso. assert (I' : is_int (at0 p) = true) by (apply is_int_spec; exists z; exact Ez). congruence.
    + intros _. rewrite E. pose proof (Qfloor_le (at0 p)) as F1. pose proof (Qlt_floor (at0 p)) as F2. split.
      * unfold Z.sub. rewrite inject_Z_plus, inject_Z_opp. change (inject_Z 1) with 1%Q. Lqa.lra.
      * intros j Hj. pose proof (IL j (- Qfloor (at0 p))%Z ltac:(lia)) as Q. rewrite inject_Z_opp in Q. rewrite inject_Z_plus in F2. change (inject_Z 1) with 1%Q in F2. Lqa.lra.
Qed.
Print Assumptions C42_power_split.

(** C42: U and F, the numerator, and the measure remove the same parameters: those whose power is a nonpositive integer
    without any regulator *)
Theorem C42_removed_consistent : forall p : power,
  (dropped_U p = true <-> (exists z, (z <= 0)%Z /\ at0 p == inject_Z z) /\ Forall (fun c => c == 0%Q) (regs p)) /\
  dropped_numerator p = dropped_U p /\ dropped_measure p = dropped_U p.
Proof.
  intros p. split; [|apply dropped_agree]. unfold dropped_U. rewrite !Bool.andb_true_iff, Qle_bool_iff, is_int_spec. unfold regfree. rewrite forallb_forall.
  split.
  - intros [[A [z B]] C]. split.
    + exists z. split; [|exact B]. rewrite Zle_Qle. rewrite <- B. exact C.
    + apply Forall_forall. intros c Hc. apply Qeq_bool_iff, A, Hc.
  - intros [(z & Hz & E) A]. split; [split|].
    + rewrite Forall_forall in A. intros c Hc. apply Qeq_bool_iff, A, Hc.
    + exists z. exact E.
    + rewrite E. change 0%Q with (inject_Z 0). rewrite <- Zle_Qle. exact Hz.
Qed.
Print Assumptions C42_removed_consistent.

(** C42, deviation: a derivative is taken although the power is already positive *)
Theorem C42_positive_fraction_refuted : exists p : power, (0 < at0 p)%Q /\ derivatives p = 1%Z.
Proof. exists (mkPower (1 # 2) []). split; [reflexivity|reflexivity]. Qed.
Print Assumptions C42_positive_fraction_refuted.

Example C42_ex : derivatives (mkPower (-2) []) = 2%Z /\ derivatives (mkPower (-2) [1%Q]) = 2%Z /\ derivatives (mkPower (-3 # 2) []) = 3%Z /\
  dropped_U (mkPower (-2) []) = true /\ dropped_U (mkPower (-2) [1%Q]) = false.
Proof. repeat split. Qed.

(** ** the integrand *)
Section Integrand.
Variables (eps : list R) (pw : list power) (D : R) (L r : nat).
Definition sum_powers : R := fold_right Rplus 0%R (map (power_value eps) pw).
Lemma N_nu_R : @N_nu R_Fld (power_value eps) pw = sum_powers.
Proof. reflexivity. Qed.
Lemma natF_R' n : @natF R_Fld n = INR n. Proof. apply natF_R. Qed.

(** U^expU F^expF N *)
Definition product_form (U Fp : list R -> R) (eU eF : R) (N : list R -> R -> R -> R) (x : list R) : R :=
  (Rpower (U x) eU * Rpower (Fp x) eF * N x (U x) (Fp x))%R.
Definition with_UF (p : rpoly) (x : list R) (u f : R) : R := peval p (x ++ [u; f] : list R).
End Integrand.

(** U and F are the polynomials with the removed parameters set to zero *)
Theorem C68_U_F_at_zero : forall (pw : list power) (U : rpoly) (y : list R), proper (length pw) U -> length y = kept (map dropped_U pw) ->
  peval (loop_U pw U) y = peval U (embed (map dropped_U pw) y : list R).
Proof.
  intros pw U y HU L. unfold loop_U. apply (drop_loop_eval _ (length pw)); [exact HU|rewrite map_length; lia|].
  pose proof (kept_total (map dropped_U pw)) as K. rewrite map_length in K. lia.
Qed.
Print Assumptions C68_U_F_at_zero.

Lemma instr_snd pw : map snd (instructions pw) = map dropped_U pw.
Proof. unfold instructions. rewrite map_map. apply map_ext. intros p. cbn [snd]. apply dropped_agree. Qed.
Lemma instr_fst pw : map fst (instructions pw) = map (fun p => Z.to_nat (derivatives p)) pw.
Proof. unfold instructions. rewrite map_map. reflexivity. Qed.
Lemma instr_length pw : length (instructions pw) = length pw.
Proof. unfold instructions. apply map_length. Qed.

(** [dep i] says whether U depends on parameter [i] (once the parameters removed before have been set to zero); needed
    only for the parameters that are differentiated *)
Definition U_dependence (pw : list power) (U : rpoly) (dep : nat -> bool) : Prop :=
  forall i p, nth_error pw i = Some p -> derivatives p <> 0%Z ->
    if dep i
    then exists (z : list R) (t : R), length z = length pw /\ peval U z <> peval U (upd i t z) /\
           forall j q, i < j -> nth_error pw j = Some q -> dropped_U q = true -> nth j z 0%R = 0%R
    else Forall (fun u : term R_Fld => getZ i (fst u) = 0%Z) (ptm U).
(** the number of derivatives by parameters on which U depends *)
Definition U_derivatives (pw : list power) (dep : nat -> bool) : nat :=
  list_sum (map (fun ip : nat * power => if dep (fst ip) then Z.to_nat (derivatives (snd ip)) else 0) (combine (seq 0 (length pw)) pw)).

Lemma derivatives_nonneg p : (0 <= derivatives p)%Z.
Proof. destruct (derivatives_cases p) as [[_ E]|[(_ & _ & _ & K)|(_ & _ & _ & K)]]; lia. Qed.
Lemma counted_instr pw dep : counted dep (instructions pw) = U_derivatives pw dep.
Proof.
  unfold counted, U_derivatives, instructions. rewrite map_length. f_equal.
  assert (G : forall k, map (fun ik : nat * (nat * bool) => if dep (fst ik) then fst (snd ik) else 0)
      (combine (seq k (length pw)) (map (fun p : power => (Z.to_nat (derivatives p), dropped_numerator p)) pw)) =
    map (fun ip : nat * power => if dep (fst ip) then Z.to_nat (derivatives (snd ip)) else 0) (combine (seq k (length pw)) pw)).
  { induction pw as [|p pw IH]; intros k; [reflexivity|]. cbn [length seq map combine fst snd]. f_equal. apply IH. }
  apply G.
Qed.
Lemma nth_error_instr pw i k d : nth_error (instructions pw) i = Some (k, d) -> exists p, nth_error pw i = Some p /\ k = Z.to_nat (derivatives p) /\ d = dropped_U p.
Proof.
  unfold instructions. rewrite nth_error_map. destruct (nth_error pw i) as [p|]; [|discriminate]. cbn. intros E. exists p. split; [reflexivity|].
  injection E as <- <-. split; [reflexivity|apply dropped_agree].
Qed.
Lemma dep_init pw (U Fp Nu : rpoly) (n m : R) dep : proper (length pw) U -> U_dependence pw U dep ->
  dep_ok (instructions pw) dep (length pw) (Uv (@num_init R_Fld U Fp Nu n m)) (ptm (sU (@num_init R_Fld U Fp Nu n m))).
Proof.
  intros HU HD i k d E Hk. apply nth_error_instr in E. destruct E as (p & E & -> & ->).
  specialize (HD i p E). specialize (HD ltac:(intros Z; apply Hk; rewrite Z; reflexivity)).
  assert (Hi : i < length pw) by (apply nth_error_Some; congruence).
  destruct (dep i).
  - destruct HD as (z & t & Lz & Ne & Z). exists z, t. split; [exact Lz|]. split.
    + intros j kj Hj Ej. apply nth_error_instr in Ej. destruct Ej as (q & Eq & _ & Dq). apply (Z j q Hj Eq). congruence.
    + unfold Uv, num_init. cbn [sU]. rewrite (extend_eval U (length pw)) by assumption. rewrite (extend_eval U (length pw)) by (try assumption; rewrite upd_length; exact Lz). exact Ne.
  - unfold num_init. cbn [sU extend ptm]. rewrite Forall_map. cbn [fst]. apply proper_rows in HU. destruct HU as [_ HU]. rewrite Forall_forall in *.
    intros u Hu. unfold getZ. rewrite app_nth1 by (rewrite (proj1 (HU u Hu)); exact Hi). apply HD, Hu.
Qed.

(** C68: [exponentiated_U * exponentiated_F * numerator] is the derivative, of the orders given by the powers, of the original
    integrand, at zero of the removed parameters.  [nu] is the sum of the powers, [D] the dimension, [L] the number of
    loops, [r] the rank. *)
Theorem C68_numerator_is_derivative : forall (eps : list R) (pw : list power) (D : R) (L r : nat) (U Fp Nu : rpoly) (dep : nat -> bool),
  let P := length pw in let nu := sum_powers eps pw in let value := power_value eps in
  proper P U -> proper P Fp -> proper (P + 2) Nu -> U_dependence pw U dep ->
  parametric (rev (combine (seq 0 P) (map (fun p => (Z.to_nat (derivatives p), dropped_U p)) pw)))
    (fun x : list R => length x = P /\ (0 < peval U x)%R /\ (0 < peval Fp x)%R)
    (product_form (fun x => peval U x) (fun x => peval Fp x) (nu - INR (L + 1) * D / 2 - INR r) (- (nu - INR L * D / 2)) (with_UF Nu))
    (product_form (fun y => peval (loop_U pw U) y) (fun y => peval (loop_U pw Fp) y)
       (@exponent_U R_Fld nu D L r (U_derivatives pw dep)) (@exponent_F R_Fld nu D L (number_of_derivatives pw))
       (with_UF (@numerator R_Fld value pw D L r U Fp Nu))).
Proof.
  intros eps pw D L r U Fp Nu dep P nu value HU HF HN HD.
  set (n := (nu - INR (L + 1) * D / 2 - INR r)%R). set (m := (nu - INR L * D / 2)%R).
  assert (En : @n_start R_Fld nu D L r = n) by (unfold n_start, n; rewrite !natF_R'; cbn; field).
  assert (Em : @m_start R_Fld nu D L = m) by (unfold m_start, m; rewrite !natF_R'; cbn; field).
  destruct (init_inv P U Fp Nu n m HU HF HN) as [I0 R0].
  pose proof (instr_length pw) as Li.
  destruct (loop_correct (instructions pw) P (@num_init R_Fld U Fp Nu n m) U Fp ltac:(rewrite Li; unfold P; lia) I0 R0) as (I1 & Q & R1 & M1).
  assert (N1 := loop_sn (instructions pw) dep P (@num_init R_Fld U Fp Nu n m) ltac:(rewrite Li; unfold P; lia) I0 (dep_init pw U Fp Nu n m dep HU HD)).
  rewrite Li in Q. fold P in Q. rewrite counted_instr in N1. rewrite instr_fst in M1.
  assert (ES : @final_state R_Fld value pw D L r U Fp Nu = num_loop (instructions pw) (@num_init R_Fld U Fp Nu n m))
    by (unfold final_state, value; rewrite N_nu_R; fold nu; rewrite En, Em; reflexivity).
  unfold numerator. rewrite ES. set (s' := num_loop (instructions pw) (@num_init R_Fld U Fp Nu n m)) in *.
  assert (EI : map (fun p => (Z.to_nat (derivatives p), dropped_U p)) pw = instructions pw).
  { unfold instructions. apply map_ext. intros p. f_equal. symmetry. apply dropped_agree. }
  rewrite EI.
  assert (EU : @exponent_U R_Fld nu D L r (U_derivatives pw dep) = sn s').
  { rewrite N1. unfold exponent_U. rewrite !natF_R'. cbn [num_init sn]. unfold n. cbn. field. }
  assert (EF : @exponent_F R_Fld nu D L (number_of_derivatives pw) = (- sm s')%R).
  { rewrite M1. unfold exponent_F. rewrite !natF_R'. cbn [num_init sm]. fold (number_of_derivatives pw). unfold m. cbn. field. }
  rewrite EU, EF. rewrite instr_snd in R1. fold (loop_U pw U) in R1. fold (loop_U pw Fp) in R1. destruct R1 as (PU & PF & VU & VF).
  (* rewrite the initial function and the domain, then the final function *)
  assert (Q1 : parametric (rev (combine (seq 0 P) (instructions pw))) (fun x : list R => length x = P /\ (0 < peval U x)%R /\ (0 < peval Fp x)%R)
    (product_form (fun x => peval U x) (fun x => peval Fp x) n (- m) (with_UF Nu)) (H s')).
  { destruct R0 as (_ & _ & VU0 & VF0). eapply (parametric_ext _ P); [| | |exact Q].
    - intros x (Lx & A & B). unfold dom. rewrite VU0, VF0 by exact Lx. auto.
    - intros x (Lx & _). exact Lx.
    - intros x Lx. unfold H, product_form, with_UF. rewrite VU0, VF0 by exact Lx. reflexivity. }
  assert (G : forall steps (D0 : list R -> Prop) f g g' k, (forall x, D0 x -> length x = k) -> (forall x, length x = k - length (filter (fun s => snd (snd s)) steps) -> g x = g' x) ->
     parametric steps D0 f g -> parametric steps D0 f g').
  { clear. induction steps as [|[i [k d]] st IH]; cbn [parametric filter snd length]; intros D0 f g g' n0 HL E Q.
    - intros x Hx. rewrite (Q x Hx). apply E. rewrite (HL x Hx). lia.
    - destruct Q as (h & Q1 & Q2). exists h. split; [exact Q1|]. destruct d; cbn [length] in E.
      + apply (IH _ _ g g' (n0 - 1)); [|intros x Hx; apply E; lia|exact Q2]. intros x Hx. apply HL in Hx. rewrite insert_length in Hx. lia.
      + apply (IH _ _ g g' n0); [exact HL|exact E|exact Q2]. }
  eapply (G _ _ _ (H s') _ P); [intros x (Lx & _); exact Lx| |exact Q1].
  intros y Ly.
  assert (Ly' : length y = P - length (filter snd (instructions pw))).
  { rewrite Ly. f_equal. unfold P. rewrite <- (instr_length pw). clear. assert (FR : forall A (g : A -> bool) (l : list A), length (filter g (rev l)) = length (filter g l)) by (intros A g l; induction l as [|a l IH]; [reflexivity|]; cbn [rev filter]; rewrite filter_app, app_length, IH; cbn [filter]; destruct (g a); cbn [length]; lia). rewrite FR. generalize (instructions pw) as l. intros l. generalize 0.
    induction l as [|a l IH]; intros k; [reflexivity|]. cbn [length seq combine filter snd]. destruct (snd a); cbn [length]; rewrite IH; reflexivity. }
  unfold H, product_form, with_UF. rewrite VU, VF by exact Ly'. reflexivity.
Qed.
Print Assumptions C68_numerator_is_derivative.

(** C43: the measure is the product of x_i^(nu_i + k_i - 1) over the parameters that are kept *)
Lemma eff_value eps p : power_value eps (eff_power p) = (power_value eps p + IZR (derivatives p))%R.
Proof.
  unfold power_value, eff_power. cbn [at0 regs]. rewrite Q2R_plus. unfold inject_Z. unfold Q2R at 2. cbn [Qnum Qden]. rewrite Rinv_1. ring.
Qed.
Theorem C43_measure : forall (eps : list R) (pw : list power) (y : list R) (u f : R), pw <> [] -> length y = kept (map dropped_U pw) ->
  powers_value (@measure R_Fld (power_value eps) pw) (y ++ [u; f]) =
  monomials (map (fun p => ((power_value eps p + IZR (derivatives p))%R, dropped_U p)) pw) y.
Proof.
  intros eps pw y u f Hne L. rewrite (measure_eval eps pw y u f Hne L). f_equal. apply map_ext. intros p. rewrite eff_value. reflexivity.
Qed.
Print Assumptions C43_measure.

Lemma degree_sum eps pw :
  fold_right Rplus 0%R (map (fun e : R * bool => if snd e then 0%R else (fst e - 1)%R) (map (fun p => ((power_value eps p + IZR (derivatives p))%R, dropped_U p)) pw))
  = (sum_powers eps pw + INR (number_of_derivatives pw) - INR (kept (map dropped_U pw)))%R.
Proof.
  unfold sum_powers, number_of_derivatives, kept. induction pw as [|p pw IH]; [cbn; ring|].
  cbn [map fold_right fst snd filter]. rewrite IH. clear IH.
  change (list_sum (Z.to_nat (derivatives p) :: map (fun p0 : power => Z.to_nat (derivatives p0)) pw)) with (Z.to_nat (derivatives p) + list_sum (map (fun p0 : power => Z.to_nat (derivatives p0)) pw)).
  rewrite plus_INR, (INR_IZR_INZ (Z.to_nat (derivatives p))), Z2Nat.id by apply derivatives_nonneg.
  pose proof (dropped_agree p) as [DA _]. destruct (dropped_U p) eqn:E; cbn [negb length].
  - assert (Z : (power_value eps p + IZR (derivatives p) = 0)%R).
    { rewrite <- eff_value. unfold dropped_numerator, power_is_zero in DA. apply Bool.andb_true_iff in DA. destruct DA as [A B]. apply Qeq_bool_iff in A.
      rewrite (value_regfree eps _ _ B A). apply RMicromega.Q2R_0. }
    lra.
  - rewrite S_INR. ring.
Qed.

(** C43: integrand times measure is homogeneous of degree minus the number of Feynman parameters that are kept *)
Theorem C43_projective : forall (eps : list R) (pw : list power) (D : R) (L r : nat) (U Fp Nu : rpoly) (dep : nat -> bool),
  let P := length pw in let nu := sum_powers eps pw in let value := power_value eps in
  pw <> [] -> proper P U -> proper P Fp -> proper (P + 2) Nu -> U_dependence pw U dep ->
  (* U and F are homogeneous of degrees L and L+1, the preliminary numerator of degree L r if U and F are counted *)
  (forall (c : R) (x : list R), length x = P -> peval U (map (Rmult c) x) = (c ^ L * peval U x)%R) ->
  (forall (c : R) (x : list R), length x = P -> peval Fp (map (Rmult c) x) = (c ^ S L * peval Fp x)%R) ->
  (forall (c : R) (x : list R) (u f : R), (0 < c)%R -> length x = P ->
     peval Nu (map (Rmult c) x ++ [c ^ L * u; c ^ S L * f]%R : list R) = (c ^ (L * r) * peval Nu (x ++ [u; f] : list R))%R) ->
  let U' := fun y : list R => peval (loop_U pw U) y in let F' := fun y : list R => peval (loop_U pw Fp) y in
  let integrand := fun y : list R =>
    (product_form U' F' (@exponent_U R_Fld nu D L r (U_derivatives pw dep)) (@exponent_F R_Fld nu D L (number_of_derivatives pw))
       (with_UF (@numerator R_Fld value pw D L r U Fp Nu)) y
     * powers_value (@measure R_Fld value pw) (y ++ [U' y; F' y]))%R in
  forall (c : R) (y : list R), (0 < c)%R -> length y = kept (map dropped_U pw) -> Forall (fun a => (0 < a)%R) y -> (0 < U' y)%R -> (0 < F' y)%R ->
  integrand (map (Rmult c) y) = (Rpower c (- INR (kept (map dropped_U pw))) * integrand y)%R.
Proof.
  intros eps pw D L r U Fp Nu dep P nu value Hne HU HF HN HD SU SF SN U' F' integrand c y Hc Ly Hy PU PF.
  set (kd := map (fun p => (Z.to_nat (derivatives p), dropped_U p)) pw).
  assert (Q := C68_numerator_is_derivative eps pw D L r U Fp Nu dep HU HF HN HD). cbv zeta in Q. fold P nu value kd in Q.
  assert (SU' : scales P L U) by exact SU. assert (SF' : scales P (S L) Fp) by exact SF.
  assert (Hom := parametric_hom _ _ _ _ _ (positive_open P U Fp HU HF) (positive_cone P U Fp L (S L) SU' SF')
     (start_hom P L r U Fp Nu (nu - INR (L + 1) * D / 2 - INR r) (nu - INR L * D / 2) SU' SF' SN) Q).
  assert (Lk : length kd = P) by (unfold kd; apply map_length).
  assert (Ek : map snd kd = map dropped_U pw) by (unfold kd; rewrite map_map; reflexivity).
  pose proof (kept_total (map dropped_U pw)) as KT. rewrite map_length in KT. fold P in KT.
  assert (FD : final_dom (rev (combine (seq 0 P) kd)) (positive_dom P U Fp) y).
  { pose proof (final_dom_embed kd P (positive_dom P U Fp) y ltac:(lia) ltac:(rewrite Ek; lia)) as FE. rewrite Lk in FE. apply FE. rewrite Ek.
    split; [rewrite embed_length; lia|]. unfold U', F' in PU, PF. rewrite C68_U_F_at_zero in PU, PF by assumption. split; assumption. }
  assert (H1 := Hom c y Hc FD). cbv beta in H1. fold U' F' in H1.
  assert (Esum : list_sum (map (fun s : nat * (nat * bool) => fst (snd s)) (rev (combine (seq 0 P) kd))) = number_of_derivatives pw).
  { rewrite map_rev. assert (SR : forall l : list nat, list_sum (rev l) = list_sum l).
    { clear. induction l as [|a l IH]; [reflexivity|]. cbn [rev]. rewrite list_sum_app, IH. change (list_sum (a :: l)) with (a + list_sum l)%nat. change (list_sum [a]) with (a + 0)%nat. lia. }
    rewrite SR. unfold number_of_derivatives. unfold P, kd. clear. f_equal. generalize 0. induction pw as [|p pw IH]; intros k; [reflexivity|].
    cbn [length seq map combine fst snd]. f_equal. apply IH. }
  rewrite Esum in H1.
  unfold integrand. rewrite H1.
  assert (Ls : length (map (Rmult c) y) = kept (map dropped_U pw)) by (rewrite map_length; exact Ly).
  unfold value. rewrite (C43_measure eps pw (map (Rmult c) y) _ _ Hne Ls). rewrite (C43_measure eps pw y _ _ Hne Ly).
  fold (scale c y). rewrite (monomials_hom _ c y Hc Hy) by (rewrite map_map; cbn [snd]; exact Ly).
  rewrite degree_sum. fold nu.
  match goal with |- (Rpower c ?a * ?b * (Rpower c ?d * ?e))%R = _ => transitivity (Rpower c (a + d) * (b * e))%R; [rewrite Rpower_plus; ring|] end.
  f_equal. f_equal. rewrite mult_INR, !S_INR, plus_INR. cbn [INR]. field.
Qed.
Print Assumptions C43_projective.
