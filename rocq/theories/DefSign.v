(** The sign check and the decrease of the deformation parameters. *)
From Coq Require Import Lia Lra.
From Verif Require Import PolyModel PolySpec DetModel CplxField DefSpec DefCont DefModel DefPoly DefHolo DefMain DefOptModel.
From Coquelicot Require Import Coquelicot.
Local Open Scope R_scope.
(** ** polynomials are holomorphic *)
Lemma cprod_head k f : cprod (S k) f = Cmult (f 0%nat) (cprod k (fun j => f (S j))).
Proof. unfold cprod. cbn [seq map fold_right]. rewrite <- seq_shift, map_map. reflexivity. Qed.
Lemma cmonomial_meval : forall e (w : list C), length w = length e -> List.Forall (fun k => (0 <= k)%Z) e -> cmonomial (length e) (fun i => Z.to_nat (getZ i e)) w = @meval C_Fld e w.
Proof.
  intros e w L N. rewrite cmonomial_cprod. revert w L. induction N as [|k e Hk He IH]; intros [|a w] L; try discriminate; [reflexivity|].
  refine (eq_trans (cprod_head (length e) _) _). cbn [meval]. refine (f_equal2 Cmult _ (IH w ltac:(cbn in L; lia))).
  symmetry. refine (eq_trans (zpow_npow a k Hk) (npow_cpow a (Z.to_nat k))).
Qed.
Lemma holo_poly n q : proper n q -> exists D, forall z, length z = n -> holomorphic_at n (fun w => peval q w : C) D z.
Proof.
  intros (En & W & N). unfold pwf in W. unfold pnonneg in N. rewrite En in W.
  assert (G : forall ts : list (list Z * C_Fld), List.Forall (fun t => length (fst t) = n) ts -> List.Forall (fun t => List.Forall (fun e => (0 <= e)%Z) (fst t)) ts ->
     exists D, forall z, length z = n -> holomorphic_at n (fun w => @sumF C_Fld (map (fun t => @fmul C_Fld (snd t) (@meval C_Fld (fst t) w)) ts) : C) D z).
  { induction ts as [|t ts IH]; intros A B; cbn [map sumF]; [exists (fun _ _ => RtoC 0); intros z _; apply holo_const|]. pose proof (Forall_inv A) as At. pose proof (Forall_inv_tail A) as At'. pose proof (Forall_inv B) as Bt. pose proof (Forall_inv_tail B) as Bt'. cbv beta in At, Bt.
    destruct (IH At' Bt') as [D HD]. destruct (holo_monomial n (fun i => Z.to_nat (getZ i (fst t))) n (le_n _)) as [E HE].
    exists (fun j w => Cplus (Cplus (Cmult (RtoC 0) (cmonomial n (fun i => Z.to_nat (getZ i (fst t))) w)) (Cmult (snd t) (E j w))) (D j w)). intros z Lz.
    refine (holo_plus n z (fun w => @fmul C_Fld (snd t) (@meval C_Fld (fst t) w)) _ _ D _ (HD z Lz)).
    eapply holo_ext; [| |exact Lz|exact (holo_mult n z (fun _ => snd t) _ _ _ (holo_const n z (snd t)) (HE z))].
    - intros w Lw. cbv beta. rewrite <- (cmonomial_meval (fst t) w) by (try exact Bt; congruence). rewrite At. reflexivity.
    - intros j w _ _. reflexivity. }
  exact (G (ptm q) W N).
Qed.
Lemma isd_unique f x l m : isd f x l -> isd f x m -> l = m.
Proof. intros [A B] [A' B']. apply injective_projections; [rewrite <- (is_derive_unique _ _ _ A); apply is_derive_unique; exact A'|rewrite <- (is_derive_unique _ _ _ B); apply is_derive_unique; exact B']. Qed.
Lemma map_RtoC_seq n (x : list R) : length x = n -> map RtoC x = map (fun j => RtoC (nth j x 0)) (seq 0 n).
Proof.
  intros L. apply (nth_ext _ _ (RtoC 0) (RtoC 0)); [rewrite !map_length, seq_length; exact L|]. intros k Hk. rewrite map_length, L in Hk. rewrite nth_mapR. symmetry.
  exact (cpt_map n (fun j => RtoC (nth j x 0)) k Hk).
Qed.
Lemma gradient_at n q D x k : proper n q -> length x = n -> (k < n)%nat -> holomorphic_at n (fun w => peval q w : C) D (map RtoC x) -> D k (map RtoC x) = (peval (pderive q k) (map RtoC x) : C).
Proof.
  intros PQ L Hk H. assert (Hk' : (k < length x)%nat) by (rewrite L; exact Hk). pose proof (ev_isd (tr 0 (DPoly q)) k x Hk') as A.
  pose proof (dv_tr n x 0 x k L (agree0 x) Hk (DPoly q) PQ) as EE. cbn [Nat.add dderive deval] in EE. rewrite EE in A.
  assert (Ex : upd k (nth k x 0) x = x). { clear -Hk'. revert k Hk'. induction x as [|a x IH]; intros [|k] H; cbn in *; try lia; auto. rewrite IH by lia. reflexivity. }
  assert (E0 : map (fun j => RtoC (nth j (upd k (nth k x 0) x) 0)) (seq 0 n) = map RtoC x) by (rewrite Ex; symmetry; apply map_RtoC_seq, L).
  assert (B := isd_chain n (fun w => peval q w : C) D (fun j v => RtoC (nth j (upd k v x) 0)) (nth k x 0) (fun j => dcoord k j)).
  cbv beta in B. rewrite E0 in B. specialize (B H).
  match type of B with ?P -> _ => assert (HP : P) end.
  { intros j Hj. pose proof (ev_isd (PV j) k x Hk') as X. exact X. }
  specialize (B HP). rewrite (csum_ext n _ (fun j => Cmult (dcoord k j) (D j (map RtoC x)))) in B by (intros; ring). rewrite csum_single, (proj2 (Nat.ltb_lt k n) Hk) in B.
  refine (isd_unique _ _ _ _ B _). eapply isd_ext; [|exact A]. intros v. cbv beta. rewrite (ev_tr n (upd k v x) 0 (upd k v x)); [|rewrite upd_len; exact L|apply agree0|exact PQ]. cbn [deval].
  rewrite (map_RtoC_seq n) by (rewrite upd_len; exact L). reflexivity.
Qed.
Section S.
Variables (n : nat) (F : cpoly).
Hypothesis PF : proper n F.
(** first order: the deformation lowers the imaginary part *)
Lemma first_order lam x : length x = n ->
  is_derive (fun s => snd (peval F (contour n (fun k x => gm F k x) lam s x) : C)) 0 (- rsumS n (fun k => nth k lam 0 * nth k x 0 * (1 - nth k x 0) * (gm F k x) ^ 2)).
Proof.
  intros L. destruct (holo_poly n F PF) as [D HD].
  set (w := fun j s => ((nth j x 0, - (s * nth j lam 0 * nth j x 0 * (1 - nth j x 0) * gm F j x)) : C)).
  set (c := fun j => ((0, - (nth j lam 0 * nth j x 0 * (1 - nth j x 0) * gm F j x)) : C)).
  assert (Dw : forall j, (j < n)%nat -> isd (w j) 0 (c j)).
  { intros j _. unfold w, c. split; cbn [fst snd]; [apply is_derive_Reals, derivable_pt_lim_const|].
    set (a := nth j lam 0 * nth j x 0 * (1 - nth j x 0) * gm F j x). eapply is_derive_ext with (f := fun s => (- a) * s); [intros s0; unfold a; change (@eq R (- (nth j lam 0 * nth j x 0 * (1 - nth j x 0) * gm F j x) * s0) (- (s0 * nth j lam 0 * nth j x 0 * (1 - nth j x 0) * gm F j x))); ring|].
    assert (X : is_derive (fun s => (- a) * s) 0 (- a * 1)) by (apply is_derive_Reals; apply (derivable_pt_lim_scal id (- a) 0 1), derivable_pt_lim_id). rewrite Rmult_1_r in X. exact X. }
  assert (E0 : map (fun j => w j 0) (seq 0 n) = map RtoC x).
  { rewrite (map_RtoC_seq n x L). apply map_ext. intros j. unfold w. apply injective_projections; cbn; ring. }
  pose proof (isd_chain n (fun w => peval F w : C) D w 0 c) as B. cbv beta in B. rewrite E0 in B. specialize (B (HD _ ltac:(rewrite map_length; exact L)) Dw). destruct B as [_ B].
  assert (EV : snd (csum n (fun j => Cmult (D j (map RtoC x)) (c j))) = - rsumS n (fun k => nth k lam 0 * nth k x 0 * (1 - nth k x 0) * (gm F k x) ^ 2)).
  { assert (G : forall m, (m <= n)%nat -> snd (csum m (fun j => Cmult (D j (map RtoC x)) (c j))) = - rsumS m (fun k => nth k lam 0 * nth k x 0 * (1 - nth k x 0) * (gm F k x) ^ 2)); [|apply G, le_n].
    induction m as [|m IH]; intros Hm; cbn [csum rsumS]; [cbn; ring|]. rewrite (gradient_at n F D x m PF L ltac:(lia)) by (apply HD; rewrite map_length; exact L).
    change (snd (csum m (fun j => Cmult (D j (map RtoC x)) (c j))) + snd (Cmult (peval (pderive F m) (map RtoC x)) (c m)) = - (rsumS m (fun k => nth k lam 0 * nth k x 0 * (1 - nth k x 0) * (gm F k x) ^ 2) + nth m lam 0 * nth m x 0 * (1 - nth m x 0) * gm F m x ^ 2)).
    rewrite IH by lia. unfold gm, c. cbn [Cmult fst snd]. unfold gm. ring. }
  rewrite EV in B. exact B.
Qed.
Lemma rsum_nonneg m f : (forall k, (k < m)%nat -> 0 <= f k) -> 0 <= rsumS m f /\ (rsumS m f = 0 -> forall k, (k < m)%nat -> f k = 0).
Proof.
  induction m as [|m IH]; intros H; cbn [rsumS]; [split; [lra|intros; lia]|]. destruct (IH ltac:(intros; apply H; lia)) as [A B]. pose proof (H m ltac:(lia)). split; [lra|].
  intros E k Hk. destruct (Nat.eq_dec k m) as [->|]; [lra|apply B; [lra|lia]].
Qed.
Lemma deriv_neg (f : R -> R) l : is_derive f 0 l -> l < 0 -> exists d, 0 < d /\ forall s, 0 < s < d -> f s < f 0.
Proof.
  intros H Hl. apply is_derive_Reals in H. destruct (H (- l / 2) ltac:(lra)) as (d & Q). exists d. split; [apply cond_pos|]. intros s Hs.
  specialize (Q s ltac:(lra)). rewrite Rabs_right in Q by lra. specialize (Q ltac:(lra)). rewrite Rplus_0_l in Q. apply Rabs_def2 in Q. destruct Q as [Q _].
  assert (E : (f s - f 0) / s < 0) by lra. assert (E2 : (f s - f 0) / s * s < 0 * s) by (apply Rmult_lt_compat_r; lra). unfold Rdiv in E2. rewrite Rmult_assoc, Rinv_l, Rmult_1_r in E2 by lra. lra.
Qed.
Lemma point_contour_gm lam x : length x = n -> deformed_point n F lam x = contour n (fun k x => gm F k x) lam 1 x.
Proof.
  intros L. apply map_ext_in. intros k Hk. apply in_seq in Hk. rewrite (eval_deformed n F lam) by (try assumption; lia). apply injective_projections; cbn; ring.
Qed.
Lemma nth_map0 s (lam : list R) k : nth k (map (fun l => l * s) lam) 0 = nth k lam 0 * s.
Proof. rewrite <- (map_nth (fun l => l * s) lam 0 k). replace (0 * s) with 0 by ring. reflexivity. Qed.
Lemma contour_scale lam s x : contour n (fun k x => gm F k x) (map (fun l => l * s) lam) 1 x = contour n (fun k x => gm F k x) lam s x.
Proof. apply map_ext. intros k. rewrite nth_map0. apply injective_projections; cbn; ring. Qed.
Lemma contour_zero t x : contour n (fun k x => gm F k x) (repeat 0 n) t x = contour n (fun k x => gm F k x) (repeat 0 n) 0 x.
Proof. apply map_ext. intros k. rewrite nth_repeat. apply injective_projections; cbn; ring. Qed.
Lemma contour_0 lam x : contour n (fun k x => gm F k x) lam 0 x = contour n (fun k x => gm F k x) (repeat 0 n) 1 x.
Proof. apply map_ext. intros k. rewrite nth_repeat. apply injective_projections; cbn; ring. Qed.
(** there is a scale below which the check is passed *)
Lemma sign_check_small lam x : in_cube n x -> List.Forall (fun l => 0 <= l) lam -> exists d, 0 < d /\ forall s, 0 < s < d -> passes_sign_check n F (map (fun l => l * s) lam) x = true.
Proof.
  intros [L Hx] Hl. set (f := fun s => snd (peval F (contour n (fun k x => gm F k x) lam s x) : C)).
  assert (Hlam : forall k, 0 <= nth k lam 0). { intros k. destruct (Nat.lt_ge_cases k (length lam)) as [Hk|Hk]; [exact (proj1 (Forall_forall _ _) Hl _ (nth_In _ _ Hk))|rewrite nth_overflow by exact Hk; lra]. }
  assert (Hxk : forall k, (k < n)%nat -> 0 <= nth k x 0 <= 1). { intros k Hk. apply (proj1 (Forall_forall _ _) Hx), nth_In. rewrite L. exact Hk. }
  set (S := rsumS n (fun k => nth k lam 0 * nth k x 0 * (1 - nth k x 0) * (gm F k x) ^ 2)).
  pose proof (first_order lam x L) as D. fold f S in D.
  assert (N : forall k, (k < n)%nat -> 0 <= nth k lam 0 * nth k x 0 * (1 - nth k x 0) * (gm F k x) ^ 2).
  { intros k Hk. pose proof (Hlam k). pose proof (Hxk k Hk). apply Rmult_le_pos; [|apply pow2_ge_0]. apply Rmult_le_pos; [|lra]. apply Rmult_le_pos; lra. }
  destruct (rsum_nonneg n _ N) as [P Z]. fold S in P, Z.
  assert (CH : forall s, f s <= f 0 -> passes_sign_check n F (map (fun l => l * s) lam) x = true).
  { intros s H. unfold passes_sign_check. rewrite !point_contour_gm by exact L. rewrite contour_scale, <- (contour_0 lam). destruct (Rle_dec _ _) as [_|N']; [reflexivity|]. elim N'. exact H. }
  destruct (Rle_lt_or_eq_dec _ _ P) as [Hpos|Hz].
  - destruct (deriv_neg f (- S) D ltac:(lra)) as (d & Hd & Q). exists d. split; [exact Hd|]. intros s Hs. apply CH. apply Rlt_le, Q, Hs.
  - exists 1. split; [lra|]. intros s _. apply CH. right. unfold f. f_equal. f_equal. apply map_ext_in. intros k Hk. apply in_seq in Hk. specialize (Z (eq_sym Hz) k ltac:(lia)).
    assert (E : nth k lam 0 * nth k x 0 * (1 - nth k x 0) * gm F k x = 0).
    { destruct (Req_dec (gm F k x) 0) as [->|Hg]; [ring|]. assert (Hg2 : (gm F k x) ^ 2 <> 0) by (apply pow_nonzero, Hg). apply Rmult_integral in Z. destruct Z as [Z|Z]; [rewrite Z; ring|contradiction]. }
    apply injective_projections; cbn [fst snd]; [reflexivity|]. replace (s * nth k lam 0 * nth k x 0 * (1 - nth k x 0) * gm F k x) with (s * (nth k lam 0 * nth k x 0 * (1 - nth k x 0) * gm F k x)) by ring. rewrite E. ring.
Qed.
Lemma map_scale_scale a b (lam : list R) : map (fun l => l * b) (map (fun l => l * a) lam) = map (fun l => l * (a * b)) lam.
Proof. rewrite map_map. apply map_ext. intros; ring. Qed.
Lemma map_scale_1 (lam : list R) : map (fun l => l * 1) lam = lam.
Proof. rewrite <- (map_id lam) at 2. apply map_ext. intros; ring. Qed.
(** the while loop ends *)
Lemma loop_iter factor x : forall m fuel lam, (m <= fuel)%nat -> passes_sign_check n F (map (fun l => l * factor ^ m) lam) x = true ->
  exists k, (k <= m)%nat /\ decrease_loop fuel n F factor lam x = Some (map (fun l => l * factor ^ k) lam) /\ passes_sign_check n F (map (fun l => l * factor ^ k) lam) x = true /\
    forall i, (i < k)%nat -> passes_sign_check n F (map (fun l => l * factor ^ i) lam) x = false.
Proof.
  induction m as [|m IH]; intros fuel lam Hf H.
  - exists 0%nat. cbn [pow] in *. rewrite map_scale_1 in *. split; [lia|]. split; [destruct fuel; cbn [decrease_loop]; rewrite H; reflexivity|]. split; [exact H|intros; lia].
  - destruct (passes_sign_check n F lam x) eqn:E.
    + exists 0%nat. cbn [pow]. rewrite map_scale_1. split; [lia|]. split; [destruct fuel; cbn [decrease_loop]; rewrite E; reflexivity|]. split; [exact E|intros; lia].
    + destruct fuel as [|fuel]; [lia|]. cbn [decrease_loop]. rewrite E.
      destruct (IH fuel (map (fun l => l * factor) lam) ltac:(lia)) as (k & Hk & A & B & Cc).
      { rewrite map_scale_scale. exact H. }
      exists (S k). rewrite map_scale_scale in A, B. split; [lia|]. split; [exact A|]. split; [exact B|]. intros i Hi. destruct i as [|i]; [cbn [pow]; rewrite map_scale_1; exact E|].
      specialize (Cc i ltac:(lia)). rewrite map_scale_scale in Cc. exact Cc.
Qed.
Lemma loop_ends factor lam x : in_cube n x -> List.Forall (fun l => 0 <= l) lam -> 0 < factor < 1 -> exists m, passes_sign_check n F (map (fun l => l * factor ^ m) lam) x = true.
Proof.
  intros Hx Hl Hf. destruct (sign_check_small lam x Hx Hl) as (d & Hd & Q). destruct (pow_lt_1_zero factor ltac:(rewrite Rabs_right; lra) d Hd) as [m Hm]. exists m. apply Q.
  specialize (Hm m (le_n m)). assert (0 < factor ^ m) by (apply pow_lt; lra). rewrite Rabs_right in Hm by lra. lra.
Qed.
Lemma loop_fuel factor x : forall fuel fuel' lam r, (fuel <= fuel')%nat -> decrease_loop fuel n F factor lam x = Some r -> decrease_loop fuel' n F factor lam x = Some r.
Proof.
  induction fuel as [|fuel IH]; intros fuel' lam r Hf H.
  - cbn [decrease_loop] in H. destruct (passes_sign_check n F lam x) eqn:E; [|discriminate]. destruct fuel'; cbn [decrease_loop]; rewrite E; exact H.
  - cbn [decrease_loop] in H. destruct fuel' as [|fuel']; [lia|]. cbn [decrease_loop]. destruct (passes_sign_check n F lam x); [exact H|]. apply IH; [lia|exact H].
Qed.
Lemma all_fuel factor : forall samples fuel fuel' lam r, (fuel <= fuel')%nat -> decrease_all fuel n F factor samples lam = Some r -> decrease_all fuel' n F factor samples lam = Some r.
Proof.
  induction samples as [|x samples IH]; intros fuel fuel' lam r Hf H; cbn [decrease_all] in *; [exact H|]. destruct (decrease_loop fuel n F factor lam x) as [l|] eqn:E; [|discriminate].
  rewrite (loop_fuel factor x fuel fuel' lam l Hf E). apply (IH fuel); assumption.
Qed.
Lemma scale_nonneg factor k lam : 0 < factor -> List.Forall (fun l => 0 <= l) lam -> List.Forall (fun l => 0 <= l) (map (fun l => l * factor ^ k) lam).
Proof. intros Hf H. apply Forall_map. eapply Forall_impl; [|exact H]. cbv beta. intros l Hl. apply Rmult_le_pos; [exact Hl|]. apply Rlt_le, pow_lt, Hf. Qed.
(** the second phase ends, the result is the first phase's times a power of the factor, and the last sample passes *)
Lemma second_phase factor : 0 < factor < 1 -> forall samples lam, List.Forall (in_cube n) samples -> List.Forall (fun l => 0 <= l) lam ->
  exists fuel m, decrease_all fuel n F factor samples lam = Some (map (fun l => l * factor ^ m) lam) /\
    (forall x, last (map Some samples) None = Some x -> passes_sign_check n F (map (fun l => l * factor ^ m) lam) x = true).
Proof.
  intros Hf. induction samples as [|x samples IH]; intros lam Hs Hl.
  - exists 0%nat, 0%nat. cbn [decrease_all pow map last]. rewrite map_scale_1. split; [reflexivity|discriminate].
  - inversion Hs; subst. destruct (loop_ends factor lam x ltac:(assumption) Hl Hf) as [m0 Hm0]. destruct (loop_iter factor x m0 m0 lam (le_n _) Hm0) as (k & Hk & A & B & _).
    destruct (IH (map (fun l => l * factor ^ k) lam) ltac:(assumption) (scale_nonneg factor k lam ltac:(lra) Hl)) as (fuel & m & Cc & D).
    exists (Nat.max m0 fuel), (k + m)%nat. rewrite map_scale_scale in Cc, D. rewrite <- pow_add in Cc, D. split.
    + cbn [decrease_all]. rewrite (loop_fuel factor x m0 (Nat.max m0 fuel) lam _ ltac:(lia) A). apply (all_fuel factor samples fuel); [lia|exact Cc].
    + intros y Hy. destruct samples as [|x' samples].
      * cbn in Hy. injection Hy as <-. cbn [decrease_all] in Cc. injection Cc as Cc. rewrite <- Cc. exact B.
      * apply D. exact Hy.
Qed.
End S.
(** ** the first phase *)
Lemma update_min mn mx opt t : mn <= opt <= mx -> update_parameter mn mx opt (Some t) = Rmin opt (Rmax mn t).
Proof.
  intros H. unfold update_parameter, Rmin, Rmax. repeat match goal with |- context [if ?d then _ else _] => destruct d end; lra.
Qed.
Lemma nth_mapseq (f : nat -> R) n j : (j < n)%nat -> nth j (map f (seq 0 n)) 0 = f j.
Proof. intros H. rewrite (nth_indep _ 0 (f 0%nat)) by (rewrite map_length, seq_length; exact H). rewrite map_nth, seq_nth by exact H. reflexivity. Qed.
Lemma presample_spec n F mn mx : mn <= mx -> forall samples opt, length opt = n -> (forall j, (j < n)%nat -> mn <= nth j opt 0 <= mx) ->
  length (presample_minimum n F mn mx samples opt) = n /\
  forall j, (j < n)%nat -> let r := nth j (presample_minimum n F mn mx samples opt) 0 in
    mn <= r <= nth j opt 0 /\ (forall x t, In x samples -> maximal_parameter F x j = Some t -> r <= Rmax mn t) /\
    (r = nth j opt 0 \/ exists x t, In x samples /\ maximal_parameter F x j = Some t /\ r = Rmax mn t).
Proof.
  intros Hm. induction samples as [|x samples IH]; intros opt L H.
  - cbn [presample_minimum fold_left]. split; [exact L|]. intros j Hj. specialize (H j Hj). split; [cbn; lra|]. split; [intros ? ? []|left; reflexivity].
  - set (opt' := map (fun j => update_parameter mn mx (nth j opt 0) (maximal_parameter F x j)) (seq 0 n)).
    change (presample_minimum n F mn mx (x :: samples) opt) with (presample_minimum n F mn mx samples opt').
    assert (N : forall j, (j < n)%nat -> nth j opt' 0 = update_parameter mn mx (nth j opt 0) (maximal_parameter F x j)) by (intros j Hj; apply nth_mapseq, Hj).
    assert (U : forall j, (j < n)%nat -> mn <= nth j opt' 0 <= nth j opt 0 /\ (forall t, maximal_parameter F x j = Some t -> nth j opt' 0 <= Rmax mn t) /\ (nth j opt' 0 = nth j opt 0 \/ exists t, maximal_parameter F x j = Some t /\ nth j opt' 0 = Rmax mn t)).
    { intros j Hj. rewrite (N j Hj). specialize (H j Hj). destruct (maximal_parameter F x j) as [t|]; [|cbn; split; [lra|split; [discriminate|left; reflexivity]]].
      rewrite update_min by exact H. pose proof (Rmax_l mn t). split; [split; [apply Rmin_glb; lra|apply Rmin_l]|]. split; [intros t' E; injection E as <-; apply Rmin_r|].
      unfold Rmin. destruct (Rle_dec _ _); [left; reflexivity|right; exists t; split; reflexivity]. }
    destruct (IH opt') as [L' Q]; [unfold opt'; rewrite map_length, seq_length; reflexivity|intros j Hj; specialize (U j Hj); specialize (H j Hj); lra|].
    split; [exact L'|]. intros j Hj r. destruct (Q j Hj) as (A & B & Cc). fold r in A, B, Cc. destruct (U j Hj) as (A' & B' & C'). split; [lra|]. split.
    + intros y t [<-|Hy] E; [specialize (B' t E); lra|exact (B y t Hy E)].
    + destruct Cc as [Er|(y & t & Hy & E & Er)]; [|right; exists y, t; split; [right; exact Hy|split; assumption]].
      destruct C' as [E'|(t & E & E')]; [left; lra|right; exists x, t; split; [left; reflexivity|split; [exact E|lra]]].
Qed.
