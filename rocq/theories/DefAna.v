(** Stokes' theorem on the unit cube for real vector fields. *)
From Coq Require Import Lia Lra.
From Coquelicot Require Import Coquelicot.
From Verif Require Import PolyModel TransModel TransSpec TransProofs.
Local Open Scope R_scope.

(** ** exchange of two integrals *)
Definition uc2 (f : R -> R -> R) : Prop := forall eps, 0 < eps -> exists delta, 0 < delta /\
  forall u v u' v', 0 <= u <= 1 -> 0 <= v <= 1 -> 0 <= u' <= 1 -> 0 <= v' <= 1 -> Rabs (u - u') < delta -> Rabs (v - v') < delta -> Rabs (f u v - f u' v') < eps.
Lemma RInt_ext01 (f g : R -> R) : (forall x, 0 <= x <= 1 -> f x = g x) -> RInt f 0 1 = RInt g 0 1.
Proof. intros H. apply RInt_ext. intros x Hx. rewrite Rmin_left, Rmax_right in Hx by lra. apply H. lra. Qed.
Lemma fubini2 f : uc2 f -> RInt (fun v => RInt (fun u => f u v) 0 1) 0 1 = RInt (fun u => RInt (fun v => f u v) 0 1) 0 1.
Proof.
  intros H. set (c := fun u v => f (clamp u) (clamp v)).
  assert (Hc : forall eps, 0 < eps -> exists delta, 0 < delta /\ forall u v u' v', Rabs (u - u') < delta -> Rabs (v - v') < delta -> Rabs (c u v - c u' v') < eps).
  { intros eps He. destruct (H eps He) as (d & Hd & Q). exists d. split; [exact Hd|]. intros u v u' v' A B. unfold c. apply Q; try apply clamp_range.
    - eapply Rle_lt_trans; [apply clamp_lip|exact A].
    - eapply Rle_lt_trans; [apply clamp_lip|exact B]. }
  transitivity (RInt (fun v => RInt (fun u => c u v) 0 1) 0 1).
  { apply RInt_ext01. intros v Hv. apply RInt_ext01. intros u Hu. unfold c. rewrite !clamp_id by assumption. reflexivity. }
  transitivity (RInt (fun u => RInt (fun v => c u v) 0 1) 0 1).
  2: { apply RInt_ext01. intros v Hv. apply RInt_ext01. intros u Hu. unfold c. rewrite !clamp_id by assumption. reflexivity. }
  assert (C1 : forall v x, continuous (fun u => c u v) x).
  { intros v x. apply continuity_pt_filterlim. intros eps He. destruct (Hc eps He) as (d & Hd & Q). exists d. split; [exact Hd|]. intros y [_ Hy].
    apply Q; [exact Hy|]. rewrite Rminus_eq_0, Rabs_R0. exact Hd. }
  assert (C2 : forall u x, continuous (fun v => c u v) x).
  { intros u x. apply continuity_pt_filterlim. intros eps He. destruct (Hc eps He) as (d & Hd & Q). exists d. split; [exact Hd|]. intros y [_ Hy].
    apply Q; [|exact Hy]. rewrite Rminus_eq_0, Rabs_R0. exact Hd. }
  assert (E1 : forall v a b, ex_RInt (fun u => c u v) a b). { intros. apply (ex_RInt_continuous (V := R_CompleteNormedModule)). intros; apply C1. }
  assert (E2 : forall u a b, ex_RInt (fun v => c u v) a b). { intros. apply (ex_RInt_continuous (V := R_CompleteNormedModule)). intros; apply C2. }
  set (P := (fun s v => RInt (fun u => c u v) 0 s) : R -> R -> R). set (Q := (fun u => RInt (fun v => c u v) 0 1) : R -> R).
  assert (DP : forall s v, is_derive (fun s => P s v) s (c s v)).
  { intros s v. unfold P. apply (is_derive_RInt (V := R_NormedModule) (fun u => c u v) (fun s => RInt (fun u => c u v) 0 s) 0 s).
    - apply filter_forall. intros y. apply (RInt_correct (V := R_CompleteNormedModule)). apply E1.
    - apply C1. }
  assert (CQ : forall x, continuous Q x).
  { intros x. apply continuity_pt_filterlim. intros eps He. destruct (Hc (eps / 2) ltac:(lra)) as (d & Hd & HQ). exists d. split; [exact Hd|]. intros y [_ Hy].
    unfold dist; cbn. unfold R_dist, Q. change (Rabs (minus (RInt (fun v => c y v) 0 1) (RInt (fun v => c x v) 0 1)) < eps).
    rewrite <- (RInt_minus (V := R_CompleteNormedModule)) by apply E2.
    apply Rle_lt_trans with (eps / 2); [|lra]. apply RInt_bound; [apply (ex_RInt_minus (V := R_CompleteNormedModule)); apply E2|].
    intros v _. apply Rlt_le. apply HQ; [exact Hy|]. rewrite Rminus_eq_0, Rabs_R0. exact Hd. }
  assert (CP : forall s x, continuous (fun v => P s v) x).
  { intros s x. apply continuity_pt_filterlim. intros eps He.
    assert (Hp : 0 < Rabs s + 1) by (pose proof (Rabs_pos s); lra).
    destruct (Hc (eps / (Rabs s + 1)) ltac:(apply Rdiv_lt_0_compat; lra)) as (d & Hd & HQ). exists d. split; [exact Hd|]. intros y [_ Hy].
    unfold dist; cbn. unfold R_dist, P. change (Rabs (minus (RInt (fun u => c u y) 0 s) (RInt (fun u => c u x) 0 s)) < eps).
    rewrite <- (RInt_minus (V := R_CompleteNormedModule)) by apply E1.
    assert (X : forall u, Rabs (minus (c u y) (c u x)) <= eps / (Rabs s + 1)).
    { intros u. apply Rlt_le. apply HQ; [|exact Hy]. rewrite Rminus_eq_0, Rabs_R0. exact Hd. }
    apply Rle_lt_trans with (Rabs s * (eps / (Rabs s + 1))).
    - destruct (Rle_dec 0 s) as [Hs|Hs].
      + rewrite (Rabs_right s) by lra. replace s with (s - 0) at 2 by ring.
        apply abs_RInt_le_const; [lra|apply (ex_RInt_minus (V := R_CompleteNormedModule)); apply E1|].
        rewrite (Rabs_right s) in X by lra. intros t _. apply X.
      + rewrite <- (opp_RInt_swap (V := R_CompleteNormedModule)) by (apply (ex_RInt_minus (V := R_CompleteNormedModule)); apply E1).
        change (Rabs (- RInt (fun x0 => minus (c x0 y) (c x0 x)) s 0) <= Rabs s * (eps / (Rabs s + 1))).
        rewrite Rabs_Ropp. rewrite (Rabs_left s) by lra. replace (- s) with (0 - s) at 1 by ring.
        apply abs_RInt_le_const; [lra|apply (ex_RInt_minus (V := R_CompleteNormedModule)); apply E1|].
        rewrite (Rabs_left s) in X by lra. intros t _. apply X.
    - apply Rmult_lt_reg_r with (Rabs s + 1); [exact Hp|]. unfold Rdiv. 
      replace (Rabs s * (eps * / (Rabs s + 1)) * (Rabs s + 1)) with (Rabs s * eps) by (field; lra). nra. }
  assert (DA : forall s, is_derive (fun s => RInt (fun v => P s v) 0 1) s (Q s)).
  { intros s. assert (ED : forall u v, Derive (fun z => P z v) u = c u v) by (intros; apply is_derive_unique, DP).
    replace (Q s) with (RInt (fun v => Derive (fun u => P u v) s) 0 1) by (apply RInt_ext01; intros; apply ED).
    apply is_derive_RInt_param.
    - apply filter_forall. intros x t _. exists (c x t). apply DP.
    - intros t _ eps. destruct (Hc eps (cond_pos eps)) as (d & Hd & HQ). exists (mkposreal d Hd). intros u v A B. cbn in A, B. rewrite !ED. apply HQ; assumption.
    - apply filter_forall. intros y. apply (ex_RInt_continuous (V := R_CompleteNormedModule)). intros; apply CP. }
  assert (I1 : is_RInt Q 0 1 (minus (RInt (fun v => P 1 v) 0 1) (RInt (fun v => P 0 v) 0 1))).
  { apply (is_RInt_derive (V := R_CompleteNormedModule) (fun s => RInt (fun v => P s v) 0 1)); intros; [apply DA|apply CQ]. }
  apply (is_RInt_unique (V := R_CompleteNormedModule)) in I1. fold Q. rewrite I1. unfold P at 2.
  assert (Z : RInt (fun v => RInt (fun u => c u v) 0 0) 0 1 = 0).
  { rewrite (RInt_ext01 _ (fun _ => 0)) by (intros; apply (RInt_point (V := R_CompleteNormedModule))). rewrite (RInt_const (V := R_CompleteNormedModule)). change ((1 - 0) * 0 = 0). ring. }
  rewrite Z. unfold minus, plus, opp; cbn. unfold P. ring.
Qed.

(** ** integrals over the cube *)
Lemma cube_ext n : forall f g, (forall x, in_cube n x -> f x = g x) -> cube_integral n f = cube_integral n g.
Proof.
  induction n as [|n IH]; intros f g H; cbn [cube_integral].
  - apply H. split; [reflexivity|constructor].
  - apply RInt_ext01. intros v Hv. apply IH. intros x Hx. apply H, in_cube_cons; assumption.
Qed.
Lemma cube_zero n : cube_integral n (fun _ => 0) = 0.
Proof. induction n; cbn [cube_integral]; [reflexivity|]. rewrite (RInt_ext01 _ (fun _ => 0)) by (intros; exact IHn). rewrite (RInt_const (V := R_CompleteNormedModule)). change ((1 - 0) * 0 = 0). ring. Qed.
Lemma coc_plus n f g : continuous_on_cube n f -> continuous_on_cube n g -> continuous_on_cube n (fun x => f x + g x).
Proof.
  intros Hf Hg eps He. destruct (Hf (eps / 2) ltac:(lra)) as (d & Hd & A), (Hg (eps / 2) ltac:(lra)) as (e & He' & B). exists (Rmin d e). split; [apply Rmin_glb_lt; assumption|].
  intros x y Hx Hy Hxy. replace (f x + g x - (f y + g y)) with ((f x - f y) + (g x - g y)) by ring.
  eapply Rle_lt_trans; [apply Rabs_triang|]. replace eps with (eps / 2 + eps / 2) by field. apply Rplus_lt_compat; [apply A|apply B]; try assumption.
  - clear -Hxy. induction Hxy; constructor; auto. eapply Rlt_le_trans; [exact H|apply Rmin_l].
  - clear -Hxy. induction Hxy; constructor; auto. eapply Rlt_le_trans; [exact H|apply Rmin_r].
Qed.
Lemma coc_const n c : continuous_on_cube n (fun _ => c).
Proof. intros eps He. exists 1. split; [lra|]. intros. rewrite Rminus_eq_0, Rabs_R0. exact He. Qed.
Lemma cube_plus n : forall f g, continuous_on_cube n f -> continuous_on_cube n g -> cube_integral n (fun x => f x + g x) = cube_integral n f + cube_integral n g.
Proof.
  induction n as [|n IH]; intros f g Hf Hg; cbn [cube_integral]; [reflexivity|].
  rewrite (RInt_ext01 _ (fun v => plus (cube_integral n (fun xs => f (v :: xs))) (cube_integral n (fun xs => g (v :: xs))))).
  - rewrite (RInt_plus (V := R_CompleteNormedModule)); [reflexivity| |]; apply uc_ex, (proj1 (cube_close n)); assumption.
  - intros v Hv. apply (IH (fun xs => f (v :: xs)) (fun xs => g (v :: xs))); apply slice; assumption.
Qed.
Fixpoint rsum (m : nat) (f : nat -> R) : R := match m with O => 0 | S k => rsum k f + f k end.
Lemma coc_rsum n m f : (forall a, (a < m)%nat -> continuous_on_cube n (f a)) -> continuous_on_cube n (fun x => rsum m (fun a => f a x)).
Proof. induction m; intros H; cbn [rsum]; [apply coc_const|]. apply coc_plus; [apply IHm; intros; apply H; lia|apply H; lia]. Qed.
Lemma cube_rsum n m f : (forall a, (a < m)%nat -> continuous_on_cube n (f a)) -> cube_integral n (fun x => rsum m (fun a => f a x)) = rsum m (fun a => cube_integral n (f a)).
Proof.
  induction m; intros H; cbn [rsum]; [apply cube_zero|]. rewrite cube_plus; [|apply coc_rsum; intros; apply H; lia|apply H; lia].
  f_equal. apply IHm. intros. apply H. lia.
Qed.
(** the first variable integrated last *)
Lemma first_last n : forall d, continuous_on_cube (S n) d -> cube_integral n (fun xs => RInt (fun u => d (u :: xs)) 0 1) = cube_integral (S n) d.
Proof.
  induction n as [|n IH]; intros d Hd; [reflexivity|].
  transitivity (RInt (fun v => RInt (fun u => cube_integral n (fun xs => d (u :: v :: xs))) 0 1) 0 1).
  - cbn [cube_integral]. apply RInt_ext01. intros v Hv.
    transitivity (cube_integral (S n) (fun p => match p with u :: xs => d (u :: v :: xs) | [] => 0 end)); [|reflexivity].
    rewrite <- IH; [reflexivity|]. intros eps He. destruct (Hd eps He) as (e & Hpe & Q). exists e. split; [exact Hpe|].
    intros x y [Lx Fx] [Ly Fy] Hxy. destruct Hxy as [|u u' xs ys Hu Hs]; [discriminate|]. apply Q.
    + split; [cbn in *; lia|]. inversion Fx; subst. constructor; [assumption|]. constructor; assumption.
    + split; [cbn in *; lia|]. inversion Fy; subst. constructor; [assumption|]. constructor; assumption.
    + constructor; [exact Hu|]. constructor; [rewrite Rminus_eq_0, Rabs_R0; exact Hpe|exact Hs].
  - rewrite (fubini2 (fun u v => cube_integral n (fun xs => d (u :: v :: xs)))); [reflexivity|].
    intros eps He. destruct (Hd (eps / 2) ltac:(lra)) as (e & Hpe & Q). exists e. split; [exact Hpe|].
    intros u v u' v' Hu Hv Hu' Hv' Hd1 Hd2. apply Rle_lt_trans with (eps / 2); [|lra].
    assert (SL : forall u v, 0 <= u <= 1 -> 0 <= v <= 1 -> continuous_on_cube n (fun xs => d (u :: v :: xs))).
    { intros a b Ha Hb. apply (slice n (fun p => d (a :: p)) b Hb), slice; assumption. }
    apply (proj2 (cube_close n)); try (apply SL; assumption).
    intros x Hx. apply Rlt_le, Q; try (apply in_cube_cons; [assumption|apply in_cube_cons; assumption]).
    constructor; [exact Hd1|]. constructor; [exact Hd2|apply F2_refl, Hpe].
Qed.
(** the fundamental theorem on the closed interval *)
Lemma ftc01 h d : (forall v, 0 <= v <= 1 -> is_derive h v (d v)) -> uc d -> RInt d 0 1 = h 1 - h 0.
Proof.
  intros H U. rewrite (RInt_ext01 d (fun v => d (clamp v))) by (intros; rewrite clamp_id by assumption; reflexivity).
  apply is_RInt_unique. apply (is_RInt_derive (V := R_CompleteNormedModule) h (fun v => d (clamp v))).
  - intros x Hx. rewrite Rmin_left, Rmax_right in Hx by lra. rewrite clamp_id by lra. apply H. lra.
  - intros x _. apply uc_continuous, U.
Qed.
Lemma coc_uc n d xs : in_cube n xs -> continuous_on_cube (S n) d -> uc (fun u => d (u :: xs)).
Proof.
  intros Hx H eps He. destruct (H eps He) as (e & Hpe & Q). exists e. split; [exact Hpe|]. intros u v Hu Hv Huv.
  apply Q; try (apply in_cube_cons; assumption). constructor; [exact Huv|apply F2_refl, Hpe].
Qed.
Lemma upd_cons {A} a (v : A) u l : upd (S a) v (u :: l) = u :: upd a v l. Proof. reflexivity. Qed.
(** a derivative along coordinate [a] integrates to the difference of the faces *)
Lemma partial_first n h d : continuous_on_cube (S n) d ->
  (forall p, in_cube (S n) p -> is_derive (fun v => h (upd 0 v p)) (nth 0 p 0) (d p)) ->
  cube_integral (S n) d = cube_integral n (fun xs => h (1 :: xs) - h (0 :: xs)).
Proof.
  intros Hd H. rewrite <- first_last by exact Hd. apply cube_ext. intros xs Hx.
  apply (ftc01 (fun v => h (v :: xs)) (fun v => d (v :: xs))).
  - intros v Hv. exact (H (v :: xs) (in_cube_cons n v xs Hv Hx)).
  - apply (coc_uc n); assumption.
Qed.
Lemma partial_zero : forall a n h d, (a < n)%nat -> continuous_on_cube n d ->
  (forall p, in_cube n p -> is_derive (fun v => h (upd a v p)) (nth a p 0) (d p)) ->
  (forall p, in_cube n p -> nth a p 0 = 0 \/ nth a p 0 = 1 -> h p = 0) ->
  cube_integral n d = 0.
Proof.
  induction a as [|a IH]; intros n h d Ha Hd H Hz; destruct n as [|n]; try lia.
  - rewrite (partial_first n h d Hd H). rewrite (cube_ext _ _ (fun _ => 0)); [apply cube_zero|].
    intros x Hx. rewrite !Hz; [ring| | | |]; try (apply in_cube_cons; [lra|assumption]); cbn; auto.
  - cbn [cube_integral]. rewrite (RInt_ext01 _ (fun _ => 0)).
    { rewrite (RInt_const (V := R_CompleteNormedModule)). change ((1 - 0) * 0 = 0). ring. }
    intros v Hv. apply (IH n (fun xs => h (v :: xs)) (fun xs => d (v :: xs))); [lia|apply slice; assumption| |].
    + intros p Hp. exact (H (v :: p) (in_cube_cons n v p Hv Hp)).
    + intros p Hp Hn. apply Hz; [apply in_cube_cons; assumption|exact Hn].
Qed.
Theorem stokes_cube n (h d : nat -> list R -> R) :
  (forall a, (a < S n)%nat -> continuous_on_cube (S n) (d a)) ->
  (forall a, (a < S n)%nat -> forall p, in_cube (S n) p -> is_derive (fun v => h a (upd a v p)) (nth a p 0) (d a p)) ->
  (forall a, (0 < a < S n)%nat -> forall p, in_cube (S n) p -> nth a p 0 = 0 \/ nth a p 0 = 1 -> h a p = 0) ->
  (forall p, in_cube (S n) p -> rsum (S n) (fun a => d a p) = 0) ->
  cube_integral n (fun xs => h 0%nat (1 :: xs) - h 0%nat (0 :: xs)) = 0.
Proof.
  intros Hc Hd Hz H0. rewrite <- (partial_first n (h 0%nat) (d 0%nat)) by (try apply Hc; try apply Hd; lia).
  assert (S0 : rsum (S n) (fun a => cube_integral (S n) (d a)) = 0).
  { rewrite <- (cube_rsum (S n) (S n) d) by exact Hc. rewrite (cube_ext _ _ (fun _ => 0)); [apply cube_zero|exact H0]. }
  assert (E : forall m, (m <= n)%nat -> rsum (S m) (fun a => cube_integral (S n) (d a)) = cube_integral (S n) (d 0%nat)).
  { induction m as [|m IH]; intros Hm; [cbn [rsum]; ring|]. change (rsum (S m) (fun a => cube_integral (S n) (d a)) + cube_integral (S n) (d (S m)) = cube_integral (S n) (d 0%nat)).
    rewrite IH by lia. rewrite (partial_zero (S m) (S n) (h (S m)) (d (S m))); [ring|lia|apply Hc; lia|apply Hd; lia|apply Hz; lia]. }
  rewrite <- (E n (le_n n)). exact S0.
Qed.
