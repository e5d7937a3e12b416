(** Integrals over the cube under a substitution in every variable. *)
From Coq Require Import Lia Lra.
From Coquelicot Require Import Coquelicot.
From Verif Require Import TransModel TransSpec.
Local Open Scope R_scope.

(** ** clamp *)
Lemma clamp_id x : 0 <= x <= 1 -> clamp x = x.
Proof. intros H. unfold clamp. destruct (Rlt_dec 1 x); [lra|]. destruct (Rlt_dec x 0); lra. Qed.
Lemma clamp_range x : 0 <= clamp x <= 1.
Proof. unfold clamp. destruct (Rlt_dec 1 x); [destruct (Rlt_dec 1 0); lra|]. destruct (Rlt_dec x 0); lra. Qed.
Lemma clamp_lip x y : Rabs (clamp x - clamp y) <= Rabs (x - y).
Proof.
  unfold clamp. cbv zeta. destruct (Rlt_dec 1 x), (Rlt_dec 1 y); repeat match goal with |- context [Rlt_dec ?a ?b] => destruct (Rlt_dec a b) end; unfold Rabs;
  repeat match goal with |- context [Rcase_abs ?a] => destruct (Rcase_abs a) end; lra.
Qed.
(** ** one dimension *)
Definition uc (G : R -> R) : Prop := forall eps, 0 < eps -> exists delta, 0 < delta /\ forall x y, 0 <= x <= 1 -> 0 <= y <= 1 -> Rabs (x - y) < delta -> Rabs (G x - G y) < eps.
Lemma uc_continuous G : uc G -> forall x, continuous (fun x => G (clamp x)) x.
Proof.
  intros H x. apply continuity_pt_filterlim. intros eps He. destruct (H eps He) as (d & Hd & Q). exists d. split; [exact Hd|].
  intros y [_ Hy]. apply Q; try apply clamp_range. apply Rle_lt_trans with (1 := clamp_lip y x). exact Hy.
Qed.
Lemma uc_ex G : uc G -> ex_RInt G 0 1.
Proof.
  intros H. apply ex_RInt_ext with (f := fun x => G (clamp x)).
  - intros x Hx. rewrite Rmin_left, Rmax_right in Hx by lra. rewrite clamp_id by lra. reflexivity.
  - apply (ex_RInt_continuous (V := R_CompleteNormedModule)). intros z _. apply uc_continuous, H.
Qed.
Lemma RInt_bound G e : ex_RInt G 0 1 -> (forall x, 0 <= x <= 1 -> Rabs (G x) <= e) -> Rabs (RInt G 0 1) <= e.
Proof.
  intros H B. pose proof (abs_RInt_le_const G 0 1 e ltac:(lra) H) as A. replace e with ((1 - 0) * e) by ring. apply A. intros t Ht. apply B. exact Ht.
Qed.
(** [w], [f] keep the integrals of continuous functions *)
Definition keeps (w f : R -> R) : Prop := (forall x, 0 <= x <= 1 -> 0 <= f x <= 1) /\ forall G, uc G -> is_RInt (fun x => w x * G (f x)) 0 1 (RInt G 0 1).
Lemma keeps_ext w w' f f' : (forall x, 0 <= x <= 1 -> w x = w' x) -> (forall x, 0 <= x <= 1 -> f x = f' x) -> keeps w f -> keeps w' f'.
Proof.
  intros Ew Ef [K1 K2]. split; [intros x Hx; rewrite <- Ef by exact Hx; apply K1, Hx|]. intros G HG. apply is_RInt_ext with (2 := K2 G HG).
  intros x Hx. rewrite Rmin_left, Rmax_right in Hx by lra. rewrite Ew, Ef by lra. reflexivity.
Qed.
Lemma mono f w : (forall x, 0 <= x <= 1 -> is_derive f x (w x)) -> (forall x, 0 <= x <= 1 -> 0 <= w x) -> forall x y, 0 <= x <= y -> y <= 1 -> f x <= f y.
Proof.
  intros D P x y H1 H2. destruct (MVT_gen f x y w) as (c & Hc & E).
  - intros t Ht. rewrite Rmin_left, Rmax_right in Ht by lra. apply D. lra.
  - intros t Ht. rewrite Rmin_left, Rmax_right in Ht by lra. apply continuity_pt_filterlim. apply (ex_derive_continuous f). exists (w t). apply D. lra.
  - rewrite Rmin_left, Rmax_right in Hc by lra. specialize (P c ltac:(lra)). nra.
Qed.
Lemma smooth_keeps w f : (forall x, 0 <= x <= 1 -> is_derive f x (w x)) -> (forall x, continuous w x) -> (forall x, 0 <= x <= 1 -> 0 <= w x) -> f 0 = 0 -> f 1 = 1 ->
  keeps w (fun x => clamp (f x)) /\ forall x, 0 <= x <= 1 -> 0 <= f x <= 1.
Proof.
  intros D C P F0 F1. assert (B : forall x, 0 <= x <= 1 -> 0 <= f x <= 1).
  { intros x Hx. pose proof (mono f w D P 0 x ltac:(lra) ltac:(lra)). pose proof (mono f w D P x 1 ltac:(lra) ltac:(lra)). lra. }
  split; [|exact B]. split; [intros x _; apply clamp_range|]. intros G HG.
  assert (E : RInt G 0 1 = RInt (fun x => G (clamp x)) (f 0) (f 1)).
  { rewrite F0, F1. apply RInt_ext. intros x Hx. rewrite Rmin_left, Rmax_right in Hx by lra. rewrite clamp_id by lra. reflexivity. }
  rewrite E. apply (is_RInt_comp (V := R_CompleteNormedModule) (fun x => G (clamp x)) f w).
  - intros x _. apply uc_continuous, HG.
  - intros x Hx. rewrite Rmin_left, Rmax_right in Hx by lra. split; [apply D, Hx|apply C].
Qed.
(** ** cubes *)
Lemma in_cube_cons n v x : 0 <= v <= 1 -> in_cube n x -> in_cube (S n) (v :: x).
Proof. intros Hv [L H]. split; [cbn; congruence|]. constructor; assumption. Qed.
Lemma F2_refl d x : 0 < d -> List.Forall2 (fun a b => Rabs (a - b) < d) x x.
Proof. intros Hd. induction x; constructor; [|assumption]. rewrite Rminus_eq_0, Rabs_R0. exact Hd. Qed.
Lemma slice n g v : 0 <= v <= 1 -> continuous_on_cube (S n) g -> continuous_on_cube n (fun x => g (v :: x)).
Proof.
  intros Hv H eps He. destruct (H eps He) as (d & Hd & Q). exists d. split; [exact Hd|]. intros x y Hx Hy Hxy. apply Q; try (apply in_cube_cons; assumption).
  constructor; [|exact Hxy]. rewrite Rminus_eq_0, Rabs_R0. exact Hd.
Qed.
Lemma cube_close n : (forall g, continuous_on_cube (S n) g -> uc (fun v => cube_integral n (fun x => g (v :: x)))) /\
  forall g h e, continuous_on_cube n g -> continuous_on_cube n h -> (forall x, in_cube n x -> Rabs (g x - h x) <= e) -> Rabs (cube_integral n g - cube_integral n h) <= e.
Proof.
  assert (A : forall n, (forall g h e, continuous_on_cube n g -> continuous_on_cube n h -> (forall x, in_cube n x -> Rabs (g x - h x) <= e) -> Rabs (cube_integral n g - cube_integral n h) <= e) ->
    forall g, continuous_on_cube (S n) g -> uc (fun v => cube_integral n (fun x => g (v :: x)))).
  { clear n. intros n I g Hg eps He. destruct (Hg (eps / 2) ltac:(lra)) as (d & Hd & Q). exists d. split; [exact Hd|]. intros x y Hx Hy Hxy. apply Rle_lt_trans with (eps / 2); [|lra].
    apply I; [apply slice; assumption|apply slice; assumption|]. intros t Ht. apply Rlt_le, Q; try (apply in_cube_cons; assumption). constructor; [exact Hxy|apply F2_refl, Hd]. }
  induction n as [|n [IH1 IH2]].
  - assert (B : forall g h e, continuous_on_cube 0 g -> continuous_on_cube 0 h -> (forall x, in_cube 0 x -> Rabs (g x - h x) <= e) -> Rabs (cube_integral 0 g - cube_integral 0 h) <= e).
    { intros g h e _ _ H. cbn. apply H. split; [reflexivity|constructor]. }
    split; [apply A, B|exact B].
  - assert (B : forall g h e, continuous_on_cube (S n) g -> continuous_on_cube (S n) h -> (forall x, in_cube (S n) x -> Rabs (g x - h x) <= e) -> Rabs (cube_integral (S n) g - cube_integral (S n) h) <= e).
    { intros g h e Hg Hh H. cbn [cube_integral]. pose proof (uc_ex _ (IH1 g Hg)) as X1. pose proof (uc_ex _ (IH1 h Hh)) as X2.
      pose proof (RInt_minus (V := R_CompleteNormedModule) _ _ 0 1 X1 X2) as M. 
      match goal with |- Rabs (?a - ?b) <= e => change (a - b) with (minus a b : R) end. rewrite <- M.
      apply RInt_bound; [apply (ex_RInt_minus (V := R_CompleteNormedModule)); assumption|]. intros v Hv. apply IH2; try (apply slice; assumption). intros x Hx. apply H, in_cube_cons; assumption. }
    split; [apply A, B|exact B].
Qed.
Lemma transform_loop_eq w f : forall x c, transform_loop w f x c = (c * fold_right Rmult 1 (map w x), map f x).
Proof. induction x as [|a x IH]; intros c; cbn; [f_equal; ring|]. rewrite IH. f_equal. ring. Qed.
Lemma keeps_cube w f : keeps w f -> forall n g c, continuous_on_cube n g ->
  cube_integral n (fun x => c * fold_right Rmult 1 (map w x) * g (map f x)) = c * cube_integral n g.
Proof.
  intros [K1 K2]. induction n as [|n IH]; intros g c Hg; [cbn; ring|]. cbn [cube_integral map fold_right].
  apply is_RInt_unique. apply is_RInt_ext with (f := fun x => c * (w x * (fun v => cube_integral n (fun xs => g (v :: xs))) (f x))).
  - intros x Hx. rewrite Rmin_left, Rmax_right in Hx by lra. rewrite <- Rmult_assoc. rewrite <- (IH (fun xs => g (f x :: xs)) (c * w x)).
    + assert (E : forall m (u v : list R -> R), (forall t, u t = v t) -> cube_integral m u = cube_integral m v).
      { clear. induction m as [|m IHm]; intros u v H; cbn [cube_integral]; [apply H|]. apply RInt_ext. intros x _. apply IHm. intros t. apply H. }
      apply E. intros t. ring.
    + apply slice; [apply K1; lra|exact Hg].
  - apply (is_RInt_scal (V := R_NormedModule) _ 0 1 c). apply K2. apply cube_close, Hg.
Qed.
Theorem keeps_transformed w f : keeps w f -> forall n g, continuous_on_cube n g -> cube_integral n (transformed w f g) = cube_integral n g.
Proof.
  intros K n g Hg. rewrite <- (Rmult_1_l (cube_integral n g)), <- (keeps_cube w f K n g 1 Hg).
  assert (E : forall m (u v : list R -> R), (forall t, u t = v t) -> cube_integral m u = cube_integral m v).
  { clear. induction m as [|m IHm]; intros u v H; cbn [cube_integral]; [apply H|]. apply RInt_ext. intros x _. apply IHm. intros t. apply H. }
  apply E. intros t. unfold transformed. rewrite transform_loop_eq. reflexivity.
Qed.
(** ** none and baker *)
Lemma id_keeps : keeps id_w id_f.
Proof.
  split; [intros x Hx; exact Hx|]. intros G HG. unfold id_w, id_f. apply is_RInt_ext with (f := G); [intros x _; symmetry; apply Rmult_1_l|]. apply (RInt_correct (V := R_CompleteNormedModule)), uc_ex, HG.
Qed.
Lemma baker_keeps : keeps baker_w baker_f.
Proof.
  split; [intros x _; apply clamp_range|]. intros G HG. set (H := fun x => G (clamp x)).
  assert (HC : forall x, continuous H x) by (apply uc_continuous, HG).
  assert (E : RInt G 0 1 = RInt H 0 1). { apply RInt_ext. intros x Hx. rewrite Rmin_left, Rmax_right in Hx by lra. unfold H. rewrite clamp_id by lra. reflexivity. }
  assert (X : forall a b, ex_RInt H a b). { intros a b. apply (ex_RInt_continuous (V := R_CompleteNormedModule)). intros z _. apply HC. }
  assert (A1 : is_RInt (fun x => scal 2 (H (2 * x + 0))) 0 (1 / 2) (RInt H 0 1)).
  { apply (is_RInt_comp_lin (V := R_NormedModule)). replace (2 * 0 + 0) with 0 by ring. replace (2 * (1 / 2) + 0) with 1 by field. apply (RInt_correct (V := R_CompleteNormedModule)), X. }
  assert (A2 : is_RInt (fun x => scal (-2) (H (-2 * x + 2))) (1 / 2) 1 (opp (RInt H 0 1))).
  { apply (is_RInt_comp_lin (V := R_NormedModule)). replace (-2 * 1 + 2) with 0 by ring. replace (-2 * (1 / 2) + 2) with 1 by field. apply (is_RInt_swap (V := R_NormedModule)). apply (RInt_correct (V := R_CompleteNormedModule)), X. }
  rewrite E. replace (RInt H 0 1) with (plus (scal (/ 2) (RInt H 0 1)) (scal (- / 2) (opp (RInt H 0 1)))).
  2:{ unfold plus, scal, opp; cbn. unfold mult; cbn. field. }
  apply (is_RInt_Chasles (V := R_NormedModule) _ 0 (1 / 2) 1).
  - apply is_RInt_ext with (f := fun x => scal (/ 2) (scal 2 (H (2 * x + 0)))); [|apply (is_RInt_scal (V := R_NormedModule)), A1].
    intros x Hx. rewrite Rmin_left, Rmax_right in Hx by lra. unfold scal; cbn; unfold mult; cbn. unfold baker_w, baker_f, H. rewrite Rabs_left by lra.
    rewrite (clamp_id (1 - - (2 * x - 1))), (clamp_id (2 * x + 0)) by lra. replace (1 - - (2 * x - 1)) with (2 * x + 0) by ring. field.
  - apply is_RInt_ext with (f := fun x => scal (- / 2) (scal (-2) (H (-2 * x + 2)))); [|apply (is_RInt_scal (V := R_NormedModule)), A2].
    intros x Hx. rewrite Rmin_left, Rmax_right in Hx by lra. unfold scal; cbn; unfold mult; cbn. unfold baker_w, baker_f, H. rewrite Rabs_right by lra.
    rewrite (clamp_id (1 - (2 * x - 1))), (clamp_id (-2 * x + 2)) by lra. replace (1 - (2 * x - 1)) with (-2 * x + 2) by ring. field.
Qed.
