(** C74: the integral transforms do not change the integral (model TransModel, specification TransSpec). *)
From Coq Require Import Lia Lra.
From Coquelicot Require Import Coquelicot.
From Verif Require Import TransModel TransSpec TransProofs TransKorobov TransSidi.
Local Open Scope R_scope.

(** ** QMC library: every weight, every number of integration variables, every continuous integrand *)
Theorem C74_korobov : forall r0 r1 n g, continuous_on_cube n g -> cube_integral n (transformed (korobov_w r0 r1) (korobov_f r0 r1) g) = cube_integral n g.
Proof. intros r0 r1. apply keeps_transformed, korobov_keeps. Qed.
Theorem C74_sidi : forall r n g, continuous_on_cube n g -> cube_integral n (transformed (sidi_w r) (sidi_f r) g) = cube_integral n g.
Proof. intros r. apply keeps_transformed, sidi_keeps. Qed.
Theorem C74_baker : forall n g, continuous_on_cube n g -> cube_integral n (transformed baker_w baker_f g) = cube_integral n g.
Proof. apply keeps_transformed, baker_keeps. Qed.
Theorem C74_none : forall n g, continuous_on_cube n g -> cube_integral n (transformed id_w id_f g) = cube_integral n g.
Proof. apply keeps_transformed, id_keeps. Qed.
(** ** disteval *)
Theorem C74_dist_korobov : forall i n g, (1 <= i <= 10)%nat -> continuous_on_cube n g -> cube_integral n (transformed (dist_w i) (dist_f i) g) = cube_integral n g.
Proof. intros i n g Hi. apply keeps_transformed, dist_keeps, Hi. Qed.
Theorem C74_dist_baker : forall n g, continuous_on_cube n g -> cube_integral n (transformed dist_baker_w dist_baker_f g) = cube_integral n g.
Proof. apply keeps_transformed, dist_baker_keeps. Qed.
Theorem C74_dist_none : forall n g, continuous_on_cube n g -> cube_integral n (transformed dist_none_w dist_none_f g) = cube_integral n g.
Proof. apply keeps_transformed, id_keeps. Qed.
(** both libraries use the same functions *)
Theorem C74_dist_same : forall i x, (1 <= i <= 10)%nat -> 0 <= x <= 1 -> dist_w i x = korobov_w i i x /\ dist_f i x = korobov_f i i x.
Proof.
  intros i x Hi Hx. split; [apply dist_w_ok, Hi|]. rewrite dist_f_ok, korobov_f_eq, clamp_id by (try exact Hi; apply korobov_smooth, Hx). reflexivity.
Qed.
(** ** the transformed integrand is integrable, and evaluated in the unit cube only *)
Theorem C74_integrable : forall w f G, (exists r0 r1, w = korobov_w r0 r1 /\ f = korobov_f r0 r1) \/ (exists r, w = sidi_w r /\ f = sidi_f r) \/ (w = baker_w /\ f = baker_f) \/ (exists i, (1 <= i <= 10)%nat /\ w = dist_w i /\ f = dist_f i) ->
  (forall eps, 0 < eps -> exists delta, 0 < delta /\ forall x y, 0 <= x <= 1 -> 0 <= y <= 1 -> Rabs (x - y) < delta -> Rabs (G x - G y) < eps) ->
  is_RInt (fun x => w x * G (f x)) 0 1 (RInt G 0 1) /\ forall x, 0 <= x <= 1 -> 0 <= f x <= 1.
Proof.
  intros w f G H HG. assert (K : keeps w f).
  { destruct H as [(r0 & r1 & -> & ->)|[(r & -> & ->)|[(-> & ->)|(i & Hi & -> & ->)]]]; [apply korobov_keeps|apply sidi_keeps|apply baker_keeps|apply dist_keeps, Hi]. }
  split; [exact (proj2 K G HG)|apply K].
Qed.
(** ** periodicity: the transformed integrand is zero on the boundary of the cube *)
Lemma prod_zero (w : R -> R) (x : list R) v : In v x -> w v = 0 -> fold_right Rmult 1 (map w x) = 0.
Proof. induction x as [|a x IH]; [easy|]. intros [->|H] E; cbn; [rewrite E; ring|rewrite IH by assumption; ring]. Qed.
Theorem C74_korobov_boundary : forall r0 r1 g x v, (1 <= r0)%nat -> (1 <= r1)%nat -> In v x -> v = 0 \/ v = 1 -> transformed (korobov_w r0 r1) (korobov_f r0 r1) g x = 0.
Proof.
  intros r0 r1 g x v H0 H1 Hv E. unfold transformed. rewrite transform_loop_eq. rewrite (prod_zero _ x v Hv); [ring|]. rewrite korobov_w_eq.
  destruct E as [->| ->]; [rewrite pow_i by lia; ring|]. replace (1 - 1) with 0 by ring. rewrite (pow_i r1) by lia. ring.
Qed.
Theorem C74_sidi_boundary : forall r g x v, (1 <= r)%nat -> In v x -> v = 0 \/ v = 1 -> transformed (sidi_w r) (sidi_f r) g x = 0.
Proof.
  intros r g x v H0 Hv E. unfold transformed. rewrite transform_loop_eq. rewrite (prod_zero _ x v Hv); [ring|]. unfold sidi_w. destruct (Nat.eqb_spec r 0); [lia|].
  assert (S0 : sin (PI * v) ^ r = 0). { destruct E as [->| ->]; [rewrite Rmult_0_r, sin_0|rewrite Rmult_1_r, sin_PI]; apply pow_i; lia. }
  destruct (Nat.odd r); cbv zeta; rewrite (ipow_ok r (sin (PI * v))), S0; ring.
Qed.
Theorem C74_baker_periodic : baker_f 0 = baker_f 1 /\ dist_baker_f 0 = dist_baker_f 1.
Proof.
  unfold baker_f, dist_baker_f, vec_min. split; [rewrite Rabs_left, Rabs_right by lra; f_equal; ring|].
  destruct (Rle_dec (2 * 0) (2 - 2 * 0)), (Rle_dec (2 * 1) (2 - 2 * 1)); lra.
Qed.
(** ** Example: the integrand x*y in two dimensions *)
Definition xy (x : list R) : R := match x with [a; b] => a * b | _ => 0 end.
Lemma xy_continuous : continuous_on_cube 2 xy.
Proof.
  intros eps He. exists (eps / 2). split; [lra|]. intros x y [Lx Hx] [Ly Hy] H. destruct x as [|a [|b [|]]]; try discriminate. destruct y as [|c [|d [|]]]; try discriminate.
  cbn. inversion_clear H as [|? ? ? ? A H']. inversion_clear H' as [|? ? ? ? B _]. inversion_clear Hx as [|? ? Ha Hx']. inversion_clear Hx' as [|? ? Hb _]. inversion_clear Hy as [|? ? Hc Hy']. inversion_clear Hy' as [|? ? Hd _].
  replace (a * b - c * d) with ((a - c) * b + c * (b - d)) by ring. apply Rle_lt_trans with (1 := Rabs_triang _ _). rewrite !Rabs_mult. rewrite (Rabs_right b), (Rabs_right c) by lra.
  pose proof (Rabs_pos (a - c)). pose proof (Rabs_pos (b - d)). nra.
Qed.
Example C74_ex : cube_integral 2 (transformed (korobov_w 3 3) (korobov_f 3 3) xy) = 1 / 4 /\ cube_integral 2 (transformed (sidi_w 5) (sidi_f 5) xy) = 1 / 4.
Proof.
  rewrite C74_korobov, C74_sidi by apply xy_continuous.
  assert (A : cube_integral 2 xy = 1 / 4); [|split; exact A]. unfold cube_integral, xy.
  apply is_RInt_unique. apply is_RInt_ext with (f := fun v => 1 / 2 * v).
  - intros x _. symmetry. apply is_RInt_unique. replace (1 / 2 * x) with (minus (x * 1 ^ 2 / 2) (x * 0 ^ 2 / 2) : R) by (unfold minus, plus, opp; cbn; field).
    apply (is_RInt_derive (fun y => x * y ^ 2 / 2)); [intros y _; auto_derive; [exact I|cbn; field]|]. intros y _. apply (ex_derive_continuous (fun y => x * y)). auto_derive. exact I.
  - replace (1 / 4) with (minus (1 ^ 2 / 4) (0 ^ 2 / 4) : R) by (unfold minus, plus, opp; cbn; field).
    apply (is_RInt_derive (fun y => y ^ 2 / 4)); [intros y _; auto_derive; [exact I|cbn; field]|]. intros y _. apply (ex_derive_continuous (fun y => 1 / 2 * y)). auto_derive. exact I.
Qed.
