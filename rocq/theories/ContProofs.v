(** The analytically continued integral: smoothness in the other variables, linearity, order of integration, independence of
    the number of integrations by parts. *)
From Coq Require Import FunctionalExtensionality.
From Coquelicot Require Import Coquelicot.
From Verif Require Import ExprSpec ExprSmooth ExprMixed ContSpec.
Local Open Scope R_scope.

(** ** compactness of the unit interval *)
Lemma interval_compact (p q : R) (Q : R -> R -> Prop) : p <= q -> (forall t d e, Q t d -> 0 < e <= d -> Q t e) ->
  (forall t, p <= t <= q -> exists d, 0 < d /\ forall s, p <= s <= q -> Rabs (s - t) < d -> Q s d) ->
  exists d, 0 < d /\ forall t, p <= t <= q -> Q t d.
Proof.
  intros Hpq Hd Hl. set (A := fun a => p <= a <= q /\ exists d, 0 < d /\ forall t, p <= t <= a -> Q t d).
  assert (A0 : A p). { split; [lra|]. destruct (Hl p ltac:(lra)) as (d & D & H). exists d. split; [exact D|]. intros t Ht. apply H; [lra|]. replace (t - p) with 0 by lra. rewrite Rabs_R0. exact D. }
  destruct (completeness A) as (m & M1 & M2); [exists q; intros a [[_ H] _]; exact H|exists p; exact A0|].
  assert (Hm : p <= m <= q). { split; [apply M1, A0|apply M2; intros a [[_ H] _]; exact H]. }
  destruct (Hl m Hm) as (d & D & H).
  assert (X : exists a, A a /\ m - d < a). { destruct (Classical_Prop.classic (exists a, A a /\ m - d < a)) as [X|X]; [exact X|]. exfalso. assert (Y : m <= m - d); [|lra]. apply M2. intros a Ha. destruct (Rle_lt_dec a (m - d)) as [Z|Z]; [exact Z|]. exfalso. apply X. exists a. auto. }
  destruct X as (a & [Ha (e & Ee & He)] & La).
  assert (B : A (Rmin q (m + d / 2))).
  { split; [split; [apply Rmin_glb; lra|apply Rmin_l]|]. exists (Rmin d e). split; [apply Rmin_pos; assumption|]. intros t Ht. pose proof (Rmin_l q (m + d / 2)). pose proof (Rmin_r q (m + d / 2)). destruct (Rle_lt_dec t a) as [T|T].
    - apply (Hd t e); [apply He; lra|]. split; [apply Rmin_pos; assumption|apply Rmin_r].
    - apply (Hd t d); [apply H; [lra|apply Rabs_def1; lra]|]. split; [apply Rmin_pos; assumption|apply Rmin_l]. }
  pose proof (M1 _ B) as B1. assert (E1 : m = q). { unfold Rmin in B1. destruct (Rle_dec q (m + d / 2)); lra. }
  destruct B as [_ (f & F & Hf)]. exists f. split; [exact F|]. intros t Ht. apply Hf. replace (Rmin q (m + d / 2)) with q; [exact Ht|]. unfold Rmin. destruct (Rle_dec q (m + d / 2)); lra.
Qed.
Lemma unit_compact (Q : R -> R -> Prop) : (forall t d e, Q t d -> 0 < e <= d -> Q t e) ->
  (forall t, 0 <= t <= 1 -> exists d, 0 < d /\ forall s, 0 <= s <= 1 -> Rabs (s - t) < d -> Q s d) ->
  exists d, 0 < d /\ forall t, 0 <= t <= 1 -> Q t d.
Proof. apply interval_compact. lra. Qed.
Lemma near_upd2 d x y i t : near d x y -> 0 < d -> near d (upd x i t) (upd y i t).
Proof. intros H Hd j. unfold upd. destruct (Nat.eqb j i); [replace (t - t) with 0 by lra; rewrite Rabs_R0; exact Hd|apply H]. Qed.
Lemma near_shift d e x i s t y : Rabs (s - t) < d -> near e (upd x i s) y -> 0 < d -> 0 < e -> near (d + e) (upd x i t) y.
Proof. intros H N Hd He j. specialize (N j). unfold upd in *. destruct (Nat.eqb j i); [|lra]. replace (y j - t) with ((y j - s) + (s - t)) by lra. eapply Rle_lt_trans; [apply Rabs_triang|lra]. Qed.
Lemma near_self d x i s t : Rabs (s - t) < d -> 0 < d -> near d (upd x i t) (upd x i s).
Proof. intros H Hd j. unfold upd. destruct (Nat.eqb j i); [exact H|replace (x j - x j) with 0 by lra; rewrite Rabs_R0; exact Hd]. Qed.
(** ** the tube lemma *)
Lemma seg_opens U i : opens U -> opens (seg U i).
Proof.
  intros HU x Hx. destruct (unit_compact (fun s d => forall y, near d (upd x i s) y -> U y)) as (d & D & H).
  - intros t d e H [He Hle] y Hy. apply H, (near_le _ _ _ _ Hle Hy).
  - intros t Ht. destruct (HU _ (Hx t Ht)) as (d & D & H). exists (d / 2). split; [lra|]. intros s Hs Hst y Hy. apply H. replace d with (d / 2 + d / 2) by lra. eapply near_shift; [exact Hst|exact Hy|lra|lra].
  - exists d. split; [exact D|]. intros y Hy t Ht. apply (H t Ht). apply near_upd2; assumption.
Qed.
Lemma cont_tube (U : point -> Prop) G i x eps : cont U G -> seg U i x -> 0 < eps -> exists d, 0 < d /\ forall t, 0 <= t <= 1 -> forall y, near d (upd x i t) y -> Rabs (G y - G (upd x i t)) < eps.
Proof.
  intros HG Hx He. apply (unit_compact (fun t d => forall y, near d (upd x i t) y -> Rabs (G y - G (upd x i t)) < eps)).
  - intros t d e H [H1 H2] y Hy. apply H, (near_le _ _ _ _ H2 Hy).
  - intros t Ht. destruct (HG _ (Hx t Ht) (eps / 2) ltac:(lra)) as (d & D & H). exists (d / 2). split; [lra|]. intros s Hs Hst y Hy.
    assert (A1 : Rabs (G y - G (upd x i t)) < eps / 2). { apply H. replace d with (d / 2 + d / 2) by lra. eapply near_shift; [exact Hst|exact Hy|lra|lra]. }
    assert (A2 : Rabs (G (upd x i s) - G (upd x i t)) < eps / 2). { apply H. apply near_self; lra. }
    replace (G y - G (upd x i s)) with ((G y - G (upd x i t)) + - (G (upd x i s) - G (upd x i t))) by lra. eapply Rle_lt_trans; [apply Rabs_triang|]. rewrite Rabs_Ropp. lra.
Qed.
(** ** derivatives *)
Lemma pd_d i G x l : pd i G x l -> d i G x = l.
Proof. intros H. unfold d. apply is_derive_unique, is_derive_Reals, H. Qed.
Lemma d_pd U i G x : smooth U G -> U x -> pd i G x (d i G x).
Proof. intros S Hx. destruct (proj2 (S 1%nat) i) as (H & H1 & _). rewrite (pd_d i G x _ (H1 x Hx)). apply H1, Hx. Qed.
Lemma d_smooth (U : point -> Prop) i G : opens U -> smooth U G -> smooth U (d i G).
Proof.
  intros HU S k. destruct (proj2 (S (Datatypes.S k)) i) as (H & H1 & H2). apply (Ck_ext k U H); [exact HU| |exact H2]. intros x Hx. symmetry. apply pd_d, H1, Hx.
Qed.
Lemma d_ext (U : point -> Prop) i G H x : opens U -> (forall y, U y -> G y = H y) -> U x -> d i G x = d i H x.
Proof.
  intros HU E Hx. unfold d. apply Derive_ext_loc. destruct (HU x Hx) as (e & He & N). exists (mkposreal e He). intros t Ht. apply E, N. apply near_upd; [exact Ht|exact He].
Qed.
Lemma d_comm (U : point -> Prop) i j G x : opens U -> smooth U G -> U x -> d i (d j G) x = d j (d i G) x.
Proof.
  intros HU S Hx. destruct (Nat.eq_dec i j) as [->|N]; [reflexivity|].
  symmetry. apply (schwarz U G i j (d i G) (d j G) (d j (d i G)) (d i (d j G)) HU); try exact Hx; try exact N.
  - apply (Ck_cont 0), d_smooth; [exact HU|apply d_smooth; assumption].
  - apply (Ck_cont 0), d_smooth; [exact HU|apply d_smooth; assumption].
  - intros y Hy. apply (d_pd U); assumption.
  - intros y Hy. apply (d_pd U); [apply d_smooth; assumption|exact Hy].
  - intros y Hy. apply (d_pd U); assumption.
  - intros y Hy. apply (d_pd U); [apply d_smooth; assumption|exact Hy].
Qed.
(** ** the weight x^E, E > 0 *)
Definition w (E t : R) : R := if Rle_dec t 0 then 0 else Rpower t E.
Lemma w_pos E t : 0 < t -> w E t = Rpower t E. Proof. intros H. unfold w. destruct (Rle_dec t 0); [lra|reflexivity]. Qed.
Lemma w_one E : w E 1 = 1. Proof. rewrite w_pos by lra. unfold Rpower. rewrite ln_1, Rmult_0_r. apply exp_0. Qed.
Lemma w_zero E : w E 0 = 0. Proof. unfold w. destruct (Rle_dec 0 0); [reflexivity|lra]. Qed.
Lemma w_range E t : 0 <= E -> t <= 1 -> 0 <= w E t <= 1.
Proof.
  intros HE Ht. unfold w. destruct (Rle_dec t 0) as [_|N]; [lra|]. split; [left; apply exp_pos|]. unfold Rpower. rewrite <- exp_0. apply Rge_le. apply Rle_ge. assert (L : ln t <= 0). { rewrite <- ln_1. destruct (Req_dec t 1) as [->|]; [lra|]. left. apply ln_increasing; lra. } assert (E * ln t <= 0) by nra. destruct (Req_dec (E * ln t) 0) as [->|]; [lra|]. left. apply exp_increasing. lra.
Qed.
Lemma w_small E : 0 < E -> forall eps, 0 < eps -> exists d, 0 < d /\ forall t, Rabs t < d -> Rabs (w E t) < eps.
Proof.
  intros HE eps He. exists (Rpower eps (/ E)). split; [apply exp_pos|]. intros t Ht. unfold w. destruct (Rle_dec t 0) as [_|N]; [rewrite Rabs_R0; exact He|]. rewrite Rabs_pos_eq by (left; apply exp_pos). rewrite Rabs_pos_eq in Ht by lra.
  replace eps with (Rpower (Rpower eps (/ E)) E). { apply Rlt_Rpower_l; [exact HE|lra]. } rewrite Rpower_mult. replace (/ E * E) with 1 by (field; lra). apply Rpower_1, He.
Qed.
Lemma loc_R (a : R) (P : R -> Prop) : (exists e, 0 < e /\ forall t, Rabs (t - a) < e -> P t) -> locally a P.
Proof. intros (e & He & H). exists (mkposreal e He). intros t Ht. apply H, Ht. Qed.
Lemma cont_R (f : R -> R) a : (forall eps, 0 < eps -> exists e, 0 < e /\ forall t, Rabs (t - a) < e -> Rabs (f t - f a) < eps) -> continuous f a.
Proof.
  intros H. apply filterlim_locally. intros [eps He]. destruct (H eps He) as (e & H1 & H2). apply loc_R. exists e. split; [exact H1|]. intros t Ht. exact (H2 t Ht).
Qed.
Lemma cont_R_inv (f : R -> R) a : continuous f a -> forall eps, 0 < eps -> exists e, 0 < e /\ forall t, Rabs (t - a) < e -> Rabs (f t - f a) < eps.
Proof.
  intros H eps He. pose proof (proj1 (filterlim_locally (F := locally a) f (f a)) H) as H'. clear H. rename H' into H. destruct (H (mkposreal eps He)) as [[e E] N]. exists e. split; [exact E|]. intros t Ht. exact (N t Ht).
Qed.
Lemma w_cont E (t : R) : 0 < E -> continuous (w E) t.
Proof.
  intros HE. destruct (Rtotal_order t 0) as [L|[->|G]].
  - apply (continuous_ext_loc (w E) (fun _ => 0) t); [|apply continuous_const]. apply loc_R. exists (- t). split; [lra|]. intros s Hs. apply Rabs_def2 in Hs. unfold w. destruct (Rle_dec s 0); [reflexivity|lra].
  - apply cont_R. intros eps He. destruct (w_small E HE eps He) as (e & H1 & H2). exists e. split; [exact H1|]. intros s Hs. rewrite w_zero, Rminus_0_r. apply H2. replace s with (s - 0) by lra. exact Hs.
  - apply (continuous_ext_loc (w E) (fun t => Rpower t E) t).
    + apply loc_R. exists t. split; [exact G|]. intros s Hs. apply Rabs_def2 in Hs. symmetry. apply w_pos. lra.
    + apply (ex_derive_continuous (fun t => Rpower t E)). exists (E * Rpower t (E - 1)). apply is_derive_Reals, derivable_pt_lim_power, G.
Qed.
Lemma w_deriv E (t : R) : 0 < E -> is_derive (w (E + 1)) t ((E + 1) * w E t).
Proof.
  intros HE. destruct (Rtotal_order t 0) as [L|[->|G]].
  - replace ((E + 1) * w E t) with 0. 2:{ unfold w. destruct (Rle_dec t 0); [ring|lra]. } apply (is_derive_ext_loc (fun _ => 0)); [|apply @is_derive_const]. apply loc_R. exists (- t). split; [lra|]. intros s Hs. apply Rabs_def2 in Hs. unfold w. destruct (Rle_dec s 0); [reflexivity|lra].
  - rewrite w_zero, Rmult_0_r. apply is_derive_Reals. intros eps He. destruct (w_small E HE eps He) as (e & H1 & H2). exists (mkposreal e H1). intros h Hh Hd. cbn in Hd. rewrite Rplus_0_l, w_zero, !Rminus_0_r. specialize (H2 h Hd). unfold w in *. destruct (Rle_dec h 0) as [|N]; [unfold Rdiv; rewrite Rmult_0_l, Rabs_R0; exact He|].
    rewrite Rpower_plus, Rpower_1 by lra. replace (Rpower h E * h / h) with (Rpower h E) by (field; lra). exact H2.
  - apply (is_derive_ext_loc (fun t => Rpower t (E + 1))).
    + apply loc_R. exists t. split; [exact G|]. intros s Hs. apply Rabs_def2 in Hs. symmetry. apply w_pos. lra.
    + rewrite w_pos by exact G. apply is_derive_Reals. replace E with (E + 1 - 1) at 2 by lra. apply derivable_pt_lim_power, G.
Qed.
(** ** the integral with positive exponent *)
Notation W E i G x := (RInt (fun t => w E t * G (upd x i t)) 0 1).
Lemma J0_W E i G x : Jn 0 E i G x = W E i G x.
Proof. cbn [Jn]. apply RInt_ext. intros t [Ht _]. rewrite Rmin_left in Ht by lra. rewrite w_pos by exact Ht. reflexivity. Qed.
Lemma seg_cont (U : point -> Prop) G i x t : cont U G -> U (upd x i t) -> continuous (fun t => G (upd x i t)) t.
Proof.
  intros HG Hx. apply cont_R. intros eps He. destruct (HG _ Hx eps He) as (e & E & H). exists e. split; [exact E|]. intros s Hs. apply H. apply near_self; assumption.
Qed.
Lemma W_ex (U : point -> Prop) E G i x : 0 < E -> cont U G -> seg U i x -> ex_RInt (fun t => w E t * G (upd x i t)) 0 1.
Proof.
  intros HE HG Hx. apply (@ex_RInt_continuous R_CompleteNormedModule). intros t Ht. rewrite Rmin_left, Rmax_right in Ht by lra. apply (continuous_mult (w E)); [apply w_cont, HE|]. apply (seg_cont U); [exact HG|apply Hx; lra].
Qed.
Lemma RInt_extR (f g : R -> R) p q : (forall t, f t = g t) -> RInt f p q = RInt g p q. Proof. intros H. apply RInt_ext. intros t _. apply H. Qed.
Lemma RInt_lin (f g : R -> R) a b p q : ex_RInt f p q -> ex_RInt g p q -> RInt (fun t => a * f t + b * g t) p q = a * RInt f p q + b * RInt g p q.
Proof.
  intros Hf Hg. apply is_RInt_unique. apply (is_RInt_plus (fun t => a * f t) (fun t => b * g t)); apply @is_RInt_scal; apply (@RInt_correct R_CompleteNormedModule); assumption.
Qed.
Lemma W_lin (U : point -> Prop) E G H a b i x : 0 < E -> cont U G -> cont U H -> seg U i x -> W E i (fun y => a * G y + b * H y) x = a * W E i G x + b * W E i H x.
Proof.
  intros HE HG HH Hx. pose proof (W_ex U E G i x HE HG Hx) as A. pose proof (W_ex U E H i x HE HH Hx) as B. rewrite <- RInt_lin by assumption. apply RInt_extR. intros t. ring.
Qed.
Lemma W_cont (U : point -> Prop) E G i : opens U -> 0 < E -> cont U G -> cont (seg U i) (fun x => W E i G x).
Proof.
  intros HU HE HG x Hx eps He. destruct (cont_tube U G i x (eps / 2) HG Hx ltac:(lra)) as (d1 & D1 & H1). destruct (seg_opens U i HU x Hx) as (d2 & D2 & H2).
  exists (Rmin d1 d2). split; [apply Rmin_pos; assumption|]. intros y Hy. assert (Sy : seg U i y) by (apply H2, (near_le _ _ _ _ (Rmin_r d1 d2) Hy)).
  replace (W E i G y - W E i G x) with (RInt (fun t => w E t * (G (upd y i t) - G (upd x i t))) 0 1).
  2:{ pose proof (W_ex U E G i x HE HG Hx) as A. pose proof (W_ex U E G i y HE HG Sy) as B. replace (W E i G y - W E i G x) with (1 * W E i G y + (-1) * W E i G x) by ring. rewrite <- RInt_lin by assumption. apply RInt_extR. intros t. ring. }
  apply Rle_lt_trans with (eps / 2); [|lra]. replace (eps / 2) with ((1 - 0) * (eps / 2)) by lra. apply abs_RInt_le_const; [lra| |].
  - apply (@ex_RInt_continuous R_CompleteNormedModule). intros t Ht. rewrite Rmin_left, Rmax_right in Ht by lra. apply (continuous_mult (w E)); [apply w_cont, HE|]. apply (continuous_minus (fun t => G (upd y i t))); apply (seg_cont U); try exact HG; [apply Sy|apply Hx]; lra.
  - intros t Ht. rewrite Rabs_mult. pose proof (w_range E t ltac:(lra) ltac:(lra)) as [P1 P2]. rewrite (Rabs_pos_eq (w E t)) by exact P1. specialize (H1 t Ht (upd y i t) ltac:(apply near_upd2; [apply (near_le _ _ _ _ (Rmin_l d1 d2) Hy)|exact D1])). pose proof (Rabs_pos (G (upd y i t) - G (upd x i t))). nra.
Qed.
(** ** derivative under the integral sign *)
Lemma cont2 (U : point -> Prop) G (P : R -> R -> point) x y : cont U G -> U (P x y) -> (forall u v e, 0 < e -> Rabs (u - x) < e -> Rabs (v - y) < e -> near e (P x y) (P u v)) -> continuity_2d_pt (fun u v => G (P u v)) x y.
Proof.
  intros HG HU HP [eps He]. destruct (HG _ HU eps He) as (e & H1 & H2). exists (mkposreal e H1). intros u v Hu Hv. apply H2. apply HP; assumption.
Qed.
Lemma near2 x m i s t u v e : m <> i -> 0 < e -> Rabs (u - s) < e -> Rabs (v - t) < e -> near e (upd (upd x m s) i t) (upd (upd x m u) i v).
Proof.
  intros Hm He Hu Hv j. unfold upd. destruct (Nat.eqb j i); [exact Hv|]. destruct (Nat.eqb j m); [exact Hu|]. replace (x j - x j) with 0 by lra. rewrite Rabs_R0. exact He.
Qed.
Lemma cont2_snd (f : R -> R) (x y : R) : continuous f y -> continuity_2d_pt (fun _ v => f v) x y.
Proof. intros H [eps He]. destruct (cont_R_inv f y H eps He) as (e & H1 & H2). exists (mkposreal e H1). intros u v _ Hv. apply H2, Hv. Qed.
Lemma cont2_fst (f : R -> R) (x y : R) : continuous f x -> continuity_2d_pt (fun u _ => f u) x y.
Proof. intros H [eps He]. destruct (cont_R_inv f x H eps He) as (e & H1 & H2). exists (mkposreal e H1). intros u v Hu _. apply H2, Hu. Qed.
Lemma slice_derive (U : point -> Prop) G m i x s t : m <> i -> smooth U G -> U (upd (upd x m s) i t) -> is_derive (fun u => G (upd (upd x m u) i t)) s (d m G (upd (upd x m s) i t)).
Proof.
  intros Hm HS HU. pose proof (d_pd U m G _ HS HU) as H. unfold pd in H. apply is_derive_Reals in H. rewrite upd_other, upd_at in H by exact Hm. eapply is_derive_ext; [|exact H]. intros u. cbv beta. rewrite (upd_comm x m i s t Hm), upd_upd, (upd_comm x i m t u) by congruence. reflexivity.
Qed.
Lemma W_pd (U : point -> Prop) E G m i x : opens U -> 0 < E -> smooth U G -> m <> i -> seg U i x -> pd m (fun y => W E i G y) x (W E i (d m G) x).
Proof.
  intros HU HE HG Hm Hx. unfold pd. apply is_derive_Reals.
  destruct (seg_opens U i HU x Hx) as (e & He & Hn). assert (HN : forall s, Rabs (s - x m) < e -> seg U i (upd x m s)) by (intros s Hs; apply Hn, near_upd; assumption).
  set (f := fun s t : R => w E t * G (upd (upd x m s) i t)).
  assert (DF : forall s t, U (upd (upd x m s) i t) -> is_derive (fun u => f u t) s (w E t * d m G (upd (upd x m s) i t))). { intros s t H. unfold f. apply (is_derive_scal (fun u => G (upd (upd x m u) i t))). apply (slice_derive U); assumption. }
  replace (W E i (d m G) x) with (RInt (fun t => Derive (fun u => f u t) (x m)) 0 1).
  2:{ apply RInt_ext. intros t Ht. rewrite Rmin_left, Rmax_right in Ht by lra. etransitivity; [exact (is_derive_unique _ _ _ (DF (x m) t ltac:(rewrite upd_same; apply Hx; lra)))|]. rewrite upd_same. reflexivity. }
  apply (is_derive_RInt_param f 0 1 (x m)).
  - apply loc_R. exists e. split; [exact He|]. intros s Hs t Ht. rewrite Rmin_left, Rmax_right in Ht by lra. eexists. apply DF. apply HN; [exact Hs|lra].
  - intros t Ht. rewrite Rmin_left, Rmax_right in Ht by lra. apply (continuity_2d_pt_ext_loc (fun u v => w E v * d m G (upd (upd x m u) i v))).
    + assert (U0 : U (upd (upd x m (x m)) i t)) by (rewrite upd_same; apply Hx; lra). destruct (HU _ U0) as (e2 & E2 & H2). exists (mkposreal e2 E2). intros u v Hu Hv. symmetry. apply is_derive_unique, DF, H2. apply near2; assumption.
    + apply continuity_2d_pt_mult; [apply cont2_snd, w_cont, HE|]. apply (cont2 U (d m G) (fun u v => upd (upd x m u) i v)); [apply (Ck_cont 0), d_smooth; assumption|rewrite upd_same; apply Hx; lra|]. intros u v e' He' Hu Hv. apply near2; assumption.
  - apply loc_R. exists e. split; [exact He|]. intros s Hs. apply (W_ex U); [exact HE|apply (Ck_cont 0), HG|apply HN, Hs].
Qed.
Lemma W_const_dir E G i x t : W E i G (upd x i t) = W E i G x.
Proof. apply RInt_extR. intros s. rewrite upd_upd. reflexivity. Qed.
Lemma pd_indep i F x : (forall t, F (upd x i t) = F x) -> pd i F x 0.
Proof. intros H. unfold pd. replace (fun t => F (upd x i t)) with (fun _ : R => F x) by (apply functional_extensionality; intros t; symmetry; apply H). apply derivable_pt_lim_const. Qed.
Lemma W_smooth (U : point -> Prop) E G i : opens U -> 0 < E -> smooth U G -> smooth (seg U i) (fun x => W E i G x).
Proof.
  intros HU HE HG k. revert G HG. induction k as [|k IH]; intros G HG; (split; [apply W_cont; [exact HU|exact HE|apply (Ck_cont 0), HG]|]); [exact I|].
  intros m. destruct (Nat.eq_dec m i) as [->|N].
  - exists (fun _ => 0). split; [|apply Ck_const]. intros x _. apply pd_indep. intros t. apply W_const_dir.
  - exists (fun x => W E i (d m G) x). split; [intros x Hx; apply (W_pd U); assumption|]. apply IH, d_smooth; assumption.
Qed.
Lemma upd_smooth (U : point -> Prop) G i v : smooth U G -> opens U -> smooth (fun x => U (upd x i v)) (fun x => G (upd x i v)).
Proof.
  intros HG HU k. revert G HG. induction k as [|k IH]; intros G HG.
  - split; [|exact I]. intros x Hx eps He. destruct (Ck_cont _ _ _ (HG 0%nat) _ Hx eps He) as (e & E & N). exists e. split; [exact E|]. intros y Hy. apply N, near_upd2; assumption.
  - split. { intros x Hx eps He. destruct (Ck_cont _ _ _ (HG 0%nat) _ Hx eps He) as (e & E & N). exists e. split; [exact E|]. intros y Hy. apply N, near_upd2; assumption. }
    intros m. destruct (Nat.eq_dec m i) as [->|N].
    + exists (fun _ => 0). split; [|apply Ck_const]. intros x _. apply pd_indep. intros t. rewrite upd_upd. reflexivity.
    + exists (fun x => d m G (upd x i v)). split; [|apply IH, d_smooth; assumption]. intros x Hx. pose proof (slice_derive U G m i x (x m) v N HG) as D. rewrite upd_same in D. specialize (D Hx). apply is_derive_Reals in D. exact D.
Qed.
Lemma upd_opens U i v : opens U -> opens (fun x => U (upd x i v)).
Proof. intros HU x Hx. destruct (HU _ Hx) as (e & E & N). exists e. split; [exact E|]. intros y Hy. apply N, near_upd2; assumption. Qed.
Lemma smooth_lin U G H a b : smooth U G -> smooth U H -> smooth U (fun x => a * G x + b * H x).
Proof. intros S1 S2 k. apply Ck_plus; (apply Ck_mult; [apply Ck_const|auto]). Qed.
Lemma d_lin U i G H a b x : smooth U G -> smooth U H -> U x -> d i (fun y => a * G y + b * H y) x = a * d i G x + b * d i H x.
Proof.
  intros S1 S2 Hx. apply pd_d. pose proof (pd_plus i (fun y => a * G y) (fun y => b * H y) x (a * d i G x) (b * d i H x)) as P. apply P.
  - pose proof (pd_mult i (fun _ => a) G x 0 (d i G x) (pd_const i a x) (d_pd U i G x S1 Hx)) as Q. cbv beta in Q. replace (0 * G x + a * d i G x) with (a * d i G x) in Q by ring. exact Q.
  - pose proof (pd_mult i (fun _ => b) H x 0 (d i H x) (pd_const i b x) (d_pd U i H x S2 Hx)) as Q. cbv beta in Q. replace (0 * H x + b * d i H x) with (b * d i H x) in Q by ring. exact Q.
Qed.
(** ** order of integration *)
Section Fubini.
Variable f : R -> R -> R.
Hypothesis Hf : forall x y, continuity_2d_pt f x y.
Lemma f_fst (t s : R) : continuous (fun s => f s t) s.
Proof. apply cont_R. intros eps He. destruct (Hf s t (mkposreal eps He)) as [[e E] N]. exists e. split; [exact E|]. intros u Hu. apply (N u t); [exact Hu|]. cbn. replace (t - t) with 0 by lra. rewrite Rabs_R0. exact E. Qed.
Lemma f_snd (s t : R) : continuous (fun t => f s t) t.
Proof. apply cont_R. intros eps He. destruct (Hf s t (mkposreal eps He)) as [[e E] N]. exists e. split; [exact E|]. intros u Hu. apply (N s u); [|exact Hu]. cbn. replace (s - s) with 0 by lra. rewrite Rabs_R0. exact E. Qed.
Lemma ex_fst t p q : ex_RInt (fun s => f s t) p q. Proof. apply (@ex_RInt_continuous R_CompleteNormedModule). intros s _. apply f_fst. Qed.
Lemma ex_snd s p q : ex_RInt (fun t => f s t) p q. Proof. apply (@ex_RInt_continuous R_CompleteNormedModule). intros t _. apply f_snd. Qed.
Lemma param_le p q (t : R) : p <= q -> continuous (fun t => RInt (fun s => f s t) p q) t.
Proof.
  intros Hpq. apply cont_R. intros eps He. set (c := eps / (2 * (q - p + 1))). assert (Hc : 0 < c) by (apply Rdiv_lt_0_compat; lra).
  destruct (interval_compact p q (fun s d => forall u v, Rabs (u - s) < d -> Rabs (v - t) < d -> Rabs (f u v - f u t) < c) Hpq) as (d & D & H).
  - intros s d e H [H1 H2] u v Hu Hv. apply H; lra.
  - intros s _. destruct (Hf s t (mkposreal (c / 2) ltac:(lra))) as [[e E] N]. cbn in N. exists (e / 2). split; [lra|]. intros s' _ Hs u v Hu Hv. assert (Hu' : Rabs (u - s) < e) by (replace (u - s) with ((u - s') + (s' - s)) by lra; eapply Rle_lt_trans; [apply Rabs_triang|lra]).
    pose proof (N u v Hu' ltac:(lra)) as N1. pose proof (N u t Hu' ltac:(replace (t - t) with 0 by lra; rewrite Rabs_R0; exact E)) as N2. replace (f u v - f u t) with ((f u v - f s t) + - (f u t - f s t)) by lra. eapply Rle_lt_trans; [apply Rabs_triang|]. rewrite Rabs_Ropp. lra.
  - exists d. split; [exact D|]. intros v Hv. replace (RInt (fun s => f s v) p q - RInt (fun s => f s t) p q) with (1 * RInt (fun s => f s v) p q + (-1) * RInt (fun s => f s t) p q) by ring. rewrite <- RInt_lin by apply ex_fst.
    apply Rle_lt_trans with ((q - p) * c); [|unfold c; apply Rlt_le_trans with ((q - p + 1) * (eps / (2 * (q - p + 1)))); [apply Rmult_lt_compat_r; [exact Hc|lra]|]; replace ((q - p + 1) * (eps / (2 * (q - p + 1)))) with (eps / 2) by (field; lra); lra].
    apply abs_RInt_le_const; [exact Hpq| |].
    + apply (@ex_RInt_plus R_NormedModule (fun s => 1 * f s v) (fun s => -1 * f s t)); apply (@ex_RInt_scal R_NormedModule); apply ex_fst.
    + intros s Hs. left. replace (1 * f s v + -1 * f s t) with (f s v - f s t) by ring. apply (H s Hs); [replace (s - s) with 0 by lra; rewrite Rabs_R0; exact D|exact Hv].
Qed.
Lemma param_cont p q (t : R) : continuous (fun t => RInt (fun s => f s t) p q) t.
Proof.
  destruct (Rle_dec p q) as [L|L]; [apply param_le, L|]. apply (continuous_ext (fun t => - RInt (fun s => f s t) q p)).
  - intros u. symmetry. rewrite <- (opp_RInt_swap (fun s => f s u) q p) by apply ex_fst. reflexivity.
  - apply (continuous_opp (fun t => RInt (fun s => f s t) q p)). apply param_le. lra.
Qed.
End Fubini.
Lemma fubini (f : R -> R -> R) : (forall x y, continuity_2d_pt f x y) -> RInt (fun s => RInt (fun t => f s t) 0 1) 0 1 = RInt (fun t => RInt (fun s => f s t) 0 1) 0 1.
Proof.
  intros Hf. set (g := fun s => RInt (fun t => f s t) 0 1). set (h := fun a t => RInt (fun s => f s t) 0 a).
  assert (Hs : forall x y, continuity_2d_pt (fun t s => f s t) x y). { intros x y eps. destruct (Hf y x eps) as [e N]. exists e. intros u v Hu Hv. apply N; assumption. }
  assert (Cg : forall s : R, continuous g s) by (intros s; apply (param_cont (fun t s => f s t) Hs 0 1 s)).
  assert (Dh : forall a t, is_derive (fun u => h u t) a (f a t)). { intros a t. apply (is_derive_RInt (fun s => f s t) (fun u => h u t) 0 a); [|apply (f_fst f Hf)]. apply filter_forall. intros b. apply (@RInt_correct R_CompleteNormedModule), (ex_fst f Hf). }
  assert (D1 : forall a, is_derive (fun a => RInt g 0 a) a (g a)). { intros a. apply (is_derive_RInt g (fun a => RInt g 0 a) 0 a); [|apply Cg]. apply filter_forall. intros b. apply (@RInt_correct R_CompleteNormedModule). apply (@ex_RInt_continuous R_CompleteNormedModule). intros s _. apply Cg. }
  assert (D2 : forall a, is_derive (fun a => RInt (fun t => h a t) 0 1) a (g a)).
  { intros a. replace (g a) with (RInt (fun t => Derive (fun u => h u t) a) 0 1) by (apply RInt_extR; intros t; apply is_derive_unique, Dh). apply (is_derive_RInt_param h 0 1 a).
    - apply filter_forall. intros u t _. eexists. apply Dh.
    - intros t _. apply (continuity_2d_pt_ext f); [|apply Hf]. intros u v. symmetry. apply is_derive_unique, Dh.
    - apply filter_forall. intros u. apply (@ex_RInt_continuous R_CompleteNormedModule). intros t _. apply (param_cont f Hf 0 u t). }
  assert (X : (RInt g 0 0 - RInt (fun t => h 0 t) 0 1) = (RInt g 0 1 - RInt (fun t => h 1 t) 0 1)).
  { apply (eq_is_derive (fun a => RInt g 0 a - RInt (fun t => h a t) 0 1) 0 1); [|lra]. intros t _. replace (@zero R_NormedModule) with (minus (g t) (g t)) by apply (@minus_eq_zero R_AbelianGroup). apply (is_derive_minus (fun a => RInt g 0 a)); [apply D1|apply D2]. }
  assert (Z1 : RInt g 0 0 = 0) by apply (@RInt_point R_CompleteNormedModule). assert (Z2 : RInt (fun t => h 0 t) 0 1 = 0).
  { rewrite (RInt_extR (fun t => h 0 t) (fun _ => 0)); [rewrite RInt_const; apply Rmult_0_r|]. intros t. apply (@RInt_point R_CompleteNormedModule). }
  change (RInt g 0 1 = RInt (fun t => h 1 t) 0 1). lra.
Qed.
Definition clamp (t : R) : R := Rmax 0 (Rmin t 1).
Lemma clamp_range t : 0 <= clamp t <= 1. Proof. unfold clamp. split; [apply Rmax_l|apply Rmax_lub; [lra|apply Rmin_r]]. Qed.
Lemma clamp_id t : 0 <= t <= 1 -> clamp t = t. Proof. intros H. unfold clamp. rewrite Rmin_left by lra. apply Rmax_right. lra. Qed.
Lemma clamp_lip s t e : Rabs (s - t) < e -> Rabs (clamp s - clamp t) < e.
Proof. intros H. apply Rabs_def2 in H. unfold clamp, Rmax, Rmin. destruct (Rle_dec s 1), (Rle_dec t 1); apply Rabs_def1; repeat match goal with |- context [Rle_dec ?a ?b] => destruct (Rle_dec a b) end; lra. Qed.
Lemma RInt_extU (f g : R -> R) : (forall t, 0 <= t <= 1 -> f t = g t) -> RInt f 0 1 = RInt g 0 1.
Proof. intros H. apply RInt_ext. intros t Ht. rewrite Rmin_left, Rmax_right in Ht by lra. apply H. lra. Qed.
Lemma RInt_mul (f : R -> R) a p q : ex_RInt f p q -> RInt (fun t => a * f t) p q = a * RInt f p q.
Proof. intros H. apply (@RInt_scal R_CompleteNormedModule). exact H. Qed.
Lemma W_comm (U : point -> Prop) E D i j G x : i <> j -> 0 < E -> 0 < D -> cont U G -> seg (seg U j) i x -> W E i (fun y => W D j G y) x = W D j (fun y => W E i G y) x.
Proof.
  intros N HE HD HG Hx. set (f := fun s t => w E s * w D t * G (upd (upd x i (clamp s)) j (clamp t))).
  assert (Hf : forall s t, continuity_2d_pt f s t).
  { intros s t. unfold f. apply continuity_2d_pt_mult; [apply continuity_2d_pt_mult; [apply cont2_fst, w_cont, HE|apply cont2_snd, w_cont, HD]|].
    apply (cont2 U G (fun u v => upd (upd x i (clamp u)) j (clamp v))); [exact HG|apply Hx; apply clamp_range|]. intros u v e He Hu Hv. apply near2; [exact N|exact He|apply clamp_lip, Hu|apply clamp_lip, Hv]. }
  transitivity (RInt (fun s => RInt (fun t => f s t) 0 1) 0 1); [|rewrite (fubini f Hf)]; apply RInt_extU; intros s Hs.
  - rewrite <- RInt_mul by (apply (W_ex U); [exact HD|exact HG|apply Hx, Hs]). apply RInt_extU. intros t Ht. unfold f. rewrite !clamp_id by assumption. ring.
  - transitivity (RInt (fun t => w D s * (w E t * G (upd (upd x j s) i t))) 0 1).
    + apply RInt_extU. intros t Ht. unfold f. rewrite !clamp_id by assumption. rewrite (upd_comm x i j t s N). ring.
    + apply RInt_mul. apply (W_ex U); [exact HE|exact HG|]. intros t Ht. rewrite (upd_comm x j i s t) by congruence. apply Hx; assumption.
Qed.
(** ** integration by parts *)
Lemma W_parts (U : point -> Prop) E G i x : opens U -> 0 < E -> smooth U G -> seg U i x -> W E i G x = (G (upd x i 1) - W (E + 1) i (d i G) x) / (E + 1).
Proof.
  intros HU HE HG Hx. assert (CG := Ck_cont _ _ _ (HG 0%nat)). assert (CD := Ck_cont _ _ _ (d_smooth U i G HU HG 0%nat)).
  assert (Dg : forall t, 0 <= t <= 1 -> is_derive (fun t => G (upd x i t)) t (d i G (upd x i t))). { intros t Ht. pose proof (d_pd U i G _ HG (Hx t Ht)) as H. unfold pd in H. apply is_derive_Reals in H. rewrite upd_at in H. eapply is_derive_ext; [|exact H]. intros s. cbv beta. rewrite upd_upd. reflexivity. }
  set (df := fun t => (E + 1) * w E t * G (upd x i t) + w (E + 1) t * d i G (upd x i t)).
  assert (A : is_RInt df 0 1 (w (E + 1) 1 * G (upd x i 1) - w (E + 1) 0 * G (upd x i 0))).
  { apply (@is_RInt_derive R_CompleteNormedModule (fun t => w (E + 1) t * G (upd x i t)) df 0 1).
    - intros t Ht. rewrite Rmin_left, Rmax_right in Ht by lra. apply (is_derive_mult (w (E + 1)) (fun t => G (upd x i t)) t ((E + 1) * w E t) (d i G (upd x i t))); [apply w_deriv, HE|apply Dg, Ht|]. intros a b. apply Rmult_comm.
    - intros t Ht. rewrite Rmin_left, Rmax_right in Ht by lra. unfold df. apply (continuous_plus (fun t => (E + 1) * w E t * G (upd x i t))).
      + apply (continuous_mult (fun t => (E + 1) * w E t)); [|apply (seg_cont U); [exact CG|apply Hx, Ht]]. apply (continuous_scal_r (E + 1) (w E)). apply w_cont, HE.
      + apply (continuous_mult (w (E + 1))); [apply w_cont; lra|apply (seg_cont U); [exact CD|apply Hx, Ht]]. }
  rewrite w_one, w_zero, Rmult_1_l, Rmult_0_l, Rminus_0_r in A. apply (@is_RInt_unique R_CompleteNormedModule) in A.
  assert (B : RInt df 0 1 = (E + 1) * W E i G x + 1 * W (E + 1) i (d i G) x).
  { rewrite <- RInt_lin; [apply RInt_extR; intros t; unfold df; ring|apply (W_ex U); assumption|apply (W_ex U); [lra|exact CD|exact Hx]]. }
  apply Rmult_eq_reg_l with (E + 1); [|lra]. transitivity (G (upd x i 1) - W (E + 1) i (d i G) x); [lra|field; lra].
Qed.
