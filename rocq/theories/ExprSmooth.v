(** Smooth functions on open sets of points; every expression is smooth on its domain; mixed derivatives do not depend on the order. *)
From Coq Require Import FunctionalExtensionality.
From Verif Require Import ExprSpec.
Local Open Scope R_scope.

Definition near (d : R) (x y : point) : Prop := forall j, Rabs (y j - x j) < d.
Definition opens (U : point -> Prop) : Prop := forall x, U x -> exists d, 0 < d /\ forall y, near d x y -> U y.
Definition cont (U : point -> Prop) (G : point -> R) : Prop := forall x, U x -> forall eps, 0 < eps -> exists d, 0 < d /\ forall y, near d x y -> Rabs (G y - G x) < eps.
Fixpoint Ck (k : nat) (U : point -> Prop) (G : point -> R) : Prop :=
  cont U G /\ match k with O => True | S k' => forall i, exists H, (forall x, U x -> pd i G x (H x)) /\ Ck k' U H end.
Definition smooth U G := forall k, Ck k U G.

(** ** updates of points *)
Lemma upd_same x i : upd x i (x i) = x.
Proof. apply functional_extensionality. intros j. unfold upd. destruct (Nat.eqb_spec j i); congruence. Qed.
Lemma upd_at x i t : upd x i t i = t. Proof. unfold upd. rewrite Nat.eqb_refl. reflexivity. Qed.
Lemma upd_other x i t j : j <> i -> upd x i t j = x j. Proof. unfold upd. intros H. apply Nat.eqb_neq in H. rewrite H. reflexivity. Qed.
Lemma upd_upd x i s t : upd (upd x i s) i t = upd x i t.
Proof. apply functional_extensionality. intros j. unfold upd. destruct (Nat.eqb j i); reflexivity. Qed.
Lemma upd_comm x i j s t : i <> j -> upd (upd x i s) j t = upd (upd x j t) i s.
Proof. intros H. apply functional_extensionality. intros k. unfold upd. destruct (Nat.eqb_spec k j), (Nat.eqb_spec k i); congruence. Qed.
Lemma near_upd d x i t : Rabs (t - x i) < d -> 0 < d -> near d x (upd x i t).
Proof. intros H Hd j. unfold upd. destruct (Nat.eqb_spec j i) as [->|]; [exact H|]. replace (x j - x j) with 0 by ring. rewrite Rabs_R0. exact Hd. Qed.
Lemma near_refl d x : 0 < d -> near d x x. Proof. intros Hd j. replace (x j - x j) with 0 by ring. rewrite Rabs_R0. exact Hd. Qed.
Lemma near_le d d' x y : d <= d' -> near d x y -> near d' x y. Proof. intros H N j. specialize (N j). lra. Qed.

(** ** derivatives *)
Lemma dlim_ext (f g : R -> R) a l d : 0 < d -> (forall t, Rabs (t - a) < d -> f t = g t) -> derivable_pt_lim f a l -> derivable_pt_lim g a l.
Proof.
  intros Hd E H eps Heps. destruct (H eps Heps) as [del Hdel]. assert (Hm : 0 < Rmin del d) by (apply Rmin_pos; [apply cond_pos|exact Hd]). exists (mkposreal _ Hm). cbn. intros h Hh Hlt.
  rewrite <- (E (a + h)), <- (E a). - apply Hdel; [exact Hh|]. eapply Rlt_le_trans; [exact Hlt|apply Rmin_l]. - replace (a - a) with 0 by ring. rewrite Rabs_R0. exact Hd.
  - replace (a + h - a) with h by ring. eapply Rlt_le_trans; [exact Hlt|apply Rmin_r].
Qed.
Lemma pd_ext (U : point -> Prop) i F G x l : opens U -> U x -> (forall y, U y -> F y = G y) -> pd i F x l -> pd i G x l.
Proof. intros HU Hx E. destruct (HU x Hx) as (d & Hd & HN). apply (dlim_ext _ _ _ _ d Hd). intros t Ht. apply E, HN, near_upd; assumption. Qed.
Lemma pd_unique i G x l l' : pd i G x l -> pd i G x l' -> l = l'. Proof. intros H H'. eapply uniqueness_limite; eassumption. Qed.
Lemma pd_const i c x : pd i (fun _ => c) x 0. Proof. apply (derivable_pt_lim_const c). Qed.
Lemma pd_plus i F G x l m : pd i F x l -> pd i G x m -> pd i (fun y => F y + G y) x (l + m).
Proof. intros H K. exact (derivable_pt_lim_plus _ _ _ _ _ H K). Qed.
Lemma pd_mult i F G x l m : pd i F x l -> pd i G x m -> pd i (fun y => F y * G y) x (l * G x + F x * m).
Proof. intros H K. pose proof (derivable_pt_lim_mult _ _ _ _ _ H K) as Q. cbv beta in Q. rewrite upd_same in Q. exact Q. Qed.
Lemma pd_comp i (phi : R -> R) G x l m : pd i G x l -> derivable_pt_lim phi (G x) m -> pd i (fun y => phi (G y)) x (m * l).
Proof. intros H K. apply (derivable_pt_lim_comp (fun t => G (upd x i t)) phi). - exact H. - rewrite upd_same. exact K. Qed.
Lemma pd_coord i x : pd i (fun y => y i) x 1.
Proof. unfold pd. apply (dlim_ext id _ _ _ 1 Rlt_0_1); [|apply derivable_pt_lim_id]. intros t _. rewrite upd_at. reflexivity. Qed.
Lemma pd_coord_other i j x : j <> i -> pd i (fun y => y j) x 0.
Proof. intros H. unfold pd. apply (dlim_ext (fun _ => x j) _ _ _ 1 Rlt_0_1); [|apply (derivable_pt_lim_const (x j))]. intros t _. rewrite upd_other by exact H. reflexivity. Qed.

(** ** continuity *)
Lemma cont_const U c : cont U (fun _ => c).
Proof. intros x _ eps He. exists 1. split; [lra|]. intros y _. replace (c - c) with 0 by ring. rewrite Rabs_R0. exact He. Qed.
Lemma cont_coord U i : cont U (fun y => y i).
Proof. intros x _ eps He. exists eps. split; [exact He|]. intros y Hy. apply Hy. Qed.
Lemma cont_plus U F G : cont U F -> cont U G -> cont U (fun y => F y + G y).
Proof.
  intros HF HG x Hx eps He. destruct (HF x Hx (eps / 2) ltac:(lra)) as (d1 & D1 & B1). destruct (HG x Hx (eps / 2) ltac:(lra)) as (d2 & D2 & B2). exists (Rmin d1 d2). split; [apply Rmin_pos; assumption|]. intros y Hy.
  assert (N1 := B1 y (near_le _ _ _ _ (Rmin_l d1 d2) Hy)). assert (N2 := B2 y (near_le _ _ _ _ (Rmin_r d1 d2) Hy)). replace (F y + G y - (F x + G x)) with ((F y - F x) + (G y - G x)) by ring. eapply Rle_lt_trans; [apply Rabs_triang|lra].
Qed.
Lemma cont_comp (U : point -> Prop) (phi : R -> R) G : (forall x, U x -> continuity_pt phi (G x)) -> cont U G -> cont U (fun y => phi (G y)).
Proof.
  intros Hp HG x Hx eps He. destruct (Hp x Hx eps He) as (a & Ha & B). destruct (HG x Hx a Ha) as (d & Hd & N). exists d. split; [exact Hd|]. intros y Hy. specialize (N y Hy).
  destruct (Req_dec (G y) (G x)) as [->|Ne]; [replace (phi (G x) - phi (G x)) with 0 by ring; rewrite Rabs_R0; exact He|]. apply (B (G y)). split; [split; [exact I|congruence]|exact N].
Qed.
Lemma cont_mult U F G : cont U F -> cont U G -> cont U (fun y => F y * G y).
Proof.
  intros HF HG. assert (Hs : forall c, continuity (fun r : R => c * (r * r))). { intros c r. apply derivable_continuous_pt. exists (c * (1 * r + r * 1)). apply (derivable_pt_lim_scal (fun r => r * r)). apply (derivable_pt_lim_mult id id); apply derivable_pt_lim_id. }
  assert (Hm : cont U (fun y => -1 * G y)). { apply (cont_comp U (fun r => -1 * r)); [|exact HG]. intros x _. apply derivable_continuous_pt. exists (-1 * 1). apply (derivable_pt_lim_scal id), derivable_pt_lim_id. }
  assert (H1 : cont U (fun y => 1 / 4 * ((F y + G y) * (F y + G y)))) by (apply (cont_comp U (fun r => 1 / 4 * (r * r)) (fun y => F y + G y)); [intros; apply Hs|apply cont_plus; assumption]).
  assert (H2 : cont U (fun y => - (1 / 4) * ((F y + -1 * G y) * (F y + -1 * G y)))) by (apply (cont_comp U (fun r => - (1 / 4) * (r * r)) (fun y => F y + -1 * G y)); [intros; apply Hs|apply cont_plus; assumption]).
  pose proof (cont_plus _ _ _ H1 H2) as H. intros x Hx eps He. destruct (H x Hx eps He) as (d & Hd & N). exists d. split; [exact Hd|]. intros y Hy. specialize (N y Hy). match type of N with Rabs ?q < _ => replace (F y * G y - F x * G x) with q by field end. exact N.
Qed.
Lemma cont_ext (U : point -> Prop) F G : opens U -> (forall x, U x -> F x = G x) -> cont U F -> cont U G.
Proof.
  intros HU E HF x Hx eps He. destruct (HU x Hx) as (d1 & D1 & N1). destruct (HF x Hx eps He) as (d2 & D2 & N2). exists (Rmin d1 d2). split; [apply Rmin_pos; assumption|]. intros y Hy.
  rewrite <- (E x Hx), <- (E y (N1 y (near_le _ _ _ _ (Rmin_l d1 d2) Hy))). apply N2, (near_le _ _ _ _ (Rmin_r d1 d2) Hy).
Qed.
(** ** closure of C^k *)
Lemma Ck_cont k U G : Ck k U G -> cont U G. Proof. destruct k; intros [H _]; exact H. Qed.
Lemma Ck_down k : forall U G, Ck (S k) U G -> Ck k U G.
Proof.
  induction k as [|k IH]; intros U G [H1 H2]; [split; [exact H1|exact I]|]. split; [exact H1|]. intros i. destruct (H2 i) as (H & H3 & H4). exists H. split; [exact H3|]. apply IH, H4.
Qed.
Lemma Ck_sub k : forall (U V : point -> Prop) G, (forall x, V x -> U x) -> Ck k U G -> Ck k V G.
Proof.
  induction k as [|k IH]; intros U V G HS [H1 H2]; (split; [intros x Hx; apply H1, HS, Hx|]); [exact I|]. intros i. destruct (H2 i) as (H & H3 & H4). exists H. split; [intros x Hx; apply H3, HS, Hx|]. apply (IH U); assumption.
Qed.
Lemma Ck_ext k : forall (U : point -> Prop) F G, opens U -> (forall x, U x -> F x = G x) -> Ck k U F -> Ck k U G.
Proof.
  destruct k; intros U F G HU E [H1 H2]; (split; [apply (cont_ext U F); assumption|]); [exact I|]. intros i. destruct (H2 i) as (H & H3 & H4). exists H. split; [|exact H4]. intros x Hx. apply (pd_ext U i F); auto.
Qed.
Lemma Ck_const k : forall U c, Ck k U (fun _ => c).
Proof. induction k as [|k IH]; intros U c; (split; [apply cont_const|]); [exact I|]. intros i. exists (fun _ => 0). split; [intros x _; apply pd_const|apply IH]. Qed.
Lemma Ck_coord k U j : Ck k U (fun y => y j).
Proof.
  destruct k; (split; [apply cont_coord|]); [exact I|]. intros i. destruct (Nat.eq_dec j i) as [->|N]; [exists (fun _ => 1); split; [intros x _; apply pd_coord|apply Ck_const]|exists (fun _ => 0); split; [intros x _; apply pd_coord_other, N|apply Ck_const]].
Qed.
Lemma Ck_plus k : forall U F G, Ck k U F -> Ck k U G -> Ck k U (fun y => F y + G y).
Proof.
  induction k as [|k IH]; intros U F G [F1 F2] [G1 G2]; (split; [apply cont_plus; assumption|]); [exact I|]. intros i. destruct (F2 i) as (F' & F3 & F4), (G2 i) as (G' & G3 & G4). exists (fun y => F' y + G' y). split; [intros x Hx; apply pd_plus; auto|apply IH; assumption].
Qed.
Lemma Ck_mult k : forall U F G, Ck k U F -> Ck k U G -> Ck k U (fun y => F y * G y).
Proof.
  induction k as [|k IH]; intros U F G HF HG; (split; [apply cont_mult; eapply Ck_cont; eassumption|]); [exact I|]. intros i. pose proof HF as [F1 F2]. pose proof HG as [G1 G2]. destruct (F2 i) as (F' & F3 & F4), (G2 i) as (G' & G3 & G4). exists (fun y => F' y * G y + F y * G' y). split; [intros x Hx; apply pd_mult; auto|].
  apply Ck_plus; apply IH; try assumption; apply Ck_down; assumption.
Qed.
Lemma Ck_exp k : forall U G, Ck k U G -> Ck k U (fun y => exp (G y)).
Proof.
  induction k as [|k IH]; intros U G HG; (split; [apply (cont_comp U exp); [intros x _; apply derivable_continuous_pt, derivable_pt_exp|eapply Ck_cont; eassumption]|]); [exact I|].
  intros i. destruct HG as [G1 G2]. destruct (G2 i) as (G' & G3 & G4). exists (fun y => exp (G y) * G' y). split; [intros x Hx; apply pd_comp; [apply G3, Hx|apply derivable_pt_lim_exp]|]. apply Ck_mult; [|exact G4]. apply IH, Ck_down. split; assumption.
Qed.
Lemma dlim_inv a : a <> 0 -> derivable_pt_lim Rinv a (- (/ a * / a)).
Proof.
  intros H. pose proof (derivable_pt_lim_div (fun _ => 1) id a 0 1 (derivable_pt_lim_const 1 a) (derivable_pt_lim_id a) H) as Q. unfold id in Q. replace ((0 * a - 1 * 1) / Rsqr a) with (- (/ a * / a)) in Q by (unfold Rsqr; field; exact H).
  apply (dlim_ext (fun t => ((fun _ => 1) / (fun t => t))%F t) Rinv a _ 1 Rlt_0_1); [|exact Q]. intros t _. unfold div_fct. unfold Rdiv. ring.
Qed.
Lemma Ck_inv k : forall (U : point -> Prop) G, (forall x, U x -> G x <> 0) -> Ck k U G -> Ck k U (fun y => / G y).
Proof.
  induction k as [|k IH]; intros U G HN HG; (split; [apply (cont_comp U Rinv); [intros x Hx; apply derivable_continuous_pt; eexists; apply dlim_inv, HN, Hx|eapply Ck_cont; eassumption]|]); [exact I|].
  intros i. pose proof HG as [G1 G2]. destruct (G2 i) as (G' & G3 & G4). exists (fun y => - (/ G y * / G y) * G' y). split; [intros x Hx; apply (pd_comp i Rinv); [apply G3, Hx|apply dlim_inv, HN, Hx]|].
  assert (Hi : Ck k U (fun y => / G y)) by (apply IH; [exact HN|apply Ck_down, HG]). apply Ck_mult; [|exact G4].
  assert (Hm : Ck k U (fun y => -1 * (/ G y * / G y))) by (apply Ck_mult; [apply Ck_const|apply Ck_mult; exact Hi]).
  replace (fun y => - (/ G y * / G y)) with (fun y => -1 * (/ G y * / G y)); [exact Hm|]. apply functional_extensionality. intros y. ring.
Qed.
Lemma Ck_ln k : forall (U : point -> Prop) G, (forall x, U x -> 0 < G x) -> Ck k U G -> Ck k U (fun y => ln (G y)).
Proof.
  intros U G HP HG. destruct k; (split; [apply (cont_comp U ln); [intros x Hx; apply derivable_continuous_pt; eexists; apply derivable_pt_lim_ln, HP, Hx|eapply Ck_cont; eassumption]|]); [exact I|].
  intros i. pose proof HG as [G1 G2]. destruct (G2 i) as (G' & G3 & G4). exists (fun y => / G y * G' y). split; [intros x Hx; apply (pd_comp i ln); [apply G3, Hx|apply derivable_pt_lim_ln, HP, Hx]|].
  apply Ck_mult; [|exact G4]. apply Ck_inv; [intros x Hx; specialize (HP x Hx); lra|apply Ck_down, HG].
Qed.
Lemma Ck_sum k U (l : list (point -> R)) : Forall (Ck k U) l -> Ck k U (fun y => sumR (map (fun G => G y) l)).
Proof. induction 1 as [|G l HG H IH]; cbn [map sumR fold_right]; [apply Ck_const|]. apply Ck_plus; assumption. Qed.
Lemma Ck_prod k U (l : list (point -> R)) : Forall (Ck k U) l -> Ck k U (fun y => prodR (map (fun G => G y) l)).
Proof. induction 1 as [|G l HG H IH]; cbn [map prodR fold_right]; [apply Ck_const|]. apply Ck_mult; assumption. Qed.
Lemma Ck_pow k U G n : Ck k U G -> Ck k U (fun y => G y ^ n).
Proof. intros H. induction n as [|n IH]; cbn [pow]; [apply Ck_const|]. apply Ck_mult; assumption. Qed.
Lemma Ck_powerRZ k (U : point -> Prop) j z : (forall x, U x -> (0 <= z)%Z \/ x j <> 0) -> Ck k U (fun y => powerRZ (y j) z).
Proof.
  intros H. destruct z as [|n|n]; cbn [powerRZ]; [apply Ck_const|apply Ck_pow, Ck_coord|]. apply Ck_inv; [|apply Ck_pow, Ck_coord]. intros x Hx. apply pow_nonzero. destruct (H x Hx) as [C|C]; [lia|exact C].
Qed.
Lemma Ck_mono k (U : point -> Prop) r : forall o, (forall x, U x -> row_ok x o r) -> Ck k U (fun y => mono y o r).
Proof.
  induction r as [|z r IH]; intros o H; cbn [mono]; [apply Ck_const|]. apply Ck_mult; [apply Ck_powerRZ; intros x Hx; apply (H x Hx)|apply IH; intros x Hx; apply (H x Hx)].
Qed.

(** ** open sets *)
Lemma opens_and U V : opens U -> opens V -> opens (fun x => U x /\ V x).
Proof.
  intros HU HV x [Ux Vx]. destruct (HU x Ux) as (d & Hd & N), (HV x Vx) as (d' & Hd' & N'). exists (Rmin d d'). split; [apply Rmin_pos; assumption|]. intros y Hy. split; [apply N, (near_le _ _ _ _ (Rmin_l d d') Hy)|apply N', (near_le _ _ _ _ (Rmin_r d d') Hy)].
Qed.
Lemma opens_true : opens (fun _ => True). Proof. intros x _. exists 1. split; [lra|auto]. Qed.
Lemma opens_iff (U V : point -> Prop) : (forall x, U x <-> V x) -> opens U -> opens V.
Proof. intros E H x Hx. apply E in Hx. destruct (H x Hx) as (d & Hd & N). exists d. split; [exact Hd|]. intros y Hy. apply E, N, Hy. Qed.
Lemma opens_pos (U : point -> Prop) G : opens U -> cont U G -> opens (fun x => U x /\ 0 < G x).
Proof.
  intros HU HG x [Ux Px]. destruct (HU x Ux) as (d & Hd & N), (HG x Ux (G x) Px) as (d' & Hd' & N'). exists (Rmin d d'). split; [apply Rmin_pos; assumption|]. intros y Hy. split; [apply N, (near_le _ _ _ _ (Rmin_l d d') Hy)|].
  specialize (N' y (near_le _ _ _ _ (Rmin_r d d') Hy)). apply Rabs_def2 in N'. lra.
Qed.
Lemma opens_nonzero j : opens (fun x => x j <> 0).
Proof. intros x Hx. exists (Rabs (x j)). split; [apply Rabs_pos_lt, Hx|]. intros y Hy E. specialize (Hy j). rewrite E in Hy. replace (0 - x j) with (- x j) in Hy by ring. rewrite Rabs_Ropp in Hy. lra. Qed.
Lemma opens_row k : forall o, opens (fun x => row_ok x o k).
Proof.
  induction k as [|z k IH]; intros o; cbn [row_ok]; [apply opens_true|]. apply opens_and; [|apply IH]. destruct (Z_le_dec 0 z) as [Hz|Hz]; [eapply opens_iff; [|apply opens_true]; intros x; split; auto|].
  eapply opens_iff; [|apply (opens_nonzero o)]. intros x. cbv beta. split; [auto|]. intros [C|C]; [lia|exact C].
Qed.
Lemma opens_all {A} (P : A -> point -> Prop) l : Forall (fun a => opens (P a)) l -> opens (fun x => allP (fun a => P a x) l).
Proof. induction 1 as [|a l Ha H IH]; cbn; [apply opens_true|]. apply opens_and; assumption. Qed.

(** * every expression is smooth on its open domain *)
Definition good_fun (e : expr) : Prop := opens (fun x => dom x e) /\ smooth (fun x => dom x e) (fun x => eval x e).
Lemma terms_smooth p : Forall (fun t => good_fun (fst t)) p ->
  opens (fun x => dom x (Pol p)) /\ smooth (fun x => dom x (Pol p)) (fun x => eval x (Pol p)).
Proof.
  intros H. split.
  - cbn [dom]. apply (opens_all (fun t x => match t with (c, k) => dom x c /\ row_ok x 0 k end)). eapply Forall_impl; [|exact H]. intros [c k] [Ho _]. cbn [fst] in Ho. apply opens_and; [exact Ho|apply opens_row].
  - intros k. cbn [eval dom]. induction H as [|[c r] p [Ho Hs] H IH]; [exact (Ck_const k _ 0)|]. cbn [map sumR fold_right allP]. apply Ck_plus.
    + apply Ck_mult; [eapply Ck_sub; [|apply (Hs k)]; cbn [fst]; tauto|]. apply Ck_mono. tauto.
    + eapply Ck_sub; [|exact IH]. cbv beta. intros x [_ Hx]. exact Hx.
Qed.
Lemma list_smooth l : Forall good_fun l -> opens (fun x => allP (dom x) l) /\ forall k, Forall (Ck k (fun x => allP (dom x) l)) (map (fun e x => eval x e) l).
Proof.
  intros H. split; [apply (opens_all (fun e x => dom x e)); eapply Forall_impl; [|exact H]; intros e [Ho _]; exact Ho|]. intros k. induction H as [|e l [Ho Hs] H IH]; cbn [map allP fold_right]; constructor; [eapply Ck_sub; [|apply (Hs k)]; cbv beta; tauto|].
  eapply Forall_impl; [|exact IH]. intros G HG. eapply Ck_sub; [|exact HG]. cbv beta. intros x [_ Hx]. exact Hx.
Qed.
Lemma Rpower_smooth (U : point -> Prop) F G : opens U -> (forall x, U x -> 0 < F x) -> smooth U F -> smooth U G -> smooth U (fun x => Rpower (F x) (G x)).
Proof. intros HU HP HF HG k. unfold Rpower. apply Ck_exp, Ck_mult; [apply HG|]. apply Ck_ln; [exact HP|apply HF]. Qed.
Lemma smooth_sub (U V : point -> Prop) G : (forall x, V x -> U x) -> smooth U G -> smooth V G. Proof. intros H HG k. eapply Ck_sub; [exact H|apply HG]. Qed.
Lemma lookupR_map x n col : lookupR n (map (fun t => match t with (m, c) => (m, eval x c) end) col) = match lookup n col with Some e => eval x e | None => 0 end.
Proof. induction col as [|[m c] col IH]; [reflexivity|]. cbn [map lookupR lookup]. destruct (roweqb n m); [reflexivity|exact IH]. Qed.
Lemma lookup_in n col e : lookup n col = Some e -> exists m, In (m, e) col /\ n = m.
Proof. induction col as [|[m c] col IH]; [discriminate|]. cbn [lookup]. destruct (roweqb n m) eqn:E; [intros [= ->]; exists m; split; [left; reflexivity|]|intros H; destruct (IH H) as (m' & H1 & H2); exists m'; split; [right; exact H1|exact H2]]. unfold roweqb in E. destruct (lexcmp n m) eqn:E2; try discriminate. clear - E2. revert m E2. induction n as [|a n IH]; intros [|b m] E; try discriminate; [reflexivity|]. cbn in E. destruct (Z.compare_spec a b); try discriminate. subst. f_equal. apply IH, E. Qed.
Lemma Int_part_IZR z : Int_part (IZR z) = z.
Proof. unfold Int_part. rewrite <- (tech_up (IZR z) (z + 1)); [lia|apply IZR_lt; lia|rewrite plus_IZR; lra]. Qed.
Lemma gpow_pos b a : 0 < b -> gpow b a = Rpower b a. Proof. intros H. unfold gpow. destruct (Rlt_dec 0 b); [reflexivity|lra]. Qed.
Lemma gpow_int b z : gpow b (IZR z) = powerRZ b z.
Proof. unfold gpow. destruct (Rlt_dec 0 b) as [H|_]; [symmetry; apply powerRZ_Rpower, H|rewrite Int_part_IZR; reflexivity]. Qed.
Lemma base_nz b a : base_ok b a -> b <> 0. Proof. intros [H|[H _]]; [lra|exact H]. Qed.
Lemma base_not_num b a : base_ok b a -> is_num a = false -> 0 < b. Proof. intros [H|[_ [z ->]]]; [auto|discriminate]. Qed.
Lemma opens_nz (U : point -> Prop) G : opens U -> cont U G -> opens (fun x => U x /\ G x <> 0).
Proof.
  intros HU HG x [Ux Px]. destruct (HU x Ux) as (d & Hd & N), (HG x Ux (Rabs (G x)) (Rabs_pos_lt _ Px)) as (d' & Hd' & N'). exists (Rmin d d'). split; [apply Rmin_pos; assumption|]. intros y Hy. split; [apply N, (near_le _ _ _ _ (Rmin_l d d') Hy)|].
  specialize (N' y (near_le _ _ _ _ (Rmin_r d d') Hy)). intros E. rewrite E, Rminus_0_l, Rabs_Ropp in N'. lra.
Qed.
Lemma Ck_gpow k (U : point -> Prop) F z : (forall x, U x -> F x <> 0) -> Ck k U F -> Ck k U (fun y => powerRZ (F y) z).
Proof.
  intros HN HF. assert (P : forall n, Ck k U (fun y => F y ^ n)) by (induction n as [|n IH]; [exact (Ck_const k U 1)|exact (Ck_mult k U _ _ HF IH)]).
  destruct z as [|p|p]; cbn [powerRZ]; [exact (Ck_const k U 1)|apply P|]. apply (Ck_inv k U (fun y => F y ^ Pos.to_nat p)); [intros x Hx; apply pow_nonzero, HN, Hx|apply P].
Qed.
Theorem all_good e : good_fun e.
Proof.
  induction e as [r|p Hp|p a Hp Ha|p Hp|l Hl|l Hl|terms cache Hc|b a Hb Ha|a Ha|a Ha] using expr_rect'.
  - split; [apply opens_true|]. intros k. exact (Ck_const k _ r).
  - apply terms_smooth, Hp.
  - destruct (terms_smooth p Hp) as [O S]. destruct Ha as [Oa Sa].
    assert (C : (exists z, a = Num (IZR z)) \/ (forall b, base_ok b a -> 0 < b)). { destruct a; try (right; intros b Hb; apply (base_not_num _ _ Hb); reflexivity). destruct (Req_dec r (IZR (Int_part r))) as [E|E]; [left; exists (Int_part r); congruence|right]. intros b [H|[_ [z [= ->]]]]; [exact H|]. rewrite Int_part_IZR in E. congruence. }
    destruct C as [[z ->]|C].
    + assert (O' : opens (fun x => dom x (EPol p (Num (IZR z))))). { eapply opens_iff; [|apply (opens_nz _ _ O (Ck_cont _ _ _ (S 0%nat)))]. intros x. cbn [dom]. split; [intros [H1 H2]; split; [exact H1|]; split; [right; split; [exact H2|exists z; reflexivity]|exact I]|]. intros (H1 & H2 & _). split; [exact H1|apply (base_nz _ _ H2)]. }
      split; [exact O'|]. intros k. change (fun x => eval x (EPol p (Num (IZR z)))) with (fun x => gpow (eval x (Pol p)) (IZR z)). replace (fun x => gpow (eval x (Pol p)) (IZR z)) with (fun x => powerRZ (eval x (Pol p)) z) by (apply functional_extensionality; intros x; symmetry; apply gpow_int).
      apply Ck_gpow; [intros x (_ & H & _); apply (base_nz _ _ H)|]. eapply Ck_sub; [|apply (S k)]. intros x H. apply H.
    + assert (O' : opens (fun x => dom x (EPol p a))). { eapply opens_iff; [|apply (opens_and _ _ (opens_pos _ _ O (Ck_cont _ _ _ (S 0%nat))) Oa)]. intros x. cbn [dom]. split; [intros [[H1 H2] H3]; split; [exact H1|]; split; [left; exact H2|exact H3]|]. intros (H1 & H2 & H3). split; [split; [exact H1|apply C, H2]|exact H3]. }
      split; [exact O'|]. change (fun x => eval x (EPol p a)) with (fun x => gpow (eval x (Pol p)) (eval x a)). intros k. apply (Ck_ext k _ (fun x => Rpower (eval x (Pol p)) (eval x a))); [exact O'|intros x (_ & H & _); symmetry; apply gpow_pos, C, H|]. revert k. change (smooth (fun x => dom x (EPol p a)) (fun x => Rpower (eval x (Pol p)) (eval x a))). apply Rpower_smooth; [exact O'|intros x (_ & H & _); apply C, H|eapply smooth_sub; [|exact S]|eapply smooth_sub; [|exact Sa]]; intros x H; apply H.
  - destruct (terms_smooth p Hp) as [O S]. assert (O' : opens (fun x => dom x (LPol p))) by (apply (opens_pos _ _ O (Ck_cont _ _ _ (S 0%nat)))).
    split; [exact O'|]. intros k. change (fun x => eval x (LPol p)) with (fun x => ln (eval x (Pol p))). apply Ck_ln; [intros x H; apply H|]. eapply Ck_sub; [|apply (S k)]. intros x H. apply H.
  - destruct (list_smooth l Hl) as [O S]. split; [exact O|]. intros k. pose proof (Ck_sum k _ _ (S k)) as Q. cbn [dom eval]. revert Q. match goal with |- Ck k ?U ?F -> Ck k ?U ?G => replace G with F; [auto|] end. apply functional_extensionality. intros x. rewrite map_map. reflexivity.
  - destruct (list_smooth l Hl) as [O S]. split; [exact O|]. intros k. pose proof (Ck_prod k _ _ (S k)) as Q. cbn [dom eval]. revert Q. match goal with |- Ck k ?U ?F -> Ck k ?U ?G => replace G with F; [auto|] end. apply functional_extensionality. intros x. rewrite map_map. reflexivity.
  - assert (O : opens (fun x => dom x (Rule terms cache))).
    { cbn [dom]. apply (opens_all (fun col x => allP (fun t => match t with (_, c) => dom x c end) col)). eapply Forall_impl; [|exact Hc]. intros col Hcol. apply (opens_all (fun t x => match t with (_, c) => dom x c end)). eapply Forall_impl; [|exact Hcol]. intros [m c] [Ho _]. exact Ho. }
    split; [exact O|]. clear O. intros k. cbn [eval dom]. cbv zeta.
    induction terms as [|[z ns] terms IH]; cbn [map sumR fold_right fst snd]; [exact (Ck_const k _ 0)|]. apply Ck_plus; [|apply IH]. apply Ck_mult; [apply Ck_const|].
    clear IH. revert ns. induction Hc as [|col cache Hcol Hc IH]; intros ns; [destruct ns; exact (Ck_const k _ 1)|]. destruct ns as [|n ns]; [exact (Ck_const k _ 1)|]. cbn [map combine prodR fold_right fst snd allP]. apply Ck_mult.
    + replace (fun y => lookupR n (map (fun t => match t with (m, c) => (m, eval y c) end) col)) with (fun y => match lookup n col with Some e => eval y e | None => 0 end) by (apply functional_extensionality; intros y; symmetry; apply lookupR_map).
      destruct (lookup n col) as [e|] eqn:El; [|apply Ck_const]. apply lookup_in in El as (m & Hin & _). rewrite Forall_forall in Hcol. destruct (Hcol _ Hin) as [_ Hs]. eapply Ck_sub; [|apply (Hs k)]. cbv beta. intros x [Hx _]. fold (allP (fun t => match t with (_, c) => dom x c end) col) in Hx. rewrite allP_Forall, Forall_forall in Hx. apply (Hx _ Hin).
    + eapply Ck_sub; [|apply IH]. cbv beta. intros x [_ Hx]. exact Hx.
  - destruct Hb as [Ob Sb], Ha as [Oa Sa]. assert (O' : opens (fun x => dom x (Pow b a))). { eapply opens_iff; [|apply (opens_and _ _ (opens_pos _ _ Ob (Ck_cont _ _ _ (Sb 0%nat))) Oa)]. intros x. cbn [dom]. tauto. }
    split; [exact O'|]. cbn [eval]. apply Rpower_smooth; [exact O'|intros x H; apply H|eapply smooth_sub; [|exact Sb]|eapply smooth_sub; [|exact Sa]]; intros x H; apply H.
  - destruct Ha as [O S]. assert (O' : opens (fun x => dom x (Log a))) by (apply (opens_pos _ _ O (Ck_cont _ _ _ (S 0%nat)))). split; [exact O'|]. intros k. cbn [eval]. apply Ck_ln; [intros x H; apply H|]. eapply Ck_sub; [|apply (S k)]. intros x H. apply H.
  - destruct Ha as [O S]. split; [exact O|]. intros k. cbn [eval]. apply Ck_exp. apply (S k).
Qed.
