(** C09: derivatives of symbolic functions; C71: functions with a maximal degree. *)
From Coq Require Import Lia FunctionalExtensionality.
From Verif Require Import SortProofs FunSpec FunChain ExprArith ExprMixed ExprSimp ExprDerive ExprMore ExprOrd PropExpr FunProofs.
Local Open Scope R_scope.

Section C09.
Variables (nv : nat) (zero_test : expr -> bool).
Hypothesis Sound : sound zero_test.
Lemma bump_key args h k j l : track_ok nv args h k j l -> length k = nv /\ nonneg k /\ (0 < sumz k)%Z /\ k <> zeros nv.
Proof.
  intros (B & _ & (L & N & _)). destruct (bump_spec _ _ _ B) as (_ & L' & _ & S). pose proof (bump_nonneg _ _ _ N B) as N'. destruct (sum_zero l N) as [P _]. split; [congruence|]. split; [exact N'|]. split; [lia|]. intros E.
  destruct (sum_zero k N') as [_ Z]. assert (sumz k = 0%Z) by (apply Z; rewrite E, zeros_len; reflexivity). lia.
Qed.
Section Update.
Variables (args : list expr) (h : heap) (e0 e1 : expr).
Hypothesis I : inv nv args h.
Hypothesis Hna : (length args <= nv)%nat.
Notation U := (fun x => dom x e0). Notation F := (fun x => eval x e0).
Hypothesis W1 : wf nv e1.
Hypothesis V1 : forall x, dom x e0 -> dom x e1 /\ eval x e1 = eval x e0.
Definition right (m : list Z) (g : expr) : Prop := wf nv g /\ (forall x, dom x e0 -> dom x g) /\ mixed nv U F m (fun x => eval x g).
Definition repo_ok (repo : list (list Z * expr)) : Prop := NoDup (map fst repo) /\ forall m g, In (m, g) repo -> In m (map fst (h_tracks h)) /\ right m g.
Lemma dset_in {A} m k (v w : A) d : NoDup (map fst d) -> In (m, w) (dset k v d) -> (m = k /\ w = v) \/ In (m, w) d.
Proof.
  intros _. induction d as [|[k' u] d IH]; cbn [dset]; [intros [[= <- <-]|[]]; auto|]. destruct (roweqb k k'); cbn; [intros [[= <- <-]|H]; auto|intros [H|H]; [auto|]]. destruct (IH H) as [X|X]; auto.
Qed.
Lemma update_ok k : forall m repo, (sumz m <= Z.of_nat k)%Z -> multi_ok nv h m -> repo_ok repo ->
  exists g repo', ev (fun n => forall depth, (k <= depth)%nat -> update nv zero_test (h_tracks h) e1 n depth repo m = Some (g, repo')) /\
    repo_ok repo' /\ right m g /\ (forall q, In q (map fst repo) -> In q (map fst repo')) /\ (m = zeros nv \/ In m (map fst repo')).
Proof.
  induction k as [|k IH]; intros m repo Hs M RO.
  - destruct M as (L & N & K). destruct (sum_zero m N) as [P Z]. assert (m = zeros nv) by (rewrite <- L; apply Z; lia). subst m. clear K.
    assert (NG : dget (zeros nv) repo = None). { apply dget_none. intros C. apply in_map_iff in C as ([q g] & E & C). cbn [fst] in E. subst q. destruct (proj2 RO _ _ C) as [D _]. apply in_map_iff in D as ([q [j l]] & E & D). cbn [fst] in E. subst q. destruct (bump_key _ _ _ _ _ (i_track _ _ _ I _ _ _ D)) as (_ & _ & _ & X). congruence. }
    exists e1, repo. split; [apply ev_now; intros n [|depth] _; cbn [update]; rewrite NG; (replace (fold_right Z.add 0%Z (zeros nv)) with 0%Z by (symmetry; apply (proj2 (sum_zero _ (zeros_nonneg nv))); rewrite zeros_len; reflexivity)); reflexivity|].
    split; [exact RO|]. split; [|auto]. split; [exact W1|]. split; [apply V1|]. apply (mixed_ext U F nv (zeros nv) F); [intros x Hx; symmetry; apply V1, Hx|apply mixed_zero].
  - destruct (dget m repo) as [g|] eqn:EG.
    + exists g, repo. split; [apply ev_now; intros n [|depth] Hd; cbn [update]; rewrite EG; reflexivity|]. split; [exact RO|]. split; [apply (proj2 RO), dget_in, EG|]. split; [auto|]. right. apply dget_key. eauto.
    + pose proof M as (L & N & K). destruct (sum_zero m N) as [P Z]. destruct (Z.eqb_spec (sumz m) 0) as [E|NE].
      * destruct (IH m repo ltac:(lia) M RO) as (g & repo' & E1 & R). exists g, repo'. split; [|exact R]. eapply ev_imp; [|exact E1]. cbv beta. intros n H depth Hd. apply H. lia.
      * destruct K as [K|K]; [exfalso; apply NE, Z; rewrite L; exact K|].
        apply dget_key in K as ([j low] & K). pose proof (i_track _ _ _ I _ _ _ (dget_in _ _ _ K)) as (B & Hj & ML).
        destruct (bump_spec _ _ _ B) as (_ & _ & Ek & Es).
        destruct (IH low repo ltac:(lia) ML RO) as (g & repo1 & E1 & RO1 & (Wg & Dg & Mg) & Inc & _).
        destruct (C06_derive nv zero_test j g Sound ltac:(lia) Wg) as (d & Ed & Wd & Vd).
        destruct (C07_simplify nv d Wd) as (d' & Ed' & Wd' & Vd').
        exists d', (dset m d' repo1). split.
        { eapply ev_imp; [|exact (ev_and _ _ E1 (ev_and _ _ Ed Ed'))]. cbv beta. intros n (A1 & A2 & A3) [|depth] Hd; [lia|]. cbn [update]. rewrite EG. change (fold_right Z.add 0%Z m) with (sumz m). apply Z.eqb_neq in NE. rewrite NE, K, (A1 depth ltac:(lia)), A2, A3. reflexivity. }
        assert (RR : right m d').
        { split; [exact Wd'|]. split; [intros x Hx; apply Vd', Vd, Dg, Hx|]. rewrite Ek. apply (mixed_step U F nv j low (fun x => eval x g) (fun x => eval x d') ltac:(lia) Mg). intros x Hx. rewrite (proj2 (Vd' x (proj1 (Vd x (Dg x Hx))))). apply Vd, Dg, Hx. }
        split; [|split; [exact RR|split; [intros q Hq; apply dset_keys; auto|right; apply dset_keys; auto]]].
        split; [apply dset_nodup, RO1|]. intros q w Hq. destruct (dset_in q m d' w repo1 (proj1 RO1) Hq) as [[-> ->]|Hq']; [|apply (proj2 RO1), Hq']. split; [apply dget_key; eauto|exact RR].
Qed.
Lemma update_all_ok ks : Forall (multi_ok nv h) ks -> Forall (fun m => m <> zeros nv) ks -> forall repo, repo_ok repo ->
  exists repo', (exists d0, ev (fun n => forall depth, (d0 <= depth)%nat -> update_all nv zero_test (h_tracks h) e1 n depth ks repo = Some repo')) /\
    repo_ok repo' /\ (forall q, In q (map fst repo) -> In q (map fst repo')) /\ forall q, In q ks -> In q (map fst repo').
Proof.
  induction ks as [|m ks IH]; intros HM HZ repo RO.
  - exists repo. split; [exists 0%nat; apply ev_now; reflexivity|]. split; [exact RO|]. split; [auto|intros q []].
  - inversion HM; inversion HZ; subst. destruct (update_ok (Z.to_nat (sumz m)) m repo ltac:(destruct H1 as (_ & N & _); pose proof (proj1 (sum_zero m N)); lia) H1 RO) as (g & repo1 & E1 & RO1 & _ & Inc & Km).
    destruct (IH H2 H6 repo1 RO1) as (repo' & (d0 & E2) & RO' & Inc' & Kk). exists repo'. split; [|split; [exact RO'|split; [auto|]]].
    + exists (Nat.max d0 (Z.to_nat (sumz m))). eapply ev_imp; [|exact (ev_and _ _ E1 E2)]. cbv beta. intros n (A1 & A2) depth Hd. cbn [update_all]. rewrite (A1 depth ltac:(lia)). apply A2. lia.
    + intros q [<-|Hq]; [destruct Km as [C|C]; [contradiction|auto]|auto].
Qed.
End Update.
End C09.

(** The recorded multi-indices are exactly those of the derivatives that exist as function objects. *)
Theorem C09_recorded : forall nv zero_test args maxdegrees h, reachable nv zero_test args maxdegrees h ->
  forall m, In m (map fst (h_tracks h)) <-> m <> zeros nv /\ exists o f, nth_error (h_objs h) o = Some f /\ f_multi f = m.
Proof.
  intros nv z args mx h R m. destruct (reachable_inv nv z args mx h R) as [I _]. split.
  - intros K. split; [|exact (i_key _ _ _ I m K)]. apply in_map_iff in K as ([k [j l]] & <- & K). apply (bump_key nv args h k j l), (i_track _ _ _ I _ _ _ K).
  - intros (N & o & f & O & <-). destruct (i_obj _ _ _ I o f O) as [(_ & _ & [E|K]) _]; [contradiction|exact K].
Qed.
Print Assumptions C09_recorded.

(** [compute_derivatives] succeeds (no missing key, bounded recursion) and returns, for exactly the recorded multi-indices,
    the mixed partial derivatives of the expression. *)
Theorem C09_compute_derivatives : forall nv zero_test args maxdegrees h e, sound zero_test -> (length args <= nv)%nat -> wf nv e ->
  reachable nv zero_test args maxdegrees h ->
  exists repo, (exists n0, forall n, (n0 <= n)%nat -> compute_derivatives nv zero_test n n h e = Some repo) /\
    NoDup (map fst repo) /\ (forall m, In m (map fst repo) <-> In m (map fst (h_tracks h))) /\
    forall m g, In (m, g) repo -> wf nv g /\ (forall x, dom x e -> dom x g) /\
      mixed nv (fun x => dom x e) (fun x => eval x e) m (fun x => eval x g).
Proof.
  intros nv z args mx h e S Hna We R. destruct (reachable_inv nv z args mx h R) as [I _].
  destruct (C07_simplify nv e We) as (e1 & Es & W1 & V1).
  assert (KM : Forall (multi_ok nv h) (map fst (h_tracks h)) /\ Forall (fun m => m <> zeros nv) (map fst (h_tracks h))).
  { split; apply Forall_forall; intros k K; pose proof K as K'; apply in_map_iff in K as ([q [j l]] & <- & K); cbn [fst] in *; destruct (bump_key nv args h q j l (i_track _ _ _ I _ _ _ K)) as (A & B & C & D); [|exact D]. split; [exact A|]. split; [exact B|]. auto. }
  destruct (update_all_ok nv z S args h e e1 I Hna W1 V1 (map fst (h_tracks h)) (proj1 KM) (proj2 KM) []) as (repo & (d0 & E) & RO & _ & Kk).
  { split; [constructor|intros m g []]. }
  exists repo. split.
  { destruct (ev_and _ _ Es E) as (n0 & H). exists (Nat.max n0 d0). intros n Hn. destruct (H n ltac:(lia)) as [A B]. unfold compute_derivatives. rewrite A. apply B. lia. }
  destruct RO as [RN RO]. split; [exact RN|]. split; [|intros m g H; apply (RO m g H)].
  intros m. split; [|apply Kk]. intros H. apply in_map_iff in H as ([q g] & <- & H). apply (RO _ _ H).
Qed.
Print Assumptions C09_compute_derivatives.
(** ... and mixed partial derivatives do not depend on the order in which they are taken *)
Theorem C09_order : forall nv e m G G', mixed nv (fun x => dom x e) (fun x => eval x e) m G -> mixed nv (fun x => dom x e) (fun x => eval x e) m G' -> forall x, dom x e -> G x = G' x.
Proof. intros nv e m G G' H H'. destruct (all_good e) as [O Sm]. apply (mixed_unique (fun x => dom x e) (fun x => eval x e) O Sm nv m G G' H H'). Qed.
Print Assumptions C09_order.

(** ** chain rule *)
Section Max.
Variables (nv : nat) (zero_test : expr -> bool) (args0 : list expr) (max0 : list (option Z)).
Definition max_ok (f : func) : Prop := forall j, nth j (f_max f) None = match nth j max0 None with Some d => Some (d - nth j (f_multi f) 0)%Z | None => None end.
Lemma lower_nth j l k : nth k (lower j l) None = if Nat.eqb k j then option_map (fun d => (d - 1)%Z) (nth k l None) else nth k l None.
Proof. revert j k. induction l as [|d l IH]; intros [|j] [|k]; cbn; try reflexivity; [destruct (Nat.eqb k j); reflexivity|apply IH]. Qed.
Lemma lower_ok f j m : max_ok f -> bump j (f_multi f) = Some m -> max_ok (mkFunc (f_args f) m (lower j (f_max f)) []).
Proof.
  intros H B k. cbn [f_max f_multi]. rewrite lower_nth, (bump_nth _ _ _ k B), (H k). destruct (Nat.eqb k j); [|reflexivity]. destruct (nth k max0 None); cbn; [f_equal; lia|reflexivity].
Qed.
Definition all_max (h : heap) : Prop := forall o f, nth_error (h_objs h) o = Some f -> max_ok f.
Lemma all_max_snoc objs t f t' : all_max (mkHeap objs t) -> max_ok f -> all_max (mkHeap (objs ++ [f]) t').
Proof.
  intros H M o g K. cbn [h_objs] in K. destruct (Nat.lt_ge_cases o (length objs)) as [L|L]; [rewrite nth_error_app1 in K by exact L; exact (H o g K)|]. rewrite nth_error_app2 in K by exact L. destruct (o - length objs)%nat as [|q]; cbn in K; [|destruct q; discriminate]. injection K as <-. exact M.
Qed.
Lemma derive_args_max n i f : max_ok f -> forall r j h s h', all_max h -> derive_args nv zero_test n i f j r h = Some (s, h') -> all_max h'.
Proof.
  intros Mf. induction r as [|a r IH]; intros j h s h' H E; cbn [derive_args] in E; [injection E as _ <-; exact H|].
  destruct (exhausted f j); [eapply IH; eassumption|]. destruct (derive nv zero_test i n a) as [d|]; [|discriminate]. destruct (zero_poly d); [eapply IH; eassumption|]. destruct (bump j (f_multi f)) as [m|] eqn:B; [|discriminate].
  destruct (derive_args nv zero_test n i f (S j) r _) as [[s2 h2]|] eqn:E2; [|discriminate]. injection E as _ <-. eapply IH; [|exact E2]. destruct h as [ob tr]. eapply all_max_snoc; [exact H|]. apply lower_ok; assumption.
Qed.
Lemma reachable_max h : reachable nv zero_test args0 max0 h -> all_max h.
Proof.
  intros R. induction R as [|n o i s h h' _ IH _ H|o i v h h' _ IH _ H].
  - intros o f H. destruct o as [|o]; cbn in H; [|destruct o; discriminate]. injection H as <-. intros j. cbn [f_max f_multi]. assert (Z : nth j (zeros nv) 0%Z = 0%Z) by (unfold zeros; apply nth_repeat). rewrite Z. destruct (nth j max0 None); [f_equal; lia|reflexivity].
  - unfold f_derive in H. destruct (nth_error (h_objs h) o) as [f|] eqn:O; [|discriminate]. destruct (cached i (f_cache f)); [injection H as _ <-; exact IH|]. destruct (derive_args _ _ _ _ _ _ _ _) as [[s1 h1]|] eqn:E; [|discriminate]. injection H as _ <-.
    pose proof (derive_args_max n i f (IH o f O) _ _ _ _ _ IH E) as A. intros k g K. cbn [h_objs] in K. rewrite set_obj_nth in K. destruct (Nat.eqb k o); [|exact (A k g K)]. destruct (nth_error (h_objs h1) o) as [f1|]; [|discriminate]. injection K as <-. exact (IH o f O).
  - unfold f_replace in H. destruct (nth_error (h_objs h) o) as [f|] eqn:O; [|discriminate]. destruct (option_all _) as [ar|]; [|discriminate]. injection H as <-. destruct h as [ob tr]. eapply all_max_snoc; [exact IH|]. exact (IH o f O).
Qed.
End Max.
Lemma zero_poly_eval x d : zero_poly d = true -> eval x d = 0.
Proof.
  destruct d as [ |p| | | | | | | | ]; try discriminate. unfold zero_poly, all_coeffs. cbn [eval]. induction p as [|[c k] p IH]; intros H; [reflexivity|]. cbn [forallb fst] in H. apply andb_prop in H as [H1 H2]. cbn [map]. change (sumR (?a :: ?b)) with (a + sumR b). rewrite IH by exact H2.
  destruct c; try discriminate. cbn [is_const] in H1. destruct (Req_EM_T r 0) as [->|]; [|discriminate]. cbn [eval]. lra.
Qed.
Lemma combine_seq_nth {B} (G : nat -> B -> R) (df : B) l : forall o, map (fun q => G (fst q) (snd q)) (combine (seq o (length l)) l) = map (fun j => G j (nth (j - o) l df)) (seq o (length l)).
Proof.
  induction l as [|b l IH]; intros o; [reflexivity|]. cbn [length seq combine map fst snd]. rewrite Nat.sub_diag. cbn [nth]. f_equal. rewrite IH. apply map_ext_in. intros j Hj. apply in_seq in Hj. replace (j - o)%nat with (S (j - S o)) by lia. reflexivity.
Qed.
Theorem C09_chain_rule : forall nv zero_test args maxdegrees h n o i s h' f g W x, sound zero_test -> (length args <= nv)%nat -> (i < nv)%nat ->
  reachable nv zero_test args maxdegrees h -> f_derive nv zero_test n o i h = Some (s, h') -> nth_error (h_objs h) o = Some f -> Forall (wf nv) (f_args f) ->
  opens W -> derivative_family nv (length args) W g -> vanishing_beyond nv W maxdegrees g ->
  Forall (dom x) (f_args f) -> W (arg_point (f_args f) x) ->
  derivable_pt_lim (fun t => func_value g f (upd x i t)) (x i) (sum_value g h' s x).
Proof.
  intros nv z args mx h n o i s h' f g W x S Hna Hi R E O Wa HW Fam Van Dx W0.
  destruct (reachable_inv nv z args mx h R) as [I C]. destruct (derive_inv nv z args n o i h s h' I C E) as (I' & _ & _ & f1 & O1 & Res). rewrite O in O1. injection O1 as <-.
  destruct (i_obj _ _ _ I o f O) as [(Lm & Nm & _) La]. pose proof (reachable_max nv z args mx h R o f O) as Mx.
  assert (DS : exists ds, Forall2 (fun a d => (exists n, derive nv z i n a = Some d) /\ forall y, dom y a -> derivable_pt_lim (fun t => eval (upd y i t) a) (y i) (eval y d)) (f_args f) ds).
  { clear -S Hi Wa. induction (f_args f) as [|a r IH]; [exists []; constructor|]. inversion Wa; subst. destruct (IH H2) as (ds & HD). destruct (C06_derive nv z i a S Hi H1) as (d & (n0 & Ed) & _ & V). exists (d :: ds). constructor; [|exact HD]. split; [exists n0; apply Ed; lia|]. intros y Hy. apply V, Hy. }
  destruct DS as (ds & HD).
  set (y0 := arg_point (f_args f) x) in *.
  set (Fp := fun j y => match bump j (f_multi f) with Some m => g m y | None => 0 end).
  assert (SV : forall j r s, result nv z h' f i j r s -> forall ds, Forall2 (fun a d => (exists n, derive nv z i n a = Some d) /\ forall y, dom y a -> derivable_pt_lim (fun t => eval (upd y i t) a) (y i) (eval y d)) r ds ->
     sum_value g h' s x = sumR (map (fun q => Fp (fst q) y0 * eval x (snd q)) (combine (seq j (length r)) ds))).
  { assert (LM : forall Q : Prop, (length (f_multi f) = nv -> Q) -> Q) by auto. clear s E Res ds HD Lm. intros j r s Res. induction Res as [j|j a r s Ex _ IH|j a r s n1 d Ed V _ IH|j a r s n1 d k f' Ex Ed Ok Af Bf _ IH]; intros ds HD; inversion HD as [|a' d' r' ds' [[n2 Ed'] _] HD' X1 X2]; subst; [reflexivity| | |];
      cbn [length seq combine map fst snd]; change (sumR (?a :: ?b)) with (a + sumR b); rewrite <- (IH ds' HD').
    - assert (Z0 : Fp j y0 = 0); [|rewrite Z0; ring]. unfold Fp. destruct (bump j (f_multi f)) as [m|] eqn:B; [|reflexivity]. unfold exhausted in Ex. rewrite (Mx j) in Ex. destruct (nth j mx None) as [dg|] eqn:EM; [|discriminate]. apply Z.leb_le in Ex.
      apply (Van j dg m); [rewrite (proj1 (proj2 (bump_spec _ _ _ B))); apply LM; auto|eapply bump_nonneg; eassumption|exact EM| |exact W0]. rewrite (bump_nth _ _ _ j B), Nat.eqb_refl. lia.
    - assert (D2 : d' = d). { pose proof (derive_mono nv z i n1 (Nat.max n1 n2) a d ltac:(lia) Ed) as A1. rewrite (derive_mono nv z i n2 (Nat.max n1 n2) a d' ltac:(lia) Ed') in A1. congruence. } subst d'. rewrite (zero_poly_eval x d V). lra.
    - assert (D2 : d' = d). { pose proof (derive_mono nv z i n1 (Nat.max n1 n2) a d ltac:(lia) Ed) as A1. rewrite (derive_mono nv z i n2 (Nat.max n1 n2) a d' ltac:(lia) Ed') in A1. congruence. } subst d'.
      unfold sum_value. cbn [map fst snd]. change (sumR (?a :: ?b)) with (a + sumR b). rewrite Ok. unfold Fp. rewrite Bf. unfold func_value. rewrite Af. fold y0. lra. }
  rewrite (SV 0%nat (f_args f) s Res ds HD).
  assert (LD : length ds = length (f_args f)) by (clear -HD; induction HD; cbn; lia).
  rewrite <- LD, (combine_seq_nth (fun j d => Fp j y0 * eval x d) (Num 0) ds 0), LD.
  set (gam := fun t => arg_point (f_args f) (upd x i t)). set (dgam := fun j => eval x (nth j ds (Num 0))).
  assert (G0 : gam (x i) = y0) by (unfold gam, y0; rewrite upd_same; reflexivity).
  assert (DG : forall j, (j < length (f_args f))%nat -> derivable_pt_lim (fun t => gam t j) (x i) (dgam j)).
  { intros j Hj. unfold gam, arg_point, dgam. clear -HD Hj Dx. revert j Hj. induction HD as [|a d r ds [_ V] HD IH]; intros [|j] Hj; cbn [length] in Hj; try lia; inversion Dx; subst; cbn [nth_error nth]; [apply V; assumption|apply IH; [assumption|lia]]. }
  assert (FB : forall j, (j < length (f_args f))%nat -> exists m, bump j (f_multi f) = Some m /\ length m = nv).
  { intros j Hj. destruct (bump_some j (f_multi f)) as (m & B); [lia|]. exists m. split; [exact B|]. rewrite <- Lm. apply (bump_spec _ _ _ B). }
  pose proof (chain W (g (f_multi f)) Fp gam dgam (x i) HW ltac:(rewrite G0; exact W0) (length (f_args f)) DG) as CH. rewrite G0 in CH.
  eapply dlim_ext; [exact Rlt_0_1| |replace (sumR (map (fun j => Fp j y0 * eval x (nth (j - 0) ds (Num 0))) (seq 0 (length (f_args f))))) with (sumR (map (fun j => Fp j y0 * dgam j) (seq 0 (length (f_args f)))))]; [| |apply f_equal; apply map_ext; intros j; rewrite Nat.sub_0_r; reflexivity].
  2:{ apply CH.
    - intros j Hj. destruct (FB j Hj) as (m & B & Lm'). unfold Fp. rewrite B. apply (proj1 (Fam m Lm')).
    - intros j Hj u Hu. destruct (FB j Hj) as (m & B & Lm'). unfold Fp. rewrite B. apply (proj2 (Fam (f_multi f) Lm)); [lia|exact B|exact Hu]. }
  intros t _. cbv beta. unfold func_value. f_equal. apply functional_extensionality. intros j. unfold mix, gam, y0, arg_point. destruct (Nat.ltb_spec j (length (f_args f))) as [L|L]; [reflexivity|]. rewrite (proj2 (nth_error_None _ _) L). reflexivity.
Qed.
Print Assumptions C09_chain_rule.
