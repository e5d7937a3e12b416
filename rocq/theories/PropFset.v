(** C86: the memory budget of FORM. *)
From Verif Require Import FsetScale.
From Coq Require Lqa.
Open Scope Z_scope.
Opaque norm.
(** [calc] raises parameters to what FORM enforces at start-up, lowers nothing, and asking again gives the same answer *)
Theorem C86_calc s : sizes_ok s -> exists m t, calc s = (m, t) /\ form_accepts t /\ raised s t /\ calc t = (m, t).
Proof.
  intro H. exists (memory s), (norm s). split; [reflexivity|]. split; [apply norm_ok, H|]. split; [apply norm_raised, H|].
  rewrite calc_eq, memory_norm by exact H. rewrite norm_fix by (apply norm_ok, H). reflexivity.
Qed.
(** parameters that FORM accepts are left alone *)
Theorem C86_calc_fixed s : form_accepts s -> snd (calc s) = s.
Proof. intro H. apply norm_fix, H. Qed.
(** the search of [scale] ends without an assertion error for every setup, budget and lowest scale: no monotonicity of the estimate is needed *)
Theorem C86_scale_total s total lowest human : exists r, scale s total lowest human = Some r.
Proof. destruct (scale_some s total lowest human (fun x => shown_memory human (scale_by (scale_base s) x) - total) (fun x => eq_refl)) as (x & E & _). eauto. Qed.
(** in the calls of make_package (lowest scale 1) and of the command line (lowest scale 0) the result respects the budget, unless the lowest scale already
    reaches it, and then it is the setup of the lowest scale *)
Theorem C86_scale_budget s total lowest human r : sizes_nonneg s ->
  lowest = 1%Q \/ lowest = 0%Q /\ largesize s < 2 ^ 50 /\ smallsize s < 2 ^ 50 /\ termsinsmall s < 2 ^ 50 /\ scratchsize s < 2 ^ 50 ->
  scale s total lowest human = Some r ->
  (fst (calc r) <= total /\ exists x t, (0 <= x)%Q /\ is_scaling (scale_base s) t x /\ calc t = (fst (calc r), r)) \/
  (exists t, is_scaling (scale_base s) t lowest /\ calc t = (fst (calc r), r) /\ total <= (if human then human_value (fst (calc r)) true else fst (calc r))).
Proof.
  intros Hs HL E. remember (fun x => shown_memory human (scale_by (scale_base s) x) - total) as f eqn:Ef.
  assert (Hf : forall x, f x = shown_memory human (scale_by (scale_base s) x) - total) by (intro; rewrite Ef; reflexivity). clear Ef.
  destruct (scale_some s total lowest human f Hf) as (x & E' & D). rewrite E' in E. injection E as <-.
  assert (P0 : (0 <= lowest)%Q) by (destruct HL as [->|[-> _]]; discriminate).
  assert (M : forall x, (0 <= x)%Q -> fst (calc (norm (scale_by (scale_base s) x))) = memory (scale_by (scale_base s) x)).
  { intros z Hz. apply calc_norm, scaled_ok; assumption. }
  destruct D as [[-> HT]|[HT (st & -> & (I1 & I2 & I4) & IB & IA)]].
  - right. exists (scale_by (scale_base s) lowest). split; [apply scale_by_spec; assumption|]. rewrite M by exact P0. split; [apply calc_eq|]. rewrite Hf in HT. unfold shown_memory in HT. lia.
  - left. assert (P1 : (0 <= x1 st)%Q) by Lqa.lra. rewrite M by exact P1.
    split; [|exists (x1 st), (scale_by (scale_base s) (x1 st)); split; [exact P1|split; [apply scale_by_spec; assumption|apply calc_eq]]].
    assert (F : f (x1 st) <= 0); [|pose proof (shown_le human (scale_by (scale_base s) (x1 st))); rewrite Hf in F; lia].
    destruct (Z_lt_le_dec (f 1%Q) 0) as [N|N].
    + eapply below_value; [split; [exact I1|split; [exact I2|exact I4]]|apply IB, N].
    + specialize (IA N). unfold above in IA. rewrite <- I1. destruct (upper st) as [[b yb]|]; [lia|]. destruct IA as [B1 B2].
      exfalso. destruct HL as [->|(-> & L1 & L2 & L3 & L4)]; [lia|]. rewrite I1, Hf in B2. rewrite (scale_tiny s (x1 st)) in B2 by assumption. rewrite <- Hf in B2. lia.
Qed.
(** ... and it is the largest scale up to the resolution of fifty steps: a slightly larger scale reaches the budget *)
Theorem C86_scale_largest s total r : sizes_nonneg s -> scale s total 1 false = Some r -> fst (calc r) < total ->
  exists x t, is_scaling (scale_base s) t x /\ calc t = (fst (calc r), r) /\ (1 <= x)%Q /\
   ((x == inject_Z (2 ^ 50))%Q \/
    exists x2 t2 k, is_scaling (scale_base s) t2 x2 /\ total <= fst (calc t2) /\ (1 <= k <= 50)%nat /\ (x < x2)%Q /\
      (inject_Z (2 ^ (Z.of_nat k - 1)) <= x)%Q /\ (x2 <= inject_Z (2 ^ Z.of_nat k))%Q /\ ((x2 - x) * inject_Z (2 ^ 50) <= inject_Z (2 ^ (2 * Z.of_nat k)))%Q).
Proof.
  intros Hs E HM. remember (fun x => shown_memory false (scale_by (scale_base s) x) - total) as f eqn:Ef.
  assert (Hf : forall x, f x = memory (scale_by (scale_base s) x) - total) by (intro; rewrite Ef; reflexivity).
  assert (Hf' : forall x, f x = shown_memory false (scale_by (scale_base s) x) - total) by (intro; rewrite Ef; reflexivity). clear Ef.
  destruct (scale_some s total 1 false f Hf') as (x & E' & D). rewrite E' in E. injection E as <-.
  assert (M : forall x, (0 <= x)%Q -> fst (calc (norm (scale_by (scale_base s) x))) = memory (scale_by (scale_base s) x)).
  { intros z Hz. apply calc_norm, scaled_ok; assumption. }
  destruct D as [[-> HT]|[HT (st & -> & (I1 & I2 & _ & I3) & IB & _)]].
  - exfalso. rewrite M in HM by discriminate. rewrite Hf in HT. lia.
  - destruct (IB HT) as (B1 & B2). assert (P1 : (0 <= x1 st)%Q) by Lqa.lra. exists (x1 st), (scale_by (scale_base s) (x1 st)).
    split; [apply scale_by_spec; assumption|]. rewrite M by exact P1. split; [apply calc_eq|]. split; [exact B1|].
    destruct (upper st) as [[x2 y2]|]; [right|left; apply B2]. destruct I3 as (J1 & J2 & J3). destruct B2 as (_ & k & K1 & K2 & K3 & K4). change (Z.of_nat 50) with 50 in K4.
    exists x2, (scale_by (scale_base s) x2), k. split; [apply scale_by_spec; [assumption|Lqa.lra]|]. split; [rewrite J2, Hf in J3; lia|].
    split; [lia|]. split; [exact J1|]. split; [exact K2|]. split; [exact K3|exact K4].
Qed.
(** what make_package writes: FORM reading form.set with its defaults for the other parameters arrives at the same buffers and the same memory, which respects
    form_memory_use unless the package prints its warning; the warning appears exactly when the unscaled buffers need more than asked for *)
Theorem C86_package ws t requested : 0 < ws -> 1 <= t ->
  exists s w r, package_memory ws t (Some requested) = Some (s, w) /\ form_reads (written s) = Some r /\ calc r = calc s /\ snd (calc s) = s /\
    workspace s = Z.max ws 10000000 /\ threads s = t /\
    (w = None -> fst (calc r) <= requested) /\
    (forall m, w = Some m -> m = fst (calc r) /\ requested < m /\ m = fst (calc (package_setup (Z.max ws 10000000) t))) /\
    (w <> None <-> requested < fst (calc (package_setup (Z.max ws 10000000) t))).
Proof.
  intros Hw Ht. set (p := package_setup ws t). assert (Hs : sizes_nonneg p) by (unfold sizes_nonneg; cbn; lia).
  remember (fun x => shown_memory false (scale_by (scale_base p) x) - requested) as f eqn:Ef.
  assert (Hf : forall x, f x = memory (scale_by (scale_base p) x) - requested) by (intro; rewrite Ef; reflexivity).
  assert (Hf' : forall x, f x = shown_memory false (scale_by (scale_base p) x) - requested) by (intro; rewrite Ef; reflexivity). clear Ef.
  unfold package_memory. fold p. destruct (scale_some p requested 1 false f Hf') as (x & E & D). rewrite E.
  assert (Hx : (1 <= x)%Q).
  { destruct D as [[-> _]|[HT (st & -> & _ & IB & _)]]; [discriminate|]. exact (proj1 (IB HT)). }
  assert (Hx0 : (0 <= x)%Q) by Lqa.lra.
  pose proof (scaled_ok p x Hs Hx0) as OK. set (sc := scale_by (scale_base p) x) in *.
  assert (HL : 0 < largesize sc). { pose proof (scaled_mono1 50000000 x ltac:(lia) Hx). change (largesize sc) with (scaled 50000000 x). lia. }
  rewrite calc_eq. rewrite (memory_norm sc OK), (norm_fix (norm sc)) by (apply norm_ok, OK).
  assert (S1 : scale_by (scale_base p) 1 = package_setup (Z.max ws 10000000) t) by reflexivity.
  eexists _, _, _. split; [reflexivity|]. split; [reflexivity|].
  match goal with |- calc ?r = _ /\ _ => assert (NR : norm r = norm sc) by (apply norm_read; [exact OK|exact HL|reflexivity]); set (rr := r) in * end.
  assert (CR : calc rr = (memory sc, norm sc)). { unfold calc. cbv zeta. rewrite NR. reflexivity. }
  assert (CN : calc (norm sc) = (memory sc, norm sc)) by (rewrite calc_eq, (memory_norm sc OK), (norm_fix (norm sc)) by (apply norm_ok, OK); reflexivity).
  rewrite CR, CN. cbn [fst snd]. split; [reflexivity|]. split; [reflexivity|]. split; [rewrite norm_work; reflexivity|]. split; [rewrite norm_threads; reflexivity|].
  rewrite <- S1.
  assert (K : memory sc <= requested /\ memory (scale_by (scale_base p) 1) <= requested \/ requested <= memory sc /\ sc = scale_by (scale_base p) 1).
  { unfold sc. destruct D as [[-> HT]|[HT (st & -> & IV & IB & _)]]; rewrite Hf in HT; [right; split; [lia|reflexivity]|left]. rewrite <- Hf in HT.
    pose proof (below_value f _ _ IV (IB HT)) as F. rewrite Hf in F, HT. lia. }
  destruct (Z.gtb_spec (memory sc) requested) as [G|G].
  - destruct K as [K|[_ K]]; [lia|]. rewrite <- K. split; [discriminate|]. split; [intros m Em; injection Em as <-; split; [reflexivity|split; [exact G|reflexivity]]|]. split; [intros _; exact G|discriminate].
  - split; [intros _; exact G|]. split; [discriminate|]. split; [intro C; elim C; reflexivity|]. intro C. destruct K as [K|[_ K]]; [lia|]. rewrite K in G. lia.
Qed.
(** numbers shown with a suffix: three figures, never on the wrong side, and reading them back gives the number that was meant *)
Theorem C86_human x up e : figures x e -> 2 <= e ->
  let v := human_value x up in
  parse_number (human_text x up) = Some v /\ (10 ^ (e - 2) | v) /\ (if up then x <= v < x + 10 ^ (e - 2) else x - 10 ^ (e - 2) < v <= x).
Proof.
  intros (A & B) He v. unfold v; clear v. rewrite human_value_eq.
  assert (L : 10 ^ 2 <= 10 ^ e) by (apply Z.pow_le_mono_r; lia). change (10 ^ 2) with 100 in L.
  assert (Ee : ilog10 x = e).
  { destruct (ilog10_spec x ltac:(lia)) as (A' & B' & C'). destruct (Z.lt_trichotomy (ilog10 x) e) as [T|[T|T]]; [|exact T|].
    - assert (10 ^ (ilog10 x + 1) <= 10 ^ e) by (apply Z.pow_le_mono_r; lia). lia.
    - assert (10 ^ (e + 1) <= 10 ^ ilog10 x) by (apply Z.pow_le_mono_r; lia). lia. }
  assert (P : 0 < 10 ^ (e - 2)) by (apply Z.pow_pos_nonneg; lia).
  split.
  - unfold human_text. cbv zeta. set (t := three_figures x up).
    assert (K : forall n c, 0 < n -> metric c = Some n -> round_off up t n = t -> parse_number (zdec (round_off up t n / n) ++ [c]) = Some t).
    { intros n c Hn Hc Hr. unfold parse_number. rewrite rev_app_distr. cbn [rev app]. rewrite Hc, rev_involutive, pyint_zdec. cbn [option_map]. f_equal.
      destruct (round_off_divides up t n Hn) as [q Hq]. rewrite Hq at 1. rewrite Z.div_mul by lia. rewrite <- Hq. exact Hr. }
    destruct (Z.eqb_spec (round_off up t (1000 ^ 4)) t) as [Q|_]; [apply K; [reflexivity|reflexivity|exact Q]|].
    destruct (Z.eqb_spec (round_off up t (1000 ^ 3)) t) as [Q|_]; [apply K; [reflexivity|reflexivity|exact Q]|].
    destruct (Z.eqb_spec (round_off up t (1000 ^ 2)) t) as [Q|_]; [apply K; [reflexivity|reflexivity|exact Q]|].
    destruct (Z.eqb_spec (round_off up t 1000) t) as [Q|_]; [apply K; [reflexivity|reflexivity|exact Q]|].
    unfold parse_number. destruct (rev (zdec t)) as [|c r] eqn:R. { apply (f_equal (@rev ascii)) in R. rewrite rev_involutive in R. elim (zdec_nonempty t R). }
    assert (Hc : is_expo c = true). { pose proof (zdec_expo t) as F. rewrite Forall_forall in F. apply F. apply in_rev. rewrite R. left; reflexivity. }
    assert (Mc : metric c = None). { clear R. destruct c as [[] [] [] [] [] [] [] []]; try reflexivity; discriminate Hc. }
    rewrite Mc. apply pyint_zdec.
  - unfold three_figures. rewrite Ee. destruct (Z.ltb_spec x 100); [lia|]. unfold round_off. destruct up; [apply round_up_spec|apply round_down_spec]; exact P.
Qed.
(** a number written with one of the suffixes, in either case *)
Theorem C86_parse z : parse_number (zdec z) = Some z /\
  (forall c n, In (c, n) [("k", 1000); ("K", 1000); ("m", 1000000); ("M", 1000000); ("g", 1000000000); ("G", 1000000000); ("t", 1000000000000); ("T", 1000000000000)]%char ->
     parse_number (zdec z ++ [c]) = Some (z * n)).
Proof.
  split.
  - unfold parse_number. destruct (rev (zdec z)) as [|c r] eqn:R. { apply (f_equal (@rev ascii)) in R. rewrite rev_involutive in R. elim (zdec_nonempty z R). }
    assert (Hc : is_expo c = true). { pose proof (zdec_expo z) as F. rewrite Forall_forall in F. apply F. apply in_rev. rewrite R. left; reflexivity. }
    assert (Mc : metric c = None). { clear R. destruct c as [[] [] [] [] [] [] [] []]; try reflexivity; discriminate Hc. }
    rewrite Mc. apply pyint_zdec.
  - intros c n H. assert (M : metric c = Some n) by (cbn in H; repeat (destruct H as [H|H]; [injection H as <- <-; reflexivity|]); destruct H).
    unfold parse_number. rewrite rev_app_distr. cbn [rev app]. rewrite M, rev_involutive, pyint_zdec. reflexivity.
Qed.
(** ** concrete cases *)
Transparent norm.
(** the defaults of loop_package (work space 50M, one thread) need 892 MB; 4 threads need 1.8 GB *)
Example ex_default : fst (calc (package_setup 50000000 1)) = 891555392 /\ fst (calc (package_setup 50000000 4)) = 1817654360.
Proof. split; reflexivity. Qed.
Example ex_sizes : sizes_nonneg (package_setup 50000000 4). Proof. unfold sizes_nonneg; cbn; lia. Qed.
(** a budget of 8 GB is met and almost used up; a budget of 100 MB is not met and the warning is printed *)
Example ex_budget : option_map (fun r => (fst (calc (fst r)), snd r)) (package_memory 50000000 4 (Some 8000000000)) = Some (7999999997, None).
Proof. vm_compute. reflexivity. Qed.
Example ex_warning : option_map snd (package_memory 50000000 4 (Some 100000000)) = Some (Some 1817654360).
Proof. vm_compute. reflexivity. Qed.
Example ex_human : human_text 1817654360 true = txt "1820M" /\ human_text 1817654360 false = txt "1810M".
Proof. split; vm_compute; reflexivity. Qed.
Print Assumptions C86_package.
Print Assumptions C86_scale_largest.
Print Assumptions C86_human.
