(** C36, C37: integrate_by_parts and integrate_pole_part. *)
From Coq Require Import FunctionalExtensionality.
From Coquelicot Require Import Coquelicot.
From Verif Require Import SortProofs ExprSpec ExprSmooth ExprMixed ExprArith ExprSimp PropExpr CalmSpec CalmProofs ContSpec ContProofs ContJ SubModel SubSpec SubInt SubReg SubProofs SubMulti.
Local Open Scope R_scope.

(** the integrand is integrable at x_j = 0 when the regulators vanish: the exponent is not negative, or the remaining factors have a zero of sufficient order *)
Definition compensated (nv : nat) (rho : point) (S : list nat) (j : nat) (t : pprod) : Prop :=
  0 <= power_at_0 nv (mons t) j \/
  exists P : nat, -1 < power_at_0 nv (mons t) j + INR P /\ forall x, cube rho S x -> x j = 0 -> forall q, (q < P)%nat -> dN q j (fun y => eval y (Prod (rest t))) x = 0.
(** the goal is reached, or x_j was integrated out *)
Definition reached (nv : nat) (rho : point) (S : list nat) (g : R) (j : nat) (t : pprod) : Prop :=
  g <= power_at_0 nv (mons t) j \/
  (forall k, power_coef (mons t) j k = 0) /\ forall x s, cube rho S x -> 0 <= s <= 1 -> eval (upd x j s) (Prod (rest t)) = eval x (Prod (rest t)).
Lemma indep_seg S rho (V : point -> Prop) j G : opens V -> smooth V G -> box S V rho -> In j S -> nul (fun q => q = 1%nat) (fun _ => True) V j G -> forall x s, cube rho S x -> 0 <= s <= 1 -> G (upd x j s) = G x.
Proof.
  intros HV HG HB Hj HN x s Hx Hs. rewrite (box_cube S V rho) in HB.
  assert (D : forall t, 0 <= t <= 1 -> is_derive (fun u => G (upd x j u)) t 0).
  { intros t Ht. pose proof (HB _ (over_box_upd S rho x j t Hj Ht Hx)) as Vt. pose proof (d_pd V j G (upd x j t) HG Vt) as P. pose proof (HN 1%nat _ eq_refl Vt I) as Z. cbn [dN] in Z. rewrite Z in P. unfold pd in P. rewrite upd_at in P. apply is_derive_Reals in P. eapply is_derive_ext; [|exact P]. intros u. cbv beta. rewrite upd_upd. reflexivity. }
  assert (K : forall t, 0 <= t <= 1 -> G (upd x j t) = G (upd x j 0)).
  { intros t Ht. destruct (Req_dec t 0) as [->|Nt]; [reflexivity|]. symmetry. apply (eq_is_derive (fun u => G (upd x j u)) 0 t); [|lra]. intros u Hu. apply D. lra. }
  rewrite (K s Hs). rewrite <- (K (x j)); [rewrite upd_same; reflexivity|]. apply Hx, Hj.
Qed.
Lemma finite_compensated nv rho S j t : In j S -> (exists C Q Z, finite_at_0 nv C Q Z /\ keeps rho S C Q Z j t) -> compensated nv rho S j t.
Proof.
  intros Hj (C & Q & Z & F & V & V1 & V2 & V3 & V4 & V5). destruct F as [F|(P & F1 & F2 & F3)]; [left; apply F, V4|right]. exists P. split; [apply F1, V4|]. intros x Hx H0 q Hq. apply V5; [apply F2, Hq| |rewrite H0; exact F3]. rewrite (box_cube S V rho) in V3. apply V3, Hx.
Qed.
Lemma least_reached nv rho S g j t : In j S -> (exists C Q Z, at_least nv g C Q Z /\ keeps rho S C Q Z j t) -> reached nv rho S g j t.
Proof.
  intros Hj (C & Q & Z & F & V & V1 & V2 & V3 & V4 & V5). destruct F as [F|(F1 & F2 & F3)]; [left; apply F, V4|right]. split; [apply F1, V4|]. apply (indep_seg S rho V j (fn t)); try assumption; [apply (ExprSmooth.smooth_sub (dm t)); [exact V2|apply fn_smooth]|]. intros q x -> Hx _. apply V5; [exact F2|exact Hx|apply F3].
Qed.

(** ** C37 *)
Theorem C37_pole_part : forall nv zero_test rho S pp indices, sound zero_test -> NoDup S -> (forall j, In j S -> (j < nv)%nat) -> NoDup indices -> incl indices S -> shape nv rho S pp ->
  exists o, (exists n0, forall n, (n0 <= n)%nat -> integrate_pole_part nv zero_test n pp indices = o) /\
    match o with
    | ValueError => exists j, In j indices /\ no_regulator nv (mons pp) j
    | Ok l => (forall j, In j indices -> ~ no_regulator nv (mons pp) j) /\ Forall (shape nv rho S) l /\
              (defined rho S pp -> Forall (defined rho S) l /\ value S pp rho = sumR (map (fun t => value S t rho) l) /\ forall t j, In t l -> In j indices -> compensated nv rho S j t)
    | NoFuel | AssertionError => False
    end.
Proof.
  intros nv z rho S pp ixs Hz NS HS NI HI Hs.
  destruct (over_ok nv rho S nat nat ev (fun j => j) (fun n j pp => pole_part_single nv z n pp j) (fun _ => finite_at_0 nv) ev_and ev_imp ev_now) with (ixs := ixs) (m0 := mons pp) (l := [pp]) as (o & EO & SO).
  - intros j p Hj Hp. apply (pole_single nv rho S z Hz NS HS p j Hp Hj).
  - rewrite map_id. exact NI.
  - exact HI.
  - constructor; [exact Hs|constructor].
  - discriminate.
  - intros a t _ [<-|[]]. reflexivity.
  - exists o. split; [exact EO|]. destruct o as [| | |l]; try contradiction; [exact SO|]. destruct SO as (K1 & K2 & K3). split; [exact K1|]. split; [exact K2|]. intros D. destruct (K3 ltac:(constructor; [exact D|constructor])) as (L1 & L2 & L3 & _). split; [exact L1|]. split; [unfold total in L2; cbn [map] in L2; rewrite sumR_cons in L2; cbn in L2; rewrite Rplus_0_r in L2; exact L2|].
    intros t j Ht Hj. apply finite_compensated; [apply HI, Hj|]. specialize (L3 j Hj). rewrite Forall_forall in L3. exact (L3 t Ht).
Qed.
(** pole_structure is the exponents without regulators *)
Theorem C37_pole_structure : forall nv rho S pp js, shape nv rho S pp -> pole_structure (mons pp) js = map (power_at_0 nv (mons pp)) js.
Proof. intros nv rho S pp js (H1 & H2 & _). apply map_ext. intros j. apply (constant_power nv S). exact H2. Qed.

(** ** C36 *)
Lemma nat_above (r : R) : exists N, r < INR N.
Proof. exists (Z.to_nat (up r)). destruct (archimed r) as [H _]. destruct (Z.le_gt_cases 0 (up r)) as [L|L]; [rewrite INR_IZR_INZ, Z2Nat.id by exact L; lra|]. pose proof (pos_INR (Z.to_nat (up r))). apply IZR_lt in L. lra. Qed.
Definition ev2 (P : nat * nat -> Prop) : Prop := exists N, ev (fun n => forall k, (N < k)%nat -> P (n, k)).
Definition goal_pairs (g : goals) (indices : list nat) : list (R * nat) := match g with Same g => map (pair g) indices | Each l => combine l indices end.
Theorem C36_by_parts : forall nv zero_test rho S pp g indices, sound zero_test -> NoDup S -> (forall j, In j S -> (j < nv)%nat) -> NoDup indices -> incl indices S -> shape nv rho S pp ->
  exists o, (exists k0 n0, forall k n, (k0 <= k)%nat -> (n0 <= n)%nat -> integrate_by_parts nv zero_test n k pp g indices = o) /\
    match o with
    | AssertionError => exists l, g = Each l /\ length l <> length indices
    | ValueError => exists j, In j indices /\ no_regulator nv (mons pp) j
    | Ok l => (forall j, In j (map snd (goal_pairs g indices)) -> ~ no_regulator nv (mons pp) j) /\ map snd (goal_pairs g indices) = indices /\ Forall (shape nv rho S) l /\
              (defined rho S pp -> Forall (defined rho S) l /\ value S pp rho = sumR (map (fun t => value S t rho) l) /\ forall t q, In t l -> In q (goal_pairs g indices) -> reached nv rho S (fst q) (snd q) t)
    | NoFuel => False
    end.
Proof.
  intros nv z rho S pp g ixs Hz NS HS NI HI Hs.
  assert (K : map snd (goal_pairs g ixs) = ixs -> exists o, ev2 (fun q => over (fun r pp => by_parts_single nv z (fst q) (snd q) (fst r) (snd r) pp) (goal_pairs g ixs) [pp] = o) /\ match o with
    | AssertionError => False
    | ValueError => exists j, In j ixs /\ no_regulator nv (mons pp) j
    | Ok l => (forall j, In j (map snd (goal_pairs g ixs)) -> ~ no_regulator nv (mons pp) j) /\ map snd (goal_pairs g ixs) = ixs /\ Forall (shape nv rho S) l /\
              (defined rho S pp -> Forall (defined rho S) l /\ value S pp rho = sumR (map (fun t => value S t rho) l) /\ forall t q, In t l -> In q (goal_pairs g ixs) -> reached nv rho S (fst q) (snd q) t)
    | NoFuel => False
    end).
  { intros EP. set (prs := goal_pairs g ixs) in *.
    destruct (over_ok nv rho S (nat * nat) (R * nat) ev2 snd (fun q r pp => by_parts_single nv z (fst q) (snd q) (fst r) (snd r) pp) (fun r => at_least nv (fst r))) with (ixs := prs) (m0 := mons pp) (l := [pp]) as (o & EO & SO).
    - intros P Q [N HN] [M HM]. exists (Nat.max N M). generalize (ev_and _ _ HN HM). apply ev_imp. intros n [A B] k Hk. split; [apply A|apply B]; lia.
    - intros P Q H [N HN]. exists N. revert HN. apply ev_imp. auto.
    - intros P H. exists 0%nat. apply ev_now. auto.
    - intros [g' j] p Hj Hp. destruct (nat_above (g' - power_at_0 nv (mons p) j)) as [N HN]. destruct (parts_single nv rho S z Hz NS HS g' j Hj N p Hp ltac:(lra)) as (o & E & O). exists o. split; [exists N; exact E|exact O].
    - rewrite EP. exact NI.
    - intros a Ha. apply HI. rewrite <- EP. apply in_map, Ha.
    - constructor; [exact Hs|constructor].
    - discriminate.
    - intros a t _ [<-|[]]. reflexivity.
    - exists o. split; [exact EO|]. destruct o as [| | |l]; try contradiction; [destruct SO as (a & A1 & A2); exists (snd a); split; [rewrite <- EP; apply in_map, A1|exact A2]|]. destruct SO as (K1 & K2 & K3). split; [intros j Hj; apply in_map_iff in Hj as (a & <- & Ha); apply K1, Ha|]. split; [exact EP|]. split; [exact K2|]. intros D. destruct (K3 ltac:(constructor; [exact D|constructor])) as (L1 & L2 & L3 & _). split; [exact L1|]. split; [unfold total in L2; cbn [map] in L2; rewrite sumR_cons in L2; cbn in L2; rewrite Rplus_0_r in L2; exact L2|].
      intros t q Ht Hq. apply least_reached; [apply HI; rewrite <- EP; apply in_map, Hq|]. specialize (L3 q Hq). rewrite Forall_forall in L3. exact (L3 t Ht). }
  destruct g as [g|l].
  - destruct K as (o & (N & n0 & EO) & SO); [cbn [goal_pairs]; rewrite map_map; cbn; apply map_id|]. exists o. split; [|destruct o; try exact SO; contradiction]. exists (Datatypes.S N), n0. intros k n Hk Hn. exact (EO n Hn k ltac:(lia)).
  - cbn [integrate_by_parts]. destruct (Nat.eqb_spec (length l) (length ixs)) as [L|L]; [|exists AssertionError; split; [exists 0%nat, 0%nat; reflexivity|exists l; auto]].
    destruct K as (o & (N & n0 & EO) & SO); [cbn [goal_pairs]; clear - L; revert ixs L; induction l as [|a l IH]; intros [|i ixs] L; try discriminate; [reflexivity|]; cbn; f_equal; apply IH; cbn in L; lia|].
    exists o. split; [|destruct o; try exact SO; contradiction]. exists (Datatypes.S N), n0. intros k n Hk Hn. exact (EO n Hn k ltac:(lia)).
Qed.

(** ** what the value is, when the exponent of a variable is above -1: the limit of the integrals from h to 1 over this variable *)
Theorem C37_value_integral : forall nv rho j S pp, NoDup (j :: S) -> shape nv rho (j :: S) pp -> defined rho (j :: S) pp -> -1 < power (mons pp) j rho ->
  forall eps, 0 < eps -> exists delta, 0 < delta /\ forall h, 0 < h < delta -> h < 1 ->
    let inner := fun t => Rpower t (power (mons pp) j rho) * contI (map (fun i => (i, power (mons pp) i rho)) S) (fun y => eval y (Prod (rest pp))) (upd rho j t) in
    ex_RInt inner h 1 /\ Rabs (/ eval rho (Pol (pole pp)) * RInt inner h 1 - value (j :: S) pp rho) < eps.
Proof.
  intros nv rho j S pp ND Hs (D1 & D2 & D3 & D4 & D5) HE eps He. set (L := map (fun i => (i, power (mons pp) i rho)) S). assert (RL : reg L) by (unfold reg, L; rewrite Forall_map; apply Forall_forall; intros i Hi; apply D5; right; exact Hi).
  assert (IX : ixs L = S) by (unfold L; rewrite map_map; cbn; apply map_id). assert (HB : box (j :: S) (dm pp) rho) by (apply (cube_rho_box rho (j :: S)); exact D1). set (c := / eval rho (Pol (pole pp))). assert (Hc : 0 < Rabs c) by (apply Rabs_pos_lt, Rinv_neq_0_compat, D3).
  destruct (J_improper (power (mons pp) j rho) j (box S (dm pp)) (contI L (fn pp)) rho HE) with (eps := eps / Rabs c) as (e & He' & K); [apply box_opens, dm_open|rewrite <- IX; apply contI_smooth; [exact RL|apply dm_open|apply fn_smooth]|exact HB|apply Rdiv_lt_0_compat; assumption|].
  exists e. split; [exact He'|]. intros h Hh H1. cbv zeta. destruct (K h Hh H1) as [K1 K2]. split; [exact K1|]. unfold value. fold c. cbn [map contI]. fold L. rewrite <- Rmult_minus_distr_l, Rabs_mult. apply (Rmult_lt_compat_l (Rabs c)) in K2; [|exact Hc]. replace (Rabs c * (eps / Rabs c)) with eps in K2 by (field; lra). exact K2.
Qed.

(** ** a concrete case: x^(-2-eps) (1+x)^(-2+eps) at eps = 1/3 (x is variable 0, eps variable 1) *)
Definition third : point := fun _ => 1 / 3.
Definition sample : pprod := mkPP [([1; 0]%Z, [(Num (-2), [0; 0]%Z); (Num (-1), [0; 1]%Z)])] [(Num 1, [0; 0]%Z)]
  [EPol [(Num 1, [0; 0]%Z); (Num 1, [1; 0]%Z)] (Pol [(Num (-2), [0; 0]%Z); (Num 1, [0; 1]%Z)])].
Lemma sample_power : power (mons sample) 0 third = - (7 / 3). Proof. unfold power, sample, third. cbn. change (Pos.to_nat 1) with 1%nat. cbn. field. Qed.
Lemma sample_exp x : agree third [0%nat] x -> x 1%nat = 1 / 3. Proof. intros H. apply H. intros [K|[]]. discriminate. Qed.
Lemma sample_ok : shape 2 third [0%nat] sample /\ defined third [0%nat] sample /\ power_at_0 2 (mons sample) 0 = -2 /\ ~ no_regulator 2 (mons sample) 0.
Proof.
  assert (ND : forall a b : list Z, a <> b -> NoDup [a; b]) by (intros a b H; constructor; [intros [K|[]]; congruence|constructor; [intros []|constructor]]).
  assert (FR : forall x, agree third [0%nat] x -> dom x (Pol [(Num (-2), [0; 0]%Z); (Num 1, [0; 1]%Z)]) /\ eval x (Pol [(Num (-2), [0; 0]%Z); (Num 1, [0; 1]%Z)]) = -(5/3)).
  { intros x Hx. split; [cbn; intuition lia|]. cbn. change (Pos.to_nat 1) with 1%nat. cbn. rewrite (sample_exp x Hx). field. }
  assert (FA : frac_at (agree third [0%nat]) (Pol [(Num (-2), [0; 0]%Z); (Num 1, [0; 1]%Z)])). { intros x Hx. destruct (FR x Hx) as [F1 F2]. split; [exact F1|]. intros n. rewrite F2. pose proof (pos_INR (Datatypes.S n)). lra. }
  split; [|split; [|split]].
  - split; [discriminate|]. split; [|split; [|split; [discriminate|]]].
    + constructor; [|constructor]. split; [reflexivity|]. split; [|apply ND; discriminate]. split; [discriminate|]. split; [repeat constructor|]. repeat constructor; intros j [<-|[]]; reflexivity.
    + split; [discriminate|]. split; [repeat constructor|]. repeat constructor; intros j [<-|[]]; reflexivity.
    + constructor; [|constructor]. split.
      * apply wf_epol. split; [split; [discriminate|]; repeat constructor|]. split; [left; apply ND; discriminate|]. right. apply wf_pol. split; [discriminate|]. repeat constructor.
      * split; [repeat constructor|]. split; [exact FA|repeat constructor].
  - split; [|split; [|split; [|split]]].
    + intros x [Ha Hc]. specialize (Hc 0%nat (or_introl eq_refl)). split; [|exact I]. apply dom_epol. destruct (FR x Ha) as [F1 _]. split; [|split; [left; unfold tval; cbn; change (Pos.to_nat 1) with 1%nat; cbn; lra|exact F1]]. apply dom_pol. cbn. intuition lia.
    + cbn. intuition lia.
    + cbn. lra.
    + constructor; [cbn; intuition lia|constructor].
    + intros j [<-|[]] k. rewrite sample_power. intros H. assert (E : IZR (3 * Z.of_nat k) = IZR 4) by (rewrite mult_IZR, <- INR_IZR_INZ; lra). apply eq_IZR in E. lia.
  - unfold power_at_0, power_coef, coef. cbn. lra.
  - intros [_ H]. specialize (H [0; 1]%Z ltac:(discriminate)). unfold power_coef, coef in H. cbn in H. lra.
Qed.
(** applied to the sample: the pole of order two is subtracted *)
Theorem C37_sample : forall n0, exists n l, (n0 <= n)%nat /\ integrate_pole_part 2 (fun _ => false) n sample [0%nat] = Ok l /\ Forall (defined third [0%nat]) l /\
  value [0%nat] sample third = sumR (map (fun t => value [0%nat] t third) l) /\ forall t, In t l -> compensated 2 third [0%nat] 0 t.
Proof.
  intros n0. destruct sample_ok as (S1 & S2 & S3 & S4). destruct (C37_pole_part 2 (fun _ => false) third [0%nat] sample [0%nat] sound_no) as (o & (n1 & E) & O); [repeat constructor; intros []|intros j [<-|[]]; lia|repeat constructor; intros []|apply incl_refl|exact S1|].
  exists (Nat.max n0 n1). destruct o as [| | |l]; try contradiction; [exfalso; destruct O as (j & [<-|[]] & H); contradiction|]. exists l. split; [lia|]. split; [apply E; lia|]. destruct O as (_ & _ & O). destruct (O S2) as (O1 & O2 & O3). split; [exact O1|]. split; [exact O2|]. intros t Ht. apply O3; [exact Ht|left; reflexivity].
Qed.
(** applied to the sample: the exponent is raised to 1 *)
Theorem C36_sample : exists k0 n0 l, (forall k n, (k0 <= k)%nat -> (n0 <= n)%nat -> integrate_by_parts 2 (fun _ => false) n k sample (Same 1) [0%nat] = Ok l) /\ Forall (defined third [0%nat]) l /\
  value [0%nat] sample third = sumR (map (fun t => value [0%nat] t third) l) /\ forall t, In t l -> reached 2 third [0%nat] 1 0 t.
Proof.
  destruct sample_ok as (S1 & S2 & S3 & S4). destruct (C36_by_parts 2 (fun _ => false) third [0%nat] sample (Same 1) [0%nat] sound_no) as (o & (k1 & n1 & E) & O); [repeat constructor; intros []|intros j [<-|[]]; lia|repeat constructor; intros []|apply incl_refl|exact S1|].
  exists k1, n1. destruct o as [| | |l]; try contradiction; [exfalso; destruct O as (j & [<-|[]] & H); contradiction|destruct O as (l & H & _); discriminate|]. exists l. split; [exact E|]. destruct O as (_ & _ & _ & O). destruct (O S2) as (O1 & O2 & O3). split; [exact O1|]. split; [exact O2|]. intros t Ht. apply (O3 t (1, 0%nat) Ht). left. reflexivity.
Qed.
(** ** the error is raised also for x^(-1/2), which is integrable without a regulator *)
Definition root : pprod := mkPP [([1]%Z, [(Num (- (1 / 2)), [0]%Z)])] [(Num 1, [0]%Z)] [Pol [(Num 1, [0]%Z)]].
Theorem C37_integrable_error_refuted : shape 1 (fun _ => 0) [0%nat] root /\ defined (fun _ => 0) [0%nat] root /\ power (mons root) 0 (fun _ => 0) = - (1 / 2) /\
  exists n0, forall n, (n0 <= n)%nat -> integrate_pole_part 1 (fun _ => false) n root [0%nat] = ValueError.
Proof.
  assert (SH : shape 1 (fun _ => 0) [0%nat] root).
  { split; [discriminate|]. split; [|split; [|split; [discriminate|]]].
    - constructor; [|constructor]. split; [reflexivity|]. split; [|repeat constructor; intros []]. split; [discriminate|]. split; [repeat constructor|]. repeat constructor; intros j [<-|[]]; reflexivity.
    - split; [discriminate|]. split; [repeat constructor|]. repeat constructor; intros j [<-|[]]; reflexivity.
    - constructor; [|constructor]. split; [apply (wf_cst 1 1)|repeat constructor]. }
  assert (PW : power (mons root) 0 (fun _ => 0) = - (1 / 2)) by (unfold power, root; cbn; field).
  split; [exact SH|]. split; [|split; [exact PW|]].
  - split; [intros x _; cbn; intuition lia|]. split; [cbn; intuition lia|]. split; [cbn; lra|]. split; [constructor; [cbn; intuition lia|constructor]|]. intros j [<-|[]] k. rewrite PW. pose proof (pos_INR k). lra.
  - destruct (C37_pole_part 1 (fun _ => false) (fun _ => 0) [0%nat] root [0%nat] sound_no) as (o & E & O); [repeat constructor; intros []|intros j [<-|[]]; lia|repeat constructor; intros []|apply incl_refl|exact SH|].
    destruct o as [| | |l]; try contradiction; [exact E|]. exfalso. destruct O as (O & _). apply (O 0%nat (or_introl eq_refl)). split; [unfold power_at_0, power_coef, coef; cbn; lra|]. intros k Hk. unfold power_coef, coef, root. cbn [map mons fst snd sumR fold_right]. destruct (roweqb [0]%Z k) eqn:Er; [apply roweqb_spec in Er; exfalso; apply Hk; rewrite <- Er; reflexivity|]. lra.
Qed.
