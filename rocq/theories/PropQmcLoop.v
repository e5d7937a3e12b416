(** C81: the adaptive loop of the QMC integrator (model QmcLoopModel). *)
From Coq Require Import List Arith Reals Lia Lra Bool Sorted ZArith. Import ListNotations.
From Verif Require Import QmcModel QmcSpec QmcStat QmcLoopModel QmcLoop QmcCplx.
Local Open Scope R_scope.
(** ** when the loop may stop *)
Definition accurate (epsrel epsabs I E : R) : Prop := E <= epsabs \/ E <= epsrel * Rabs I.
Lemma abs_scaled x e : 0 <= e -> Rabs (x * e) = e * Rabs x.
Proof. intros H. rewrite Rabs_mult, (Rabs_pos_eq e H). ring. Qed.
Theorem C81_goal : forall epsrel epsabs (res : result R), 0 <= epsrel -> 0 <= epsabs -> 0 <= error res ->
  (lt (Fin 1) (ratio_real epsrel epsabs res) = false <-> accurate epsrel epsabs (integral res) (error res)).
Proof.
  intros er ea res H1 H2 H3. unfold ratio_real, accurate. rewrite fabs_div by exact H3. rewrite abs_scaled by exact H1. apply component_ok; try assumption. apply Rmult_le_pos; [exact H1|apply Rabs_pos].
Qed.
Print Assumptions C81_goal.
(** errormode "all" *)
Theorem C81_goal_all : forall epsrel epsabs (res : result (R * R)), 0 <= epsrel -> 0 < epsabs -> 0 <= fst (error res) -> 0 <= snd (error res) ->
  (lt (Fin 1) (ratio_all epsrel epsabs res) = false <->
   accurate epsrel epsabs (fst (integral res)) (fst (error res)) /\ accurate epsrel epsabs (snd (integral res)) (snd (error res))).
Proof.
  intros er ea res H1 H2 H3 H4. unfold ratio_all, accurate. rewrite !abs_scaled by exact H1. rewrite fmax_small by (apply not_nan; exact H2).
  rewrite !component_ok by (first [assumption|lra|apply Rmult_le_pos; [exact H1|apply Rabs_pos]]). reflexivity.
Qed.
Print Assumptions C81_goal_all.
(** without an absolute goal it fails: a real part that is known exactly hides the error of the imaginary part *)
Theorem C81_goal_all_refuted : exists epsrel epsabs (res : result (R * R)), 0 <= epsrel /\ 0 <= epsabs /\ 0 <= fst (error res) /\ 0 <= snd (error res) /\
  lt (Fin 1) (ratio_all epsrel epsabs res) = false /\ ~ accurate epsrel epsabs (snd (integral res)) (snd (error res)).
Proof.
  exists (1 / 100), 0, {| integral := (1, 1); error := (0, 1); res_n := 1; res_m := 2; iterations := 1; evaluations := 2 |}. cbn [integral error fst snd]. repeat split; try lra.
  - unfold ratio_all. cbn [integral error fst snd]. unfold fdiv at 1. destruct (Req_EM_T 0 0) as [_|]; [|lra]. unfold fmin at 1. cbn [lt]. destruct (fdiv 0 (Rabs (1 * (1 / 100)))); reflexivity.
  - unfold accurate. rewrite Rabs_R1. lra.
Qed.
Print Assumptions C81_goal_all_refuted.
(** errormode "largest" *)
Theorem C81_goal_largest : forall epsrel epsabs (res : result (R * R)), 0 <= epsrel -> 0 <= epsabs -> 0 <= fst (error res) ->
  (lt (Fin 1) (ratio_largest epsrel epsabs res) = false <->
   let E := Rmax (fst (error res)) (snd (error res)) in
   E <= epsabs \/ E <= epsrel * Rmax (Rabs (fst (integral res))) (Rabs (snd (integral res)))).
Proof.
  intros er ea res H1 H2 H3. unfold ratio_largest. cbv zeta. pose proof (Rmax_l (fst (error res)) (snd (error res))). pose proof (Rmax_l (Rabs (fst (integral res))) (Rabs (snd (integral res)))). pose proof (Rabs_pos (fst (integral res))).
  rewrite (Rmult_comm er). apply component_ok; try lra. apply Rmult_le_pos; lra.
Qed.
Print Assumptions C81_goal_largest.
(** ** the size of the lattice *)
Theorem C81_get_next_n : forall lattices median preferred, lattices <> [] -> StronglySorted Nat.lt lattices ->
  let n := get_next_n lattices median preferred in
  ((exists l, In l lattices /\ (preferred <= l)%nat) -> In n lattices /\ (preferred <= n)%nat /\ forall l, In l lattices -> (preferred <= l)%nat -> (n <= l)%nat) /\
  ((forall l, In l lattices -> (l < preferred)%nat) -> if median then n = preferred else In n lattices /\ forall l, In l lattices -> (l <= n)%nat).
Proof.
  intros lattices median p HN HS n. unfold n, get_next_n. destruct (lower_bound lattices p) as [l|] eqn:E.
  - pose proof (lower_bound_some lattices p l HS E) as (A & B & C). split; [intros _; repeat split; assumption|]. intros H. specialize (H l A). lia.
  - apply lower_bound_none in E. rewrite Forall_forall in E. split; [intros (l & Hl & H); specialize (E l Hl); cbn in E; lia|]. intros _. destruct median; [reflexivity|]. split; [apply last_in; exact HN|]. apply last_max. exact HS.
Qed.
Print Assumptions C81_get_next_n.
(** ** the next round *)
(** as long as the goal is not reached and fewer than [maxeval] evaluations have been made, [update] succeeds; the lattice never shrinks, a new lattice
    starts with [minm] shifts, and the evaluations stay within [maxeval] unless not even one shift fits, or the lattice is exchanged for the smallest one too large *)
Theorem C81_update : forall lattices median minm maxeval ratio evals n m, lattices <> [] -> StronglySorted Nat.lt lattices -> Forall (fun l => (1 <= l)%nat) lattices -> (2 <= minm)%nat ->
  lt (Fin 1) ratio = true -> (evals <= maxeval)%nat -> (1 <= n)%nat -> (1 <= m)%nat -> In n lattices \/ Forall (fun l => (l < n)%nat) lattices ->
  exists n' m', update lattices median minm maxeval ratio evals n m = Some (n', m') /\ (n <= n')%nat /\ (1 <= m')%nat /\
    (In n' lattices \/ Forall (fun l => (l < n')%nat) lattices) /\ ((n < n')%nat -> m' = minm) /\
    ((evals + n' * m' <= maxeval)%nat \/ (n' = n /\ m' = 1 /\ maxeval < evals + n)%nat \/
     ((n < n')%nat /\ In n' lattices /\ (maxeval < evals + n' * m')%nat /\ forall l, In l lattices -> (l < n')%nat -> (evals + l * m' <= maxeval)%nat)).
Proof. intros lattices median minm maxeval ratio evals n m H1 H2 H3 H4 H5 H6 H7 H8 H9. apply update_ok; assumption. Qed.
Print Assumptions C81_update.
(** ** the whole loop *)
(** [draw i n m]: the sums of the workers for the [m] random shifts of round [i] *)
Section Sampler.
Variables (maxmperpackage : nat) (draw : nat -> nat -> nat -> list (list R)).
Definition sampler (n m : nat) (s : nat * list (result R)) : result R * (nat * list (result R)) :=
  match sample_real n m maxmperpackage (draw (fst s) n m) (snd s) with
  | (Some res, previous) => (res, (Datatypes.S (fst s), previous))
  | (None, previous) => ({| integral := 0; error := 0; res_n := 0; res_m := 0; iterations := 0; evaluations := 0 |}, (fst s, previous))
  end.
(** the rounds with the shifts drawn in them, the last one first *)
Fixpoint taken (rounds : list (nat * nat)) : list round :=
  match rounds with [] => [] | (n, m) :: older => (n, draw (length older) n m) :: taken older end.
Hypothesis Hmx : (2 <= maxmperpackage)%nat.
Hypothesis Hdraw : forall i n m, length (draw i n m) = m /\ same_width (draw i n m).
Definition holds (s : nat * list (result R)) (rounds : list (nat * nat)) : Prop :=
  fst s = length rounds /\ exists rs, snd s = history rs /\ valid rs /\ total_evaluations rs = work rounds /\ (forall n, pooled n rs = pooled n (taken rounds)) /\
    match rounds with [] => rs = [] | (n, _) :: _ => exists rows older, rs = (n, rows) :: older end.
Lemma work_taken rounds : total_evaluations (taken rounds) = work rounds.
Proof. induction rounds as [|[n m] older IH]; [reflexivity|]. cbn [taken]. unfold total_evaluations, work in *. cbn [fold_right fst snd]. rewrite IH. destruct (Hdraw (length older) n m) as [-> _]. reflexivity. Qed.
Lemma sampler_ok lattices median minn minm : (2 <= minm)%nat -> forall n m s rounds, holds s rounds -> schedule_ok lattices median minn minm ((n, m) :: rounds) ->
  (holds (snd (sampler n m s)) ((n, m) :: rounds) /\ evaluations (fst (sampler n m s)) = work ((n, m) :: rounds)) /\
  let used := pooled n (taken ((n, m) :: rounds)) in let res := fst (sampler n m s) in
  (2 <= length used)%nat /\ integral res = mean (map (estimate n) used) /\ error res = standard_error (map (estimate n) used) /\ res_n res = n /\ res_m res = length used.
Proof.
  intros Hm n m [i previous] rounds (HI & rs & HP & HV & HT & HE & HH) (S1 & S2 & S3 & S4). cbn [fst snd] in HI, HP. destruct (Hdraw i n m) as [DL DW].
  assert (H2 : (2 <= length (pooled n rs) + length (draw i n m))%nat).
  { rewrite DL. destruct rounds as [|[n1 m1] older]; [lia|]. destruct S4 as [L1 L2]. destruct (Nat.eq_dec n1 n) as [E|E]; [|specialize (L2 ltac:(lia)); lia]. destruct HH as (rows & rest & ER). rewrite E in ER. rewrite ER in HV. destruct HV as (_ & _ & V & _). rewrite ER. lia. }
  destruct (sample_ok n maxmperpackage (draw i n m) rs S1 Hmx ltac:(lia) DW HV H2) as (res & rounds' & E & V & (G1 & G2 & G3 & G4 & G5 & G6) & EP & EL & ET & rows' & older' & EH).
  unfold sampler. cbn [fst snd]. rewrite HP. rewrite DL in E. rewrite E. cbn [fst snd].
  assert (EW : total_evaluations rounds' = work ((n, m) :: rounds)) by (rewrite ET, HT, DL; unfold work; cbn [fold_right fst snd]; lia).
  assert (EU : pooled n rounds' = pooled n (taken ((n, m) :: rounds))) by (cbn [taken pooled]; rewrite Nat.eqb_refl, EP, HE, HI; reflexivity).
  split; [split; [|rewrite G6; exact EW]|].
  - split; [cbn [fst]; rewrite HI; reflexivity|]. exists rounds'. cbn [snd]. split; [reflexivity|]. split; [exact V|]. split; [exact EW|]. split; [|exists rows', older'; exact EH].
    intros k. destruct (Nat.eq_dec n k) as [<-|Nk]; [exact EU|]. rewrite EH. cbn [taken pooled]. apply Nat.eqb_neq in Nk. rewrite Nk. reflexivity.
  - cbv zeta. rewrite <- EU. split; [rewrite EP, app_length; lia|]. repeat split; assumption.
Qed.
End Sampler.
Lemma schedule_first lattices median minn minm rounds : schedule_ok lattices median minn minm rounds -> rounds <> [] -> last rounds (0, 0)%nat = (get_next_n lattices median minn, minm).
Proof. induction rounds as [|[n m] [|q older] IH]; intros H HN; [congruence|destruct H as (_ & _ & _ & -> & ->); reflexivity|]. change (last ((n, m) :: q :: older) (0, 0)%nat) with (last (q :: older) (0, 0)%nat). apply IH; [|discriminate]. destruct H as (_ & _ & H & _). exact H. Qed.
Lemma schedule_step lattices median minn minm rounds : schedule_ok lattices median minn minm rounds ->
  forall newer n' m' n m older, rounds = newer ++ (n', m') :: (n, m) :: older -> (n <= n')%nat /\ (1 <= m')%nat /\ ((n < n')%nat -> m' = minm).
Proof.
  induction rounds as [|[a b] rounds IH]; intros H newer n' m' n m older E; [destruct newer; discriminate|]. destruct H as (H1 & H2 & H3 & H4). destruct newer as [|q newer]; cbn [app] in E.
  - injection E as E1 E2 E3. rewrite E3 in H4. rewrite E1, E2 in *. destruct H4. repeat split; assumption.
  - injection E as _ E. apply (IH H3 newer n' m' n m older E).
Qed.
(** the loop ends after at most maxeval+1 rounds.  The first round uses the smallest lattice of at least [minn] points and [minm] shifts, the lattice never
    shrinks, a new lattice starts with [minm] shifts.  The result is mean and standard error of all (at least two) shifts that have used the
    last lattice, the number of evaluations counts all rounds, and the goal is reached or [maxeval] is used up *)
Theorem C81_integrate : forall lattices median minn minm maxeval maxmperpackage epsrel epsabs draw,
  lattices <> [] -> StronglySorted Nat.lt lattices -> Forall (fun l => (1 <= l)%nat) lattices -> (2 <= minm)%nat -> (2 <= maxmperpackage)%nat -> 0 <= epsrel -> 0 <= epsabs ->
  (forall i n m, length (draw i n m) = m /\ same_width (draw i n m)) ->
  exists res s n m older, let rounds := (n, m) :: older in
    integrate lattices median minn minm maxeval R _ (sampler maxmperpackage draw) (ratio_real epsrel epsabs) (S maxeval) (0%nat, []) = Some (res, s, rounds) /\
    last rounds (0, 0)%nat = (get_next_n lattices median minn, minm) /\
    (forall newer n' m' n m older, rounds = newer ++ (n', m') :: (n, m) :: older -> (n <= n')%nat /\ (1 <= m')%nat /\ ((n < n')%nat -> m' = minm)) /\
    let used := pooled n (taken draw rounds) in
    (2 <= length used)%nat /\ integral res = mean (map (estimate n) used) /\ error res = standard_error (map (estimate n) used) /\ res_n res = n /\ res_m res = length used /\
    evaluations res = total_evaluations (taken draw rounds) /\
    (accurate epsrel epsabs (integral res) (error res) \/ (maxeval <= evaluations res)%nat).
Proof.
  intros lattices median minn minm maxeval mx er ea draw HN HS HP Hm Hx H1 H2 HD. unfold integrate. assert (L2 : Nat.ltb minm 2 = false) by (apply Nat.ltb_ge; exact Hm). rewrite L2.
  assert (SO : schedule_ok lattices median minn minm [(get_next_n lattices median minn, minm)]) by (split; [apply next_pos; assumption|]; split; [lia|]; split; [exact I|]; split; reflexivity).
  destruct (loop_ok lattices median minn minm maxeval HN HS Hm R _ (sampler mx draw) (ratio_real er ea) (holds draw)
    (fun n m s rounds A B => proj1 (sampler_ok mx draw Hx HD lattices median minn minm Hm n m s rounds A B)) (S maxeval) (get_next_n lattices median minn) minm (0%nat, []) [])
    as (res & s' & rounds & E & A1 & A2 & A3 & A4 & n & m & older & s0 & ER & A5 & A6).
  - split; [reflexivity|]. exists []. repeat split.
  - exact SO.
  - apply next_usable; assumption.
  - cbn. lia.
  - cbn. lia.
  - exists res, s', n, m, older. cbv zeta. rewrite <- ER. split; [exact E|]. split; [apply (schedule_first lattices median minn minm); [exact A2|rewrite ER; discriminate]|]. split; [apply (schedule_step lattices median minn minm); exact A2|].
    rewrite ER in A2. destruct (sampler_ok mx draw Hx HD lattices median minn minm Hm n m s0 older A5 A2) as (_ & B). rewrite <- A6 in B. cbv zeta in B. cbn [fst] in B. rewrite ER. destruct B as (B1 & B2 & B3 & B4 & B5).
    split; [exact B1|]. split; [exact B2|]. split; [exact B3|]. split; [exact B4|]. split; [exact B5|]. split; [rewrite work_taken by exact HD; rewrite <- ER; exact A3|].
    destruct A4 as [A4|A4]; [left|right; exact A4]. apply C81_goal in A4; [exact A4|exact H1|exact H2|]. rewrite B3. apply sqrt_pos.
Qed.
Print Assumptions C81_integrate.
(** [maxeval] is no upper bound: after a round of 20 evaluations the integrator changes to a lattice of 1000 points, with 2020 of 100 evaluations in the end *)
Definition draw_ex (i n m : nat) : list (list R) := map (fun k => [INR k]) (seq 0 m).
Lemma draw_ex_ok i n m : length (draw_ex i n m) = m /\ same_width (draw_ex i n m).
Proof. unfold draw_ex. split; [rewrite map_length, seq_length; reflexivity|]. exists 1%nat. apply Forall_forall. intros row H. apply in_map_iff in H. destruct H as (k & <- & _). reflexivity. Qed.
Lemma next_ex p : (10 < p)%nat -> get_next_n [10; 1000]%nat false p = 1000%nat.
Proof. intros H. unfold get_next_n, lower_bound. destruct (Nat.leb p 10) eqn:L; [apply Nat.leb_le in L; lia|]. destruct (Nat.leb p 1000); reflexivity. Qed.
Lemma INR_1000 : INR 1000 = 1000. Proof. rewrite INR_IZR_INZ. reflexivity. Qed.
Lemma update_ex : update [10; 1000]%nat false 2 100 Inf 20 10 2 = Some (1000, 2)%nat.
Proof.
  unfold update. cbn [fmin lt]. destruct (Rlt_dec 20 1) as [C|_]; [lra|]. replace (Nat.ltb 100 20) with false by reflexivity.
  assert (P : 20 <= Rpower 20 (1 / 0.8)) by (rewrite <- (Rpower_1 20) at 1 by lra; apply Rle_Rpower; lra).
  rewrite (next_ex (to_U (INR 10 * Rpower 20 (1 / 0.8)))) by (apply to_U_ge; cbn [INR]; lra).
  replace (Nat.leb 1000 10) with false by reflexivity. rewrite INR_1000. destruct (Rlt_dec (20 * 20 - 1) (1000 / INR 10)) as [C|_]; [cbn [INR] in C; lra|].
  cbv zeta. replace (Nat.ltb 100 (20 + 1000 * 2)) with true by reflexivity. rewrite (next_ex ((100 - 20) / 2)) by (apply Nat.ltb_lt; reflexivity). reflexivity.
Qed.
Theorem C81_maxeval_refuted : exists lattices minn minm maxeval maxmperpackage epsrel epsabs draw res s rounds,
  lattices <> [] /\ StronglySorted Nat.lt lattices /\ (2 <= minm)%nat /\ (forall i n m, length (draw i n m) = m /\ same_width (draw i n m)) /\
  integrate lattices false minn minm maxeval R _ (sampler maxmperpackage draw) (ratio_real epsrel epsabs) (S maxeval) (0%nat, []) = Some (res, s, rounds) /\
  (get_next_n lattices false minn * minm <= maxeval)%nat /\ (20 * maxeval < evaluations res)%nat.
Proof.
  exists [10; 1000]%nat, 1%nat, 2%nat, 100%nat, 2%nat, 0, 0, draw_ex.
  assert (HN : [10; 1000]%nat <> []) by discriminate. assert (HS : StronglySorted Nat.lt [10; 1000]%nat) by (repeat constructor; apply Nat.ltb_lt; reflexivity).
  assert (HP : Forall (fun l => (1 <= l)%nat) [10; 1000]%nat) by (repeat constructor; apply Nat.leb_le; reflexivity).
  assert (SO1 : schedule_ok [10; 1000]%nat false 1 2 [(10, 2)%nat]) by (split; [lia|]; split; [lia|]; split; [exact I|]; split; reflexivity).
  assert (SO2 : schedule_ok [10; 1000]%nat false 1 2 [(1000, 2); (10, 2)]%nat) by (split; [apply Nat.leb_le; reflexivity|]; split; [lia|]; split; [exact SO1|]; split; [apply Nat.leb_le; reflexivity|reflexivity]).
  assert (H0 : holds draw_ex (0%nat, []) []) by (split; [reflexivity|]; exists []; repeat split).
  destruct (sampler_ok 2 draw_ex ltac:(lia) draw_ex_ok [10; 1000]%nat false 1%nat 2%nat (le_n 2) 10 2 (0%nat, []) [] H0 SO1) as ((A1 & A2) & AA). cbv zeta in AA. destruct AA as (A3 & A4 & A5 & A6 & A7).
  destruct (sampler 2 draw_ex 10 2 (0%nat, [])) as [res1 s1] eqn:E1. cbn [fst snd] in *.
  destruct (sampler_ok 2 draw_ex ltac:(lia) draw_ex_ok [10; 1000]%nat false 1%nat 2%nat (le_n 2) 1000 2 s1 [(10, 2)%nat] A1 SO2) as ((B1 & B2) & _).
  destruct (sampler 2 draw_ex 1000 2 s1) as [res2 s2] eqn:E2. cbn [fst snd] in *.
  assert (EE : 0 < error res1).
  { rewrite A5. unfold standard_error, mean, estimate, draw_ex, sum. cbn. apply sqrt_lt_R0. match goal with |- _ < ?t => replace t with (1 / 400) by field end. lra. }
  assert (RI : ratio_real 0 0 res1 = Inf).
  { unfold ratio_real. rewrite Rmult_0_r. unfold fdiv. destruct (Req_EM_T 0 0) as [_|]; [|lra]. destruct (Req_EM_T (error res1) 0) as [C|_]; [lra|]. reflexivity. }
  exists res2, s2, [(1000, 2); (10, 2)]%nat. split; [exact HN|]. split; [exact HS|]. split; [lia|]. split; [exact draw_ex_ok|]. split.
  - unfold integrate. replace (Nat.ltb 2 2) with false by reflexivity. replace (get_next_n [10; 1000]%nat false 1) with 10%nat by reflexivity.
    change (S 100) with (S (S 99)). cbn [loop]. rewrite E1, RI. replace (evaluations res1) with 20%nat by (rewrite A2; reflexivity). replace (lt (Fin 1) Inf && Nat.ltb 20 100)%bool with true by reflexivity.
    rewrite update_ex. rewrite E2. assert (F : Nat.ltb (evaluations res2) 100 = false) by (rewrite B2; reflexivity). rewrite F, andb_false_r. reflexivity.
  - split; [apply Nat.leb_le; reflexivity|]. rewrite B2. apply Nat.ltb_lt. reflexivity.
Qed.
Print Assumptions C81_maxeval_refuted.
(** ** median lattices *)
Definition at_most (v : R) (l : list R) : nat := length (filter (fun x => if Rle_dec x v then true else false) l).
Definition at_least (v : R) (l : list R) : nat := length (filter (fun x => if Rle_dec v x then true else false) l).
(** an odd number of candidates is drawn, with coordinates coprime to [n]; one of them is chosen whose value is a median of all values *)
Theorem C81_median : forall value n M latticecandidates random answer, median_z value n M latticecandidates random = Some answer ->
  exists genvecs z, answer = Some z /\ In z genvecs /\ (latticecandidates <= length genvecs <= latticecandidates + 1)%nat /\ Nat.odd (length genvecs) = true /\
    Forall (fun g => length g = M /\ Forall (fun x => In x random /\ Nat.gcd x n = 1%nat) g) genvecs /\
    (length genvecs < 2 * at_most (value z) (map value genvecs))%nat /\ (length genvecs < 2 * at_least (value z) (map value genvecs))%nat.
Proof.
  intros value n M lc random answer E. unfold median_z in E. destruct (candidates n M (odd_candidates lc) random) as [[l r]|] eqn:EC; [|discriminate]. destruct (candidates_ok n M _ _ _ _ EC) as (HL & HF & _).
  assert (HO : (lc <= odd_candidates lc <= lc + 1)%nat /\ (odd_candidates lc mod 2 = 1)%nat).
  { unfold odd_candidates. pose proof (Nat.mod_upper_bound lc 2 ltac:(lia)) as B. destruct (Nat.eqb (lc mod 2) 0) eqn:Q; [apply Nat.eqb_eq in Q|apply Nat.eqb_neq in Q; lia]. split; [lia|]. rewrite Nat.add_mod, Q by lia. reflexivity. }
  destruct HO as [HO1 HO2]. pose proof (Nat.div_mod (odd_candidates lc) 2 ltac:(lia)) as DM.
  destruct (choose_ok value l (odd_candidates lc) HL ltac:(destruct (odd_candidates lc); [cbn in HO2; lia|lia])) as (z & E1 & E2 & E3 & E4). injection E as <-. exists l, z.
  split; [exact E1|]. split; [exact E2|]. split; [lia|]. split; [rewrite HL; apply Nat.odd_spec; exists (odd_candidates lc / 2)%nat; lia|]. split; [exact HF|].
  change (at_most (value z) (map value l)) with (count (below (value z)) (map value l)). change (at_least (value z) (map value l)) with (count (above (value z)) (map value l)). lia.
Qed.
Print Assumptions C81_median.
Example C81_median_example : median_z (fun z => INR (hd 0%nat z)) 10 1 2 [4; 7; 5; 1; 3]%nat = Some (Some [3%nat]).
Proof.
  unfold median_z, odd_candidates. cbn -[INR]. f_equal. unfold choose. cbn -[INR]. rewrite ?INR_IZR_INZ. cbn.
  repeat match goal with |- context [Rle_dec ?a ?b] => destruct (Rle_dec a b); try (exfalso; lra); cbn end.
  repeat match goal with |- context [Req_EM_T ?a ?b] => destruct (Req_EM_T a b); try (exfalso; lra); cbn end. reflexivity.
Qed.
(** ** complex integrands *)
Section SamplerComplex.
Variables (maxmperpackage : nat) (draw : nat -> nat -> nat -> list (list (R * R))).
Definition sampler_complex (n m : nat) (s : nat * list (result (R * R))) : result (R * R) * (nat * list (result (R * R))) :=
  match sample_complex n m maxmperpackage (draw (fst s) n m) (snd s) with
  | (Some res, previous) => (res, (Datatypes.S (fst s), previous))
  | (None, previous) => ({| integral := (0, 0); error := (0, 0); res_n := 0; res_m := 0; iterations := 0; evaluations := 0 |}, (fst s, previous))
  end.
Hypothesis Hmx : (2 <= maxmperpackage)%nat.
Hypothesis Hdraw : forall i n m, length (draw i n m) = m /\ exists w, Forall (fun row => length row = w) (draw i n m).
Definition draw_part (f : R * R -> R) (i n m : nat) : list (list R) := map (map f) (draw i n m).
Lemma draw_part_ok f i n m : length (draw_part f i n m) = m /\ same_width (draw_part f i n m).
Proof.
  unfold draw_part. destruct (Hdraw i n m) as (A & w & B). split; [rewrite map_length; exact A|]. exists w. apply Forall_forall. intros row H. apply in_map_iff in H. destruct H as (r & <- & H). rewrite map_length. rewrite Forall_forall in B. apply B. exact H.
Qed.
Definition part_state (f : R * R -> R) (s : nat * list (result (R * R))) : nat * list (result R) := (fst s, map (part f) (snd s)).
Lemma sampler_part f lattices median minn minm : f = fst \/ f = snd -> (2 <= minm)%nat -> forall n m s rounds, holds (draw_part f) (part_state f s) rounds -> schedule_ok lattices median minn minm ((n, m) :: rounds) ->
  sampler maxmperpackage (draw_part f) n m (part_state f s) = (part f (fst (sampler_complex n m s)), part_state f (snd (sampler_complex n m s))).
Proof.
  intros Hf Hm n m [i prev] rounds HH HO. pose proof (sampler_ok maxmperpackage (draw_part f) Hmx (draw_part_ok f) lattices median minn minm Hm n m _ rounds HH HO) as (_ & SO). cbv zeta in SO.
  destruct HH as (HI & rs & HP & HV & HT & HE & HH). destruct HO as (S1 & S2 & S3 & S4). cbn [part_state fst snd] in HI, HP. destruct (Hdraw i n m) as (DL & DW).
  assert (EB : before n prev = length (pooled n rs)).
  { pose proof (history_ok rs HV) as HO. destruct rs as [|[n1 rows] older]; [rewrite HO in HP; destruct prev; [reflexivity|discriminate]|]. destruct HO as (r & rest & E & G1 & G2 & G3 & G4 & _). rewrite E in HP. destruct prev as [|p prev]; [discriminate|]. cbn [map] in HP. injection HP as HP _.
    rewrite <- HP in G3, G4. cbn [part res_n res_m] in G3, G4. cbn [before]. rewrite G3, G4. destruct (Nat.eqb n1 n) eqn:Q; [apply Nat.eqb_eq in Q; rewrite Q; reflexivity|]. cbn [pooled]. rewrite Q. reflexivity. }
  assert (H2 : (2 <= length (draw i n m) + before n prev)%nat).
  { rewrite DL, EB. destruct rounds as [|[n1 m1] older]; [lia|]. destruct S4 as [L1 L2]. destruct (Nat.eq_dec n1 n) as [E|E]; [|specialize (L2 ltac:(lia)); lia]. destruct HH as (rows & rest & ER). rewrite E in ER. rewrite ER in HV. destruct HV as (_ & _ & V & _). rewrite ER. lia. }
  pose proof (sample_part f Hf n maxmperpackage (draw i n m) prev S1 Hmx ltac:(lia) H2) as SP. rewrite DL in SP.
  unfold sampler, sampler_complex, part_state. cbn [fst snd]. change (draw_part f i n m) with (map (map f) (draw i n m)). rewrite SP.
  unfold sampler, part_state in SO. cbn [fst snd] in SO. change (draw_part f i n m) with (map (map f) (draw i n m)) in SO. rewrite SP in SO.
  destruct (sample_complex n m maxmperpackage (draw i n m) prev) as [[r|] p]; cbn [option_map fst snd]; [reflexivity|]. cbn [option_map fst snd res_n res_m] in SO. destruct SO as (_ & _ & _ & C & _). cbn [res_n] in C. lia.
Qed.
End SamplerComplex.
Theorem C81_integrate_complex : forall lattices median minn minm maxeval maxmperpackage ratio draw,
  lattices <> [] -> StronglySorted Nat.lt lattices -> Forall (fun l => (1 <= l)%nat) lattices -> (2 <= minm)%nat -> (2 <= maxmperpackage)%nat ->
  (forall i n m, length (draw i n m) = m /\ exists w, Forall (fun row => length row = w) (draw i n m)) ->
  exists res s n m older, let rounds := (n, m) :: older in
    integrate lattices median minn minm maxeval (R * R) _ (sampler_complex maxmperpackage draw) ratio (S maxeval) (0%nat, []) = Some (res, s, rounds) /\
    last rounds (0, 0)%nat = (get_next_n lattices median minn, minm) /\
    (forall newer n' m' n m older, rounds = newer ++ (n', m') :: (n, m) :: older -> (n <= n')%nat /\ (1 <= m')%nat /\ ((n < n')%nat -> m' = minm)) /\
    (forall f, f = fst \/ f = snd -> let used := pooled n (taken (fun i n m => map (map f) (draw i n m)) rounds) in
      (2 <= length used)%nat /\ f (integral res) = mean (map (estimate n) used) /\ f (error res) = standard_error (map (estimate n) used) /\ res_n res = n /\ res_m res = length used /\
      evaluations res = total_evaluations (taken (fun i n m => map (map f) (draw i n m)) rounds)) /\
    (lt (Fin 1) (ratio res) = false \/ (maxeval <= evaluations res)%nat).
Proof.
  intros lattices median minn minm maxeval mx ratio draw HN HS HP Hm Hx HD. unfold integrate. assert (L2 : Nat.ltb minm 2 = false) by (apply Nat.ltb_ge; exact Hm). rewrite L2.
  assert (SO : schedule_ok lattices median minn minm [(get_next_n lattices median minn, minm)]) by (split; [apply next_pos; assumption|]; split; [lia|]; split; [exact I|]; split; reflexivity).
  set (hc := fun s rounds => forall f, f = fst \/ f = snd -> holds (draw_part draw f) (part_state f s) rounds).
  assert (HC : forall n m s rounds, hc s rounds -> schedule_ok lattices median minn minm ((n, m) :: rounds) ->
    hc (snd (sampler_complex mx draw n m s)) ((n, m) :: rounds) /\ evaluations (fst (sampler_complex mx draw n m s)) = work ((n, m) :: rounds)).
  { intros n m s rounds A B. split.
    - intros f Hf. destruct (sampler_ok mx (draw_part draw f) Hx (draw_part_ok draw HD f) lattices median minn minm Hm n m _ rounds (A f Hf) B) as ((C & _) & _).
      rewrite (sampler_part mx draw Hx HD f lattices median minn minm Hf Hm n m s rounds (A f Hf) B) in C. exact C.
    - destruct (sampler_ok mx (draw_part draw fst) Hx (draw_part_ok draw HD fst) lattices median minn minm Hm n m _ rounds (A fst (or_introl eq_refl)) B) as ((_ & C) & _).
      rewrite (sampler_part mx draw Hx HD fst lattices median minn minm (or_introl eq_refl) Hm n m s rounds (A fst (or_introl eq_refl)) B) in C. exact C. }
  destruct (loop_ok lattices median minn minm maxeval HN HS Hm (R * R) _ (sampler_complex mx draw) ratio hc HC (S maxeval) (get_next_n lattices median minn) minm (0%nat, []) [])
    as (res & s' & rounds & E & A1 & A2 & A3 & A4 & n & m & older & s0 & ER & A5 & A6).
  - intros f Hf. split; [reflexivity|]. exists []. repeat split.
  - exact SO.
  - apply next_usable; assumption.
  - cbn. lia.
  - cbn. lia.
  - exists res, s', n, m, older. cbv zeta. rewrite <- ER. split; [exact E|]. split; [apply (schedule_first lattices median minn minm); [exact A2|rewrite ER; discriminate]|]. split; [apply (schedule_step lattices median minn minm); exact A2|].
    split; [|exact A4]. intros f Hf. rewrite ER in A2. destruct (sampler_ok mx (draw_part draw f) Hx (draw_part_ok draw HD f) lattices median minn minm Hm n m _ older (A5 f Hf) A2) as (_ & B).
    rewrite (sampler_part mx draw Hx HD f lattices median minn minm Hf Hm n m s0 older (A5 f Hf) A2), <- A6 in B. cbv zeta in B. cbn [fst] in B. rewrite ER. destruct B as (B1 & B2 & B3 & B4 & B5).
    split; [exact B1|]. split; [exact B2|]. split; [exact B3|]. split; [exact B4|]. split; [exact B5|]. rewrite (work_taken (draw_part draw f) (draw_part_ok draw HD f)). rewrite <- ER. exact A3.
Qed.
Print Assumptions C81_integrate_complex.
