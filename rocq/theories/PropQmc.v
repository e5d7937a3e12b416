(** C79: statistics of the QMC integrator; C80: distribution of the work over threads (models QmcModel and QmcWork, specification QmcSpec). *)
From Coq Require Import List Arith Reals Lia Lra ZArith. Import ListNotations.
From Verif Require Import QmcModel QmcSpec QmcStat QmcWork QmcWorkProofs.
From Verif Require KernModel KernSpec KernProofs.
Local Open Scope R_scope.
(** ** C79 *)
(** a sequence of rounds with at least two shifts at the current lattice size after every round (QmcSpec.valid), one call of [reduce] each:
    the last result consists of mean and standard error of the estimates by all shifts since the lattice size was changed last *)
Theorem C79_pooled_statistics : forall n rows older, valid ((n, rows) :: older) ->
  let res := fst (reduce_real (concat rows) n (length rows) (history older)) in
  let estimates := map (estimate n) (pooled n ((n, rows) :: older)) in
  integral res = mean estimates /\ error res = standard_error estimates /\ res_n res = n /\ res_m res = length estimates /\
  iterations res = S (length older) /\ evaluations res = total_evaluations ((n, rows) :: older).
Proof.
  intros n rows older HV res estimates. destruct (history_ok _ HV) as (r & rest & E & G1 & G2 & G3 & G4 & G5 & G6).
  assert (ER : res = r).
  { unfold res. cbn [history] in E. unfold reduce_real, reduce in *. destruct (restore R 0 Rmult INR variance_from_error_real n (history older)) as [[[[[a b] c] d] e] l].
    destruct (fold_left _ (seq 0 (length rows)) (a, b)) as [u v]. cbn [fst snd] in *. inversion E. reflexivity. }
  rewrite ER. unfold estimates. rewrite map_length. repeat split; assumption.
Qed.
Print Assumptions C79_pooled_statistics.
(** [sample] splits its shifts into packages; the result is the same as for one package *)
Theorem C79_sample : forall n maxmperpackage rows older, (1 <= n)%nat -> (2 <= maxmperpackage)%nat -> (1 <= length rows)%nat -> same_width rows -> valid older ->
  (2 <= length (pooled n older) + length rows)%nat ->
  exists res rounds, sample_real n (length rows) maxmperpackage rows (history older) = (Some res, history rounds) /\ valid rounds /\ pooled n rounds = pooled n older ++ rows /\
    integral res = mean (map (estimate n) (pooled n older ++ rows)) /\ error res = standard_error (map (estimate n) (pooled n older ++ rows)) /\
    res_n res = n /\ res_m res = (length (pooled n older) + length rows)%nat /\ evaluations res = (total_evaluations older + n * length rows)%nat /\
    evaluations res = total_evaluations rounds /\ iterations res = (length older + length (shift_numbers (length rows) maxmperpackage))%nat.
Proof.
  intros n mx rows older H1 H2 H3 H4 H5 H6. destruct (sample_ok n mx rows older H1 H2 H3 H4 H5 H6) as (res & rounds & E & V & (G1 & G2 & G3 & G4 & G5 & G6) & EP & EL & ET & _).
  exists res, rounds. rewrite EP in *. rewrite ET in G6. rewrite EL in G5. rewrite app_length in G4. repeat split; try assumption. congruence.
Qed.
Print Assumptions C79_sample.
(** the packages of shifts: as few as possible, none empty, none too large, together all shifts *)
Theorem C79_packages_of_shifts : forall m maxmperpackage, (1 <= m)%nat -> (1 <= maxmperpackage)%nat ->
  let l := shift_numbers m maxmperpackage in
  fold_right Nat.add 0%nat l = m /\ Forall (fun s => (1 <= s <= maxmperpackage)%nat) l /\ ((length l - 1) * maxmperpackage < m)%nat.
Proof.
  intros m mx Hm Hx l. destruct (shift_numbers_sum m mx Hm Hx) as [A B]. split; [exact A|]. split; [exact B|]. destruct (shift_numbers_ok m mx Hm Hx) as (k & Hk & E). unfold l. rewrite E, app_length, repeat_length. cbn [length].
  replace (k + 1 - 1)%nat with k by lia. apply Hk.
Qed.
Print Assumptions C79_packages_of_shifts.
(** complex integrands: real and imaginary part are treated like separate real integrands *)
Theorem C79_complex : forall f r n m previous, f = fst \/ f = snd -> (1 <= n)%nat ->
  (2 <= m + match previous with p :: _ => if Nat.eqb (res_n p) n then res_m p else 0 | [] => 0 end)%nat ->
  reduce_real (map f r) n m (map (part f) previous) = (part f (fst (reduce_complex r n m previous)), map (part f) (snd (reduce_complex r n m previous))).
Proof. intros f r n m previous Hf. apply reduce_part. exact Hf. Qed.
Print Assumptions C79_complex.
(** ** a concrete case: two shifts of the lattice of size 1, two of the lattice of size 2, then another one *)
Example C79_example : valid [(2%nat, [[3]; [5]]); (1%nat, [[1]; [7]])] /\
  let res := fst (reduce_real (concat [[3]; [5]]) 2 2 (history [(1%nat, [[1]; [7]])])) in
  integral res = 2 /\ error res = 1 / 2 /\ evaluations res = 6%nat /\
  let res' := fst (reduce_real (concat [[10]]) 2 1 (history [(2%nat, [[3]; [5]]); (1%nat, [[1]; [7]])])) in
  integral res' = 3 /\ error res' = sqrt (13 / 12) /\ res_m res' = 3%nat /\ iterations res' = 3%nat /\ evaluations res' = 8%nat.
Proof.
  assert (W1 : forall a b : R, same_width [[a]; [b]]) by (intros; exists 1%nat; repeat constructor).
  assert (V : valid [(2%nat, [[3]; [5]]); (1%nat, [[1]; [7]])]) by (cbn; repeat split; try lia; apply W1).
  assert (V2 : valid ((2%nat, [[10]]) :: [(2%nat, [[3]; [5]]); (1%nat, [[1]; [7]])])).
  { split; [lia|]. split; [exists 1%nat; repeat constructor|]. split; [cbn; lia|exact V]. }
  split; [exact V|]. destruct (C79_pooled_statistics 2 [[3]; [5]] [(1%nat, [[1]; [7]])] V) as (A1 & A2 & A3 & A4 & A5 & A6).
  destruct (C79_pooled_statistics 2 [[10]] _ V2) as (B1 & B2 & B3 & B4 & B5 & B6). cbv zeta.
  split; [etransitivity; [exact A1|]|split; [etransitivity; [exact A2|]|split; [exact A6|split; [etransitivity; [exact B1|]|split; [etransitivity; [exact B2|]|split; [exact B4|split; [exact B5|exact B6]]]]]]].
  - unfold mean, estimate, sum. cbn. lra.
  - unfold standard_error, mean, estimate, sum. cbn. replace ((_ + _) / _) with ((1 / 2) * (1 / 2)) by field. apply sqrt_square. lra.
  - unfold mean, estimate, sum. cbn. lra.
  - unfold standard_error, mean, estimate, sum. cbn. f_equal. field.
Qed.
Print Assumptions C79_example.
(** ** C80 *)
Definition running (f : nat -> nat -> R) n m total lanes w schedule : option (state (nat -> nat -> R)) :=
  execute _ (launch_sample f n m total lanes w) (teardown_sample m lanes w) schedule (start_sample total lanes).
(** for every interleaving of [w] threads on the CPU and on devices that runs until all threads have finished, the row of the result vector of
    shift [k] adds up to the sum of the integrand over all lattice points *)
Theorem C80_every_point_once : forall f n m total lanes w schedule s k,
  (forall t b, lanes t = Some b -> (1 <= b)%nat) -> (1 <= total)%nat -> (1 <= w)%nat -> Forall (fun t => (t < w)%nat) schedule ->
  running f n m total lanes w schedule = Some s -> (forall t, (t < w)%nat -> finished (workers s t)) -> (k < m)%nat ->
  shift_sum R 0 Rplus (map (memory s) (seq 0 (m * w))) m k = sum (map (f k) (seq 0 n)).
Proof.
  intros f n m total lanes w schedule s k HL HT Hw HS E HF Hk. set (rows := map (fun k => map (fun t => memory s (t + k * w)%nat) (seq 0 w)) (seq 0 m)).
  assert (ER : map (memory s) (seq 0 (m * w)) = concat rows).
  { unfold rows. clear. induction m as [|m IH]; [reflexivity|]. rewrite seq_S, map_app, concat_app, <- IH. cbn [map concat Nat.add]. rewrite app_nil_r. replace (S m * w)%nat with (m * w + w)%nat by lia. rewrite seq_app, map_app. f_equal.
    cbn [Nat.add]. clear IH. generalize (m * w)%nat as a. intros a.
    assert (G : forall w b, map (memory s) (seq (a + b) w) = map (fun t => memory s (t + a)%nat) (seq b w)) by (clear; induction w as [|w IH]; intros b; [reflexivity|]; cbn [seq map]; rewrite (Nat.add_comm a b), <- IH; f_equal; f_equal; f_equal; lia).
    specialize (G w 0%nat). rewrite Nat.add_0_r in G. exact G. }
  rewrite ER. assert (Lr : length rows = m) by (unfold rows; rewrite map_length, seq_length; reflexivity). rewrite <- Lr at 1.
  rewrite (shift_sum_row R 0 Rplus w).
  - rewrite fold_sum, Rplus_0_l. unfold rows. rewrite (nth_indep _ [] (map (fun t => memory s (t + 0 * w)%nat) (seq 0 w))) by (rewrite map_length, seq_length; exact Hk).
    rewrite (map_nth (fun k => map (fun t => memory s (t + k * w)%nat) (seq 0 w)) (seq 0 m) 0%nat k), seq_nth by exact Hk. cbn [Nat.add].
    rewrite <- (sample_total f n m total lanes w HL schedule s k HT Hw HS E HF Hk). symmetry. apply big_sum.
  - unfold rows. apply Forall_forall. intros row Hr. apply in_map_iff in Hr. destruct Hr as (j & <- & _). rewrite map_length, seq_length. reflexivity.
  - rewrite Lr. exact Hk.
Qed.
Print Assumptions C80_every_point_once.
(** execution without threads *)
Theorem C80_serial : forall f n m total k, (1 <= total)%nat -> (k < m)%nat -> serial f n m total k = sum (map (f k) (seq 0 n)).
Proof. exact serial_ok. Qed.
Print Assumptions C80_serial.
(** no data race: two threads never have accesses to the same element ahead, and all accesses are inside the vector *)
Theorem C80_no_race : forall f n m total lanes w schedule s t t' a, (forall t b, lanes t = Some b -> (1 <= b)%nat) -> Forall (fun t => (t < w)%nat) schedule ->
  running f n m total lanes w schedule = Some s -> (t < w)%nat -> (t' < w)%nat -> In a (accesses s t) -> (a < m * w)%nat /\ (In a (accesses s t') -> t = t').
Proof.
  intros f n m total lanes w schedule s t t' a HL HS E Ht Ht' Ha. pose proof (execute_inv f n m total lanes w schedule _ s HS (start_inv f n m total lanes w HL) E) as HI.
  destruct (accesses_ok f n m total lanes w s t a HI Ht Ha) as (k & Hk & ->). split; [nia|]. intros Ha'. destruct (accesses_ok f n m total lanes w s t' _ HI Ht' Ha') as (k' & Hk' & E'). apply (slot_inj w t k t' k' Ht Ht' E').
Qed.
Print Assumptions C80_no_race.
(** no deadlock and no endless execution: every thread that has not finished can go on, all executions are shorter than a fixed bound, and every
    execution can be continued until all threads have finished *)
Lemma running_bound f n m total lanes w : (forall t b, lanes t = Some b -> (1 <= b)%nat) -> forall schedule s, Forall (fun t => (t < w)%nat) schedule ->
  running f n m total lanes w schedule = Some s ->
  sized _ s /\ (length schedule + measure _ w (m * n) m s <= measure _ w (m * n) m (start_sample total lanes))%nat.
Proof.
  intros HL schedule s HS E.
  assert (HA : forall t i c p, (1 <= c)%nat -> (length (snd (launch_sample f n m total lanes w t i c p)) <= c * (m * n))%nat).
  { intros t i c p Hc. unfold launch_sample. destruct (lanes t); cbn [snd length]; [lia|]. assert (length (compute f n m total t w i) <= m * n)%nat; [|nia]. unfold compute.
    assert (G : forall l, (length (flat_map (fun k => map (fun o => Add (t + k * w) (f k o)) (offsets n n total i)) l) <= length l * n)%nat).
    { induction l as [|k l IH]; [cbn; lia|]. cbn [flat_map length]. rewrite app_length, map_length. pose proof (offsets_length_fuel n total n i). lia. }
    specialize (G (seq 0 m)). rewrite seq_length in G. exact G. }
  assert (HB : forall t p, (length (teardown_sample m lanes w t p) <= m)%nat) by (intros t p; unfold teardown_sample; destruct (lanes t); [rewrite map_length, seq_length; lia|cbn; lia]).
  assert (S0 : sized _ (start_sample total lanes)) by (intros t; cbn; destruct (lanes t) as [b|] eqn:EL; [apply (HL t b EL)|lia]).
  split; [|apply (execute_bound _ _ _ w (m * n) m HA HB schedule _ s HS S0 E)].
  unfold running in E. clear - HA HB HS S0 E. revert S0 E. generalize (start_sample total lanes) as s0. induction schedule as [|t r IH]; intros s0 S0 E; cbn [execute] in E; [inversion E as [E0]; rewrite <- E0; exact S0|].
  inversion HS as [|? ? H1 H2 EE]. destruct (step _ _ _ t s0) as [s1|] eqn:E1; [|discriminate]. apply (IH H2 s1); [|exact E]. apply (step_measure _ _ _ w (m * n) m HA HB t s0 s1 H1 S0 E1).
Qed.
Lemma execute_snoc P l td schedule : forall (s s1 s2 : state P) t, execute P l td schedule s = Some s1 -> step P l td t s1 = Some s2 -> execute P l td (schedule ++ [t]) s = Some s2.
Proof.
  induction schedule as [|x r IH]; intros s s1 s2 t E1 E2; cbn [app execute] in *; [inversion E1 as [E0]; rewrite E2; reflexivity|].
  destruct (step P l td x s) as [s'|]; [|discriminate]. apply (IH s' s1); assumption.
Qed.
Theorem C80_terminates : forall f n m total lanes w, (forall t b, lanes t = Some b -> (1 <= b)%nat) ->
  (forall s t, step _ (launch_sample f n m total lanes w) (teardown_sample m lanes w) t s = None <-> finished (workers s t)) /\
  (exists bound, forall schedule, Forall (fun t => (t < w)%nat) schedule -> running f n m total lanes w schedule <> None -> (length schedule <= bound)%nat) /\
  forall schedule, Forall (fun t => (t < w)%nat) schedule -> running f n m total lanes w schedule <> None ->
    exists rest s, Forall (fun t => (t < w)%nat) rest /\ running f n m total lanes w (schedule ++ rest) = Some s /\ forall t, (t < w)%nat -> finished (workers s t).
Proof.
  intros f n m total lanes w HL. split; [intros s t; apply step_none|]. split.
  - exists (measure _ w (m * n) m (start_sample total lanes)). intros schedule HS NE. destruct (running f n m total lanes w schedule) as [s|] eqn:E; [|contradiction].
    pose proof (running_bound f n m total lanes w HL schedule s HS E) as [_ B]. lia.
  - assert (G : forall N schedule s, Forall (fun t => (t < w)%nat) schedule -> running f n m total lanes w schedule = Some s -> (measure _ w (m * n) m (start_sample total lanes) <= length schedule + N)%nat ->
      exists rest s', Forall (fun t => (t < w)%nat) rest /\ running f n m total lanes w (schedule ++ rest) = Some s' /\ forall t, (t < w)%nat -> finished (workers s' t)).
    { assert (D : forall s : state (nat -> nat -> R), (forall t, (t < w)%nat -> finished (workers s t)) \/ exists t, (t < w)%nat /\ ~ finished (workers s t)).
      { intros s. clear. induction w as [|w' IH]; [left; intros t Ht; lia|]. destruct IH as [A|(t & Ht & A)]; [|right; exists t; split; [lia|exact A]].
        assert (DD : finished (workers s w') \/ ~ finished (workers s w')).
        { unfold finished. destruct (closing (workers s w')), (todo (workers s w')); [left; split; reflexivity|right; intros [_ C]; discriminate|right; intros [C _]; discriminate|right; intros [C _]; discriminate]. }
        destruct DD as [Y|Y]; [left; intros t Ht; destruct (Nat.eq_dec t w') as [->|Ne]; [exact Y|apply A; lia]|right; exists w'; split; [lia|exact Y]]. }
      induction N as [|N IH]; intros schedule s HS E HN; destruct (D s) as [A|(t & Ht & A)].
      - exists [], s. rewrite app_nil_r. split; [constructor|]. split; assumption.
      - exfalso. destruct (step _ (launch_sample f n m total lanes w) (teardown_sample m lanes w) t s) as [s1|] eqn:E1; [|apply A; apply step_none in E1; exact E1].
        assert (E2 : running f n m total lanes w (schedule ++ [t]) = Some s1) by (apply (execute_snoc _ _ _ schedule _ s s1 t E E1)).
        destruct (running_bound f n m total lanes w HL (schedule ++ [t]) s1) as [_ B]; [apply Forall_app; split; [exact HS|constructor; [exact Ht|constructor]]|exact E2|]. rewrite app_length in B. cbn [length] in B. lia.
      - exists [], s. rewrite app_nil_r. split; [constructor|]. split; assumption.
      - destruct (step _ (launch_sample f n m total lanes w) (teardown_sample m lanes w) t s) as [s1|] eqn:E1; [|exfalso; apply A; apply step_none in E1; exact E1].
        assert (E2 : running f n m total lanes w (schedule ++ [t]) = Some s1) by (apply (execute_snoc _ _ _ schedule _ s s1 t E E1)).
        assert (HS2 : Forall (fun t => (t < w)%nat) (schedule ++ [t])) by (apply Forall_app; split; [exact HS|constructor; [exact Ht|constructor]]).
        destruct (IH (schedule ++ [t]) s1 HS2 E2) as (rest & s' & R1 & R2 & R3); [rewrite app_length; cbn [length]; lia|]. exists (t :: rest), s'. split; [constructor; assumption|]. rewrite <- app_assoc in R2. split; [exact R2|exact R3]. }
    intros schedule HS NE. destruct (running f n m total lanes w schedule) as [s|] eqn:E; [|contradiction]. apply (G (measure _ w (m * n) m (start_sample total lanes)) schedule s HS E). lia.
Qed.
Print Assumptions C80_terminates.
(** the packages: not more points than [maxnperpackage] each, as few packages as this allows *)
Theorem C80_package_size : forall n maxnperpackage, (1 <= n)%nat -> (1 <= maxnperpackage)%nat -> let total := total_work_packages n maxnperpackage in
  (1 <= total)%nat /\ ((total - 1) * Nat.min maxnperpackage n < n)%nat /\ forall i, (length (offsets n n total i) <= maxnperpackage)%nat.
Proof. intros n mx Hn Hx total. destruct (total_ok n mx Hn Hx) as (A & B & C). split; [apply A|]. split; [exact C|]. intros i. apply package_size; assumption. Qed.
Print Assumptions C80_package_size.
(** [evaluate]: every point of the lattice is evaluated into its place *)
Theorem C80_evaluate : forall f n lanes w schedule s i, (forall t b, lanes t = Some b -> (1 <= b)%nat) -> (1 <= w)%nat -> Forall (fun t => (t < w)%nat) schedule ->
  execute unit (launch_evaluate f lanes) teardown_evaluate schedule (start_evaluate n lanes) = Some s -> (forall t, (t < w)%nat -> finished (workers s t)) -> (i < n)%nat -> memory s i = f i.
Proof. intros f n lanes w schedule s i HL. apply evaluate_ok. exact HL. Qed.
Print Assumptions C80_evaluate.
(** together with C79: the integral is the average, over the shifts, of the shifted lattice rule *)
Theorem C80_lattice_rule : forall (func : list R -> R) (n : nat) genvec shifts total lanes w schedule s,
  (0 < Z.of_nat n < 2 ^ 52)%Z -> Forall (fun z => 0 <= z < Z.of_nat n)%Z genvec -> (2 <= length shifts)%nat ->
  (forall t b, lanes t = Some b -> (1 <= b)%nat) -> (1 <= total)%nat -> (1 <= w)%nat -> Forall (fun t => (t < w)%nat) schedule ->
  running (fun k o => func (KernModel.sample (Z.of_nat n) genvec (nth k shifts []) (Z.of_nat o))) n (length shifts) total lanes w schedule = Some s ->
  (forall t, (t < w)%nat -> finished (workers s t)) ->
  integral (fst (reduce_real (map (memory s) (seq 0 (length shifts * w))) n (length shifts) [])) =
  mean (map (fun d => sum (map (fun i => func (KernSpec.point (Z.of_nat n) genvec d (Z.of_nat i))) (seq 0 n)) / INR n) shifts).
Proof.
  intros func n gv ds total lanes w schedule s Hn Hz H2 HL HT Hw HS E HF. set (m := length ds) in *. set (r := map (memory s) (seq 0 (m * w))).
  set (row := fun d => map (fun i => func (KernSpec.point (Z.of_nat n) gv d (Z.of_nat i))) (seq 0 n)).
  assert (ES : forall k, (k < m)%nat -> shift_sum R 0 Rplus r m k = sum (row (nth k ds []))).
  { intros k Hk. unfold r. rewrite (C80_every_point_once _ n m total lanes w schedule s k HL HT Hw HS E HF Hk). unfold row. f_equal. apply map_ext_in. intros i Hi. apply in_seq in Hi. rewrite KernProofs.sample_ok; [reflexivity|assumption|assumption|lia]. }
  set (rows := map row ds).
  assert (LR : length rows = m) by (unfold rows; rewrite map_length; reflexivity).
  assert (EQ : reduce_real r n m [] = reduce_real (concat rows) n m []).
  { assert (HW : Forall (fun x => length x = n) rows) by (unfold rows; apply Forall_forall; intros x Hx; apply in_map_iff in Hx; destruct Hx as (d & <- & _); unfold row; rewrite map_length, seq_length; reflexivity).
    assert (SS : forall k, (k < m)%nat -> shift_sum R 0 Rplus r m k = shift_sum R 0 Rplus (concat rows) m k).
    { intros k Hk. rewrite ES by exact Hk. rewrite <- LR at 1. rewrite (shift_sum_row R 0 Rplus n rows k HW) by lia. rewrite fold_sum, Rplus_0_l. f_equal. unfold rows. rewrite (nth_indep (map row ds) [] (row [])) by (rewrite map_length; exact Hk). rewrite map_nth. reflexivity. }
    unfold reduce_real, reduce. cbn [restore].
    assert (G : forall l st, Forall (fun k => (k < m)%nat) l -> fold_left (shift_step R 0 Rplus Rminus Rdiv INR variance_real r m 0) l st = fold_left (shift_step R 0 Rplus Rminus Rdiv INR variance_real (concat rows) m 0) l st).
    { induction l as [|k l IH]; intros st HFo; [reflexivity|]. inversion HFo as [|? ? F1 F2 EE]. cbn [fold_left]. rewrite IH by exact F2. f_equal. unfold shift_step. destruct st as [a b]. rewrite (SS k F1). reflexivity. }
    rewrite G; [reflexivity|]. apply Forall_forall. intros k Hk. apply in_seq in Hk. lia. }
  rewrite EQ. assert (V : valid [(n, rows)]).
  { split; [lia|]. split; [exists n; unfold rows; apply Forall_forall; intros x Hx; apply in_map_iff in Hx; destruct Hx as (d & <- & _); unfold row; rewrite map_length, seq_length; reflexivity|]. split; [|exact I]. rewrite pooled_same. cbn [pooled app]. lia. }
  destruct (C79_pooled_statistics n rows [] V) as [A _]. cbn [history] in A. rewrite LR in A. rewrite A. rewrite pooled_same. cbn [pooled app]. unfold rows. rewrite map_map. reflexivity.
Qed.
Print Assumptions C80_lattice_rule.
(** ** a concrete case: a CPU thread and a device with two lanes share five packages; the device is interrupted while it copies its sums *)
Definition ex_lanes (t : nat) : option nat := if Nat.eqb t 0 then Some 2%nat else None.
Definition ex_schedule : list nat := [1; 0; 1; 0; 1; 1; 1; 0; 0; 1; 0]%nat.
Example C80_example : exists s, running (fun k o => INR (k + o)) 5 2 5 ex_lanes 2 ex_schedule = Some s /\ (forall t, (t < 2)%nat -> finished (workers s t)).
Proof.
  eexists. split; [vm_compute; reflexivity|]. intros [|[|t]] Ht; [split; reflexivity|split; reflexivity|lia].
Qed.
Print Assumptions C80_example.
