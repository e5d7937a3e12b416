(** Proofs for C80. *)
From Coq Require Import List Arith Reals Lia Lra Bool. Import ListNotations.
From Verif Require Import QmcWork QmcSpec.
From Verif Require QmcStat.
Local Open Scope R_scope.
(** ** finite sums *)
Fixpoint big (N : nat) (g : nat -> R) : R := match N with O => 0 | S N => big N g + g N end.
Lemma big_sum N g : big N g = sum (map g (seq 0 N)).
Proof. induction N as [|N IH]; [reflexivity|]. rewrite seq_S, map_app, QmcStat.sum_app, <- IH. unfold sum. cbn [big map fold_right Nat.add]. ring. Qed.
Lemma big_ext N g h : (forall i, (i < N)%nat -> g i = h i) -> big N g = big N h.
Proof. induction N as [|N IH]; intros H; [reflexivity|]. cbn [big]. rewrite (H N), IH by (intros; try apply H; lia). reflexivity. Qed.
Lemma big_plus N g h : big N (fun i => g i + h i) = big N g + big N h.
Proof. induction N as [|N IH]; cbn [big]; [ring|rewrite IH; ring]. Qed.
Lemma big_zero N : big N (fun _ => 0) = 0.
Proof. induction N as [|N IH]; cbn [big]; [ring|rewrite IH; ring]. Qed.
Lemma big_add N M g : big (N + M) g = big N g + big M (fun i => g (N + i)%nat).
Proof. induction M as [|M IH]; [rewrite Nat.add_0_r; cbn [big]; ring|]. rewrite Nat.add_succ_r. cbn [big]. rewrite IH. ring. Qed.
Lemma big_change N g h t : (t < N)%nat -> (forall i, i <> t -> g i = h i) -> big N g = big N h + (g t - h t).
Proof.
  induction N as [|N IH]; intros Ht H; [lia|]. cbn [big]. destruct (Nat.eq_dec t N) as [->|Ne].
  - rewrite (big_ext N g h) by (intros i Hi; apply H; lia). ring.
  - rewrite IH by (assumption || lia). rewrite (H N) by lia. ring.
Qed.
Lemma fold_plus l : forall s, fold_left Rplus l s = s + sum l. Proof. exact (QmcStat.fold_sum l). Qed.
Lemma fold_plus_map {A} (g : A -> R) l : forall s, fold_left (fun s o => s + g o) l s = s + sum (map g l).
Proof. induction l as [|x l IH]; intros s; cbn [fold_left map]; [unfold sum; cbn; ring|rewrite IH, QmcStat.sum_cons; ring]. Qed.
(** ** the packages cover the lattice *)
Lemma offsets_sum g n T : forall fuel p, sum (map g (offsets fuel n T p)) = big fuel (fun j => if Nat.ltb (p + j * T) n then g (p + j * T)%nat else 0).
Proof.
  induction fuel as [|fuel IH]; intros p; [reflexivity|]. cbn [offsets].
  assert (E : forall h, big (S fuel) h = h 0%nat + big fuel (fun j => h (S j))).
  { clear. intros h. change (S fuel) with (1 + fuel)%nat. rewrite big_add. cbn [big]. rewrite Rplus_0_l. reflexivity. }
  rewrite E. replace (p + 0 * T)%nat with p by lia. destruct (Nat.ltb p n) eqn:L.
  - cbn [map]. rewrite QmcStat.sum_cons, IH. f_equal. apply big_ext. intros j _. replace (p + T + j * T)%nat with (p + S j * T)%nat by lia. reflexivity.
  - apply Nat.ltb_ge in L. rewrite (big_ext fuel _ (fun _ => 0)); [rewrite big_zero; unfold sum; cbn; ring|]. intros j _. destruct (Nat.ltb (p + S j * T) n) eqn:L2; [apply Nat.ltb_lt in L2; lia|reflexivity].
Qed.
Lemma double_big T h : forall J, big T (fun p => big J (fun j => h (p + j * T)%nat)) = big (J * T) h.
Proof.
  induction J as [|J IH]; [apply big_zero|]. cbn [big]. rewrite big_plus, IH. replace (S J * T)%nat with (J * T + T)%nat by lia. rewrite big_add. f_equal. apply big_ext. intros p _. f_equal. lia.
Qed.
Definition pkg (f : nat -> nat -> R) n T (k p : nat) : R := sum (map (f k) (offsets n n T p)).
Lemma packages_cover f n T k : (1 <= T)%nat -> big T (pkg f n T k) = sum (map (f k) (seq 0 n)).
Proof.
  intros HT. unfold pkg. rewrite (big_ext T _ (fun p => big n (fun j => (fun o => if Nat.ltb o n then f k o else 0) (p + j * T)%nat))) by (intros p _; apply offsets_sum).
  refine (eq_trans (double_big T (fun o => if Nat.ltb o n then f k o else 0) n) _). replace (n * T)%nat with (n + (n * T - n))%nat by nia. rewrite big_add. rewrite (big_ext (n * T - n) _ (fun _ => 0)).
  - rewrite big_zero, Rplus_0_r, <- big_sum. apply big_ext. intros i Hi. apply Nat.ltb_lt in Hi. rewrite Hi. reflexivity.
  - intros i _. destruct (Nat.ltb (n + i) n) eqn:L; [apply Nat.ltb_lt in L; lia|reflexivity].
Qed.
Lemma offsets_length n T : (1 <= T)%nat -> forall fuel p, (length (offsets fuel n T p) * T <= n - p + (T - 1))%nat.
Proof.
  intros HT. induction fuel as [|fuel IH]; intros p; cbn [offsets]; [cbn; lia|]. destruct (Nat.ltb p n) eqn:L; [|cbn; lia]. apply Nat.ltb_lt in L. cbn [length]. specialize (IH (p + T)%nat). destruct (le_lt_dec (p + T) n) as [G|G]; [nia|].
  set (l := length (offsets fuel n T (p + T))) in *. replace (n - (p + T))%nat with 0%nat in IH by lia. assert (l = 0)%nat by (destruct l; [reflexivity|nia]). nia.
Qed.
Lemma offsets_length_fuel n T : forall fuel p, (length (offsets fuel n T p) <= fuel)%nat.
Proof. induction fuel as [|fuel IH]; intros p; cbn [offsets]; [cbn; lia|]. destruct (Nat.ltb p n); cbn [length]; [specialize (IH (p + T)%nat); lia|lia]. Qed.
Lemma total_ok n mx : (1 <= n)%nat -> (1 <= mx)%nat -> let T := total_work_packages n mx in
  (1 <= T <= n)%nat /\ (n <= T * Nat.min mx n)%nat /\ ((T - 1) * Nat.min mx n < n)%nat.
Proof.
  intros Hn Hx. cbv zeta. unfold total_work_packages. set (p := Nat.min mx n). assert (Hp : (1 <= p <= n)%nat) by (unfold p; lia).
  pose proof (Nat.div_mod n p ltac:(lia)) as D. pose proof (Nat.mod_upper_bound n p ltac:(lia)) as B. destruct (Nat.eqb (n mod p) 0) eqn:E.
  - apply Nat.eqb_eq in E. assert (1 <= n / p)%nat by nia. assert (n / p <= n)%nat by nia. nia.
  - apply Nat.eqb_neq in E. assert (1 <= n / p)%nat by (apply Nat.div_le_lower_bound; lia). assert (n / p + 1 <= n)%nat by nia. nia.
Qed.
Lemma package_size n mx i : (1 <= n)%nat -> (1 <= mx)%nat -> (length (offsets n n (total_work_packages n mx) i) <= mx)%nat.
Proof.
  intros Hn Hx. destruct (total_ok n mx Hn Hx) as (T1 & T2 & T3). pose proof (offsets_length n (total_work_packages n mx) ltac:(lia) n i) as L. set (T := total_work_packages n mx) in *.
  set (len := length (offsets n n T i)) in *. assert (n <= T * mx)%nat by nia. destruct (le_lt_dec len mx) as [H1|H1]; [exact H1|]. exfalso. nia.
Qed.
(** ** termination *)
Lemma upd_same {A} (g : nat -> A) i v : upd g i v i = v. Proof. unfold upd. rewrite Nat.eqb_refl. reflexivity. Qed.
Lemma upd_other {A} (g : nat -> A) i v j : j <> i -> upd g i v j = g j. Proof. intros H. unfold upd. destruct (Nat.eqb j i) eqn:E; [apply Nat.eqb_eq in E; contradiction|reflexivity]. Qed.
Section Termination.
Variable P : Type.
Variables (launch : nat -> nat -> nat -> P -> P * list access) (teardown : nat -> P -> list access) (w A B : nat).
Hypothesis HA : forall t i c p, (1 <= c)%nat -> (length (snd (launch t i c p)) <= c * A)%nat.
Hypothesis HB : forall t p, (length (teardown t p) <= B)%nat.
Definition effort (x : worker P) : nat := (2 * length (todo x) + (if register x then 0 else 1) + (if closing x then 0 else 2 * B + 2))%nat.
Fixpoint bign (N : nat) (g : nat -> nat) : nat := match N with O => 0%nat | S N => (bign N g + g N)%nat end.
Lemma bign_ext N g h : (forall i, (i < N)%nat -> g i = h i) -> bign N g = bign N h.
Proof. induction N as [|N IH]; intros H; [reflexivity|]. cbn [bign]. rewrite (H N), IH by (intros; try apply H; lia). reflexivity. Qed.
Lemma bign_change N g h t : (t < N)%nat -> (forall i, i <> t -> g i = h i) -> (bign N g + h t = bign N h + g t)%nat.
Proof.
  induction N as [|N IH]; intros Ht H; [lia|]. cbn [bign]. destruct (Nat.eq_dec t N) as [->|Ne].
  - rewrite (bign_ext N g h) by (intros i Hi; apply H; lia). lia.
  - specialize (IH ltac:(lia) H). rewrite (H N) by lia. lia.
Qed.
Definition measure (s : state P) : nat := (work_queue s * (2 * A + 2) + bign w (fun t => effort (workers s t)))%nat.
Definition sized (s : state P) : Prop := forall t, (1 <= work_this_iteration (workers s t))%nat.
Lemma step_measure t s s' : (t < w)%nat -> sized s -> step P launch teardown t s = Some s' -> sized s' /\ (measure s' < measure s)%nat.
Proof.
  intros Ht HS E. unfold step in E.
  assert (K : forall q mem x, (1 <= work_this_iteration x)%nat -> (q * (2 * A + 2) + effort x < work_queue s * (2 * A + 2) + effort (workers s t))%nat ->
    let s' := {| work_queue := q; memory := mem; workers := upd (workers s) t x |} in sized s' /\ (measure s' < measure s)%nat).
  { intros q mem x Hx Hlt. cbv zeta. split.
    - intros j. cbn [workers]. destruct (Nat.eq_dec j t) as [->|Ne]; [rewrite upd_same; exact Hx|rewrite upd_other by exact Ne; apply HS].
    - unfold measure. cbn [work_queue workers]. pose proof (bign_change w (fun j => effort (upd (workers s) t x j)) (fun j => effort (workers s j)) t Ht) as C.
      cbv beta in C. rewrite upd_same in C. specialize (C ltac:(intros j Hj; rewrite upd_other by exact Hj; reflexivity)). lia. }
  pose proof (HS t) as H1. destruct (workers s t) as [sz pr td rg cl] eqn:EW. cbn [todo register closing work_this_iteration private] in *.
  destruct td as [|[a v|a v] rest].
  - destruct cl; [discriminate|]. destruct (Nat.eqb (work_queue s) 0) eqn:Q.
    + inversion E. apply K; [cbn; exact H1|]. unfold effort. cbn [todo register closing length]. pose proof (HB t pr). apply Nat.eqb_eq in Q. rewrite Q. destruct rg; lia.
    + apply Nat.eqb_neq in Q. set (c := if Nat.leb sz (work_queue s) then sz else work_queue s) in *. set (q := if Nat.leb sz (work_queue s) then (work_queue s - sz)%nat else 0%nat) in *.
      assert (Hc : (1 <= c)%nat /\ (q + c = work_queue s)%nat) by (unfold c, q; destruct (Nat.leb sz (work_queue s)) eqn:L; [apply Nat.leb_le in L|]; lia).
      pose proof (HA t q c pr ltac:(lia)) as LA. destruct (launch t q c pr) as [p l]. cbn [snd] in LA. inversion E. apply K; [cbn; lia|]. unfold effort. cbn [todo register closing length]. destruct rg; nia.
  - destruct rg as [x|]; inversion E; (apply K; [cbn; exact H1|]); unfold effort; cbn [todo register closing length]; destruct cl; lia.
  - inversion E; (apply K; [cbn; exact H1|]); unfold effort; cbn [todo register closing length]; destruct cl, rg; lia.
Qed.
Lemma execute_bound schedule : forall s s', Forall (fun t => (t < w)%nat) schedule -> sized s -> execute P launch teardown schedule s = Some s' ->
  (length schedule + measure s' <= measure s)%nat.
Proof.
  induction schedule as [|t r IH]; intros s s' HT HS E; cbn [execute] in E; [inversion E; cbn; lia|]. inversion HT as [|? ? H1 H2 EE]. destruct (step P launch teardown t s) as [s1|] eqn:E1; [|discriminate].
  destruct (step_measure t s s1 H1 HS E1) as [S1 M1]. specialize (IH s1 s' H2 S1 E). cbn [length]. lia.
Qed.
Lemma step_none t s : step P launch teardown t s = None <-> finished (workers s t).
Proof.
  unfold step, finished. destruct (workers s t) as [sz pr td rg cl]. cbn [todo register closing work_this_iteration private]. destruct td as [|[a v|a v] rest].
  - destruct cl; [tauto|]. split; [|intros [H _]; discriminate]. destruct (Nat.eqb (work_queue s) 0); [discriminate|]. destruct (launch t _ _ pr). discriminate.
  - split; [destruct rg; discriminate|intros [_ H]; discriminate].
  - split; [discriminate|intros [_ H]; discriminate].
Qed.
End Termination.
(** ** sample: the sums of the slots *)
Lemma slot_inj w t k t' k' : (t < w)%nat -> (t' < w)%nat -> (t + k * w = t' + k' * w)%nat -> t = t' /\ k = k'.
Proof. intros H1 H2 E. assert (k = k') by nia. split; nia. Qed.
Section Sample.
Variables (f : nat -> nat -> R) (n m total : nat) (lanes : nat -> option nat) (w : nat).
Hypothesis Hlanes : forall t b, lanes t = Some b -> (1 <= b)%nat.
Notation buf := (nat -> nat -> R).
Notation stp := (step buf (launch_sample f n m total lanes w) (teardown_sample m lanes w)).
Definition rowsum (b : nat) (d : buf) (k : nat) : R := sum (map (d k) (seq 0 b)).
Definition target (a : access) : nat := match a with Add s _ => s | Put s _ => s end.
Definition amount (s : nat) (a : access) : R := match a with Add s' v => if Nat.eqb s' s then v else 0 | Put _ _ => 0 end.
Definition pending (s : nat) (l : list access) : R := sum (map (amount s) l).
Definition own (t : nat) (a : access) : Prop := exists k v, (k < m)%nat /\ a = Add (t + k * w) v.
(** invariant of one worker *)
Definition ok (mem : nat -> R) (t : nat) (x : worker buf) : Prop :=
  (1 <= work_this_iteration x)%nat /\
  match lanes t with
  | None => work_this_iteration x = 1%nat /\ Forall (own t) (todo x) /\
            match register x with Some y => exists a rest, todo x = a :: rest /\ y = mem (target a) | None => True end
  | Some b => (work_this_iteration x <= b)%nat /\
              (if closing x then exists k0, (k0 <= m)%nat /\ todo x = map (fun k => Put (t + k * w) (rowsum b (private x) k)) (seq k0 (m - k0)) /\
                                       forall k, (k < k0)%nat -> mem (t + k * w)%nat = rowsum b (private x) k
               else todo x = [])
  end.
Definition value (mem : nat -> R) (t : nat) (x : worker buf) (k : nat) : R :=
  match lanes t with None => mem (t + k * w)%nat + pending (t + k * w) (todo x) | Some b => rowsum b (private x) k end.
Definition inv (s : state buf) : Prop :=
  (forall t, (t < w)%nat -> ok (memory s) t (workers s t)) /\
  forall k, (k < m)%nat -> big w (fun t => value (memory s) t (workers s t) k) + big (work_queue s) (pkg f n total k) = big total (pkg f n total k).
Lemma ok_frame mem mem' t x : (forall k, mem' (t + k * w)%nat = mem (t + k * w)%nat) -> ok mem t x -> ok mem' t x.
Proof.
  intros HM [H1 H2]. split; [exact H1|]. destruct (lanes t) as [b|].
  - destruct H2 as [H2 H3]. split; [exact H2|]. destruct (closing x); [|exact H3]. destruct H3 as (k0 & A1 & A2 & A3). exists k0. split; [exact A1|]. split; [exact A2|]. intros k Hk. rewrite HM. apply A3. exact Hk.
  - destruct H2 as (H2 & H3 & H4). split; [exact H2|]. split; [exact H3|]. destruct (register x) as [y|]; [|exact I]. destruct H4 as (a & rest & E & ->). exists a, rest. split; [exact E|].
    rewrite E in H3. inversion H3 as [|? ? [k [v [_ ->]]] ? EE]. cbn [target]. symmetry. apply HM.
Qed.
Lemma value_frame mem mem' t x k : (forall k, mem' (t + k * w)%nat = mem (t + k * w)%nat) -> value mem' t x k = value mem t x k.
Proof. intros HM. unfold value. destruct (lanes t); [reflexivity|]. rewrite HM. reflexivity. Qed.
Lemma pending_cons s a l : pending s (a :: l) = amount s a + pending s l. Proof. reflexivity. Qed.
Lemma pending_app s a b : pending s (a ++ b) = pending s a + pending s b. Proof. unfold pending. rewrite map_app. apply QmcStat.sum_app. Qed.
(** the accesses of a package *)
Lemma compute_own t i : Forall (own t) (compute f n m total t w i).
Proof.
  apply Forall_forall. intros a Ha. unfold compute in Ha. apply in_flat_map in Ha. destruct Ha as (k & Hk & Ha). apply in_map_iff in Ha. destruct Ha as (o & <- & _). apply in_seq in Hk. exists k, (f k o). split; [lia|reflexivity].
Qed.
Lemma compute_pending t i k : (t < w)%nat -> (k < m)%nat -> pending (t + k * w) (compute f n m total t w i) = pkg f n total k i.
Proof.
  intros Ht Hk. unfold compute. assert (G : forall l, NoDup l -> pending (t + k * w) (flat_map (fun k => map (fun o => Add (t + k * w) (f k o)) (offsets n n total i)) l) = if in_dec Nat.eq_dec k l then pkg f n total k i else 0).
  { induction l as [|j l IH]; intros HN; [reflexivity|]. inversion HN as [|? ? N1 N2 E]. cbn [flat_map]. rewrite pending_app, IH by exact N2. destruct (Nat.eq_dec j k) as [->|Ne].
    - destruct (in_dec Nat.eq_dec k l); [contradiction|]. destruct (in_dec Nat.eq_dec k (k :: l)) as [_|C]; [|exfalso; apply C; left; reflexivity]. rewrite Rplus_0_r.
      unfold pending, pkg. rewrite map_map. f_equal. apply map_ext. intros o. cbn [amount]. rewrite Nat.eqb_refl. reflexivity.
    - assert (Z : pending (t + k * w) (map (fun o => Add (t + j * w) (f j o)) (offsets n n total i)) = 0).
      { clear -Ne Ht. unfold pending. rewrite map_map. induction (offsets n n total i) as [|o os IHo]; [reflexivity|]. cbn [map]. rewrite QmcStat.sum_cons, IHo. cbn [amount].
        destruct (Nat.eqb (t + j * w) (t + k * w)) eqn:Q; [|ring]. apply Nat.eqb_eq in Q. exfalso. nia. }
      rewrite Z, Rplus_0_l. destruct (in_dec Nat.eq_dec k l), (in_dec Nat.eq_dec k (j :: l)) as [J|J]; try reflexivity; exfalso; [apply J; right; assumption|destruct J; contradiction]. }
  rewrite G by apply seq_NoDup. destruct (in_dec Nat.eq_dec k (seq 0 m)) as [_|C]; [reflexivity|]. exfalso. apply C, in_seq. lia.
Qed.
Lemma kernel_rowsum b i c d k : (c <= b)%nat -> (k < m)%nat -> rowsum b (kernel f n m total i c d) k = rowsum b d k + big c (fun j => pkg f n total k (i + j)).
Proof.
  intros Hc Hk. unfold rowsum. rewrite <- !big_sum. replace b with (c + (b - c))%nat by lia. rewrite !big_add. unfold kernel.
  rewrite (big_ext c _ (fun j => d k j + pkg f n total k (i + j))).
  - rewrite big_plus. rewrite (big_ext (b - c) (fun i0 => if Nat.ltb k m then _ else _) (fun j => d k (c + j)%nat)); [ring|].
    intros j _. apply Nat.ltb_lt in Hk. rewrite Hk. destruct (Nat.ltb (c + j) c) eqn:L; [apply Nat.ltb_lt in L; lia|reflexivity].
  - intros j Hj. apply Nat.ltb_lt in Hk, Hj. rewrite Hk, Hj. rewrite fold_plus_map. reflexivity.
Qed.
(** one step of thread t: everything but its own worker and slots is unchanged *)
Lemma step_inv t s s' : (t < w)%nat -> inv s -> stp t s = Some s' -> inv s'.
Proof.
  intros Ht [HO HV] E. pose proof (HO t Ht) as OK.
  assert (K : forall q mem x, (forall j, (forall k, j <> t + k * w)%nat -> mem j = memory s j) -> ok mem t x ->
    (forall k, (k < m)%nat -> value mem t x k + big q (pkg f n total k) = value (memory s) t (workers s t) k + big (work_queue s) (pkg f n total k)) ->
    inv {| work_queue := q; memory := mem; workers := upd (workers s) t x |}).
  { intros q mem x HM HX HVal.
    assert (FR : forall j, (j < w)%nat -> j <> t -> forall k, mem (j + k * w)%nat = memory s (j + k * w)%nat).
    { intros j Hj Ne k. apply HM. intros k' C. apply Ne. apply (slot_inj w j k t k' Hj Ht C). }
    split; cbn [work_queue memory workers].
    - intros j Hj. destruct (Nat.eq_dec j t) as [->|Ne]; [rewrite upd_same; exact HX|]. rewrite upd_other by exact Ne. apply (ok_frame (memory s)); [apply FR; assumption|apply HO; exact Hj].
    - intros k Hk. rewrite <- (HV k Hk). rewrite (big_ext w _ (upd (fun j => value (memory s) j (workers s j) k) t (value mem t x k))).
      + rewrite (big_change w _ (fun j => value (memory s) j (workers s j) k) t Ht); [|intros j Hj; rewrite upd_other by exact Hj; reflexivity]. rewrite upd_same. specialize (HVal k Hk). lra.
      + intros j Hj. destruct (Nat.eq_dec j t) as [->|Ne]; [rewrite !upd_same; reflexivity|]. rewrite !upd_other by exact Ne. apply value_frame, FR; assumption. }
  unfold step in E. destruct (workers s t) as [sz pr td rg cl] eqn:EW. destruct OK as [OK1 OK2]. cbn [todo register closing work_this_iteration private] in *. destruct td as [|[a v|a v] rest].
  - destruct cl; [discriminate|]. destruct (Nat.eqb (work_queue s) 0) eqn:Q.
    + inversion E. apply Nat.eqb_eq in Q. apply K; [reflexivity| |].
      * split; [exact OK1|]. unfold teardown_sample. cbn [todo register closing work_this_iteration private]. destruct (lanes t) as [b|] eqn:EL.
        -- split; [apply OK2|]. exists 0%nat. split; [lia|]. split; [|intros k Hk; lia]. rewrite Nat.sub_0_r. apply map_ext. intros k. rewrite fold_plus, Rplus_0_l. reflexivity.
        -- split; [apply OK2|]. split; [constructor|exact I].
      * intros k Hk. rewrite Q. unfold value. cbn [todo private]. unfold teardown_sample. destruct (lanes t) as [b|]; reflexivity.
    + apply Nat.eqb_neq in Q. set (c := if Nat.leb sz (work_queue s) then sz else work_queue s) in *. set (q := if Nat.leb sz (work_queue s) then (work_queue s - sz)%nat else 0%nat) in *.
      assert (Hc : (1 <= c <= sz)%nat /\ (q + c = work_queue s)%nat) by (unfold c, q; destruct (Nat.leb sz (work_queue s)) eqn:L; [apply Nat.leb_le in L|apply Nat.leb_gt in L]; lia).
      unfold launch_sample in E. destruct (lanes t) as [b|] eqn:EL; inversion E; (apply K; [reflexivity| |]).
      * split; [cbn; lia|]. cbn [todo register closing work_this_iteration private]. rewrite EL. split; [lia|reflexivity].
      * intros k Hk. unfold value. cbn [todo private]. rewrite EL. rewrite kernel_rowsum by lia. replace (work_queue s) with (q + c)%nat by lia. rewrite big_add. ring.
      * split; [cbn; lia|]. cbn [todo register closing work_this_iteration private]. rewrite EL. split; [lia|]. split; [apply compute_own|exact I].
      * intros k Hk. unfold value. cbn [todo private]. rewrite EL. rewrite compute_pending by assumption. replace (work_queue s) with (q + 1)%nat by lia. rewrite big_add. cbn [big]. rewrite Nat.add_0_r. unfold pending. cbn [map]. unfold sum at 1. cbn [fold_right]. ring.
  - destruct (lanes t) as [b|] eqn:EL.
    { exfalso. destruct OK2 as [_ OK2]. destruct cl; [|discriminate]. destruct OK2 as (k0 & _ & C & _). destruct (m - k0)%nat; discriminate. }
    destruct OK2 as (OK2 & OK3 & OK4). inversion OK3 as [|? ? O1 O2 EE]. destruct O1 as (k1 & v1 & Hk1 & EA). inversion EA as [[EA1 EA2]]. clear EE. destruct rg as [x1|]; inversion E; (apply K).
    + intros j Hj. apply upd_other. rewrite EA1. apply Hj.
    + split; [exact OK1|]. cbn [todo register closing work_this_iteration private]. rewrite EL. split; [exact OK2|]. split; [exact O2|exact I].
    + intros k Hk. unfold value. cbn [todo private]. rewrite EL. rewrite pending_cons. destruct OK4 as (a' & rest' & EQ & EX). inversion EQ as [[Q1 Q2]]. rewrite <- Q1 in EX. cbn [target] in EX. cbn [amount].
      destruct (Nat.eqb (t + k1 * w) (t + k * w)) eqn:QQ.
      * apply Nat.eqb_eq in QQ. rewrite EA1, <- QQ, upd_same. rewrite EX, EA1, Nat.eqb_refl. ring.
      * rewrite EA1, QQ. apply Nat.eqb_neq in QQ. rewrite upd_other by lia. ring.
    + reflexivity.
    + split; [exact OK1|]. cbn [todo register closing work_this_iteration private]. rewrite EL. split; [exact OK2|]. split; [exact OK3|]. exists (Add a v), rest. split; reflexivity.
    + intros k Hk. unfold value. cbn [todo private]. reflexivity.
  - destruct (lanes t) as [b|] eqn:EL.
    2:{ exfalso. destruct OK2 as (_ & OK3 & _). inversion OK3 as [|? ? O1 O2 EE]. destruct O1 as (k1 & v1 & _ & C). discriminate. }
    destruct OK2 as [OK2 OK3]. destruct cl; [|discriminate]. destruct OK3 as (k0 & Hk0 & ET & HK). destruct (m - k0)%nat as [|r] eqn:EM; [discriminate|]. cbn [seq map] in ET. inversion ET as [[T1 T2 T3]]. inversion E. apply K.
    + intros j Hj. apply upd_other. rewrite T1. apply Hj.
    + split; [exact OK1|]. cbn [todo register closing work_this_iteration private]. rewrite EL. split; [exact OK2|]. exists (S k0). split; [lia|]. split; [replace (m - S k0)%nat with r by lia; exact T3|].
      intros k Hk. rewrite T1, T2. destruct (Nat.eq_dec k k0) as [->|Ne]; [apply upd_same|]. rewrite upd_other; [apply HK; lia|]. intros C. apply Ne. apply (slot_inj w t k t k0 Ht Ht C).
    + intros k Hk. unfold value. rewrite EL. reflexivity.
Qed.
Lemma start_inv : inv (start_sample total lanes).
Proof.
  split; cbn [start_sample work_queue memory workers].
  - intros t Ht. unfold start_worker, ok. cbn [todo register closing work_this_iteration private]. destruct (lanes t) as [b|] eqn:EL.
    + pose proof (Hlanes t b EL). split; [assumption|]. split; [lia|reflexivity].
    + split; [lia|]. split; [reflexivity|]. split; [constructor|exact I].
  - intros k Hk. rewrite (big_ext w _ (fun _ => 0)); [rewrite big_zero; ring|]. intros t _. unfold value, start_worker. cbn [todo private]. destruct (lanes t) as [b|].
    + unfold rowsum. rewrite <- big_sum. apply big_zero.
    + unfold pending, sum. cbn. ring.
Qed.
Lemma execute_inv schedule : forall s s', Forall (fun t => (t < w)%nat) schedule -> inv s -> execute buf (launch_sample f n m total lanes w) (teardown_sample m lanes w) schedule s = Some s' -> inv s'.
Proof.
  induction schedule as [|t r IH]; intros s s' HT HI E; cbn [execute] in E; [inversion E as [E0]; rewrite <- E0; exact HI|]. inversion HT as [|? ? H1 H2 EE].
  destruct (stp t s) as [s1|] eqn:E1; [|discriminate]. apply (IH s1 s' H2); [|exact E]. apply (step_inv t s s1); assumption.
Qed.
Lemma finished_value s t k : ok (memory s) t (workers s t) -> finished (workers s t) -> (k < m)%nat -> value (memory s) t (workers s t) k = memory s (t + k * w)%nat.
Proof.
  intros [_ H] [F1 F2] Hk. unfold value. destruct (lanes t) as [b|].
  - destruct H as [_ H]. rewrite F1 in H. destruct H as (k0 & Hk0 & E & HK). rewrite F2 in E. destruct (m - k0)%nat eqn:D; [|discriminate]. symmetry. apply HK. lia.
  - rewrite F2. unfold pending, sum. cbn. ring.
Qed.
Definition drained (s : state buf) : Prop := forall t, closing (workers s t) = true -> work_queue s = 0%nat.
Lemma step_drained t s s' : drained s -> stp t s = Some s' -> drained s'.
Proof.
  intros HD E. unfold step in E.
  assert (K : forall q mem x, (q <= work_queue s)%nat -> (closing x = true -> q = 0%nat) -> drained {| work_queue := q; memory := mem; workers := upd (workers s) t x |}).
  { intros q mem x Hq Hx j Hj. cbn [work_queue workers] in *. destruct (Nat.eq_dec j t) as [->|Ne]; [rewrite upd_same in Hj; apply Hx; exact Hj|]. rewrite upd_other in Hj by exact Ne. specialize (HD j Hj). lia. }
  pose proof (HD t) as Dt. destruct (workers s t) as [sz pr td rg cl]. cbn [todo register closing work_this_iteration private] in *. destruct td as [|[a v|a v] rest].
  - destruct cl; [discriminate|]. destruct (Nat.eqb (work_queue s) 0) eqn:Q; [inversion E; apply K; [lia|reflexivity]|].
    destruct (launch_sample f n m total lanes w t _ _ pr) as [p l]. inversion E. apply K; [destruct (Nat.leb sz (work_queue s)); lia|discriminate].
  - destruct rg; inversion E; apply K; try lia; exact Dt.
  - inversion E. apply K; [lia|exact Dt].
Qed.
Lemma execute_drained schedule : forall s s', drained s -> execute buf (launch_sample f n m total lanes w) (teardown_sample m lanes w) schedule s = Some s' -> drained s'.
Proof.
  induction schedule as [|t r IH]; intros s s' HI E; cbn [execute] in E; [inversion E as [E0]; rewrite <- E0; exact HI|].
  destruct (stp t s) as [s1|] eqn:E1; [|discriminate]. apply (IH s1 s'); [|exact E]. apply (step_drained t s s1); assumption.
Qed.
Lemma sample_total schedule s k : (1 <= total)%nat -> (1 <= w)%nat -> Forall (fun t => (t < w)%nat) schedule ->
  execute buf (launch_sample f n m total lanes w) (teardown_sample m lanes w) schedule (start_sample total lanes) = Some s ->
  (forall t, (t < w)%nat -> finished (workers s t)) -> (k < m)%nat -> big w (fun t => memory s (t + k * w)%nat) = sum (map (f k) (seq 0 n)).
Proof.
  intros HT Hw HS E HF Hk. pose proof (execute_inv schedule _ s HS start_inv E) as [HO HV].
  assert (D : drained s) by (apply (execute_drained schedule (start_sample total lanes) s); [intros t C; discriminate|exact E]).
  specialize (D 0%nat (proj1 (HF 0%nat ltac:(lia)))). specialize (HV k Hk). rewrite D in HV. cbn [big] in HV. rewrite packages_cover in HV by exact HT. rewrite Rplus_0_r in HV. rewrite <- HV.
  apply big_ext. intros t Ht. symmetry. apply finished_value; [apply HO; exact Ht|apply HF; exact Ht|exact Hk].
Qed.
(** accesses of different threads never meet *)
Definition accesses (s : state buf) (t : nat) : list nat := map target (todo (workers s t)).
Lemma accesses_ok s t a : inv s -> (t < w)%nat -> In a (accesses s t) -> exists k, (k < m)%nat /\ a = (t + k * w)%nat.
Proof.
  intros [HO _] Ht Ha. destruct (HO t Ht) as [_ H]. unfold accesses in Ha. apply in_map_iff in Ha. destruct Ha as (x & <- & Hx). destruct (lanes t) as [b|].
  - destruct H as [_ H]. destruct (closing (workers s t)); [|rewrite H in Hx; destruct Hx]. destruct H as (k0 & _ & E & _). rewrite E in Hx. apply in_map_iff in Hx. destruct Hx as (k & <- & Hk). apply in_seq in Hk. exists k. split; [lia|reflexivity].
  - destruct H as (_ & H & _). rewrite Forall_forall in H. destruct (H x Hx) as (k & v & Hk & ->). exists k. split; [exact Hk|reflexivity].
Qed.
End Sample.
(** ** serial execution *)
Lemma apply_adds m l : forall r, Forall (own m 1 0) l -> forall k, fold_left apply_access l r k = r k + pending k l.
Proof.
  induction l as [|a l IH]; intros r H k; [unfold pending, sum; cbn; ring|]. inversion H as [|? ? H1 H2 E]. cbn [fold_left]. rewrite IH by assumption. rewrite pending_cons. destruct H1 as (k1 & v & _ & ->). cbn [apply_access amount].
  destruct (Nat.eqb (0 + k1 * 1) k) eqn:Q.
  - apply Nat.eqb_eq in Q. rewrite Q, upd_same. ring.
  - apply Nat.eqb_neq in Q. rewrite upd_other by (intros C; apply Q; symmetry; exact C). ring.
Qed.
Lemma serial_ok f n m total k : (1 <= total)%nat -> (k < m)%nat -> serial f n m total k = sum (map (f k) (seq 0 n)).
Proof.
  intros HT Hk. unfold serial. rewrite (apply_adds m).
  - rewrite Rplus_0_l, <- (packages_cover f n total k HT). unfold serial_accesses. rewrite big_sum. induction (seq 0 total) as [|i l IH]; [reflexivity|]. cbn [flat_map map]. rewrite pending_app, IH, QmcStat.sum_cons. f_equal.
    pose proof (compute_pending f n m total 1 0 i k ltac:(lia) Hk) as C. replace (0 + k * 1)%nat with k in C by lia. exact C.
  - apply Forall_forall. intros a Ha. unfold serial_accesses in Ha. apply in_flat_map in Ha. destruct Ha as (i & _ & Ha). pose proof (compute_own f n m total 1 0 i) as O. rewrite Forall_forall in O. apply O. exact Ha.
Qed.
(** ** evaluate *)
Section Evaluate.
Variables (f : nat -> R) (n : nat) (lanes : nat -> option nat) (w : nat).
Hypothesis Hlanes : forall t b, lanes t = Some b -> (1 <= b)%nat.
Notation stp := (step unit (launch_evaluate f lanes) teardown_evaluate).
Definition inv_e (s : state unit) : Prop :=
  (forall t, (t < w)%nat -> (1 <= work_this_iteration (workers s t))%nat /\ (lanes t = None -> work_this_iteration (workers s t) = 1%nat) /\
     Forall (fun a => exists i, (i < n)%nat /\ a = Put i (f i)) (todo (workers s t)) /\ (closing (workers s t) = true -> work_queue s = 0%nat)) /\
  (work_queue s <= n)%nat /\
  forall i, (work_queue s <= i < n)%nat -> memory s i = f i \/ exists t, (t < w)%nat /\ In (Put i (f i)) (todo (workers s t)).
Lemma step_inv_e t s s' : (t < w)%nat -> inv_e s -> stp t s = Some s' -> inv_e s'.
Proof.
  intros Ht [HO [HQ HV]] E. pose proof (HO t Ht) as OK. unfold step in E. destruct (workers s t) as [sz pr td rg cl] eqn:EW. destruct OK as (O1 & O2 & O3 & O4). cbn [todo register closing work_this_iteration private] in *.
  destruct td as [|[a v|a v] rest].
  - destruct cl; [discriminate|]. destruct (Nat.eqb (work_queue s) 0) eqn:Q.
    + apply Nat.eqb_eq in Q. inversion E. split; [|split]; cbn [work_queue memory workers].
      * intros j Hj. destruct (Nat.eq_dec j t) as [->|Ne]; [rewrite upd_same; cbn [todo closing work_this_iteration]; repeat split; try assumption; constructor|]. rewrite upd_other by exact Ne. destruct (HO j Hj) as (P1 & P2 & P3 & P4). repeat split; assumption.
      * lia.
      * intros i Hi. rewrite <- Q in Hi. destruct (HV i Hi) as [G|(j & Hj & Hin)]; [left; exact G|]. right. exists j. split; [exact Hj|]. destruct (Nat.eq_dec j t) as [->|Ne]; [rewrite EW in Hin; destruct Hin|]. rewrite upd_other by exact Ne. exact Hin.
    + apply Nat.eqb_neq in Q. set (c := if Nat.leb sz (work_queue s) then sz else work_queue s) in *. set (q := if Nat.leb sz (work_queue s) then (work_queue s - sz)%nat else 0%nat) in *.
      assert (Hc : (1 <= c <= sz)%nat /\ (q + c = work_queue s)%nat) by (unfold c, q; destruct (Nat.leb sz (work_queue s)) eqn:L; [apply Nat.leb_le in L|apply Nat.leb_gt in L]; lia).
      assert (LE : exists u, launch_evaluate f lanes t q c pr = (u, map (fun j => Put (q + j) (f (q + j)%nat)) (seq 0 c))).
      { unfold launch_evaluate. destruct (lanes t) as [b|] eqn:EL; [eexists; reflexivity|]. exists tt. replace c with 1%nat by (specialize (O2 eq_refl); lia). cbn [seq map]. rewrite Nat.add_0_r. reflexivity. }
      destruct LE as (u & LE). rewrite LE in E. inversion E. split; [|split]; cbn [work_queue memory workers].
      * intros j Hj. destruct (Nat.eq_dec j t) as [->|Ne].
        -- rewrite upd_same. cbn [todo closing work_this_iteration]. split; [lia|]. split; [intros EN; specialize (O2 EN); lia|]. split; [|discriminate].
           apply Forall_forall. intros x Hx. apply in_map_iff in Hx. destruct Hx as (i & <- & Hi). apply in_seq in Hi. exists (q + i)%nat. split; [lia|reflexivity].
        -- rewrite upd_other by exact Ne. destruct (HO j Hj) as (P1 & P2 & P3 & P4). repeat split; try assumption. intros C. specialize (P4 C). lia.
      * lia.
      * intros i Hi. destruct (le_lt_dec (work_queue s) i) as [L|L].
        -- destruct (HV i ltac:(lia)) as [G|(j & Hj & Hin)]; [left; exact G|]. right. exists j. split; [exact Hj|]. destruct (Nat.eq_dec j t) as [->|Ne]; [rewrite EW in Hin; destruct Hin|]. rewrite upd_other by exact Ne. exact Hin.
        -- right. exists t. split; [exact Ht|]. rewrite upd_same. cbn [todo]. apply in_map_iff. exists (i - q)%nat. replace (q + (i - q))%nat with i by lia. split; [reflexivity|]. apply in_seq. lia.
  - exfalso. inversion O3 as [|? ? C ? EE]. destruct C as (i & _ & C). discriminate.
  - inversion O3 as [|? ? C O3' EE]. destruct C as (i0 & Hi0 & C). inversion C as [[C1 C2]]. inversion E. split; [|split]; cbn [work_queue memory workers].
    + intros j Hj. destruct (Nat.eq_dec j t) as [->|Ne]; [rewrite upd_same; cbn [todo closing work_this_iteration]; repeat split; assumption|]. rewrite upd_other by exact Ne. apply HO. exact Hj.
    + exact HQ.
    + intros i Hi. rewrite C1, C2. destruct (Nat.eq_dec i i0) as [->|Ni]; [left; apply upd_same|]. rewrite upd_other by exact Ni. destruct (HV i Hi) as [G|(j & Hj & Hin)]; [left; exact G|]. right. exists j. split; [exact Hj|].
      destruct (Nat.eq_dec j t) as [->|Ne]; [|rewrite upd_other by exact Ne; exact Hin]. rewrite upd_same. cbn [todo]. rewrite EW in Hin. cbn [todo] in Hin. destruct Hin as [Hin|Hin]; [|exact Hin]. exfalso. rewrite C in Hin. inversion Hin as [[I1 I2]]. apply Ni. symmetry. exact I1.
Qed.
Lemma execute_inv_e schedule : forall s s', Forall (fun t => (t < w)%nat) schedule -> inv_e s -> execute unit (launch_evaluate f lanes) teardown_evaluate schedule s = Some s' -> inv_e s'.
Proof.
  induction schedule as [|t r IH]; intros s s' HT HI E; cbn [execute] in E; [inversion E as [E0]; rewrite <- E0; exact HI|]. inversion HT as [|? ? H1 H2 EE].
  destruct (stp t s) as [s1|] eqn:E1; [|discriminate]. apply (IH s1 s' H2); [|exact E]. apply (step_inv_e t s s1); assumption.
Qed.
Lemma evaluate_ok schedule s i : (1 <= w)%nat -> Forall (fun t => (t < w)%nat) schedule -> execute unit (launch_evaluate f lanes) teardown_evaluate schedule (start_evaluate n lanes) = Some s ->
  (forall t, (t < w)%nat -> finished (workers s t)) -> (i < n)%nat -> memory s i = f i.
Proof.
  intros Hw HS E HF Hi. assert (I0 : inv_e (start_evaluate n lanes)).
  { split; [|split]; cbn [start_evaluate work_queue memory workers]; [|lia|intros j Hj; lia]. intros t Ht. cbn [todo closing work_this_iteration]. destruct (lanes t) as [b|] eqn:EL.
    - pose proof (Hlanes t b EL). repeat split; try lia; try discriminate. constructor.
    - repeat split; try lia; try discriminate. constructor. }
  destruct (execute_inv_e schedule _ s HS I0 E) as [HO [HQ HV]]. destruct (HO 0%nat ltac:(lia)) as (_ & _ & _ & D). specialize (D (proj1 (HF 0%nat ltac:(lia)))).
  destruct (HV i ltac:(lia)) as [G|(t & Ht & Hin)]; [exact G|]. destruct (HF t Ht) as [_ F]. rewrite F in Hin. destruct Hin.
Qed.
End Evaluate.
