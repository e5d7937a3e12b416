(** Property C44: generating_vector / max_lattice_size. *)
From Verif Require Import GenVecModel.
From Coq Require Import Sorted Bool.
Local Open Scope Z_scope.

(** the lattice sizes tabulated for [n] variables *)
Definition tabulated (n N : Z) : Prop := n <= 100 /\ In N cbcpt_dn1_100_lattice \/ n <= 10 /\ In N cbcpt_cfftw2_10_lattice.
(** the rank-one lattice of the generating vector projects on each axis to all the multiples of 1/N, once each *)
Definition full_projections (N : Z) (z : list Z) : Prop :=
  forall x, In x z -> forall i j, 0 <= i < N -> 0 <= j < N -> (i * x) mod N = (j * x) mod N -> i = j.

Lemma binsearch_spec a key : StronglySorted Z.lt a -> forall fuel lo hi, (hi - lo < fuel)%nat -> (lo <= hi <= length a)%nat ->
  (forall k, (k < lo)%nat -> nth k a 0 < key) -> (forall k, (hi <= k < length a)%nat -> key <= nth k a 0) ->
  let r := binsearch fuel a key lo hi in (r <= length a)%nat /\ (forall k, (k < r)%nat -> nth k a 0 < key) /\ (forall k, (r <= k < length a)%nat -> key <= nth k a 0).
Proof.
  intros Hs.
  assert (Hmono : forall a, StronglySorted Z.lt a -> forall i j, (i < j < length a)%nat -> nth i a 0 < nth j a 0).
  { clear. induction 1 as [|x l Hl IH Hx]; intros i j Hij; [cbn in Hij; lia|]. destruct j as [|j]; [lia|]. cbn [length] in Hij. destruct i as [|i].
    - cbn [nth]. rewrite Forall_forall in Hx. apply Hx, nth_In. lia.
    - cbn [nth]. apply IH. lia. }
  specialize (Hmono a Hs).
  induction fuel as [|f IH]; intros lo hi Hf Hlh H1 H2; [lia|]. cbn [binsearch]. destruct (Nat.ltb_spec lo hi) as [Hlt|Hge].
  - assert (Hmid : (Nat.div2 (hi - lo) < hi - lo)%nat) by (apply Nat.lt_div2; lia). set (mid := (lo + Nat.div2 (hi - lo))%nat).
    destruct (Z.ltb_spec (nth mid a 0) key) as [Hk|Hk].
    + apply IH; [unfold mid; lia|unfold mid; lia| |exact H2]. intros k Hlt2. destruct (Nat.eq_dec k mid) as [->|]; [exact Hk|]. specialize (Hmono k mid ltac:(unfold mid in *; lia)). lia.
    + apply IH; [unfold mid; lia|unfold mid; lia|exact H1|]. intros k Hk2. destruct (Nat.eq_dec k mid) as [->|]; [exact Hk|]. specialize (Hmono mid k ltac:(lia)). lia.
  - split; [lia|]. split; [exact H1|]. intros k Hk. apply H2. lia.
Qed.
Definition sortedb (l : list Z) : bool := match l with [] => true | x :: r => fst (fold_left (fun s y => (fst s && Z.ltb (snd s) y, y)) r (true, x)) end.
Lemma sortedb_sorted l : sortedb l = true -> StronglySorted Z.lt l.
Proof.
  assert (G : forall r b x, fst (fold_left (fun s y => (fst s && Z.ltb (snd s) y, y)) r (b, x)) = true -> b = true /\ Sorted Z.lt (x :: r)).
  { induction r as [|y r IH]; intros b x H; cbn [fold_left fst snd] in H; [split; [exact H|repeat constructor]|].
    destruct (IH _ _ H) as [Hb Hs]. apply andb_prop in Hb as [Hb Hxy]. split; [exact Hb|]. constructor; [exact Hs|]. constructor. apply Z.ltb_lt, Hxy. }
  intros H. apply Sorted_StronglySorted; [intros x y z; lia|]. destruct l as [|x r]; [constructor|]. apply (G r true x H).
Qed.
Definition row_okb (w : nat) (p : Z * list Z) : bool :=
  Nat.eqb (length (snd p)) w && forallb (fun x => Z.leb 1 x && Z.ltb x (fst p) && Z.eqb (Z.gcd x (fst p)) 1) (snd p) && Z.ltb 1 (fst p).
Definition table_okb (w : nat) (lat : list Z) (gv : list (list Z)) : bool :=
  Nat.eqb (length lat) (length gv) && sortedb lat && forallb (row_okb w) (combine lat gv) && negb (Nat.eqb (length lat) 0).
Lemma table1_ok : table_okb 100 cbcpt_dn1_100_lattice cbcpt_dn1_100_gv = true. Proof. vm_compute. reflexivity. Qed.
Lemma table2_ok : table_okb 10 cbcpt_cfftw2_10_lattice cbcpt_cfftw2_10_gv = true. Proof. vm_compute. reflexivity. Qed.

Definition adequate (n m N : Z) (z : list Z) : Prop :=
  m <= N /\ Z.of_nat (length z) = n /\ Forall (fun x => 1 <= x < N /\ Z.gcd x N = 1) z /\ full_projections N z.
Lemma last_nth_length (l : list Z) : l <> [] -> last l 0 = nth (length l - 1) l 0.
Proof.
  induction l as [|x r IH]; [congruence|]. intros _. destruct r as [|y r]; [reflexivity|]. change (last (x :: y :: r) 0) with (last (y :: r) 0). rewrite IH by discriminate. cbn [length]. replace (S (S (length r)) - 1)%nat with (S (S (length r) - 1)) by lia. reflexivity.
Qed.
Lemma try_spec w lat gv n m : table_okb w lat gv = true -> 1 <= n <= Z.of_nat w ->
  (try_table lat gv n m = None /\ last lat 0 < m) \/
  exists N z, try_table lat gv n m = Some (N, z) /\ m <= last lat 0 /\ In N lat /\ adequate n m N z /\ forall N', In N' lat -> m <= N' -> N <= N'.
Proof.
  intros Hok Hn. unfold table_okb in Hok. apply andb_prop in Hok as [Hok H4]. apply andb_prop in Hok as [Hok H3]. apply andb_prop in Hok as [H1 H2].
  apply Nat.eqb_eq in H1. apply sortedb_sorted in H2. apply negb_true_iff, Nat.eqb_neq in H4.
  destruct (binsearch_spec lat m H2 (S (length lat)) 0 (length lat)) as (R1 & R2 & R3); try lia. fold (searchsorted lat m) in R1, R2, R3. unfold try_table. set (i := searchsorted lat m) in *.
  assert (Hlast : last lat 0 = nth (length lat - 1) lat 0) by (apply last_nth_length; destruct lat; [cbn in H4; lia|discriminate]).
  destruct (Nat.ltb_spec i (length gv)) as [Hi|Hi].
  - right. exists (nth i lat 0), (slice_to n (nth i gv [])). split; [reflexivity|]. split; [rewrite Hlast; apply R3; lia|]. split; [apply nth_In; lia|].
    assert (Hrow : row_okb w (nth i lat 0, nth i gv []) = true).
    { rewrite forallb_forall in H3. apply H3. rewrite <- (combine_nth lat gv i 0 [] H1). apply nth_In. rewrite combine_length. lia. }
    unfold row_okb in Hrow. cbn [fst snd] in Hrow. apply andb_prop in Hrow as [Hrow HN]. apply andb_prop in Hrow as [Hw Hr]. apply Nat.eqb_eq in Hw. apply Z.ltb_lt in HN. rewrite forallb_forall in Hr.
    assert (Hz : forall x, In x (slice_to n (nth i gv [])) -> 1 <= x < nth i lat 0 /\ Z.gcd x (nth i lat 0) = 1).
    { intros x Hx. assert (Hx' : In x (nth i gv [])) by (unfold slice_to in Hx; rewrite <- (firstn_skipn (Z.to_nat (if n <? 0 then Z.of_nat (length (nth i gv [])) + n else n)) (nth i gv [])); apply in_or_app; left; exact Hx).
      specialize (Hr x Hx'). apply andb_prop in Hr as [Hr Hg]. apply andb_prop in Hr as [Ha Hb]. apply Z.leb_le in Ha. apply Z.ltb_lt in Hb. apply Z.eqb_eq in Hg. auto. }
    split.
    + split; [apply R3; lia|]. split; [unfold slice_to; destruct (Z.ltb_spec n 0); [lia|]; rewrite firstn_length, Hw; lia|]. split; [apply Forall_forall, Hz|].
      intros x Hx a b Ha Hb E. destruct (Hz x Hx) as [_ Hg]. set (N := nth i lat 0) in *.
      assert (D : (N | (a - b) * x)) by (apply Z.mod_divide; [lia|]; rewrite Z.mul_sub_distr_r, Zminus_mod, E, Z.sub_diag; apply Zmod_0_l).
      assert (D2 : (N | a - b)) by (apply (Gauss N x); [rewrite Z.mul_comm; exact D|]; apply Zgcd_1_rel_prime; rewrite Z.gcd_comm; exact Hg).
      destruct D2 as [q Hq]. assert (q = 0) by nia. subst q. lia.
    + intros N' HN' Hm. apply (In_nth _ _ 0) in HN' as (k & Hk & <-). destruct (Nat.lt_trichotomy k i) as [Hlt|[->|Hgt]]; [specialize (R2 k Hlt); lia|lia|].
      assert (Hmono : forall a, StronglySorted Z.lt a -> forall i j, (i < j < length a)%nat -> nth i a 0 < nth j a 0).
      { clear. induction 1 as [|x l Hl IH Hx]; intros i j Hij; [cbn in Hij; lia|]. destruct j as [|j]; [lia|]. cbn [length] in Hij. destruct i as [|i].
        - cbn [nth]. rewrite Forall_forall in Hx. apply Hx, nth_In. lia.
        - cbn [nth]. apply IH. lia. }
      specialize (Hmono lat H2 i k ltac:(lia)). lia.
  - left. split; [reflexivity|]. rewrite Hlast. apply R2. lia.
Qed.
Lemma below_second N N' : In N cbcpt_dn1_100_lattice -> In N' cbcpt_cfftw2_10_lattice -> N < N'.
Proof.
  assert (E : forallb (fun a => forallb (Z.ltb a) cbcpt_cfftw2_10_lattice) cbcpt_dn1_100_lattice = true) by (vm_compute; reflexivity).
  intros H1 H2. rewrite forallb_forall in E. specialize (E N H1). rewrite forallb_forall in E. apply Z.ltb_lt, E, H2.
Qed.
Lemma In_le_last (lat : list Z) gv w N : table_okb w lat gv = true -> In N lat -> N <= last lat 0.
Proof.
  intros Hok HN. destruct (Z_le_gt_dec N (last lat 0)) as [|Hgt]; [assumption|exfalso].
  unfold table_okb in Hok. apply andb_prop in Hok as [Hok H4]. apply andb_prop in Hok as [Hok H3]. apply andb_prop in Hok as [H1 H2]. apply sortedb_sorted in H2. clear - H2 HN Hgt.
  induction H2 as [|x l Hl IH Hx]; [destruct HN|]. destruct l as [|y l]; [destruct HN as [<-|[]]; cbn in Hgt; lia|]. change (last (x :: y :: l) 0) with (last (y :: l) 0) in Hgt.
  destruct HN as [<-|HN]; [|apply IH; assumption]. apply Forall_cons_iff in Hx as [Hxy _]. clear IH.
  assert (y <= last (y :: l) 0); [|lia]. clear - Hl. revert y Hl. induction l as [|z l IH]; intros y Hl; [cbn; lia|]. change (last (y :: z :: l) 0) with (last (z :: l) 0). inversion Hl as [|? ? Hl' Hy]; subst. apply Forall_cons_iff in Hy as [Hyz _]. specialize (IH z Hl'). lia.
Qed.

(** the returned lattice is large enough, is the smallest tabulated one that is, and its generating vector is adequate *)
Theorem C44_returned_lattice : forall n m N z, 1 <= n -> generating_vector n m = Returns (N, z) ->
  m <= N /\ tabulated n N /\ (forall N', tabulated n N' -> m <= N' -> N <= N') /\
  Z.of_nat (length z) = n /\ Forall (fun x => 1 <= x < N /\ Z.gcd x N = 1) z /\ full_projections N z.
Proof.
  intros n m N z Hn H. unfold generating_vector in H. destruct (Z.leb_spec n 100) as [H100|H100].
  - destruct (int64 m); [|discriminate].
    destruct (try_spec 100 _ _ n m table1_ok ltac:(lia)) as [[E Hlt]|(N1 & z1 & E & Hle & HN & (A1 & A2 & A3 & A4) & Hmin)]; rewrite E in H.
    + destruct (Z.leb_spec n 10) as [H10|H10]; [|discriminate].
      destruct (try_spec 10 _ _ n m table2_ok ltac:(lia)) as [[E2 Hlt2]|(N2 & z2 & E2 & Hle2 & HN2 & (A1 & A2 & A3 & A4) & Hmin2)]; rewrite E2 in H; [discriminate|]. injection H as <- <-.
      split; [exact A1|]. split; [right; auto|]. split; [|auto]. intros N' [[_ HN']|[_ HN']] Hm; [|auto]. pose proof (In_le_last _ _ _ N' table1_ok HN'). lia.
    + injection H as <- <-. split; [exact A1|]. split; [left; auto|]. split; [|auto]. intros N' [[_ HN']|[_ HN']] Hm; [auto|]. pose proof (below_second N1 N' HN HN'). lia.
  - destruct (Z.leb_spec n 10); [lia|discriminate].
Qed.
Print Assumptions C44_returned_lattice.
(** the call fails exactly for sizes above [max_lattice_size] (64 bit integers; for more than 100 variables always) *)
Theorem C44_fails_above_maximum : forall n m, 1 <= n <= 100 -> - 2 ^ 63 <= m < 2 ^ 63 ->
  exists M, max_lattice_size n = Returns M /\ tabulated n M /\ (generating_vector n m = ValueError <-> M < m) /\
            (m <= M -> exists N z, generating_vector n m = Returns (N, z)).
Proof.
  intros n m Hn Hm. assert (Hi : int64 m = true) by (unfold int64; apply andb_true_intro; split; [apply Z.leb_le|apply Z.ltb_lt]; lia).
  unfold max_lattice_size, generating_vector. destruct (Z.leb_spec n 100) as [_|]; [|lia]. rewrite Hi.
  assert (B1 : last cbcpt_dn1_100_lattice 0 < last cbcpt_cfftw2_10_lattice 0) by (vm_compute; reflexivity).
  destruct (try_spec 100 _ _ n m table1_ok ltac:(lia)) as [[E Hlt]|(N1 & z1 & E & Hle & HN & _ & _)]; rewrite E.
  - destruct (Z.leb_spec n 10) as [H10|H10].
    + eexists. split; [reflexivity|]. split; [right; split; [lia|cbn; tauto]|].
      destruct (try_spec 10 _ _ n m table2_ok ltac:(lia)) as [[E2 Hlt2]|(N2 & z2 & E2 & Hle2 & HN2 & _ & _)]; rewrite E2.
      * split; [split; auto|]. intros Hle. exfalso. lia.
      * split; [split; [discriminate|intros; exfalso; lia]|]. intros _. eauto.
    + eexists. split; [reflexivity|]. split; [left; split; [lia|unfold cbcpt_dn1_100_lattice; cbn [last]; repeat (try (left; reflexivity); right)]|]. split; [split; auto|]. intros Hle. exfalso. lia.
  - destruct (Z.leb_spec n 10) as [H10|H10].
    + eexists. split; [reflexivity|]. split; [right; split; [lia|cbn; tauto]|]. split; [split; [discriminate|intros; exfalso; lia]|]. intros _. eauto.
    + eexists. split; [reflexivity|]. split; [left; split; [lia|unfold cbcpt_dn1_100_lattice; cbn [last]; repeat (try (left; reflexivity); right)]|]. split; [split; [discriminate|intros; exfalso; lia]|]. intros _. eauto.
Qed.
Print Assumptions C44_fails_above_maximum.
Theorem C44_too_many_variables : forall n m, 100 < n -> generating_vector n m = ValueError /\ max_lattice_size n = ValueError.
Proof.
  intros n m Hn. unfold generating_vector, max_lattice_size. destruct (Z.leb_spec n 100); [lia|]. destruct (Z.leb_spec n 10); [lia|]. auto.
Qed.
(** larger requests never give smaller lattices *)
Theorem C44_monotone : forall n m m' N N' z z', 1 <= n -> m <= m' -> generating_vector n m = Returns (N, z) -> generating_vector n m' = Returns (N', z') -> N <= N'.
Proof.
  intros n m m' N N' z z' Hn Hm H H'. destruct (C44_returned_lattice _ _ _ _ Hn H) as (_ & _ & Hmin & _). destruct (C44_returned_lattice _ _ _ _ Hn H') as (Hle & Ht & _). apply Hmin; [exact Ht|lia].
Qed.
(** requesting the size that was returned returns it again *)
Theorem C44_stable : forall n m N z, 1 <= n -> generating_vector n m = Returns (N, z) -> generating_vector n N = Returns (N, z).
Proof.
  intros n m N z Hn H. unfold generating_vector in *.
  assert (S1 : forall w lat gv, table_okb w lat gv = true -> 1 <= n <= Z.of_nat w -> forall r, try_table lat gv n m = Some r -> fst r <= last lat 0 /\ try_table lat gv n (fst r) = Some r).
  { intros w lat gv Hok Hw [N1 z1] E. cbn [fst]. destruct (try_spec w lat gv n m Hok Hw) as [[E' _]|(Na & za & E' & Hl & HN & _ & Hmin)]; [congruence|]. rewrite E in E'. injection E' as <- <-.
    pose proof (In_le_last _ _ _ N1 Hok HN) as Hle. split; [exact Hle|].
    destruct (try_spec w lat gv n N1 Hok Hw) as [[_ Hlt]|(Nb & zb & Eb & Hlb & HNb & (Ab & _) & Hminb)]; [lia|]. pose proof (Hminb N1 HN ltac:(lia)) as Hx. assert (Nb = N1) by lia. subst Nb. rewrite Eb.
    unfold try_table in E, Eb. destruct (Nat.ltb_spec (searchsorted lat m) (length gv)) as [Hi|]; [|discriminate]. destruct (Nat.ltb_spec (searchsorted lat N1) (length gv)) as [Hj|]; [|discriminate].
    injection E as E1 E2. injection Eb as E3 E4.
    assert (Hij : searchsorted lat m = searchsorted lat N1); [|rewrite Hij in E2; congruence].
    unfold table_okb in Hok. apply andb_prop in Hok as [Hok _]. apply andb_prop in Hok as [Hok _]. apply andb_prop in Hok as [H1 H2]. apply Nat.eqb_eq in H1. apply sortedb_sorted in H2.
    assert (Hnd : NoDup lat). { clear - H2. induction H2 as [|x l Hl IH Hx]; constructor; [|exact IH]. intros Hin. rewrite Forall_forall in Hx. specialize (Hx x Hin). lia. }
    apply (proj1 (NoDup_nth lat 0) Hnd); [lia|lia|congruence]. }
  destruct (Z.leb_spec n 100) as [H100|H100]; [|destruct (Z.leb_spec n 10); [lia|discriminate]].
  assert (I64 : forall x, 1 <= x <= last cbcpt_cfftw2_10_lattice 0 -> int64 x = true).
  { intros x Hx. change (last cbcpt_cfftw2_10_lattice 0) with 68719476767 in Hx. unfold int64. apply andb_true_intro; split; [apply Z.leb_le|apply Z.ltb_lt]; lia. }
  destruct (int64 m); [|discriminate].
  destruct (try_table cbcpt_dn1_100_lattice cbcpt_dn1_100_gv n m) as [r|] eqn:E.
  - injection H as ->. destruct (S1 100%nat _ _ table1_ok ltac:(lia) _ E) as [Hle E1]. cbn [fst] in *. rewrite E1.
    rewrite I64; [reflexivity|]. split; [|change (last cbcpt_dn1_100_lattice 0) with 2147483647 in Hle; change (last cbcpt_cfftw2_10_lattice 0) with 68719476767; lia].
    destruct (try_spec 100 _ _ n m table1_ok ltac:(lia)) as [[E' _]|(Na & za & E' & _ & _ & (_ & A2 & A3 & _) & _)]; [congruence|]. rewrite E in E'. injection E' as <- <-. destruct z as [|a z]; [cbn in A2; lia|]. apply Forall_cons_iff in A3 as [[A _] _]. lia.
  - destruct (Z.leb_spec n 10) as [H10|]; [|discriminate]. destruct (try_table cbcpt_cfftw2_10_lattice cbcpt_cfftw2_10_gv n m) as [r|] eqn:E2; [|discriminate]. injection H as ->.
    destruct (S1 10%nat _ _ table2_ok ltac:(lia) _ E2) as [Hle E1]. cbn [fst] in *. rewrite E1.
    destruct (try_spec 100 _ _ n m table1_ok ltac:(lia)) as [[_ Hm]|(Na & za & E' & _)]; [|congruence].
    destruct (try_spec 10 _ _ n m table2_ok ltac:(lia)) as [[E' _]|(Na & za & E' & _ & _ & (A1 & _) & _)]; [congruence|]. rewrite E2 in E'. injection E' as <- <-.
    change (last cbcpt_dn1_100_lattice 0) with 2147483647 in Hm.
    rewrite I64 by lia. destruct (try_spec 100 _ _ n N table1_ok ltac:(lia)) as [[E3 _]|(Nb & zb & _ & Hl & _)]; [rewrite E3; reflexivity|].
    change (last cbcpt_dn1_100_lattice 0) with 2147483647 in Hl. lia.
Qed.
Print Assumptions C44_stable.
Example C44_ex : generating_vector 3 1000 = Returns (1021, [1; 374; 421]) /\ generating_vector 10 (10 ^ 10) = Returns (12148002047, [1;4460034585;4192279828;956270804;4233805881;531494255;4314610224;5815452895;2216195588;991235505])
  /\ generating_vector 11 (10 ^ 10) = ValueError /\ max_lattice_size 11 = Returns 2147483647.
Proof. vm_compute. auto. Qed.
