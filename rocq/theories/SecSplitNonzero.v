(** A real polynomial with distinct monomials and non-zero coefficients does not vanish everywhere. *)
From Coq Require Import Reals Lra.
From Verif Require Import PolyProofs SectorInt SplitReal.
Local Open Scope R_scope.
Definition ueval (us : list (nat * R)) (t : R) : R := fold_right (fun u acc => snd u * t ^ fst u + acc) 0 us.
Definition ucoef (us : list (nat * R)) (d : nat) : R := fold_right (fun u acc => (if Nat.eqb (fst u) d then snd u else 0) + acc) 0 us.
Definition uabs (us : list (nat * R)) : R := fold_right (fun u acc => Rabs (snd u) + acc) 0 us.
Definition ulower (us : list (nat * R)) : list (nat * R) := map (fun u => (pred (fst u), snd u)) (filter (fun u => negb (Nat.eqb (fst u) 0)) us).
Lemma ueval_lower us t : ueval us t = ucoef us 0 + t * ueval (ulower us) t.
Proof.
  induction us as [|[k c] us IH]; [cbn; ring|]. unfold ulower. cbn [filter fst]. destruct k as [|k]; cbn [Nat.eqb negb map pred fst snd]; fold (ulower us).
  - cbn [ueval ucoef fold_right fst snd Nat.eqb pow]. fold (ueval us t) (ucoef us 0). rewrite IH. ring.
  - cbn [ueval ucoef fold_right fst snd Nat.eqb pow]. fold (ueval us t) (ucoef us 0) (ueval (ulower us) t). rewrite IH. ring.
Qed.
Lemma ucoef_lower us d : ucoef (ulower us) d = ucoef us (S d).
Proof.
  induction us as [|[k c] us IH]; [reflexivity|]. unfold ulower. cbn [filter fst]. destruct k as [|k]; cbn [Nat.eqb negb map pred fst snd]; fold (ulower us).
  - cbn [ucoef fold_right fst snd Nat.eqb]. fold (ucoef us (S d)). rewrite IH. ring.
  - cbn [ucoef fold_right fst snd Nat.eqb]. fold (ucoef us (S d)) (ucoef (ulower us) d). rewrite IH. reflexivity.
Qed.
Lemma uabs_pos us : 0 <= uabs us.
Proof. induction us as [|[k c] us IH]; cbn [uabs fold_right snd]; [lra|]. fold (uabs us). pose proof (Rabs_pos c). lra. Qed.
Lemma ueval_bound us t : 0 <= t <= 1 -> Rabs (ueval us t) <= uabs us.
Proof.
  intros Ht. induction us as [|[k c] us IH]; cbn [ueval uabs fold_right fst snd]; [rewrite Rabs_R0; lra|fold (ueval us t) (uabs us)].
  eapply Rle_trans; [apply Rabs_triang|]. apply Rplus_le_compat; [|exact IH]. rewrite Rabs_mult. rewrite <- (Rmult_1_r (Rabs c)) at 2. apply Rmult_le_compat_l; [apply Rabs_pos|].
  rewrite Rabs_pos_eq by (apply pow_le; lra). rewrite <- (pow1 k). apply pow_incr. exact Ht.
Qed.
Lemma unonzero d : forall us, ucoef us d <> 0 -> exists t, 0 < t <= 1 /\ ueval us t <> 0.
Proof.
  assert (B : forall us, ucoef us 0 <> 0 -> exists t, 0 < t <= 1 /\ ueval us t <> 0).
  { intros us H. set (a := ucoef us 0) in *. set (M := uabs (ulower us)). assert (HM : 0 <= M) by apply uabs_pos. assert (Ha : 0 < Rabs a) by (apply Rabs_pos_lt, H).
    set (t := Rmin 1 (Rabs a / (2 * (M + 1)))). assert (Hq : 0 < Rabs a / (2 * (M + 1))) by (apply Rdiv_lt_0_compat; lra).
    assert (Ht : 0 < t <= 1) by (unfold t; split; [apply Rmin_pos; lra|apply Rmin_l]). exists t. split; [exact Ht|]. rewrite ueval_lower. fold a. intros E.
    assert (X : Rabs a <= t * M). { replace a with (- (t * ueval (ulower us) t)) by lra. rewrite Rabs_Ropp, Rabs_mult, (Rabs_pos_eq t) by lra. apply Rmult_le_compat_l; [lra|]. apply ueval_bound. lra. }
    assert (Y : t * (2 * (M + 1)) <= Rabs a). { apply Rle_trans with (Rabs a / (2 * (M + 1)) * (2 * (M + 1))); [apply Rmult_le_compat_r; [lra|apply Rmin_r]|right; field; lra]. }
    assert (0 < t * (M + 2)) by (apply Rmult_lt_0_compat; lra). lra. }
  induction d as [|d IH]; intros us H; [apply B, H|]. destruct (Req_dec (ucoef us 0) 0) as [E|E]; [|apply B, E].
  rewrite <- ucoef_lower in H. destruct (IH _ H) as (t & Ht & Hv). exists t. split; [exact Ht|]. rewrite ueval_lower, E, Rplus_0_l. apply Rmult_integral_contrapositive_currified; [lra|exact Hv].
Qed.
Lemma zpow_R t k : (0 <= k)%Z -> @zpow R_Fld t k = t ^ Z.to_nat k.
Proof. intros H. rewrite <- (Z2Nat.id k H) at 1. rewrite (@zpow_of_nat R_Fld). induction (Z.to_nat k) as [|n IH]; [reflexivity|]. cbn [npow pow]. rewrite IH. reflexivity. Qed.
Definition distinct (ts : list (term R_Fld)) : Prop := NoDup (map fst ts) /\ List.Forall (fun t : term R_Fld => snd t <> 0) ts.
Notation rteval := (teval R_Fld).
Theorem nonzero_point n : forall ts, twf R_Fld n ts -> distinct ts -> ts <> nil -> exists x : list R, length x = n /\ rteval ts x <> 0.
Proof.
  induction n as [|n IH]; intros ts W (N & C) Ne.
  - destruct ts as [|t ts]; [congruence|]. exists nil. split; [reflexivity|]. apply List.Forall_cons_iff in W as ((W1 & _) & W). apply List.Forall_cons_iff in C as (C1 & C). destruct ts as [|u ts].
    + destruct t as [e c]. cbn [fst snd] in *. destruct e; [|discriminate]. unfold teval. cbn [map sumF meval fst snd]. change (c * 1 + 0 <> 0). lra.
    + exfalso. apply List.Forall_cons_iff in W as ((W2 & _) & _). destruct t as [[|] c], u as [[|] c']; try discriminate. cbn [map fst] in N. inversion N as [|? ? Hn _]; subst. apply Hn. left. reflexivity.
  - destruct ts as [|t0 ts0] eqn:Ets; [congruence|]. rewrite <- Ets in *. set (d := hd 0%Z (fst t0)).
    set (sub := filter (fun t : term R_Fld => Z.eqb (hd 0%Z (fst t)) d) ts). set (tls := map (fun t : term R_Fld => (tl (fst t), snd t)) sub).
    assert (Wall : forall t, List.In t ts -> exists k e, fst t = (k :: e)%list /\ length e = n /\ (0 <= k)%Z /\ nonneg_row e).
    { intros t Ht. unfold twf in W. rewrite List.Forall_forall in W. destruct (W t Ht) as (W1 & W2). destruct (fst t) as [|k e]; [discriminate|]. exists k, e. inversion W2; subst. repeat split; auto. }
    assert (Wt : twf R_Fld n tls).
    { unfold twf, tls. apply List.Forall_map, List.Forall_forall. intros t Ht. apply filter_In in Ht as (Ht & _). destruct (Wall t Ht) as (k & e & E1 & E2 & E3 & E4). cbn [fst]. rewrite E1. cbn. auto. }
    assert (Dt : distinct tls).
    { split.
      - unfold tls. rewrite map_map. cbn [fst]. assert (Nf : NoDup (map fst sub)). { unfold sub. clear -N. induction ts as [|t l IHl]; [constructor|]. cbn [map] in N. inversion N as [|? ? H1 H2]; subst. cbn [filter]. destruct (Z.eqb _ _); [|apply IHl, H2].
          cbn [map]. constructor; [|apply IHl, H2]. intros K. apply H1. apply in_map_iff in K as (u & Eu & Hu). apply filter_In in Hu as (Hu & _). apply in_map_iff. exists u. split; [exact Eu|exact Hu]. }
        assert (Hh : forall t, List.In t sub -> fst t = (d :: tl (fst t))%list). { intros t Ht. apply filter_In in Ht as (Ht & E). apply Z.eqb_eq in E. destruct (Wall t Ht) as (k & e & E1 & _). rewrite E1 in *. cbn in *. congruence. }
        clear -Nf Hh. induction sub as [|t l IHl]; [constructor|]. cbn [map] in *. inversion Nf as [|? ? H1 H2]; subst. constructor; [|apply IHl; [exact H2|intros u Hu; apply Hh; right; exact Hu]].
        intros K. apply H1. apply in_map_iff in K as (u & E & Hu). apply in_map_iff. exists u. split; [|exact Hu]. exact (eq_trans (Hh u (or_intror Hu)) (eq_trans (f_equal (cons d) E) (eq_sym (Hh t (or_introl eq_refl))))).
      - unfold tls. apply List.Forall_map, List.Forall_forall. intros t Ht. apply filter_In in Ht as (Ht & _). cbn [snd]. rewrite List.Forall_forall in C. apply C, Ht. }
    assert (Nt : tls <> nil). { unfold tls, sub. rewrite Ets. cbn [filter]. fold d. rewrite Z.eqb_refl. discriminate. }
    destruct (IH tls Wt Dt Nt) as (xs & Lx & Hx).
    set (us := map (fun t : term R_Fld => (Z.to_nat (hd 0%Z (fst t)), snd t * @meval R_Fld (tl (fst t)) xs)) ts).
    assert (Hd : (0 <= d)%Z). { destruct (Wall t0) as (k & e & E1 & _ & E3 & _); [rewrite Ets; left; reflexivity|]. unfold d. rewrite E1. exact E3. }
    destruct (unonzero (Z.to_nat d) us) as (t & _ & Ht).
    + assert (E : ucoef us (Z.to_nat d) = rteval tls xs); [|rewrite E; exact Hx]. unfold us, tls, sub. clear -Wall Hd. induction ts as [|u l IHl]; [reflexivity|]. cbn [map filter].
      specialize (IHl (fun t Ht => Wall t (or_intror Ht))). destruct (Wall u (or_introl eq_refl)) as (k & e & E1 & _ & E3 & _). cbn [ucoef fold_right fst snd]. fold (ucoef (map (fun t : term R_Fld => (Z.to_nat (hd 0%Z (fst t)), snd t * @meval R_Fld (tl (fst t)) xs)) l) (Z.to_nat d)). rewrite IHl, E1. cbn [hd tl].
      destruct (Z.eqb_spec k d) as [->|Hk].
      * rewrite Nat.eqb_refl. cbn [map]. rewrite E1. reflexivity.
      * destruct (Nat.eqb_spec (Z.to_nat k) (Z.to_nat d)) as [E|_]; [exfalso; apply Hk; lia|]. rewrite Rplus_0_l. reflexivity.
    + exists (t :: xs)%list. split; [cbn; congruence|]. assert (E : rteval ts (t :: xs) = ueval us t); [|rewrite E; exact Ht].
      unfold us. clear -Wall. induction ts as [|u l IHl]; [reflexivity|]. specialize (IHl (fun v Hv => Wall v (or_intror Hv))). destruct (Wall u (or_introl eq_refl)) as (k & e & E1 & _ & E3 & _).
      unfold teval in *. cbn [map sumF ueval fold_right fst snd]. fold (ueval (map (fun t : term R_Fld => (Z.to_nat (hd 0%Z (fst t)), snd t * @meval R_Fld (tl (fst t)) xs)) l) t). rewrite <- IHl, E1. cbn [meval hd tl]. rewrite <- (zpow_R t k E3).
      change (@fadd R_Fld) with Rplus. change (@fmul R_Fld) with Rmult. set (S := sumF _). clearbody S. change (snd u * (@zpow R_Fld t k * @meval R_Fld e xs) + S = snd u * @meval R_Fld e xs * @zpow R_Fld t k + S). ring.
Qed.
