(** C76: from the terms of the numerator to its value. *)
From Verif Require Import FieldBase MiscModel MiscSpec MiscProofs FnumModel FnumSpec FnumProofs FnumContract FnumWick FnumTermModel FnumTermProofs PropFnum.
Notation T := (nat * nat)%type.
Lemma count_filter L (i : nat) (l : list T) : Forall (fun q => fst q < L) l -> length (filter (selq (seq 0 L) i) l) = count_occ Nat.eq_dec (map snd l) i.
Proof.
  induction 1 as [|q l H _ IH]; [reflexivity|]. cbn [filter map count_occ]. rewrite selq_seq. apply Nat.ltb_lt in H. rewrite H. cbn [andb].
  destruct (Nat.eq_dec (snd q) i) as [->|E]; [rewrite Nat.eqb_refl; cbn [length]; rewrite IH; reflexivity|]. apply Nat.eqb_neq in E. rewrite E. exact IH.
Qed.
Lemma nidx_count L E lf ef i : Forall (fun q => fst q < L) lf -> Forall (fun q => fst q < E) ef -> nidx L E lf ef i = count_occ Nat.eq_dec (map snd lf ++ map snd ef) i.
Proof. intros H1 H2. unfold nidx. rewrite !count_filter by assumption. rewrite count_occ_app. reflexivity. Qed.
Lemma perm_filter {A} (f : A -> bool) (l l2 : list A) : Permutation l2 (filter f l) -> Permutation l (l2 ++ filter (fun q => negb (f q)) l).
Proof.
  intros ->. induction l as [|x l IH]; [reflexivity|]. cbn [filter]. destruct (f x); cbn [negb app]; [constructor; exact IH|].
  rewrite <- Permutation_middle. constructor. exact IH.
Qed.
Lemma selm_in L idxs (q : T) : selm L idxs q = true <-> fst q < L /\ In (snd q) idxs.
Proof.
  unfold selm. rewrite andb_true_iff, Nat.ltb_lt, existsb_exists. split; intros [H1 H2]; (split; [exact H1|]).
  - destruct H2 as (j & Hj & E). apply Nat.eqb_eq in E. rewrite E. exact Hj.
  - exists (snd q). split; [exact H2|apply Nat.eqb_refl].
Qed.
(** every factor with a known Lorentz index is found, the number of times it occurs; what is left has other indices *)
Theorem C76_term_factors_found : forall (L E : nat) (Lorentz_indices : list nat) (loop_factors ext_factors : list T),
  Forall (fun q => fst q < L) loop_factors -> Forall (fun q => fst q < E) ext_factors ->
  (forall i, In i Lorentz_indices -> count_occ Nat.eq_dec (map snd loop_factors ++ map snd ext_factors) i <= 2) ->
  exists loop_left loop_tensor ext_left ext_tensor,
    numerator_tensors L E Lorentz_indices loop_factors ext_factors = Some (loop_left, loop_tensor, ext_left, ext_tensor) /\
    Permutation loop_factors (loop_tensor ++ loop_left) /\ Permutation ext_factors (ext_tensor ++ ext_left) /\
    Forall (fun q => In (snd q) Lorentz_indices) (loop_tensor ++ ext_tensor) /\ Forall (fun q => ~ In (snd q) Lorentz_indices) (loop_left ++ ext_left).
Proof.
  intros L E idxs lf ef H1 H2 Hc. pose proof (indices_spec L E idxs lf [] ef []) as S0.
  assert (HF : forallb (fun i => Nat.leb (nidx L E lf ef i) 2) idxs = true) by (apply forallb_forall; intros i Hi; apply Nat.leb_le; rewrite nidx_count by assumption; apply Hc, Hi).
  rewrite HF in S0. destruct S0 as (l2 & e2 & P1 & P2 & ES). do 4 eexists. split; [exact ES|]. cbn [app]. split; [apply perm_filter, P1|]. split; [apply perm_filter, P2|].
  rewrite !Forall_app. rewrite !Forall_forall in *. repeat split.
  - intros q Hq. apply (Permutation_in _ P1) in Hq. apply filter_In in Hq. apply (proj1 (selm_in L idxs q)). apply Hq.
  - intros q Hq. apply (Permutation_in _ P2) in Hq. apply filter_In in Hq. apply (proj1 (selm_in E idxs q)). apply Hq.
  - intros q Hq Hi. apply filter_In in Hq. destruct Hq as [Hq E0]. rewrite (proj2 (selm_in L idxs q)) in E0; [discriminate|split; [apply H1, Hq|exact Hi]].
  - intros q Hq Hi. apply filter_In in Hq. destruct Hq as [Hq E0]. rewrite (proj2 (selm_in E idxs q)) in E0; [discriminate|split; [apply H2, Hq|exact Hi]].
Qed.
(** an index that occurs more than twice is rejected *)
Theorem C76_index_more_than_twice_rejected : forall (L E : nat) (Lorentz_indices : list nat) (loop_factors ext_factors : list T) i,
  Forall (fun q => fst q < L) loop_factors -> Forall (fun q => fst q < E) ext_factors ->
  In i Lorentz_indices -> 2 < count_occ Nat.eq_dec (map snd loop_factors ++ map snd ext_factors) i ->
  numerator_tensors L E Lorentz_indices loop_factors ext_factors = None.
Proof.
  intros L E idxs lf ef i H1 H2 Hi Hc. pose proof (indices_spec L E idxs lf [] ef []) as S0.
  destruct (forallb _ idxs) eqn:HF; [|exact S0]. rewrite forallb_forall in HF. specialize (HF i Hi). apply Nat.leb_le in HF. rewrite nidx_count in HF by assumption. lia.
Qed.
Local Open Scope fld_scope.
Section Num.
Variable F : Fld.
Variables (d : nat) (w : nat -> F).
Hypothesis Hw : forall i, i < d -> w i <> 0.
Variables (a Fval Uval : F) (highest_rank : nat) (aM : nat -> nat -> F) (P p : nat -> nat -> F).
Notation TN := (term_numerator F (natF d) a Fval Uval highest_rank aM P p).
Notation value := (numerator_value F d w).
Notation spec := (term_spec F d w a Fval Uval highest_rank aM P p).
(** the value of the numerator of a term is given by its factors; the order of the factors, of [Lorentz_indices] and how often an index is listed
    does not matter *)
Theorem C76_term_value (L E : nat) (Lorentz_indices : list nat) (loop_factors ext_factors : list T) (remainder : F) (e : nat -> nat) :
  (forall i j, aM i j = aM j i) -> in_range d e -> Forall (fun q => fst q < L) loop_factors -> Forall (fun q => fst q < E) ext_factors ->
  Forall (fun q => In (snd q) Lorentz_indices) (loop_factors ++ ext_factors) -> at_most_twice (map snd loop_factors ++ map snd ext_factors) ->
  exists loop_tensor ext_tensor l, numerator_tensors L E Lorentz_indices loop_factors ext_factors = Some ([], loop_tensor, [], ext_tensor) /\
    TN loop_tensor ext_tensor remainder = Some l /\ value l e = spec loop_factors ext_factors remainder e.
Proof.
  intros Hs He H1 H2 Hi Ha. destruct (C76_term_factors_found L E Lorentz_indices loop_factors ext_factors H1 H2 (fun i _ => Ha i)) as (ll & lt & el & et & E0 & P1 & P2 & F1 & F2).
  apply Forall_app in F2. apply Forall_app in Hi. destruct F2 as [F2 F3], Hi as [I1 I2].
  assert (ll = []). { destruct ll as [|q ll]; [reflexivity|]. exfalso. inversion F2 as [|? ? G _]; subst. apply G. rewrite Forall_forall in I1. apply I1. rewrite P1. apply in_or_app. right. left. reflexivity. }
  assert (el = []). { destruct el as [|q el]; [reflexivity|]. exfalso. inversion F3 as [|? ? G _]; subst. apply G. rewrite Forall_forall in I2. apply I2. rewrite P2. apply in_or_app. right. left. reflexivity. }
  subst. rewrite app_nil_r in P1, P2.
  assert (PN : Permutation (map snd loop_factors ++ map snd ext_factors) (map snd lt ++ map snd et)) by (apply Permutation_app; apply Permutation_map; assumption).
  assert (Ha' : at_most_twice (map snd lt ++ map snd et)) by (intros n; rewrite <- (perm_cnt _ _ PN); apply Ha).
  destruct (C76_numerator_is_isserlis F d w Hw a Fval Uval highest_rank aM P p lt et remainder e He Ha') as (l & El & Vl).
  exists lt, et, l. split; [exact E0|]. split; [exact El|].
  destruct (C76_numerator_is_isserlis F d w Hw a Fval Uval highest_rank aM P p loop_factors ext_factors remainder e He Ha) as (l' & El' & Vl').
  rewrite <- Vl'. eapply (C76_order_of_factors F d w Hw); try eassumption; symmetry; assumption.
Qed.
(** k_0(3) k_1(3) k_1(5) p_0(5) *)
Example C76_term_value_hypotheses : let lf := [(0, 3); (1, 3); (1, 5)]%nat in let ef := [(0, 5)]%nat in
  Forall (fun q => fst q < 2) lf /\ Forall (fun q => fst q < 1) ef /\ Forall (fun q => In (snd q) [5; 3]%nat) (lf ++ ef) /\ at_most_twice (map snd lf ++ map snd ef) /\
  numerator_tensors 2 1 [5; 3]%nat lf ef = Some ([], [(1, 5); (0, 3); (1, 3)], [], [(0, 5)])%nat.
Proof.
  cbn [map snd app]. split; [repeat constructor; cbn; lia|]. split; [repeat constructor; cbn; lia|]. split; [repeat (apply Forall_cons; [cbn; auto|]); apply Forall_nil|]. split; [|reflexivity].
  intros n. cbn [count_occ]. destruct (Nat.eq_dec 3 n), (Nat.eq_dec 5 n); lia.
Qed.
End Num.
