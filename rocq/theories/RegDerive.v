(** The value of what [derive_prod] returns. *)
From Coq Require Import Reals Lra Lia List ZArith.
From Verif Require Import PolyProofs RealField PolyReal ParamModel ParamSpec ParamProofs ParamReal ParamStep ParamMeasure RegModel RegSpec RegCurve RegProofs.
Import ListNotations.
Local Open Scope nat_scope.

Definition Rprod (l : list R) : R := fold_right Rmult 1%R l.
Lemma Rprod_cons a l : Rprod (a :: l) = (a * Rprod l)%R. Proof. reflexivity. Qed.
Lemma Rsum_cons a l : Rsum (a :: l) = (a + Rsum l)%R. Proof. reflexivity. Qed.
Lemma Rprod_pos l : Forall (fun v => (0 < v)%R) l -> (0 < Rprod l)%R.
Proof. induction 1; [unfold Rprod; cbn; lra|]. rewrite Rprod_cons. apply Rmult_lt_0_compat; assumption. Qed.

Ltac rring := apply Rminus_diag_uniq; ring.
Lemma map_nth_all {A} (l : list A) d : map (fun i => nth i l d) (seq 0 (length l)) = l.
Proof. induction l as [|a l IH]; [reflexivity|]. cbn [length seq map nth]. f_equal. rewrite <- seq_shift, map_map. exact IH. Qed.
Section Eval.
Variables (nv : nat) (X : list R).
Hypothesis LX : length X = nv.
Notation ev p := (@peval R_Fld p X).
Definition oval (o : option rpoly) : R := match o with None => 1%R | Some q => ev q end.
Definition oproper (o : option rpoly) : Prop := match o with None => True | Some q => proper nv q end.
Lemma times_ev (p q : rpoly) : proper nv p -> proper nv q -> proper nv (ptimes p q) /\ ev (ptimes p q) = (ev p * ev q)%R.
Proof. intros Hp Hq. destruct (proper_times R_Fld nv p q Hp Hq) as [A B]. split; [exact A|]. exact (B X LX). Qed.
Lemma plus_ev (p q : rpoly) : proper nv p -> proper nv q -> proper nv (pplus p q) /\ ev (pplus p q) = (ev p + ev q)%R.
Proof. intros Hp Hq. destruct (proper_plus R_Fld nv p q Hp Hq) as [A B]. split; [exact A|]. exact (B X). Qed.
Lemma num_ev (p : rpoly) (c : R) : proper nv p -> proper nv (@pmul_num R_Fld p c) /\ ev (@pmul_num R_Fld p c) = (ev p * c)%R.
Proof. intros Hp. split; [apply (proper_mul_num R_Fld); exact Hp|]. apply (@pmul_num_eval R_Fld). Qed.
Lemma times_o_ev (p : rpoly) o : proper nv p -> oproper o -> proper nv (times_o p o) /\ ev (times_o p o) = (ev p * oval o)%R.
Proof.
  intros Hp Ho. destruct o as [q|]; cbn [times_o oval] in *; [apply times_ev; assumption|]. apply (num_ev p 1%R Hp).
Qed.
Lemma fold_times_ev l : forall p : rpoly, proper nv p -> Forall (proper nv) l ->
  proper nv (fold_left ptimes l p) /\ ev (fold_left ptimes l p) = (ev p * Rprod (map (fun q => ev q) l))%R.
Proof.
  induction l as [|q l IH]; intros p Hp Hl; cbn [fold_left map]; [split; [exact Hp|unfold Rprod; cbn [map fold_right]; rring]|].
  apply Forall_cons_iff in Hl. destruct Hl as [Hq Hl]. destruct (times_ev p q Hp Hq) as [A B]. destruct (IH _ A Hl) as [C D]. split; [exact C|].
  rewrite D, B, Rprod_cons. rring.
Qed.
Lemma np_prod_ev (l : list rpoly) : Forall (proper nv) l -> oproper (np_prod l) /\ oval (np_prod l) = Rprod (map (fun q => ev q) l).
Proof.
  destruct l as [|p l]; intros H; cbn [np_prod oproper oval]; [split; [exact I|reflexivity]|].
  apply Forall_cons_iff in H. destruct H as [Hp Hl]. destruct (fold_times_ev l p Hp Hl) as [A B]. split; [exact A|]. rewrite B. reflexivity.
Qed.
Lemma prod_others_ev i (jl : list (nat * rpoly)) : forall o, oproper o -> Forall (fun jd => proper nv (snd jd)) jl ->
  let r := fold_left (fun o (jd : nat * rpoly) => if Nat.eqb (fst jd) i then o else match o with None => Some (@pmul_num R_Fld (snd jd) 1%R) | Some q => Some (ptimes q (snd jd)) end) jl o in
  oproper r /\ oval r = (oval o * Rprod (map (fun jd : nat * rpoly => if Nat.eqb (fst jd) i then 1%R else ev (snd jd)) jl))%R.
Proof.
  induction jl as [|jd jl IH]; intros o Ho Hl; cbn [fold_left map]; [split; [exact Ho|unfold Rprod; cbn [map fold_right]; rring]|].
  apply Forall_cons_iff in Hl. destruct Hl as [Hj Hl]. rewrite Rprod_cons. destruct (Nat.eqb (fst jd) i).
  - destruct (IH o Ho Hl) as [A B]. split; [exact A|]. cbv zeta in B. rewrite B. rring.
  - destruct o as [q|].
    + destruct (times_ev q (snd jd) Ho Hj) as [A B]. destruct (IH (Some (ptimes q (snd jd))) A Hl) as [C D]. split; [exact C|]. cbv zeta in D. rewrite D. cbn [oval]. rewrite B. rring.
    + destruct (num_ev (snd jd) 1%R Hj) as [A B]. destruct (IH (Some (@pmul_num R_Fld (snd jd) 1%R)) A Hl) as [C D]. split; [exact C|]. cbv zeta in D. rewrite D. cbn [oval]. rewrite B. rring.
Qed.
Lemma fold_plus_ev (g : nat -> rpoly) (l : list nat) : (forall i, In i l -> proper nv (g i)) -> forall acc : rpoly, proper nv acc ->
  proper nv (fold_left (fun a i => pplus a (g i)) l acc) /\ ev (fold_left (fun a i => pplus a (g i)) l acc) = (ev acc + Rsum (map (fun i => ev (g i)) l))%R.
Proof.
  induction l as [|i l IH]; intros Hg acc Ha; cbn [fold_left map]; [split; [exact Ha|unfold Rsum; cbn [map fold_right]; rring]|].
  destruct (plus_ev acc (g i) Ha (Hg i (or_introl eq_refl))) as [A B]. destruct (IH (fun k Hk => Hg k (or_intror Hk)) _ A) as [C D]. split; [exact C|].
  rewrite D, B, Rsum_cons. rring.
Qed.
End Eval.

(** leaving out one factor *)
Lemma Rprod_skip (v : list R) : forall s i, i < length v -> Forall (fun a => (0 < a)%R) v ->
  (Rprod (map (fun ja : nat * R => if Nat.eqb (fst ja) (s + i) then 1%R else snd ja) (combine (seq s (length v)) v)) * nth i v 0)%R = Rprod v.
Proof.
  assert (T : forall (v : list R) s k, k < s -> Rprod (map (fun ja : nat * R => if Nat.eqb (fst ja) k then 1%R else snd ja) (combine (seq s (length v)) v)) = Rprod v).
  { induction v0 as [|a v0 IH]; intros s k H; [reflexivity|]. cbn [length seq combine map]. rewrite !Rprod_cons. cbn [fst snd].
    destruct (Nat.eqb_spec s k); [lia|]. f_equal. apply IH. lia. }
  induction v as [|a v IH]; intros s [|i] Hi Hv; cbn [length] in Hi; try lia; apply Forall_cons_iff in Hv; destruct Hv as [Ha Hv]; cbn [length seq combine map nth]; rewrite !Rprod_cons; cbn [fst snd].
  - rewrite Nat.add_0_r, Nat.eqb_refl. rewrite T by lia. ring.
  - destruct (Nat.eqb_spec s (s + Datatypes.S i)); [lia|]. rewrite <- (IH (Datatypes.S s) i ltac:(lia) Hv). replace (s + Datatypes.S i) with (Datatypes.S s + i) by lia. ring.
Qed.
Lemma map_nth_combine {A B C} (g : A -> B -> C) (l : list A) (m : list B) a b : length l = length m ->
  map (fun i => g (nth i l a) (nth i m b)) (seq 0 (length m)) = map (fun p => g (fst p) (snd p)) (combine l m).
Proof.
  revert m. induction l as [|x l IH]; intros [|y m] H; cbn in H; try discriminate; [reflexivity|]. cbn [length seq map combine fst snd nth]. f_equal.
  rewrite <- seq_shift, map_map. cbn [nth]. apply IH. lia.
Qed.
Lemma powers_pred (l : list repoly) (x : list R) : Forall (fun Pa => (0 < @peval R_Fld (fst Pa) x)%R) l ->
  (powers_value (map (fun Pa : repoly => (fst Pa, (snd Pa - 1)%R)) l) x * Rprod (map (fun Pa : repoly => @peval R_Fld (fst Pa) x) l) = powers_value l x)%R.
Proof.
  induction 1 as [|Pa l Hp H IH]; [unfold powers_value, Rprod; cbn; ring|]. cbn [map]. rewrite Rprod_cons.
  change (powers_value ((fst Pa, (snd Pa - 1)%R) :: map (fun Pa : repoly => (fst Pa, (snd Pa - 1)%R)) l) x) with (Rpower (@peval R_Fld (fst Pa) x) (snd Pa - 1) * powers_value (map (fun Pa : repoly => (fst Pa, (snd Pa - 1)%R)) l) x)%R.
  change (powers_value (Pa :: l) x) with (Rpower (@peval R_Fld (fst Pa) x) (snd Pa) * powers_value l x)%R. rewrite <- IH, <- (Rpower_pred _ (snd Pa) Hp). ring.
Qed.

Section Main.
Variables (nv index : nat) (names : list nat) (pl : list repoly) (N : rpoly).
Hypothesis OK : product_ok nv names (pl, N).
Hypothesis Hi : index < nv.
Hypothesis Hn : ~ In index names.

Lemma dummies_proper : Forall (proper nv) (map (fun ni => @psymbol R_Fld nv ni) names).
Proof. apply Forall_forall. intros p Hp. apply in_map_iff in Hp. destruct Hp as (k & <- & _). apply symbol_proper. Qed.
Lemma pl_nth i : i < length pl -> proper nv (fst (nth i pl (@pconst R_Fld (pnv N) 0%R, 0%R))) /\ free_of names (fst (nth i pl (@pconst R_Fld (pnv N) 0%R, 0%R))).
Proof. intros H. pose proof OK as OK'; destruct OK' as (_ & _ & _ & _ & A). cbn [fst] in A. rewrite Forall_forall in A. apply A. apply nth_In. exact H. Qed.
Let pnvN : pnv N = nv := proj1 (proj1 (proj2 (proj2 (proj2 OK)))).
Let HN : proper nv N := proj1 (proj2 (proj2 (proj2 OK))).
Let EL : length names = length pl := proj1 OK.

Definition summand (i : nat) : rpoly :=
  let dummies := map (fun ni => @psymbol R_Fld nv ni) names in
  let Pa := nth i pl (@pconst R_Fld (pnv N) 0%R, 0%R) in
  pplus (times_o (ptimes (@pmul_num R_Fld N (snd Pa)) (pderive (fst Pa) index)) (prod_others dummies i))
        (times_o (ptimes (pderive N (nth i names 0)) (pderive (fst Pa) index)) (np_prod dummies)).
Lemma derive_prod_form : derive_prod pl N index names =
  (map (fun Pa : repoly => (fst Pa, (snd Pa - 1)%R)) pl,
   fold_left (fun a i => pplus a (summand i)) (seq 0 (length pl)) (times_o (pderive N index) (np_prod (map (fun ni => @psymbol R_Fld nv ni) names)))).
Proof. unfold derive_prod, summand. rewrite pnvN. reflexivity. Qed.

Lemma summand_proper i : i < length pl -> proper nv (summand i).
Proof.
  intros H. destruct (pl_nth i H) as [Hp _]. unfold summand.
  set (X := repeat 0%R nv). assert (LX : length X = nv) by apply repeat_length.
  destruct (np_prod_ev nv X LX _ dummies_proper) as [A _].
  assert (B : oproper nv (prod_others (map (fun ni => @psymbol R_Fld nv ni) names) i)).
  { apply (prod_others_ev nv X LX i (combine (seq 0 (length (map (fun ni => @psymbol R_Fld nv ni) names))) (map (fun ni => @psymbol R_Fld nv ni) names)) None I).
    apply Forall_forall. intros [j d] Hj. apply in_combine_r in Hj. cbn [snd]. exact (proj1 (Forall_forall _ _) dummies_proper d Hj). }
  apply (plus_ev nv X); apply (times_o_ev nv X LX); try assumption; apply (times_ev nv X LX); try (apply proper_derive; assumption); apply (num_ev nv X); assumption.
Qed.
Lemma derive_prod_ok : product_ok nv names (derive_prod pl N index names).
Proof.
  rewrite derive_prod_form. pose proof OK as OK'; destruct OK' as (E & Nd & Hl & _ & A). cbn [fst snd] in *. split; [|split; [|split; [|split]]]; cbn [fst snd]; try assumption.
  - rewrite map_length. exact E.
  - set (X := repeat 0%R nv). assert (LX : length X = nv) by apply repeat_length.
    apply (fold_plus_ev nv X); [intros i Hi'; apply in_seq in Hi'; apply summand_proper; lia|].
    apply (times_o_ev nv X LX); [apply proper_derive; exact HN|]. apply (np_prod_ev nv X LX _ dummies_proper).
  - rewrite Forall_map. exact A.
Qed.

Section AtPoint.
Variable x : list R.
Hypothesis HP : positive_at nv pl x.
Let Lx : length x = nv := proj1 HP.
Let X := fill names pl x.
Lemma X_length : length X = nv.
Proof. unfold X. rewrite fill_length. exact Lx. Qed.
Lemma X_names : map (fun n => nth n X 0%R) names = map (fun Pa : repoly => @peval R_Fld (fst Pa) x) pl.
Proof.
  pose proof OK as OK'; destruct OK' as (E & Nd & Hl & _ & _). cbn [fst] in *.
  assert (Q : forall ns ps, length ns = length ps -> NoDup ns -> forall n P, In (n, P) (combine ns ps) -> find (fun nP : nat * repoly => Nat.eqb (fst nP) n) (combine ns ps) = Some (n, P)).
  { induction ns as [|a ns IH]; intros [|b ps] L ND n P HIn; cbn in L, HIn; try contradiction; try discriminate. apply NoDup_cons_iff in ND. destruct ND as [Na ND].
    cbn [combine find fst]. destruct HIn as [HE|HIn].
    - injection HE as -> ->. rewrite Nat.eqb_refl. reflexivity.
    - destruct (Nat.eqb_spec a n) as [->|NE]; [exfalso; apply Na; apply in_combine_l in HIn; exact HIn|]. apply IH; [lia|exact ND|exact HIn]. }
  assert (G : forall k P, In (k, P) (combine names pl) -> nth k X 0%R = @peval R_Fld (fst P) x).
  { intros k P HIn. unfold X. rewrite fill_nth. { rewrite (Q names pl E Nd k P HIn). reflexivity. }
    rewrite Lx. rewrite Forall_forall in Hl. apply Hl. apply in_combine_l in HIn. exact HIn. }
  transitivity (map (fun kP : nat * repoly => nth (fst kP) X 0%R) (combine names pl)).
  { rewrite <- (map_map fst (fun k => nth k X 0%R)). rewrite combine_fst by exact E. reflexivity. }
  transitivity (map (fun kP : nat * repoly => @peval R_Fld (fst (snd kP)) x) (combine names pl)).
  { apply map_ext_in. intros [k P] HIn. cbn [fst snd]. apply G, HIn. }
  rewrite <- (map_map snd (fun P : repoly => @peval R_Fld (fst P) x)). rewrite combine_snd by exact E. reflexivity.
Qed.
Lemma base_at_X (p : rpoly) : proper nv p -> free_of names p -> @peval R_Fld p X = @peval R_Fld p x.
Proof.
  intros Hp Hf. apply (peval_free nv names); [exact Hp|exact Hf|exact X_length|exact Lx|]. intros k Hk. 
  destruct (in_dec Nat.eq_dec k names) as [I|NI]; [right; exact I|left]. unfold X. rewrite fill_nth by (rewrite Lx; exact Hk).
  rewrite find_none; [reflexivity|]. rewrite combine_fst by exact EL. exact NI.
Qed.
Let val (Pa : repoly) : R := @peval R_Fld (fst Pa) x.
Let der (Pa : repoly) : R := @peval R_Fld (pderive (fst Pa) index) x.
Lemma dummies_ev : map (fun q => @peval R_Fld q X) (map (fun ni => @psymbol R_Fld nv ni) names) = map val pl.
Proof.
  transitivity (map (fun n => nth n X 0%R) names); [|exact X_names]. rewrite map_map. apply map_ext_in. intros k Hk. apply symbol_nth; [exact X_length|].
  pose proof OK as OK'; destruct OK' as (_ & _ & Hl & _). rewrite Forall_forall in Hl. apply Hl, Hk.
Qed.
Let vals_pos : Forall (fun v => (0 < v)%R) (map val pl).
Proof. rewrite Forall_map. exact (proj2 HP). Qed.
Lemma others_ev i : i < length pl -> (oval X (prod_others (map (fun ni => @psymbol R_Fld nv ni) names) i) * val (nth i pl (@pconst R_Fld (pnv N) 0%R, 0%R)))%R = Rprod (map val pl).
Proof.
  intros H. unfold prod_others. set (dums := map (fun ni => @psymbol R_Fld nv ni) names).
  assert (Hd : Forall (fun jd : nat * rpoly => proper nv (snd jd)) (combine (seq 0 (length dums)) dums)).
  { apply Forall_forall. intros [j d] Hj. apply in_combine_r in Hj. cbn [snd]. exact (proj1 (Forall_forall _ _) dummies_proper d Hj). }
  destruct (prod_others_ev nv X X_length i _ None I Hd) as [_ B]. cbv zeta in B.
  eapply eq_trans; [apply (f_equal (fun r => (r * val (nth i pl (@pconst R_Fld (pnv N) 0%R, 0%R)))%R)); exact B|]. cbn [oval].
  assert (E : map (fun jd : nat * rpoly => if Nat.eqb (fst jd) i then 1%R else @peval R_Fld (snd jd) X) (combine (seq 0 (length dums)) dums) =
              map (fun ja : nat * R => if Nat.eqb (fst ja) (0 + i) then 1%R else snd ja) (combine (seq 0 (length (map val pl))) (map val pl))).
  { rewrite <- dummies_ev. fold dums. rewrite map_length. cbn [Nat.add]. generalize (seq 0 (length dums)). clear. induction dums as [|d dums IH]; intros [|s ss]; try reflexivity.
    cbn [combine map fst snd]. f_equal. apply IH. }
  rewrite E. rewrite <- (Rprod_skip (map val pl) 0 i) by (try exact vals_pos; rewrite map_length; exact H).
  rewrite (nth_indep _ 0%R (val (@pconst R_Fld (pnv N) 0%R, 0%R))) by (rewrite map_length; exact H). rewrite (map_nth val). ring.
Qed.

Theorem derive_prod_correct : derivable_pt_lim (fun t => product_value names (pl, N) (upd index t x)) (nth index x 0%R)
   (product_value names (derive_prod pl N index names) x).
Proof.
  assert (Hpp : Forall (fun Pa : repoly => proper nv (fst Pa)) pl).
  { pose proof OK as OK'; destruct OK' as (_ & _ & _ & _ & A). eapply Forall_impl; [|exact A]. cbv beta. intros Pa [B _]. exact B. }
  assert (D1 := powers_deriv nv index pl x Hi HP pl Hpp (proj2 HP)).
  assert (D2 := numerator_deriv nv index names pl N x OK Hi Hn HP).
  assert (Q := derivable_pt_lim_mult _ _ _ _ _ D1 D2).
  eapply deriv_ext; [|eapply deriv_val; [exact Q|]].
  { intros t. reflexivity. }
  cbv beta. rewrite !upd_nth_id. fold X.
  unfold product_value. rewrite derive_prod_form. cbn [fst snd].
  replace (fill names (map (fun Pa : repoly => (fst Pa, (snd Pa - 1)%R)) pl) x) with X.
  2:{ unfold X, fill. apply map_ext. intros k. clear. generalize names. induction pl as [|P ps IH]; intros [|n ns]; try reflexivity. cbn [map combine find fst snd].
      destruct (Nat.eqb n k); [reflexivity|]. apply IH. }
  destruct (np_prod_ev nv X X_length _ dummies_proper) as [A1 A2]. rewrite dummies_ev in A2.
  destruct (times_o_ev nv X X_length (pderive N index) _ (proper_derive R_Fld nv N index HN) A1) as [B1 B2]. rewrite A2 in B2.
  destruct (fold_plus_ev nv X summand (seq 0 (length pl)) ltac:(intros i Hi'; apply in_seq in Hi'; apply summand_proper; lia) _ B1) as [_ C]. rewrite C, B2. clear C.
  set (PI := Rprod (map val pl)).
  assert (HPI : (0 < PI)%R) by (apply Rprod_pos; exact vals_pos).
  rewrite (Rsum_ext _ (fun i => (@peval R_Fld N X * PI * (snd (nth i pl (@pconst R_Fld (pnv N) 0%R, 0%R)) * der (nth i pl (@pconst R_Fld (pnv N) 0%R, 0%R)) / val (nth i pl (@pconst R_Fld (pnv N) 0%R, 0%R)))
                 + PI * (@peval R_Fld (pderive N (nth i names O)) X * der (nth i pl (@pconst R_Fld (pnv N) 0%R, 0%R))))%R)).
  2:{ intros i Hi'. apply in_seq in Hi'. destruct (pl_nth i ltac:(lia)) as [Hp Hf]. set (Pa := nth i pl (@pconst R_Fld (pnv N) 0%R, 0%R)) in *.
      assert (V : (0 < val Pa)%R). { assert (HPf := proj2 HP). rewrite Forall_forall in HPf. apply HPf. apply nth_In. lia. }
      assert (O := others_ev i ltac:(lia)). fold PI Pa in O.
      unfold summand. fold Pa.
      assert (Bp : oproper nv (prod_others (map (fun ni => @psymbol R_Fld nv ni) names) i)).
      { apply (prod_others_ev nv X X_length i (combine (seq 0 (length (map (fun ni => @psymbol R_Fld nv ni) names))) (map (fun ni => @psymbol R_Fld nv ni) names)) None I).
        apply Forall_forall. intros [j d] Hj. apply in_combine_r in Hj. cbn [snd]. exact (proj1 (Forall_forall _ _) dummies_proper d Hj). }
      assert (Pd := proper_derive R_Fld nv (fst Pa) index Hp).
      destruct (num_ev nv X N (snd Pa) HN) as [E1 E2]. destruct (times_ev nv X X_length _ _ E1 Pd) as [E3 E4].
      destruct (times_o_ev nv X X_length _ _ E3 Bp) as [E5 E6].
      destruct (times_ev nv X X_length _ _ (proper_derive R_Fld nv N (nth i names 0) HN) Pd) as [G3 G4].
      destruct (times_o_ev nv X X_length _ _ G3 A1) as [G5 G6]. destruct (plus_ev nv X _ _ E5 G5) as [_ K]. rewrite K, E6, G6, E4, G4, E2, A2. fold PI.
      assert (Dx : @peval R_Fld (pderive (fst Pa) index) X = der Pa).
      { apply base_at_X; [exact Pd|]. apply free_derive; try assumption; destruct Hp as [Ep Hp']; [rewrite Ep; exact (conj Ep Hp')|rewrite Ep; exact (proj1 (proj2 (proj2 OK)))]. }
      rewrite Dx. match goal with |- ?a = ?b => change (@eq R a b) end. rewrite <- O. field. lra. }
  rewrite Rsum_plus, !Rsum_scal.
  rewrite (map_nth_combine (fun (n : nat) (Pa : repoly) => (@peval R_Fld (pderive N n) X * der Pa)%R) names pl 0 _ EL).
  rewrite <- (map_map (fun i => nth i pl (@pconst R_Fld (pnv N) 0%R, 0%R)) (fun Pa : repoly => (snd Pa * der Pa / val Pa)%R)).
  rewrite (map_nth_all pl).
  assert (PP := powers_pred pl x (proj2 HP)). fold val PI in PP. rewrite <- PP. fold der val.
  set (S1 := Rsum (map (fun Pa : repoly => (snd Pa * der Pa / val Pa)%R) pl)).
  set (S2 := Rsum (map (fun p : nat * repoly => (@peval R_Fld (pderive N (fst p)) X * der (snd p))%R) (combine names pl))).
  set (W := powers_value (map (fun Pa : repoly => (fst Pa, (snd Pa - 1)%R)) pl) x).
  set (n0 := @peval R_Fld N X). set (n1 := @peval R_Fld (pderive N index) X).
  change (@eq R (W * PI * S1 * n0 + W * PI * (n1 + S2)) (W * (n1 * PI + (n0 * PI * S1 + PI * S2))))%R. generalize W PI S1 S2 n0 n1. intros; ring.
Qed.
End AtPoint.
End Main.
