(** The decomposition covers the unit cube without overlap. *)
From Verif Require Export SectorProofs3 RealField.
Local Open Scope nat_scope.

Definition in_cube (n : nat) (x : list R) : Prop := length x = n /\ Forall (fun v => (0 <= v <= 1)%R) x.
(** no two different Laurent monomials agree at the point: such points lie on no sector boundary *)
Definition generic (n : nat) (x : list R) : Prop :=
  length x = n /\ Forall (fun v => (0 < v)%R) x /\
  forall e, length e = n -> @meval R_Fld e x = 1%R -> e = zrow n.

(** the ordered sets of the steps that lead to each final sector *)
Inductive sector_tree (n : nat) : list (list (list nat)) -> Prop :=
| tree_leaf : sector_tree n [[]]
| tree_node S0 rs : NoDup S0 -> 2 <= length S0 -> Forall (fun i => i < n) S0 ->
    Forall2 (fun _ r => sector_tree n r) (subsector_sets S0) rs ->
    sector_tree n (concat (map (fun q => map (cons (fst q)) (snd q)) (combine (subsector_sets S0) rs))).

(* nested induction *)
Lemma sector_tree_ind' n (P : list (list (list nat)) -> Prop) : P [[]] ->
  (forall S0 rs, NoDup S0 -> 2 <= length S0 -> Forall (fun i => i < n) S0 ->
    Forall2 (fun _ r => sector_tree n r /\ P r) (subsector_sets S0) rs ->
    P (concat (map (fun q => map (cons (fst q)) (snd q)) (combine (subsector_sets S0) rs)))) ->
  forall l, sector_tree n l -> P l.
Proof.
  intros H0 H1. fix IH 2. intros l Ht. destruct Ht as [|S0 rs Hn Hl Hr Hf]; [exact H0|].
  apply H1; [exact Hn|exact Hl|exact Hr|]. clear -IH Hf. induction Hf as [|sp r sps rs Hr Hf IHf]; constructor; [|exact IHf]. split; [exact Hr|apply IH, Hr].
Qed.

Section Step.
Local Open Scope R_scope.
Notation ssubst := (@sector_subst R_Fld).
Lemma subst_nth a bs (x : list R) j : (j < length x)%nat ->
  nth j (ssubst (a :: bs) x) 0 = if existsb (Nat.eqb j) bs then nth a x 0 * nth j x 0 else nth j x 0.
Proof. apply (sector_subst_nth R_Fld). Qed.
Lemma cube_nth n x j : in_cube n x -> (j < n)%nat -> 0 <= nth j x 0 <= 1.
Proof. intros [HL H] Hj. rewrite Forall_forall in H. apply H, nth_In. lia. Qed.
Lemma cube_intro n x : length x = n -> (forall j, (j < n)%nat -> 0 <= nth j x 0 <= 1) -> in_cube n x.
Proof. intros HL H. split; [exact HL|]. apply Forall_forall. intros v Hv. apply (In_nth _ _ 0) in Hv as (j & Hj & <-). apply H. lia. Qed.
Lemma subst_cube n sp (x : list R) : good_set n sp -> in_cube n x -> in_cube n (ssubst sp x).
Proof.
  intros (_ & _ & Hr) Hx. pose proof Hx as [HL _]. destruct sp as [|a bs]; [exact Hx|].
  apply cube_intro; [rewrite (sector_subst_length R_Fld); exact HL|]. intros j Hj. rewrite subst_nth by (rewrite HL; exact Hj).
  inversion Hr as [|? ? Ha _]; subst. pose proof (cube_nth _ x a Hx Ha). pose proof (cube_nth _ x j Hx Hj).
  destruct (existsb _ bs); [|assumption]. split; nra.
Qed.
Lemma path_cube n path (x : list R) : Forall (good_set n) path -> in_cube n x -> in_cube n (@path_subst R_Fld path x).
Proof. intros H Hx. induction H as [|sp path Hg _ IH]; [exact Hx|]. cbn [path_subst]. apply subst_cube; assumption. Qed.
(** image of the cube under one step *)
Lemma step_image n a bs (x : list R) : good_set n (a :: bs) ->
  (exists y, in_cube n y /\ ssubst (a :: bs) y = x) <-> in_cube n x /\ forall b, In b bs -> nth b x 0 <= nth a x 0.
Proof.
  intros (Hnd & Hne & Hr). pose proof (conj Hnd (conj Hne Hr)) as Hg. inversion Hr as [|? ? Ha Hr']; subst. inversion Hnd as [|? ? Hna Hnd']; subst. rewrite Forall_forall in Hr'.
  split.
  - intros (y & Hy & <-). split; [apply (subst_cube n (a :: bs)); assumption|]. intros b Hb. pose proof Hy as [HL _].
    rewrite !subst_nth by (rewrite HL; auto). rewrite (existsb_eqb_true b bs Hb), (existsb_eqb_false a bs Hna).
    pose proof (cube_nth _ y a Hy Ha). pose proof (cube_nth _ y b Hy (Hr' b Hb)) as Hb'. revert H Hb'. generalize (nth a y 0) (nth b y 0). intros; nra.
  - intros [Hx Hle]. pose proof Hx as [HL _].
    exists (map (fun j => if existsb (Nat.eqb j) bs then (if Req_EM_T (nth a x 0) 0 then 0 else nth j x 0 / nth a x 0) else nth j x 0) (seq 0 n)).
    set (y := map _ _). assert (Ly : length y = n) by (unfold y; rewrite map_length, seq_length; reflexivity).
    assert (Ny : forall j, (j < n)%nat -> nth j y 0 = if existsb (Nat.eqb j) bs then (if Req_EM_T (nth a x 0) 0 then 0 else nth j x 0 / nth a x 0) else nth j x 0).
    { intros j Hj. unfold y. exact (nth_map_seq (fun j => if existsb (Nat.eqb j) bs then (if Req_EM_T (nth a x 0) 0 then 0 else nth j x 0 / nth a x 0) else nth j x 0) n j 0 Hj). }
    pose proof (cube_nth _ x a Hx Ha) as Hxa.
    split.
    + apply cube_intro; [exact Ly|]. intros j Hj. rewrite Ny by exact Hj. pose proof (cube_nth _ x j Hx Hj) as Hxj.
      destruct (existsb (Nat.eqb j) bs) eqn:E; [|exact Hxj]. destruct (Req_EM_T (nth a x 0) 0) as [E0|E0]; [lra|].
      apply existsb_exists in E as (b & Hb & E). apply Nat.eqb_eq in E. subst b. specialize (Hle j Hb).
      assert (Pa : 0 < nth a x 0) by (destruct (Rtotal_order 0 (nth a x 0)) as [|[|]]; [assumption|congruence|lra]). split; [apply Rmult_le_pos; [apply Hxj|apply Rlt_le, Rinv_0_lt_compat, Pa]|]. apply (Rmult_le_reg_r (nth a x 0)); [lra|]. unfold Rdiv. rewrite Rmult_assoc, Rinv_l by lra. lra.
    + apply (nth_ext _ _ 0 0); rewrite (sector_subst_length R_Fld); [change (length y = length x); congruence|]. change (forall j : nat, (j < length y)%nat -> nth j (ssubst (a :: bs) y) 0 = nth j x 0).
      intros j Hj. rewrite subst_nth by exact Hj. rewrite Ly in Hj. rewrite !Ny by assumption. rewrite (existsb_eqb_false a bs Hna).
      destruct (existsb (Nat.eqb j) bs) eqn:E; [|reflexivity]. destruct (Req_EM_T (nth a x 0) 0) as [E0|E0]; [|match goal with |- @eq _ ?u ?v => change (@eq R u v) end; field; exact E0].
      apply existsb_exists in E as (b & Hb & E). apply Nat.eqb_eq in E. subst b. specialize (Hle j Hb). pose proof (cube_nth _ x j Hx Hj). lra.
Qed.
Lemma argmax (x : list R) S0 : S0 <> [] -> exists a, In a S0 /\ forall b, In b S0 -> nth b x 0 <= nth a x 0.
Proof.
  induction S0 as [|a S0 IH]; [congruence|]. intros _. destruct S0 as [|b S0].
  - exists a. split; [left; reflexivity|]. intros b [<-|[]]. lra.
  - destruct IH as (m & Hm & Hmax); [discriminate|]. destruct (Rle_dec (nth m x 0) (nth a x 0)) as [H|H].
    + exists a. split; [left; reflexivity|]. intros c [<-|Hc]; [lra|]. specialize (Hmax c Hc). lra.
    + exists m. split; [right; exact Hm|]. intros c [<-|Hc]; [lra|]. apply Hmax, Hc.
Qed.
Lemma set_with_head S0 a : In a S0 -> exists bs, In (a :: bs) (subsector_sets S0) /\ Permutation (a :: bs) S0.
Proof.
  intros H. apply (In_nth _ _ 0%nat) in H as (i & Hi & E). destruct (swap0_spec S0 i Hi) as (bs & E1 & Hp). rewrite E in *.
  exists bs. split; [|exact Hp]. unfold subsector_sets. rewrite <- E1. apply in_map, in_seq. lia.
Qed.
Lemma step_cover n S0 (x : list R) : NoDup S0 -> S0 <> [] -> Forall (fun i => (i < n)%nat) S0 -> in_cube n x ->
  exists sp y, In sp (subsector_sets S0) /\ in_cube n y /\ ssubst sp y = x.
Proof.
  intros Hn Hne Hr Hx. destruct (argmax x S0 Hne) as (a & Ha & Hmax). destruct (set_with_head S0 a Ha) as (bs & Hin & Hp).
  pose proof (good_sets_of n S0 Hn Hr _ Hin) as Hg. destruct (proj2 (step_image n a bs x Hg)) as (y & Hy & E).
  { split; [exact Hx|]. intros b Hb. apply Hmax. eapply Permutation_in; [exact Hp|right; exact Hb]. }
  exists (a :: bs), y. auto.
Qed.

(** generic points *)
Lemma generic_distinct n x a b : generic n x -> (a < n)%nat -> (b < n)%nat -> nth a x 0 = nth b x 0 -> a = b.
Proof.
  intros (HL & Hpos & Hg) Ha Hb E. destruct (Nat.eq_dec a b) as [|Hab]; [assumption|exfalso].
  set (e := upd a 1%Z (upd b (-1)%Z (zrow n))). assert (Le : length e = n) by (unfold e; rewrite !upd_length; apply (zrow_length)).
  assert (Hnz : forall j, (j < n)%nat -> nth j x 0 <> 0) by (intros j Hj; rewrite Forall_forall in Hpos; assert (0 < nth j x 0) by (apply Hpos, nth_In; lia); lra).
  assert (M : @meval R_Fld e x = 1).
  { assert (Lb : length (upd b (-1)%Z (zrow n)) = length x) by (rewrite upd_length, zrow_length; symmetry; exact HL).
    unfold e. rewrite (@meval_upd_exp R_Fld) by (try exact Lb; change (a < length x)%nat; lia).
    change (@zpow R_Fld (nth a x 0) 1 * @meval R_Fld (upd a 0%Z (upd b (-1)%Z (zrow n))) x = 1).
    assert (E2 : upd a 0%Z (upd b (-1)%Z (zrow n)) = upd b (-1)%Z (zrow n)).
    { apply (nth_ext _ _ 0%Z 0%Z); rewrite !upd_length; [reflexivity|]. intros j Hj. rewrite !nth_upd, !upd_length, zrow_length in *.
      destruct (Nat.eqb_spec a j), (Nat.eqb_spec b j); cbn [andb]; try congruence. destruct (Nat.ltb_spec j n); [|lia]. unfold zrow. rewrite nth_repeat. reflexivity. }
    rewrite E2. rewrite (@meval_upd_exp R_Fld) by (try (rewrite zrow_length; symmetry; exact HL); change (b < length x)%nat; lia).
    assert (E3 : upd b 0%Z (zrow n) = zrow n).
    { apply (nth_ext _ _ 0%Z 0%Z); rewrite !upd_length; [reflexivity|]. intros j Hj. rewrite !nth_upd. unfold zrow. rewrite nth_repeat. destruct (_ && _); reflexivity. }
    rewrite E3, (@meval_zrow R_Fld). change (@zpow R_Fld (nth a x 0) 1 * (@zpow R_Fld (nth b x 0) (-1) * 1) = 1). rewrite E.
    change (nth b x 0 * 1 * (/ (nth b x 0 * 1) * 1) = 1). field. apply Hnz, Hb. }
  specialize (Hg e Le M). assert (G : nth a e 0%Z = nth a (zrow n) 0%Z) by (rewrite Hg; reflexivity).
  unfold e in G. rewrite nth_upd, upd_length, zrow_length, Nat.eqb_refl in G. destruct (Nat.ltb_spec a n); [|lia].
  cbn [andb] in G. unfold zrow in G. rewrite nth_repeat in G. discriminate.
Qed.
Lemma step_inj n a bs (y z : list R) : good_set n (a :: bs) -> length y = n -> length z = n -> nth a (ssubst (a :: bs) y) 0 <> 0 ->
  ssubst (a :: bs) y = ssubst (a :: bs) z -> y = z.
Proof.
  intros (Hnd & Hne & Hr) Ly Lz Hnz E. inversion Hr as [|? ? Ha Hr']; subst. inversion Hnd as [|? ? Hna _]; subst.
  assert (Ej : forall j, (j < length y)%nat -> nth j (ssubst (a :: bs) y) 0 = nth j (ssubst (a :: bs) z) 0) by (intros; rewrite E; reflexivity).
  pose proof (Ej a Ha) as Ea. rewrite subst_nth in Hnz by exact Ha. rewrite !subst_nth in Ea by lia. rewrite (existsb_eqb_false a bs Hna) in *.
  apply (nth_ext _ _ 0 0); [congruence|]. intros j Hj. specialize (Ej j Hj). rewrite !subst_nth in Ej by lia.
  destruct (existsb _ bs); [|exact Ej]. rewrite <- Ea in Ej. apply Rmult_eq_reg_l in Ej; assumption.
Qed.
(* exponents of the monomial of y that becomes e at x = subst y *)
Lemma generic_pull n a bs (y : list R) : good_set n (a :: bs) -> in_cube n y -> generic n (ssubst (a :: bs) y) -> generic n y.
Proof.
  intros Hg Hy (HL & Hpos & Hgen). pose proof Hg as (Hnd & Hne & Hr). pose proof (Forall_inv Hr) as Ha. pose proof (proj1 (proj1 (NoDup_cons_iff a bs) Hnd)) as Hna. cbv beta in Ha.
  pose proof Hy as [Ly _]. assert (Py : forall j, (j < n)%nat -> 0 < nth j y 0).
  { rewrite Forall_forall in Hpos. assert (P : forall j, (j < n)%nat -> 0 < nth j (ssubst (a :: bs) y) 0) by (intros j Hj; apply Hpos, nth_In; exact (eq_ind_r (fun m => (j < m)%nat) Hj HL)).
    assert (Pa : 0 < nth a y 0). { specialize (P a Ha). rewrite subst_nth in P by lia. rewrite (existsb_eqb_false a bs Hna) in P. exact P. }
    intros j Hj. specialize (P j Hj). rewrite subst_nth in P by lia. destruct (existsb _ bs); [|exact P]. pose proof (cube_nth _ y j Hy Hj).
    destruct (Rtotal_order 0 (nth j y 0)) as [E|[E|E]]; [exact E|rewrite <- E in P; lra|lra]. }
  split; [exact Ly|]. split; [apply Forall_forall; intros v Hv; apply (In_nth _ _ 0) in Hv as (j & Hj & <-); apply Py; lia|].
  intros e Le Hm.
  (* e' with e'_a = e_a - sum_b e_b: remapped it is e *)
  set (k := fold_right (fun b acc => (getZ b e + acc)%Z) 0%Z bs).
  set (e' := upd a (getZ a e - k)%Z e). assert (Le' : length e' = n) by (unfold e'; rewrite upd_length; exact Le).
  set (p := @mkPoly R_Fld n [(e', 1)]).
  assert (Hrow : ptm (remap_poly (a :: bs) p) = [(e, 1)]).
  { unfold p. cbn [remap_poly]. assert (G : forall l (q : Z), (forall b, In b l -> b <> a) ->
      ptm (fold_left (fun (q0 : PolyModel.poly R_Fld) b => add_col a b q0) l (@mkPoly R_Fld n [(upd a (getZ a e - fold_right (fun b acc => (getZ b e + acc)%Z) q l)%Z e, 1)])) = [(upd a (getZ a e - q)%Z e, 1)]).
    { induction l as [|b l IH]; intros q Hl; [reflexivity|]. cbn [fold_left fold_right]. unfold add_col at 2. cbn [ptm pnv map fst snd].
      assert (Eb : upd a (getZ a (upd a (getZ a e - (getZ b e + fold_right (fun b0 acc => (getZ b0 e + acc)%Z) q l))%Z e) + getZ b (upd a (getZ a e - (getZ b e + fold_right (fun b0 acc => (getZ b0 e + acc)%Z) q l))%Z e))%Z
         (upd a (getZ a e - (getZ b e + fold_right (fun b0 acc => (getZ b0 e + acc)%Z) q l))%Z e) = upd a (getZ a e - fold_right (fun b0 acc => (getZ b0 e + acc)%Z) q l)%Z e).
      { rewrite !getZ_upd by lia. rewrite Nat.eqb_refl. destruct (Nat.eqb_spec a b) as [->|Hab]; [exfalso; apply (Hl b); [left; reflexivity|reflexivity]|].
        apply (nth_ext _ _ 0%Z 0%Z); rewrite !upd_length; [reflexivity|]. intros j Hj. rewrite !nth_upd, !upd_length. destruct (_ && _); [lia|reflexivity]. }
      rewrite Eb. apply IH. intros; apply Hl; right; assumption. }
    specialize (G bs 0%Z). unfold e', k. etransitivity; [apply G|]. { intros b Hb ->. contradiction. }
    f_equal. f_equal. rewrite Z.sub_0_r. apply upd_getZ. }
  assert (Hpwf : pwf p) by (repeat constructor; exact Le').
  assert (Ev : @peval R_Fld (remap_poly (a :: bs) p) y = @peval R_Fld p (ssubst (a :: bs) y)).
  { apply (remap_poly_eval R_Fld); [exact Hpwf|exact Ly|exact Hnd|exact Hr|]. left. apply Forall_forall. intros v Hv. apply (In_nth _ _ 0) in Hv as (j & Hj & <-).
    assert (0 < nth j y 0) by (apply Py; rewrite <- Ly; exact Hj). cbn. lra. }
  unfold peval in Ev. rewrite Hrow in Ev. cbn [p ptm map sumF fst snd] in Ev.
  change (1 * @meval R_Fld e y + 0 = 1 * @meval R_Fld e' (ssubst (a :: bs) y) + 0) in Ev. rewrite Hm in Ev.
  assert (E1 : e' = zrow n) by (apply Hgen; [exact Le'|lra]).
  (* then e = 0 *)
  assert (Ho : forall j, j <> a -> getZ j e = 0%Z).
  { intros j Hj. assert (E2 : getZ j e' = getZ j (zrow n)) by (rewrite E1; reflexivity). unfold e' in E2. rewrite getZ_upd in E2 by lia.
    destruct (Nat.eqb_spec a j); [congruence|]. rewrite E2. unfold getZ, zrow. apply nth_repeat. }
  assert (Hk : k = 0%Z). { unfold k. clear -Ho Hna. induction bs as [|b bs IH]; [reflexivity|]. cbn [fold_right]. rewrite IH by (intros H; apply Hna; right; exact H).
    rewrite Ho; [reflexivity|]. intros ->. apply Hna. left. reflexivity. }
  assert (Haa : getZ a e = 0%Z).
  { assert (E2 : getZ a e' = getZ a (zrow n)) by (rewrite E1; reflexivity). unfold e' in E2. rewrite getZ_upd, Nat.eqb_refl in E2 by lia.
    unfold getZ at 2 in E2. unfold zrow in E2. rewrite nth_repeat in E2. lia. }
  apply (nth_ext _ _ 0%Z 0%Z); [rewrite zrow_length; exact Le|]. intros j Hj. unfold zrow. rewrite nth_repeat.
  destruct (Nat.eq_dec j a) as [->|Hja]; [exact Haa|exact (Ho j Hja)].
Qed.
End Step.

(** * trees *)
Lemma in_tree_node sps rs path : In path (concat (map (fun q : list nat * list (list (list nat)) => map (cons (fst q)) (snd q)) (combine sps rs))) <->
  exists sp r p', In (sp, r) (combine sps rs) /\ In p' r /\ path = sp :: p'.
Proof.
  rewrite in_concat. split.
  - intros (l & Hl & Hp). apply in_map_iff in Hl as ((sp, r) & <- & Hq). cbn [fst snd] in Hp. apply in_map_iff in Hp as (p' & <- & Hp'). exists sp, r, p'. auto.
  - intros (sp & r & p' & Hq & Hp' & ->). exists (map (cons sp) r). split; [apply in_map_iff; exists (sp, r); auto|apply in_map, Hp'].
Qed.
Lemma Forall2_combine {A B} (P : A -> B -> Prop) l m : Forall2 P l m -> (forall a b, In (a, b) (combine l m) -> P a b) /\ (forall a, In a l -> exists b, In (a, b) (combine l m)).
Proof.
  induction 1 as [|a b l m Hab _ [IH1 IH2]]; [split; intros a; cbn; tauto|]. split.
  - intros a' b' [E|H]; [injection E as <- <-; exact Hab|apply IH1, H].
  - intros a' [<-|H]; [exists b; left; reflexivity|]. destruct (IH2 a' H) as (b' & Hb'). exists b'. right. exact Hb'.
Qed.
Lemma tree_good n l : sector_tree n l -> Forall (Forall (good_set n)) l.
Proof.
  intros H. induction H as [|S0 rs Hn Hl Hr Hf] using sector_tree_ind'; [repeat constructor|].
  apply Forall_forall. intros path Hp. apply in_tree_node in Hp as (sp & r & p' & Hq & Hp' & ->).
  apply Forall2_combine in Hf as [Hf _]. destruct (Hf sp r Hq) as [_ IH]. rewrite Forall_forall in IH. constructor; [|apply IH, Hp'].
  apply (good_sets_of n S0 Hn Hr). apply in_combine_l in Hq. exact Hq.
Qed.
Lemma tree_cover n l (x : list R) : sector_tree n l -> in_cube n x -> exists path y, In path l /\ in_cube n y /\ @path_subst R_Fld path y = x.
Proof.
  intros H. revert x. induction H as [|S0 rs Hn Hl Hr Hf] using sector_tree_ind'; intros x Hx.
  - exists [], x. repeat split; try apply Hx. left. reflexivity.
  - destruct (step_cover n S0 x) as (sp & z & Hsp & Hz & E); try assumption. { intros ->. cbn in Hl. lia. }
    apply Forall2_combine in Hf as [Hf1 Hf2]. destruct (Hf2 sp Hsp) as (r & Hq). destruct (Hf1 sp r Hq) as [_ IH].
    destruct (IH z Hz) as (p' & y & Hp' & Hy & E'). exists (sp :: p'), y. split; [apply in_tree_node; exists sp, r, p'; auto|]. split; [exact Hy|].
    cbn [path_subst]. rewrite E'. exact E.
Qed.
Lemma subsector_sets_head_unique S0 sp sp' : NoDup S0 -> In sp (subsector_sets S0) -> In sp' (subsector_sets S0) -> hd 0 sp = hd 0 sp' -> sp = sp'.
Proof.
  intros Hn H1 H2 E. unfold subsector_sets in *. apply in_map_iff in H1 as (i & <- & Hi). apply in_map_iff in H2 as (j & <- & Hj).
  apply in_seq in Hi, Hj. destruct (swap0_spec S0 i) as (b1 & E1 & _); [lia|]. destruct (swap0_spec S0 j) as (b2 & E2 & _); [lia|].
  rewrite E1, E2 in E. cbn [hd] in E. rewrite NoDup_nth in Hn. assert (i = j) by (apply Hn; try lia; exact E). subst. reflexivity.
Qed.
Lemma subsector_sets_NoDup S0 : NoDup S0 -> NoDup (subsector_sets S0).
Proof. intros H. apply (NoDup_map_inv (hd 0)). rewrite subsector_sets_heads. exact H. Qed.
Lemma combine_fun {A B} (l : list A) : forall (m : list B) a b b', NoDup l -> In (a, b) (combine l m) -> In (a, b') (combine l m) -> b = b'.
Proof.
  induction l as [|x l IH]; intros [|y m] a b b' Hn H1 H2; cbn in *; try tauto. inversion Hn as [|? ? Hx Hn']; subst.
  destruct H1 as [E1|H1], H2 as [E2|H2].
  - congruence.
  - injection E1 as <- <-. apply in_combine_l in H2. contradiction.
  - injection E2 as <- <-. apply in_combine_l in H1. contradiction.
  - eapply IH; eassumption.
Qed.
Lemma tree_NoDup n l : sector_tree n l -> NoDup l.
Proof.
  intros H. induction H as [|S0 rs Hn Hl Hr Hf] using sector_tree_ind'; [repeat constructor; intros []|].
  pose proof (subsector_sets_NoDup S0 Hn) as Hs. revert Hs Hf. generalize (subsector_sets S0). clear Hl Hr Hn S0. intros sps Hs Hf.
  induction Hf as [|sp r sps rs [_ Hr] Hf IH]; [constructor|]. inversion Hs as [|? ? Hx Hs']; subst. cbn [combine map concat fst snd].
  apply NoDup_app_intro.
  - apply NoDup_map_inj; [|exact Hr]. intros a b _ _ E. congruence.
  - apply IH, Hs'.
  - intros p H1 H2. apply in_map_iff in H1 as (p' & <- & _). apply in_tree_node in H2 as (sp' & r' & p'' & Hq & _ & E). injection E as <- _.
    apply in_combine_l in Hq. contradiction.
Qed.
Lemma tree_unique n l (x : list R) : sector_tree n l -> generic n x -> forall p q y z, In p l -> In q l -> in_cube n y -> in_cube n z ->
  @path_subst R_Fld p y = x -> @path_subst R_Fld q z = x -> p = q /\ y = z.
Proof.
  intros H. pose proof (tree_good n l H) as Hgood. revert x Hgood. induction H as [|S0 rs Hn Hl Hr Hf] using sector_tree_ind'; intros x Hgood Hx p q y z Hp Hq Hy Hz Ey Ez.
  - destruct Hp as [<-|[]], Hq as [<-|[]]. cbn in Ey, Ez. split; congruence.
  - apply in_tree_node in Hp as (sp & r & p' & Hspr & Hp' & ->). apply in_tree_node in Hq as (sq & r' & q' & Hsqr & Hq' & ->).
    cbn [path_subst] in Ey, Ez.
    pose proof (Forall2_combine _ _ _ Hf) as [Hf1 _]. destruct (Hf1 sp r Hspr) as [Htr IH]. destruct (Hf1 sq r' Hsqr) as [Htr' _].
    pose proof (in_combine_l _ _ _ _ Hspr) as Hsp. pose proof (in_combine_l _ _ _ _ Hsqr) as Hsq.
    pose proof (good_sets_of n S0 Hn Hr _ Hsp) as Gp. pose proof (good_sets_of n S0 Hn Hr _ Hsq) as Gq.
    pose proof (tree_good n r Htr) as Gr. pose proof (tree_good n r' Htr') as Gr'. rewrite Forall_forall in Gr, Gr'.
    pose proof (path_cube n p' y (Gr p' Hp') Hy) as Cp. pose proof (path_cube n q' z (Gr' q' Hq') Hz) as Cq.
    destruct (subsector_sets_perm S0 sp Hsp) as [Pp (a & bs & ->)]. destruct (subsector_sets_perm S0 sq Hsq) as [Pq (a' & bs' & ->)].
    assert (Ia : forall b, In b bs -> (nth b x 0 <= nth a x 0)%R) by (apply (step_image n a bs x Gp); eexists; split; [exact Cp|exact Ey]).
    assert (Ia' : forall b, In b bs' -> (nth b x 0 <= nth a' x 0)%R) by (apply (step_image n a' bs' x Gq); eexists; split; [exact Cq|exact Ez]).
    assert (Eaa : a = a').
    { destruct (Nat.eq_dec a a') as [|Hne]; [assumption|].
      assert (H1 : In a' bs). { assert (In a' (a :: bs)) by (eapply Permutation_in; [symmetry; exact Pp|eapply Permutation_in; [exact Pq|left; reflexivity]]). destruct H; [contradiction|assumption]. }
      assert (H2 : In a bs'). { assert (In a (a' :: bs')) by (eapply Permutation_in; [symmetry; exact Pq|eapply Permutation_in; [exact Pp|left; reflexivity]]). destruct H; [subst; congruence|assumption]. }
      apply (generic_distinct n x); [exact Hx| | |apply Rle_antisym; [apply Ia', H2|apply Ia, H1]].
      - destruct Gp as (_ & _ & G). inversion G; assumption.
      - destruct Gq as (_ & _ & G). inversion G; assumption. }
    subst a'. assert (Esp : a :: bs = a :: bs') by (apply (subsector_sets_head_unique S0); try assumption; reflexivity). injection Esp as <-.
    assert (r' = r) by (eapply combine_fun; [apply (subsector_sets_NoDup S0 Hn)|exact Hsqr|exact Hspr]). subst r'.
    assert (E : @path_subst R_Fld p' y = @path_subst R_Fld q' z).
    { apply (step_inj n a bs); try assumption; [apply Cp|apply Cq| |].
      - rewrite Ey. destruct Gp as (_ & _ & G). inversion G as [|? ? Ga _]; subst. destruct Hx as (HL & Hpos & _). rewrite Forall_forall in Hpos.
        assert (0 < nth a (@sector_subst R_Fld (a :: bs) (@path_subst R_Fld p' y)) 0)%R by (apply Hpos, nth_In; exact (eq_ind_r (fun m => a < m) Ga HL)). lra.
      - rewrite Ey, Ez. reflexivity. }
    destruct (IH (@path_subst R_Fld p' y) ltac:(apply Forall_forall; exact Gr)) with (p := p') (q := q') (y := y) (z := z) as [E1 E2]; try assumption; try reflexivity.
    + eapply generic_pull; [exact Gp|exact Cp|]. rewrite Ey. exact Hx.
    + symmetry. exact E.
    + split; congruence.
Qed.
