(** The split sectors tile the unit cube and preserve the integral. *)
From Coquelicot Require Import Coquelicot.
From Verif Require Import PolyProofs SectorProofs3 SectorInt CubeInt.
From Verif Require Export SplitProofs2 SectorReal.
Local Open Scope R_scope.
Notation rsplit := (@split_point R_Fld).
Notation rsmap := (@split_map R_Fld).

Lemma smap_R v (b : bool) t : rsmap v b t = if b then 1 - (1 - v) * t else v * t.
Proof. destruct b; reflexivity. Qed.
Lemma rsplit_length ix vs cs (y : list R) : length (rsplit ix vs cs y) = length y.
Proof. apply (split_point_length R_Fld). Qed.
Lemma smap_range v b t : 0 < v < 1 -> 0 <= t <= 1 -> 0 <= rsmap v b t <= 1.
Proof. intros Hv Ht. rewrite smap_R. destruct b; nra. Qed.
Lemma upd_cube n i (v : R) x : in_cube n x -> 0 <= v <= 1 -> in_cube n (upd i v x).
Proof.
  intros Hx Hv. apply cube_intro; [rewrite upd_length; apply Hx|]. intros j Hj. rewrite nth_upd. destruct (_ && _); [exact Hv|apply (cube_nth n); assumption].
Qed.
Lemma split_in_cube n ix : forall vs cs (y : list R), Forall (fun v => 0 < v < 1) vs -> Forall (fun i => (i < n)%nat) ix -> in_cube n y -> in_cube n (rsplit ix vs cs y).
Proof.
  induction ix as [|i ix IH]; intros [|v vs] [|c cs] y Hv Hi Hy; cbn [split_point]; auto.
  apply Forall_cons_iff in Hv as [Hv1 Hv]. apply Forall_cons_iff in Hi as [Hi1 Hi]. specialize (IH vs cs y Hv Hi Hy).
  apply upd_cube; [exact IH|]. apply smap_range; [exact Hv1|apply (cube_nth n); assumption].
Qed.
Lemma choices_cons k c cs : In cs (choices k) -> In (c :: cs) (choices (S k)).
Proof. intros H. cbn [choices]. apply in_app_iff. destruct c; [right|left]; apply in_map, H. Qed.
Lemma choices_length k : length (choices k) = (2 ^ k)%nat.
Proof. induction k as [|k IH]; [reflexivity|]. cbn [choices]. rewrite app_length, !map_length, IH. cbn. lia. Qed.
Lemma choices_NoDup k : NoDup (choices k).
Proof.
  induction k as [|k IH]; cbn [choices]; [repeat constructor; intros []|].
  assert (G : forall b, NoDup (map (cons b) (choices k))).
  { intros b. clear -IH. induction IH as [|a l Ha H IH]; cbn; constructor; auto. intros Hin. apply in_map_iff in Hin as (c & E & Hc). congruence. }
  assert (D : forall x, In x (map (cons false) (choices k)) -> In x (map (cons true) (choices k)) -> False).
  { intros x H1 H2. apply in_map_iff in H1 as (? & <- & _). apply in_map_iff in H2 as (? & ? & _). congruence. }
  revert D. generalize (G true). generalize (map (cons true) (choices k)). intros r Hr. generalize (G false). generalize (map (cons false) (choices k)). clear -Hr. intros l Hl D.
  induction Hl as [|a l Ha Hl IH]; cbn; [exact Hr|]. constructor; [rewrite in_app_iff; intros [H|H]; [contradiction|apply (D a); cbn; auto]|]. apply IH. intros x H1 H2. apply (D x); cbn; auto.
Qed.
Lemma choices_in k cs : In cs (choices k) <-> length cs = k.
Proof.
  split.
  - revert cs. induction k as [|k IH]; cbn [choices]; intros cs H; [destruct H as [<-|[]]; reflexivity|]. apply in_app_iff in H. destruct H as [H|H]; apply in_map_iff in H as (c & <- & H); cbn; f_equal; auto.
  - revert cs. induction k as [|k IH]; intros [|c cs] H; try discriminate; [left; reflexivity|]. apply choices_cons, IH. cbn in H. lia.
Qed.
Lemma nth_eq_upd i (z x : list R) (a : R) : length z = length x -> nth i x 0 = a -> (forall j, j <> i -> (j < length x)%nat -> nth j z 0 = nth j x 0) -> upd i a z = x.
Proof.
  intros HL Ha H. apply (nth_ext _ _ 0 0); rewrite upd_length; [exact HL|]. intros j Hj. rewrite nth_upd. destruct (Nat.eqb_spec i j) as [<-|E].
  - destruct (Nat.ltb_spec i (length z)); cbn; [symmetry; exact Ha|lia].
  - apply H; [auto|lia].
Qed.
Lemma nth_upd_same i (v : R) (x : list R) : (i < length x)%nat -> nth i (upd i v x) 0 = v.
Proof. intros H. rewrite nth_upd, Nat.eqb_refl, (proj2 (Nat.ltb_lt i (length x))) by exact H. reflexivity. Qed.
Lemma split_cover n ix : forall vs (x : list R), Forall (fun v => 0 < v < 1) vs -> length vs = length ix -> Forall (fun i => (i < n)%nat) ix -> in_cube n x ->
  exists cs y, In cs (choices (length ix)) /\ in_cube n y /\ rsplit ix vs cs y = x.
Proof.
  induction ix as [|i ix IH]; intros [|v vs] x Hv HL Hi Hx; cbn [length] in HL; try discriminate.
  - exists [], x. split; [left; reflexivity|]. split; [exact Hx|reflexivity].
  - apply Forall_cons_iff in Hv as [Hv1 Hv]. apply Forall_cons_iff in Hi as [Hi1 Hi]. pose proof (cube_nth n x i Hx Hi1) as Hxi.
    assert (E : exists c t, 0 <= t <= 1 /\ @eq R (rsmap v c t) (nth i x 0)).
    { destruct (Rle_lt_dec (nth i x 0) v) as [H|H].
      - exists false, (nth i x 0 / v). rewrite smap_R. split; [|field; lra]. split; [apply Rmult_le_pos; [lra|]; left; apply Rinv_0_lt_compat; lra|].
        apply (Rmult_le_reg_r v); [lra|]. unfold Rdiv. rewrite Rmult_assoc, Rinv_l by lra. lra.
      - exists true, ((1 - nth i x 0) / (1 - v)). rewrite smap_R. split; [|field; lra]. split; [apply Rmult_le_pos; [lra|]; left; apply Rinv_0_lt_compat; lra|].
        apply (Rmult_le_reg_r (1 - v)); [lra|]. unfold Rdiv. rewrite Rmult_assoc, Rinv_l by lra. lra. }
    destruct E as (c & t & Ht & E). destruct (IH vs (upd i t x) Hv ltac:(lia) Hi (upd_cube n i t x Hx Ht)) as (cs & y & H1 & H2 & H3).
    exists (c :: cs), y. split; [apply choices_cons, H1|]. split; [exact H2|]. cbn [split_point]. rewrite H3. destruct Hx as [Lx _].
    apply nth_eq_upd; [rewrite upd_length; reflexivity| |].
    + symmetry. transitivity (rsmap v c t); [|exact E]. apply (f_equal (rsmap v c)). apply (nth_upd_same i t x). lia.
    + intros j Hj Hl. rewrite nth_upd. destruct (Nat.eqb_spec i j); [congruence|reflexivity].
Qed.
Lemma split_other ix : forall vs cs (y : list R) j, ~ In j ix -> nth j (rsplit ix vs cs y) 0 = nth j y 0.
Proof.
  induction ix as [|i ix IH]; intros [|v vs] [|c cs] y j Hj; cbn [split_point]; auto. unfold set_coord. rewrite nth_upd.
  destruct (Nat.eqb_spec i j) as [->|_]; [exfalso; apply Hj; left; reflexivity|]. cbn [andb]. apply IH. intros H. apply Hj. right. exact H.
Qed.
Lemma split_unique n ix : forall vs (x : list R) cs cs' y y', NoDup ix -> Forall (fun v => 0 < v < 1) vs -> length vs = length ix -> Forall (fun i => (i < n)%nat) ix ->
  Forall2 (fun i v => nth i x 0 <> v) ix vs -> length cs = length ix -> length cs' = length ix -> in_cube n y -> in_cube n y' ->
  rsplit ix vs cs y = x -> rsplit ix vs cs' y' = x -> cs = cs' /\ y = y'.
Proof.
  induction ix as [|i ix IH]; intros [|v vs] x [|c cs] [|c' cs'] y y' Hn Hv HL Hi Hx Hc Hc' Hy Hy' E E'; cbn [length] in *; try discriminate.
  - cbn in E, E'. split; congruence.
  - apply NoDup_cons_iff in Hn as [Hni Hn]. apply Forall_cons_iff in Hv as [Hv1 Hv]. apply Forall_cons_iff in Hi as [Hi1 Hi]. inversion Hx as [|? ? ? ? Hx1 Hxr]; subst. clear Hx.
    set (x := rsplit (i :: ix) (v :: vs) (c :: cs) y) in *. cbn [split_point] in E'.
    set (z := rsplit ix vs cs y) in *. set (z' := rsplit ix vs cs' y') in *.
    assert (Lz : @length R z = n) by (unfold z; rewrite rsplit_length; apply Hy). assert (Lz' : @length R z' = n) by (unfold z'; rewrite rsplit_length; apply Hy').
    assert (Rz : 0 <= nth i z 0 <= 1) by (unfold z; rewrite split_other by exact Hni; apply (cube_nth n); assumption).
    assert (Rz' : 0 <= nth i z' 0 <= 1) by (unfold z'; rewrite split_other by exact Hni; apply (cube_nth n); assumption).
    assert (Ex : x = upd i (rsmap v c (nth i z 0)) z) by reflexivity. unfold set_coord in E'. change (@f0 R_Fld) with 0 in E'.
    assert (V : @nth R i x 0 = rsmap v c (nth i z 0)) by (rewrite Ex; apply (nth_upd_same i _ z); rewrite Lz; exact Hi1).
    assert (V' : @nth R i x 0 = rsmap v c' (nth i z' 0)) by (rewrite <- E'; apply (nth_upd_same i _ z'); rewrite Lz'; exact Hi1).
    rewrite smap_R in V, V'. assert (c = c') as <-.
    { destruct c, c'; try reflexivity; exfalso; apply Hx1; nra. }
    assert (Ez : nth i z 0 = nth i z' 0) by (rewrite V in V'; destruct c; nra).
    assert (Ezz : z = z').
    { apply (nth_ext _ _ 0 0); [exact (eq_trans Lz (eq_sym Lz'))|]. intros j Hj. destruct (Nat.eq_dec j i) as [->|Hji]; [exact Ez|].
      assert (A : nth j x 0 = nth j z 0) by (rewrite Ex, nth_upd; destruct (Nat.eqb_spec i j); [congruence|reflexivity]).
      assert (A' : nth j x 0 = nth j z' 0) by (rewrite <- E', nth_upd; destruct (Nat.eqb_spec i j); [congruence|reflexivity]). exact (eq_trans (eq_sym A) A'). }
    destruct (IH vs z cs cs' y y') as [-> ->]; auto; try (rewrite Ezz; reflexivity).
    assert (Hz : Forall2 (fun i v => nth i z 0 <> v) ix vs); [|exact Hz].
    assert (K : forall j, In j ix -> nth j z 0 = nth j x 0). { intros j Hj. rewrite Ex, nth_upd. destruct (Nat.eqb_spec i j) as [->|]; [contradiction|reflexivity]. }
    clear -Hxr K. clearbody x. clearbody z. induction Hxr as [|j w ix vs Hj Hxr IHx]; constructor; [rewrite K by (left; reflexivity); exact Hj|apply IHx; intros; apply K; right; assumption].
Qed.

(* integral *)
Definition slice (u : R) (ts : list (term R_Fld)) : list (term R_Fld) := map (fun t : term R_Fld => (tl (fst t), @fmul R_Fld (snd t) (@zpow R_Fld u (hd 0%Z (fst t))))) ts.
Lemma slice_eval n u ts (xs : list R) : twf R_Fld (S n) ts -> teval R_Fld (slice u ts) xs = teval R_Fld ts (u :: xs).
Proof.
  intros H. unfold teval, slice. rewrite map_map. apply (@sumF_map_ext R_Fld). intros t Ht. cbn [fst snd]. unfold twf in H. rewrite Forall_forall in H. destruct (H t Ht) as [HL _].
  destruct t as [[|k e] c]; cbn [fst snd] in *; [discriminate|]. cbn [hd tl meval]. change (c * @zpow R_Fld u k * @meval R_Fld e xs = c * (@zpow R_Fld u k * @meval R_Fld e xs)). ring.
Qed.
Lemma slice_wf n u ts : twf R_Fld (S n) ts -> twf R_Fld n (slice u ts).
Proof.
  intros H. unfold twf, slice. apply Forall_map. eapply Forall_impl; [|exact H]. intros t [HL Hn]. cbn [fst]. destruct (fst t) as [|k e]; [discriminate|]. cbn in HL |- *.
  split; [lia|]. inversion Hn; assumption.
Qed.
Lemma slice_int_continuous n ts u : twf R_Fld (S n) ts -> continuous (fun v => tint R_Fld (slice v ts)) u.
Proof.
  intros H. unfold tint, slice. induction H as [|t ts [HL Hn] H IH].
  - cbn [map sumF]. apply continuous_const.
  - cbn [map sumF]. apply (continuous_plus (V := R_NormedModule) (fun v => snd t * @zpow R_Fld v (hd 0%Z (fst t)) * cube_moment R_Fld (tl (fst t)))); [|exact IH].
    destruct (fst t) as [|k e]; [discriminate|]. cbn [hd tl]. inversion Hn as [|? ? Hk He]; subst.
    apply (continuous_ext (fun v => snd t * pow v (Z.to_nat k) * cube_moment R_Fld e)).
    + intros v. rewrite <- (Z2Nat.id k Hk) at 2. rewrite (@zpow_of_nat R_Fld). replace (@npow R_Fld v (Z.to_nat k)) with (pow v (Z.to_nat k)) by (symmetry; apply npow_R). reflexivity.
    + apply (ex_derive_continuous (V := R_NormedModule)). auto_derive. exact I.
Qed.
Lemma RInt_scal_R f (a b k : R) : ex_RInt f a b -> k * RInt f a b = RInt (fun t => k * f t) a b.
Proof. intros H. symmetry. apply (RInt_scal (V := R_CompleteNormedModule) f a b k H). Qed.
Lemma RInt_plus_R f g (a b : R) : ex_RInt f a b -> ex_RInt g a b -> RInt f a b + RInt g a b = RInt (fun t => f t + g t) a b.
Proof. intros H1 H2. symmetry. apply (RInt_plus (V := R_CompleteNormedModule) f g a b H1 H2). Qed.
Lemma RInt_opp_R f (a b : R) : ex_RInt f a b -> - RInt f a b = RInt (fun t => - f t) a b.
Proof. intros H. symmetry. apply (RInt_opp (V := R_CompleteNormedModule) f a b H). Qed.
Lemma RInt_lin_R g (c d a b : R) : (forall a b, ex_RInt g a b) -> RInt g (c * a + d) (c * b + d) = RInt (fun t => c * g (c * t + d)) a b.
Proof. intros H. symmetry. apply (RInt_comp_lin (V := R_CompleteNormedModule) g c d a b). apply H. Qed.
Lemma interval_split g v : (forall u, continuous g u) -> 0 < v < 1 ->
  RInt g 0 1 = v * RInt (fun t => g (v * t)) 0 1 + (1 - v) * RInt (fun t => g (1 - (1 - v) * t)) 0 1.
Proof.
  intros Hg Hv. assert (E : forall a b, ex_RInt g a b) by (intros a b; apply (ex_RInt_continuous (V := R_CompleteNormedModule)); intros; apply Hg).
  assert (CH : RInt g 0 1 = RInt g 0 v + RInt g v 1) by (symmetry; apply (RInt_Chasles (V := R_CompleteNormedModule) g 0 v 1); apply E).
  assert (A : RInt g 0 v = v * RInt (fun t => g (v * t)) 0 1).
  { rewrite RInt_scal_R.
    - replace (RInt g 0 v) with (RInt g (v * 0 + 0) (v * 1 + 0)) by (f_equal; ring).
      rewrite RInt_lin_R by exact E. apply RInt_ext. intros x _. rewrite Rplus_0_r. reflexivity.
    - apply (ex_RInt_continuous (V := R_CompleteNormedModule)). intros z _. apply (continuous_comp (fun t => v * t) g); [|apply Hg]. apply (ex_derive_continuous (V := R_NormedModule)). auto_derive. exact I. }
  assert (B : RInt g v 1 = (1 - v) * RInt (fun t => g (1 - (1 - v) * t)) 0 1).
  { assert (X : ex_RInt (fun t => g (1 - (1 - v) * t)) 0 1).
    { apply (ex_RInt_continuous (V := R_CompleteNormedModule)). intros z _. apply (continuous_comp (fun t => 1 - (1 - v) * t) g); [|apply Hg]. apply (ex_derive_continuous (V := R_NormedModule)). auto_derive. exact I. }
    assert (SW : RInt g v 1 = - RInt g 1 v) by (symmetry; apply (opp_RInt_swap (V := R_CompleteNormedModule) g 1 v); apply E).
    rewrite SW. replace (RInt g 1 v) with (RInt g (- (1 - v) * 0 + 1) (- (1 - v) * 1 + 1)) by (f_equal; ring).
    rewrite RInt_lin_R by exact E.
    rewrite (RInt_ext (fun t => - (1 - v) * g (- (1 - v) * t + 1)) (fun t => - (1 - v) * g (1 - (1 - v) * t))).
    2: { intros x _. replace (- (1 - v) * x + 1) with (1 - (1 - v) * x) by ring. reflexivity. }
    rewrite <- (RInt_scal_R (fun t => g (1 - (1 - v) * t)) 0 1 (- (1 - v))) by exact X. match goal with |- ?a = ?b => change (@eq R a b) end. ring. }
  rewrite CH, A, B. reflexivity.
Qed.
Lemma cube_split_step n : forall i v ts ts1 ts2, (i < n)%nat -> 0 < v < 1 -> twf R_Fld n ts -> twf R_Fld n ts1 -> twf R_Fld n ts2 ->
  (forall y : list R, length y = n -> teval R_Fld ts1 y = teval R_Fld ts (upd i (v * nth i y 0) y)) ->
  (forall y : list R, length y = n -> teval R_Fld ts2 y = teval R_Fld ts (upd i (1 - (1 - v) * nth i y 0) y)) ->
  cube_RInt n (fun y => teval R_Fld ts y) = v * cube_RInt n (fun y => teval R_Fld ts1 y) + (1 - v) * cube_RInt n (fun y => teval R_Fld ts2 y).
Proof.
  induction n as [|n IH]; intros i v ts ts1 ts2 Hi Hv W W1 W2 H1 H2; [lia|]. cbn [cube_RInt].
  assert (SL : forall ts', twf R_Fld (S n) ts' -> forall u, cube_RInt n (fun xs => teval R_Fld ts' (u :: xs)) = cube_RInt n (fun xs => teval R_Fld (slice u ts') xs)).
  { intros ts' W' u. apply cube_RInt_ext. intros xs _. symmetry. apply (slice_eval n), W'. }
  assert (CO : forall ts', twf R_Fld (S n) ts' -> forall u, continuous (fun u => cube_RInt n (fun xs => teval R_Fld ts' (u :: xs))) u).
  { intros ts' W' u. apply (continuous_ext (fun w => tint R_Fld (slice w ts'))); [|apply (slice_int_continuous n), W'].
    intros w. rewrite SL by exact W'. symmetry. apply tint_R, slice_wf, W'. }
  destruct i as [|i].
  - etransitivity; [apply (interval_split (fun u : R => cube_RInt n (fun xs => teval R_Fld ts (u :: xs))) v); [apply CO, W|exact Hv]|].
    f_equal; f_equal; apply RInt_ext; intros u _; apply cube_RInt_ext; intros xs Hxs; symmetry; [apply (H1 (u :: xs))|apply (H2 (u :: xs))]; cbn; rewrite Hxs; reflexivity.
  - assert (EX : forall ts', twf R_Fld (S n) ts' -> ex_RInt (fun u => cube_RInt n (fun xs => teval R_Fld ts' (u :: xs))) 0 1).
    { intros ts' W'. apply (ex_RInt_continuous (V := R_CompleteNormedModule)). intros u _. apply CO, W'. }
    assert (EXs : forall k ts', twf R_Fld (S n) ts' -> ex_RInt (fun u => k * cube_RInt n (fun xs => teval R_Fld ts' (u :: xs))) 0 1).
    { intros k ts' W'. apply (ex_RInt_scal (V := R_NormedModule) (fun u => cube_RInt n (fun xs => teval R_Fld ts' (u :: xs)))). apply EX, W'. }
    rewrite (RInt_scal_R _ 0 1 v) by (apply EX, W1). rewrite (RInt_scal_R _ 0 1 (1 - v)) by (apply EX, W2). rewrite RInt_plus_R by (apply EXs; assumption).
    apply RInt_ext. intros u _. rewrite !SL by assumption. apply (IH i v); [lia|exact Hv|apply slice_wf; assumption..| |].
    + intros y Hy. rewrite !(slice_eval n) by assumption. apply (H1 (u :: y)). cbn. rewrite Hy. reflexivity.
    + intros y Hy. rewrite !(slice_eval n) by assumption. apply (H2 (u :: y)). cbn. rewrite Hy. reflexivity.
Qed.

Definition tsc (k : R) (ts : list (term R_Fld)) : list (term R_Fld) := map (fun t : term R_Fld => (fst t, @fmul R_Fld k (snd t))) ts.
Lemma tsc_eval k ts (y : list R) : teval R_Fld (tsc k ts) y = k * teval R_Fld ts y.
Proof.
  unfold teval, tsc. induction ts as [|t ts IH]; [cbn; ring|]. cbn [map sumF fst snd]. rewrite IH. change (@fmul R_Fld) with Rmult. change (@fadd R_Fld) with Rplus.
  match goal with |- ?a = ?b => change (@eq R a b) end. ring.
Qed.
Lemma tsc_int k ts : tint R_Fld (tsc k ts) = k * tint R_Fld ts.
Proof.
  unfold tint, tsc. induction ts as [|t ts IH]; [cbn; ring|]. cbn [map sumF fst snd]. rewrite IH. change (@fmul R_Fld) with Rmult. change (@fadd R_Fld) with Rplus.
  match goal with |- ?a = ?b => change (@eq R a b) end. ring.
Qed.
Lemma tsc_wf n k ts : twf R_Fld n ts -> twf R_Fld n (tsc k ts).
Proof. intros H. unfold twf, tsc. apply Forall_map. exact H. Qed.

Lemma mapped_value n ks ls (s s' : sector R_Fld) phi j y : sector_mapped n s s' phi j -> length y = n -> sector_value ks ls s' y = @fmul R_Fld (sector_value ks ls s (phi y)) j.
Proof.
  intros H Hy. destruct (H y Hy) as (A & B & C). unfold sector_value. rewrite C.
  assert (EA : map (fun q => @npow R_Fld (@fmul R_Fld (peval (fst (fst q)) y) (peval (snd (fst q)) y)) (snd q)) (combine (scast s') ks) =
    map (fun q => @npow R_Fld (@fmul R_Fld (peval (fst (fst q)) (phi y)) (peval (snd (fst q)) (phi y))) (snd q)) (combine (scast s) ks)).
  { clear -A. revert ks. induction A as [|c c' l l' Hc A IH]; intros [|k ks]; try reflexivity. cbn [combine map fst snd]. f_equal; [f_equal; exact Hc|apply IH]. }
  assert (EB : map (fun q => @npow R_Fld (peval (fst q) y) (snd q)) (combine (sother s') ls) = map (fun q => @npow R_Fld (peval (fst q) (phi y)) (snd q)) (combine (sother s) ls)).
  { clear -B. revert ls. induction B as [|c c' l l' Hc B IH]; intros [|k ks]; try reflexivity. cbn [combine map fst snd]. f_equal; [f_equal; exact Hc|apply IH]. }
  rewrite EA, EB. match goal with |- ?a = ?b => change (@eq R a b) end. cbn. ring.
Qed.
Notation rsgood := (sgood R_Fld).
Lemma cube_value n ks ls (s : sector R_Fld) : rsgood n s -> cube_RInt n (fun y => sector_value ks ls s y) = cube_RInt n (fun y => teval R_Fld (svalue R_Fld n ks ls s) y).
Proof. intros (A & B & _). apply cube_RInt_ext. intros y Hy. symmetry. apply (svalue_eval R_Fld n); assumption. Qed.
Lemma split_step_integral n ks ls i v (s sl sr : sector R_Fld) : (i < n)%nat -> 0 < v < 1 -> rsgood n s -> rsgood n sl -> rsgood n sr ->
  sector_mapped n s sl (rsplit [i] [v] [false]) v -> sector_mapped n s sr (rsplit [i] [v] [true]) (1 - v) ->
  cube_RInt n (fun y => sector_value ks ls s y) = cube_RInt n (fun y => sector_value ks ls sl y) + cube_RInt n (fun y => sector_value ks ls sr y).
Proof.
  intros Hi Hv Gs Gl Gr Ml Mr. rewrite !cube_value by assumption.
  assert (W : forall s', rsgood n s' -> twf R_Fld n (svalue R_Fld n ks ls s')) by (intros s' (A & B & _); apply svalue_wf; assumption).
  rewrite (cube_split_step n i v (svalue R_Fld n ks ls s) (tsc (/ v) (svalue R_Fld n ks ls sl)) (tsc (/ (1 - v)) (svalue R_Fld n ks ls sr))); auto using tsc_wf.
  - rewrite !tint_R by auto using tsc_wf. rewrite !tsc_int. field. lra.
  - intros y Hy. rewrite tsc_eval. destruct Gs as (A & B & _), Gl as (A' & B' & _). rewrite !(svalue_eval R_Fld n) by (rewrite ?upd_length; assumption).
    rewrite (mapped_value n ks ls s sl _ _ y Ml Hy). change (@fmul R_Fld) with Rmult. cbn [split_point split_map].
    match goal with |- / v * (?a * v) = ?b => change (@eq R (/ v * (a * v)) a) end. field. lra.
  - intros y Hy. rewrite tsc_eval. destruct Gs as (A & B & _), Gr as (A' & B' & _). rewrite !(svalue_eval R_Fld n) by (rewrite ?upd_length; assumption).
    rewrite (mapped_value n ks ls s sr _ _ y Mr Hy). change (@fmul R_Fld) with Rmult. cbn [split_point split_map].
    match goal with |- / _ * (?a * _) = ?b => change (@eq R (/ (1 - v) * (a * (1 - v))) a) end. field. lra.
Qed.
Lemma split_integral n ks ls ix : forall vs (s : sector R_Fld) l, rsgood n s -> Forall (fun i => (i < n)%nat) ix -> Forall (fun v => 0 < v < 1) vs ->
  split_recursively s ix vs = Some l ->
  @sumF R_Fld (map (fun s' : sector R_Fld => cube_RInt n (fun y => sector_value ks ls s' y)) l) = cube_RInt n (fun y => sector_value ks ls s y).
Proof.
  induction ix as [|i ix IH]; intros [|v vs] s l G Hi Hv H; cbn [split_recursively] in H; try discriminate.
  - injection H as <-. cbn [map sumF]. match goal with |- ?a = ?b => change (@eq R a b) end. change (@fadd R_Fld) with Rplus. change (@f0 R_Fld) with 0. ring.
  - injection H as <-. cbn [map sumF]. match goal with |- ?a = ?b => change (@eq R a b) end. change (@fadd R_Fld) with Rplus. change (@f0 R_Fld) with 0. ring.
  - apply Forall_cons_iff in Hi as [Hi1 Hi]. apply Forall_cons_iff in Hv as [Hv1 Hv].
    destruct (flip_ok R_Fld n i s G Hi1) as (s1 & E1 & G1 & M1). rewrite E1 in H.
    destruct (rescale_ok R_Fld n i v s G Hi1) as [GL ML]. destruct (rescale_ok R_Fld n i (1 - v) s1 G1 Hi1) as [GR MR].
    destruct (@split_recursively R_Fld (@rescale_sector R_Fld i v s) ix vs) as [a|] eqn:Ea; [|discriminate].
    change (@f1 R_Fld) with 1 in H. change (@fsub R_Fld) with Rminus in H.
    destruct (@split_recursively R_Fld (@rescale_sector R_Fld i (1 - v) s1) ix vs) as [b|] eqn:Eb; [|discriminate]. assert (l = a ++ b) as -> by congruence.
    rewrite map_app, (@sumF_app R_Fld). rewrite (IH _ _ _ GL Hi Hv Ea), (IH _ _ _ GR Hi Hv Eb).
    symmetry. apply (split_step_integral n ks ls i v); auto.
    + eapply mapped_ext; [eapply mapped_trans; [exact M1|exact MR|]|..].
      * intros y Hy. unfold scale_point, set_coord. rewrite upd_length. exact Hy.
      * intros y Hy. cbn [split_point split_map]. unfold scale_point, set_coord. rewrite flip_cons by (intros []). rewrite flip_nil.
        rewrite nth_upd, Nat.eqb_refl. replace (Nat.ltb i (length y)) with true by (symmetry; apply Nat.ltb_lt; lia). cbn [andb].
        apply (nth_ext _ _ 0 0); rewrite ?upd_length; [reflexivity|]. intros j Hj. rewrite !nth_upd, !upd_length. destruct (_ && _); reflexivity.
      * match goal with |- ?a = ?b => change (@eq R a b) end. cbn. ring.
Qed.
