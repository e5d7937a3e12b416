(** [derive_prod] is the derivative of the product. *)
From Coq Require Import Reals Lra Lia List ZArith.
From Verif Require Import PolyProofs RealField PolyReal ParamModel ParamSpec ParamProofs ParamReal ParamStep ParamMeasure RegModel RegSpec RegCurve.
Import ListNotations.
Local Open Scope nat_scope.

Lemma map_seq_nth {A} (f : nat -> A) n k d : k < n -> nth k (map f (seq 0 n)) d = f k.
Proof. intros H. rewrite (nth_indep _ d (f 0)) by (rewrite map_length, seq_length; exact H). rewrite map_nth, seq_nth by exact H. reflexivity. Qed.
Lemma nth_upd_same (i : nat) (v : R) (l : list R) d : i < length l -> nth i (upd i v l) d = v.
Proof. revert i. induction l as [|a l IH]; intros [|i] H; cbn in *; try lia; [reflexivity|]. apply IH. lia. Qed.
Lemma nth_upd_diff (i k : nat) (v : R) (l : list R) d : k <> i -> nth k (upd i v l) d = nth k l d.
Proof. revert i k. induction l as [|a l IH]; intros [|i] [|k] H; cbn; try reflexivity; try congruence. apply IH. congruence. Qed.
Lemma fill_length names pl x : length (fill names pl x) = length x.
Proof. unfold fill. rewrite map_length, seq_length. reflexivity. Qed.
Lemma fill_nth names pl x k : k < length x ->
  nth k (fill names pl x) 0%R = match find (fun nP => Nat.eqb (fst nP) k) (combine names pl) with Some nP => @peval R_Fld (fst (snd nP)) x | None => nth k x 0%R end.
Proof. intros H. unfold fill. rewrite map_seq_nth by exact H. reflexivity. Qed.
Lemma find_none {A} (l : list (nat * A)) k : ~ In k (map fst l) -> find (fun nP => Nat.eqb (fst nP) k) l = None.
Proof. induction l as [|a l IH]; cbn; [reflexivity|]. intros H. destruct (Nat.eqb_spec (fst a) k); [tauto|]. apply IH. tauto. Qed.
Lemma combine_fst {A B} (l : list A) (m : list B) : length l = length m -> map fst (combine l m) = l.
Proof. revert m. induction l as [|a l IH]; intros [|b m] H; cbn in *; try discriminate; [reflexivity|]. f_equal. apply IH. lia. Qed.
Lemma combine_snd {A B} (l : list A) (m : list B) : length l = length m -> map snd (combine l m) = m.
Proof. revert m. induction l as [|a l IH]; intros [|b m] H; cbn in *; try discriminate; [reflexivity|]. f_equal. apply IH. lia. Qed.

(** values of polynomials that do not contain the names *)
Lemma meval_free (e : list Z) : forall (x y : list R), length x = length e -> length y = length e ->
  (forall k, k < length e -> nth k x 0%R = nth k y 0%R \/ getZ k e = 0%Z) -> @meval R_Fld e x = @meval R_Fld e y.
Proof.
  induction e as [|a e IH]; intros [|u x] [|v y] L1 L2 H; cbn in L1, L2; try discriminate; [reflexivity|].
  cbn [meval]. rewrite (IH x y) by first [lia | intros k Hk; apply (H (Datatypes.S k)); cbn; lia].
  destruct (H 0 ltac:(cbn; lia)) as [E|E]; cbn in E; subst; reflexivity.
Qed.
Lemma peval_free nv vars (p : rpoly) (x y : list R) : proper nv p -> free_of vars p -> length x = nv -> length y = nv ->
  (forall k, k < nv -> nth k x 0%R = nth k y 0%R \/ In k vars) -> @peval R_Fld p x = @peval R_Fld p y.
Proof.
  intros Hp Hf Lx Ly H. apply proper_rows in Hp. destruct Hp as [_ Hp]. unfold peval. f_equal. apply map_ext_in. intros t Ht.
  rewrite Forall_forall in Hp. destruct (Hp t Ht) as [L _]. unfold free_of in Hf. rewrite Forall_forall in Hf. specialize (Hf t Ht). cbv beta in Hf.
  rewrite Forall_forall in Hf. f_equal. apply meval_free; [congruence|congruence|]. intros k Hk. destruct (H k ltac:(congruence)) as [E|E]; [left; exact E|right; apply Hf, E].
Qed.
Lemma getZ_upd_other i k v e : k <> i -> getZ k (upd i v e) = getZ k e.
Proof. unfold getZ. revert i k. induction e as [|a e IH]; intros [|i] [|k] N; cbn; try reflexivity; try congruence. apply IH. congruence. Qed.
Lemma free_derive vars (p : rpoly) i : ~ In i vars -> proper (pnv p) p -> Forall (fun k => k < pnv p) vars -> free_of vars p -> free_of vars (pderive p i).
Proof.
  intros Hi Hp Hv H. unfold free_of, pderive in *. destruct (filter _ (ptm p)) as [|t0 ts] eqn:Ef.
  { cbn [pconst ptm]. constructor; [|constructor]. cbn [fst]. apply Forall_forall. intros k _. unfold getZ, zrow. destruct (nth_in_or_default k (repeat 0%Z (pnv p)) 0%Z) as [I|E]; [apply repeat_spec in I; exact I|exact E]. }
  rewrite <- Ef. cbn [ptm]. rewrite Forall_map. cbn [fst]. rewrite Forall_forall in *. intros t Ht. apply filter_In in Ht. destruct Ht as [Ht _].
  specialize (H t Ht). cbv beta in H. rewrite Forall_forall in *. intros k Hk. specialize (H k Hk).
  rewrite getZ_upd_other by congruence. exact H.
Qed.

(** derivative of the product of powers *)
Section Point.
Variables (nv index : nat) (names : list nat) (pl : list repoly) (N : rpoly) (x : list R).
Hypothesis OK : product_ok nv names (pl, N).
Hypothesis Hi : index < nv.
Hypothesis Hn : ~ In index names.
Hypothesis HP : positive_at nv pl x.
Let xi := nth index x 0%R.
Let X := fill names pl x.
Let Lx : length x = nv := proj1 HP.
Let val (Pa : repoly) : R := @peval R_Fld (fst Pa) x.
Let der (Pa : repoly) : R := @peval R_Fld (pderive (fst Pa) index) x.

Lemma base_deriv (p : rpoly) : proper nv p -> derivable_pt_lim (fun t => @peval R_Fld p (upd index t x)) xi (@peval R_Fld (pderive p index) x).
Proof.
  intros Hp. exact (pderive_correct p index x (proj1 (proj2 Hp)) (proper_def R_Fld nv p x Hp Lx) ltac:(destruct Hp as [-> _]; exact Hi)).
Qed.
Lemma val_upd (p : rpoly) : @peval R_Fld p (upd index xi x) = @peval R_Fld p x.
Proof. unfold xi. rewrite upd_nth_id. reflexivity. Qed.
Lemma powers_deriv (l : list repoly) : Forall (fun Pa => proper nv (fst Pa)) l -> Forall (fun Pa => (0 < val Pa)%R) l ->
  derivable_pt_lim (fun t => powers_value l (upd index t x)) xi
    (powers_value l x * Rsum (map (fun Pa => snd Pa * der Pa / val Pa) l))%R.
Proof.
  induction 1 as [|Pa l Hp H IH]; intros Hv.
  { eapply deriv_val; [apply derivable_pt_lim_const|]. unfold Rsum. cbn. ring. }
  apply Forall_cons_iff in Hv. destruct Hv as [Hv1 Hv]. specialize (IH Hv).
  assert (D1 := Rpower_comp_deriv (fun t => @peval R_Fld (fst Pa) (upd index t x)) xi (der Pa) (snd Pa) ltac:(cbv beta; rewrite val_upd; exact Hv1) (base_deriv _ Hp)).
  assert (Q := derivable_pt_lim_mult _ _ xi _ _ D1 IH).
  eapply deriv_ext; [|eapply deriv_val; [exact Q|]].
  - intros t. reflexivity.
  - cbv beta. rewrite val_upd. unfold xi. rewrite upd_nth_id. cbn [map]. unfold Rsum. cbn [fold_right]. fold (Rsum (map (fun Pa => (snd Pa * der Pa / val Pa)%R) l)).
    change (powers_value (Pa :: l) x) with (Rpower (val Pa) (snd Pa) * powers_value l x)%R. fold (val Pa).
    rewrite <- (Rpower_pred (val Pa) (snd Pa) Hv1). match goal with |- ?x = ?y => change (@eq R x y) end. field. lra.
Qed.

(** derivative of the coordinates of the filled point *)
Definition dcoord (l : list (nat * repoly)) (k : nat) : R :=
  match find (fun nP => Nat.eqb (fst nP) k) l with Some nP => der (snd nP) | None => if Nat.eqb index k then 1%R else 0%R end.
Lemma coord_deriv k : k < nv -> derivable_pt_lim (fun t => nth k (fill names pl (upd index t x)) 0%R) xi (dcoord (combine names pl) k).
Proof.
  intros Hk. unfold dcoord. destruct (find (fun nP => Nat.eqb (fst nP) k) (combine names pl)) as [nP|] eqn:Ef.
  - apply (deriv_ext (fun t => @peval R_Fld (fst (snd nP)) (upd index t x))); [intros t; rewrite fill_nth, Ef by (rewrite upd_length, Lx; exact Hk); reflexivity|].
    apply base_deriv. apply find_some in Ef. destruct Ef as [I _]. destruct nP as [n P]. apply in_combine_r in I. cbn [snd].
    destruct OK as (_ & _ & _ & _ & A). rewrite Forall_forall in A. apply (A P I).
  - apply (deriv_ext (fun t => nth k (upd index t x) 0%R)); [intros t; rewrite fill_nth, Ef by (rewrite upd_length, Lx; exact Hk); reflexivity|].
    destruct (Nat.eqb_spec index k) as [<-|NE].
    + eapply deriv_ext; [|apply derivable_pt_lim_id]. intros t. unfold id. rewrite nth_upd_same by (rewrite Lx; exact Hi). reflexivity.
    + eapply deriv_ext; [|apply (derivable_pt_lim_const (nth k x 0%R))]. intros t. unfold fct_cte. rewrite nth_upd_diff by congruence. reflexivity.
Qed.
Lemma sum_collapse (D : nat -> R) (l : list (nat * repoly)) : NoDup (map fst l) -> ~ In index (map fst l) -> Forall (fun k => k < nv) (map fst l) ->
  Rsum (map (fun k => (D k * dcoord l k)%R) (seq 0 nv)) = (D index + Rsum (map (fun nP => D (fst nP) * der (snd nP)) l))%R.
Proof.
  induction l as [|a l IH]; intros Nd Ni Hl.
  - unfold dcoord. cbn [find map]. rewrite (Rsum_override D (fun _ => 0%R) index 1%R nv Hi). rewrite Rsum_zero by (intros; lra). unfold Rsum. cbn. lra.
  - cbn [map] in *. apply NoDup_cons_iff in Nd. destruct Nd as [Na Nd]. apply Forall_cons_iff in Hl. destruct Hl as [Ha Hl].
    rewrite (Rsum_ext _ (fun k => (D k * (if Nat.eqb (fst a) k then der (snd a) else dcoord l k))%R)).
    2:{ intros k _. unfold dcoord. cbn [find]. destruct (Nat.eqb (fst a) k); reflexivity. }
    rewrite Rsum_override by exact Ha. rewrite IH by (try assumption; intros I; apply Ni; right; exact I).
    assert (E : dcoord l (fst a) = 0%R).
    { unfold dcoord. rewrite find_none by exact Na. destruct (Nat.eqb_spec index (fst a)) as [E|E]; [|reflexivity]. exfalso. apply Ni. left. symmetry. exact E. }
    rewrite E. unfold Rsum. cbn [fold_right]. lra.
Qed.
Lemma numerator_deriv : derivable_pt_lim (fun t => @peval R_Fld N (fill names pl (upd index t x))) xi
  (@peval R_Fld (pderive N index) X + Rsum (map (fun nP => (@peval R_Fld (pderive N (fst nP)) X * der (snd nP))%R) (combine names pl)))%R.
Proof.
  destruct OK as (EL & Nd & Hlt & HN & HA). cbn [fst snd] in *.
  set (cs := map (fun k (t : R) => nth k (fill names pl (upd index t x)) 0%R) (seq 0 nv)).
  assert (Ecs : forall t, map (fun c => c t) cs = fill names pl (upd index t x)).
  { intros t. unfold cs. rewrite map_map.
    apply (nth_ext _ _ 0%R 0%R).
    - rewrite map_length, seq_length, fill_length, upd_length. symmetry. exact Lx.
    - intros k Hk. rewrite map_length, seq_length in Hk.
      rewrite map_seq_nth by exact Hk. reflexivity. }
  assert (Q := peval_curve xi nv N HN cs (map (dcoord (combine names pl)) (seq 0 nv))).
  specialize (Q ltac:(unfold cs; rewrite map_length, seq_length; reflexivity) ltac:(rewrite map_length, seq_length; reflexivity)).
  assert (Q2 : forall k, k < nv -> derivable_pt_lim (nth k cs (fun _ => 0%R)) xi (nth k (map (dcoord (combine names pl)) (seq 0 nv)) 0%R)).
  { intros k Hk. unfold cs.
    rewrite !map_seq_nth by exact Hk.
    apply coord_deriv. exact Hk. }
  specialize (Q Q2). rewrite Ecs in Q. replace (upd index xi x) with x in Q by (unfold xi; symmetry; apply upd_nth_id). fold X in Q.
  eapply deriv_ext; [|eapply deriv_val; [exact Q|]].
  - intros t. cbv beta. rewrite Ecs. reflexivity.
  - rewrite (Rsum_ext _ (fun k => (@peval R_Fld (pderive N k) X * dcoord (combine names pl) k)%R)).
    2:{ intros k Hk. apply in_seq in Hk. f_equal. rewrite map_seq_nth by lia. reflexivity. }
    apply (sum_collapse (fun k => @peval R_Fld (pderive N k) X)); rewrite combine_fst by exact EL; assumption.
Qed.
End Point.
