(** The cones of generate_fan divide the unit cube into the regions where one chosen monomial per polynomial dominates. *)
From Verif Require Export GeoProofs6.
Local Open Scope nat_scope.

(** the part of the unit cube that belongs to a cone given by its hyperplanes h: x^h <= 1 *)
Definition in_cone (x : list R) (cone : list (list Z)) : Prop := forall h, In h cone -> (@meval R_Fld h x <= 1)%R.
Definition open_cube (n : nat) (x : list R) : Prop := length x = n /\ Forall (fun v => (0 < v < 1)%R) x.
(** the monomials [f], one of each polynomial, are the largest ones at [x] *)
Definition dominant {F : Fld} (x : list R) (ps : list (PolyModel.poly F)) (f : list (list Z)) : Prop :=
  Forall2 (fun e p => In e (map fst (ptm p)) /\ forall e', In e' (map fst (ptm p)) -> (@meval R_Fld e' x <= @meval R_Fld e x)%R) f ps.
(** no two different monomials of the same polynomial agree at [x] *)
Definition no_tie {F : Fld} (x : list R) (ps : list (PolyModel.poly F)) : Prop :=
  Forall (fun p => forall e e', In e (map fst (ptm p)) -> In e' (map fst (ptm p)) -> @meval R_Fld e x = @meval R_Fld e' x -> e = e') ps.

Section Real.
Local Open Scope R_scope.
Notation mevalR := (@meval R_Fld).
Lemma open_pos n x : open_cube n x -> Forall (fun v => 0 < v) x.
Proof. intros [_ H]. eapply Forall_impl; [|exact H]. intros v Hv. cbn in Hv. lra. Qed.
Lemma zpow_le1 (v : R) k : 0 < v <= 1 -> (0 <= k)%Z -> @zpow R_Fld v k <= 1.
Proof.
  intros Hv Hk. destruct k as [|p|p]; [cbn; lra| |lia]. cbn [zpow]. generalize (Pos.to_nat p) as m. intros m. induction m as [|m IH]; cbn; [lra|].
  pose proof (npow_pos v m (proj1 Hv)). change (@fmul R_Fld) with Rmult. nra.
Qed.
Lemma meval_le1 e : forall x : list R, Forall (fun v => 0 < v <= 1) x -> Forall (fun k => (0 <= k)%Z) e -> mevalR e x <= 1.
Proof.
  induction e as [|k e IH]; intros [|v x] Hx He; cbn [meval]; try (cbn; lra). apply Forall_cons_iff in Hx as [Hv Hx]. apply Forall_cons_iff in He as [Hk He].
  pose proof (zpow_le1 v k Hv Hk). pose proof (IH x Hx He). pose proof (zpow_pos v k (proj1 Hv)).
  assert (0 < mevalR e x) by (apply meval_pos; eapply Forall_impl; [|exact Hx]; intros u Hu; cbn in Hu; lra). change (@fmul R_Fld) with Rmult. nra.
Qed.
Lemma open_closed (x : list R) : Forall (fun v => 0 < v < 1) x -> Forall (fun v => 0 < v <= 1) x.
Proof. intros H. eapply Forall_impl; [|exact H]. intros v Hv. cbn in Hv. lra. Qed.
Lemma meval_sub_le n a b (x : list R) : length a = n -> length b = n -> length x = n -> Forall (fun v => 0 < v) x -> (mevalR (row_sub a b) x <= 1 <-> mevalR a x <= mevalR b x).
Proof.
  intros Ha Hb Hx Hp. assert (Hnz : Forall (fun v : R_Fld => v <> @f0 R_Fld) x) by (eapply Forall_impl; [|exact Hp]; intros v Hv; cbn in *; lra).
  assert (Ea : length a = length x) by congruence. assert (Eb : length b = length x) by congruence.
  pose proof (@meval_row_sub R_Fld x a b Ea Eb Hnz) as E. change (@fmul R_Fld) with Rmult in E. change (car R_Fld) with R in E. pose proof (meval_pos b x Hp). pose proof (meval_pos a x Hp). pose proof (meval_pos (row_sub a b) x Hp).
  split; intros H'; nra.
Qed.
Lemma meval_sub_eq n a b (x : list R) : length a = n -> length b = n -> length x = n -> Forall (fun v => 0 < v) x -> mevalR (row_sub a b) x = 1 -> mevalR a x = mevalR b x.
Proof.
  intros Ha Hb Hx Hp H1. assert (Hnz : Forall (fun v : R_Fld => v <> @f0 R_Fld) x) by (eapply Forall_impl; [|exact Hp]; intros v Hv; cbn in *; lra).
  assert (Ea : length a = length x) by congruence. assert (Eb : length b = length x) by congruence.
  pose proof (@meval_row_sub R_Fld x a b Ea Eb Hnz) as E. change (@fmul R_Fld) with Rmult in E. change (car R_Fld) with R in E. rewrite H1 in E. lra.
Qed.
Lemma meval_unit n i (x : list R) : (i < n)%nat -> length x = n -> mevalR (unit_row n i) x = nth i x 0.
Proof.
  revert i x. induction n as [|n IH]; intros i x Hi Hx; [lia|]. destruct x as [|v x]; [discriminate|]. destruct i as [|i].
  - unfold unit_row, zrow. cbn [repeat upd meval nth]. rewrite (@meval_zrow R_Fld). rewrite (@zpow_1_r R_Fld). apply Rmult_1_r.
  - unfold unit_row, zrow in *. cbn [repeat upd meval nth]. rewrite IH by (cbn in Hx; lia). apply Rmult_1_l.
Qed.
Lemma meval_opp h g : forall x : list R, length h = length g -> length h = length x -> Forall (fun v => 0 < v) x -> forallb (fun q => Z.eqb (- fst q) (snd q)) (combine h g) = true -> mevalR h x * mevalR g x = 1.
Proof.
  revert g. induction h as [|k h IH]; intros [|l g] [|v x] HL HL2 Hx H; cbn in HL, HL2; try lia; [cbn; lra|]. cbn [combine forallb fst snd] in H. apply andb_true_iff in H as [H1 H2]. apply Z.eqb_eq in H1. subst l.
  apply Forall_cons_iff in Hx as [Hv Hx]. specialize (IH g x ltac:(lia) ltac:(lia) Hx H2). cbn [meval]. change (@fmul R_Fld) with Rmult.
  assert (E : @zpow R_Fld v k * @zpow R_Fld v (- k) = 1).
  { assert (Hnz : v <> @f0 R_Fld) by (cbn; lra). pose proof (@zpow_add R_Fld v k (- k) (or_introl Hnz) (or_introl Hnz)) as Ez. rewrite Z.add_opp_diag_r in Ez. cbn in Ez. symmetry. exact Ez. }
  transitivity ((@zpow R_Fld v k * @zpow R_Fld v (- k)) * (mevalR h x * mevalR g x)); [change (car R_Fld) with R; ring|]. rewrite E, IH. ring.
Qed.
End Real.

Section Fan.
Variable F : Fld.
Hypothesis char0 : forall k, @natF F (S k) <> f0.
Notation Poly := (PolyModel.poly F).
Add Field Ffield_geofan : (@f_th F).
Variable n : nat.
Hypothesis Hn : 0 < n.

Lemma fan_cone_sub (ps : list Poly) f c h : fan_cone n ps f = Some c -> In h c -> In h (fan_rows ps f ++ identity_matrix n) /\ bad_hyperplane h = false.
Proof.
  intros E Hh. assert (Hu : In (unit_row n 0) c) by (eapply (fan_cone_good F char0); [exact E|apply in_or_app; right; apply in_map, in_seq; lia|apply unit_good, Hn]).
  unfold fan_cone, psub_or_add in E. cbn [pnv] in E. rewrite Nat.eqb_refl in E. injection E as <-.
  match type of Hh with In _ (map fst (ptm (psimplify ?q))) => pose proof (psimplify_normal F q) as [Hsort Hnz]; set (q0 := q) in * end.
  destruct Hnz as [[Hnz _]|Ez].
  2:{ exfalso. rewrite Ez in Hu. unfold pconst in Hu. cbn [ptm map fst] in Hu. destruct Hu as [Hu|[]]. pose proof (unit_row_get n 0 0 Hn) as E. rewrite <- Hu in E.
      rewrite getZ_zrow in E. discriminate. }
  apply in_map_iff in Hh as (t & <- & Ht). rewrite Forall_forall in Hnz. specialize (Hnz t Ht).
  rewrite <- (coeff_sorted F _ t Hsort Ht), psimplify_lin in Hnz. unfold q0 in Hnz. cbn [ptm] in Hnz.
  match type of Hnz with lin _ (map ?g ?ts) <> _ => change (map g ts) with (map (debad F) ts) in Hnz end.
  destruct (bad_hyperplane (fst t)) eqn:Eb.
  - exfalso. apply Hnz. generalize (ptm (psimplify (mkPoly n (map (fun r => (r, f1 : car F)) (fan_rows ps f) ++ map (fun r => (r, f1 : car F)) (identity_matrix n))))) as ts. intros ts. clear Hnz.
    induction ts as [|u ts IH]; [reflexivity|]. cbn [map]. rewrite lin_cons. cbn [ptm] in IH. rewrite IH. unfold debad. cbn [fst snd]. destruct (roweqb (fst u) (fst t)) eqn:Er.
    + apply roweqb_spec in Er. rewrite Er, Eb. ring.
    + ring.
  - rewrite lin_debad in Hnz by exact Eb. rewrite psimplify_lin in Hnz. cbn [ptm] in Hnz. rewrite <- map_app in Hnz. split; [|reflexivity]. apply lin_ind_present in Hnz. rewrite map_map in Hnz. cbn [fst] in Hnz. rewrite map_id in Hnz. exact Hnz.
Qed.

Lemma in_fan_rows (ps : list Poly) : forall f r, In r (fan_rows ps f) <-> exists e p, In (p, e) (combine ps f) /\ exists e', In e' (map fst (ptm p)) /\ r = row_sub e' e.
Proof.
  intros f r. unfold fan_rows. rewrite in_flat_map. split.
  - intros ([p e] & Hq & H). apply in_map_iff in H as (t & <- & Ht). cbn [fst snd] in *. exists e, p. split; [exact Hq|]. exists (fst t). split; [apply in_map, Ht|reflexivity].
  - intros (e & p & Hq & e' & He' & ->). exists (p, e). split; [exact Hq|]. cbn [fst snd]. apply in_map_iff in He' as (t & <- & Ht). apply in_map_iff. exists t. auto.
Qed.
Variable ps : list Poly.
Hypothesis Hw : Forall (fun p => pnv p = n /\ pwf p) ps.
Lemma term_length p e : In p ps -> In e (map fst (ptm p)) -> length e = n.
Proof. intros Hp He. rewrite Forall_forall in Hw. destruct (Hw p Hp) as [E W]. apply in_map_iff in He as (t & <- & Ht). unfold pwf in W. rewrite Forall_forall in W. rewrite (W t Ht). exact E. Qed.
Lemma in_combine_swap {A B} (P : A -> B -> Prop) l l' a b : Forall2 P l l' -> In (b, a) (combine l' l) -> P a b.
Proof. induction 1 as [|x y l l' H _ IH]; intros Hi; [destruct Hi|]. destruct Hi as [E|Hi]; [injection E as <- <-; exact H|apply IH, Hi]. Qed.
Lemma combine_swap {A B} (P : A -> B -> Prop) l l' : Forall2 (fun _ _ => True) l l' -> (forall a b, In (b, a) (combine l' l) -> P a b) -> Forall2 P l l'.
Proof. induction 1 as [|x y l l' _ _ IH]; intros H; constructor; [apply H; left; reflexivity|apply IH; intros a b Hi; apply H; right; exact Hi]. Qed.

(** inside the cube a cone is the region where the chosen monomials dominate *)
Lemma cone_dominant x f c : open_cube n x -> In f (product_lists (map (fun p => map fst (ptm p)) ps)) -> fan_cone n ps f = Some c -> (in_cone x c <-> dominant x ps f).
Proof.
  intros Hx Hf Ec. pose proof (open_pos n x Hx) as Hpos. destruct Hx as [Hl Hx]. apply in_product_lists in Hf.
  assert (Hf2 : Forall2 (fun e p => In e (map fst (ptm p))) f ps).
  { clear - Hf. revert f Hf. induction ps as [|p l IH]; intros f Hf; inversion Hf; subst; constructor; auto. }
  assert (Hrow : forall e p e', In (p, e) (combine ps f) -> In e' (map fst (ptm p)) -> length e = n /\ length e' = n).
  { intros e p e' Hi He'. pose proof (in_combine_l _ _ _ _ Hi) as Hp. split; [|apply (term_length p); assumption]. apply (term_length p); [exact Hp|]. exact (in_combine_swap _ _ _ _ _ Hf2 Hi). }
  split.
  - intros Hin. apply combine_swap; [exact (Forall2_true _ _ _ Hf2)|]. intros e p Hi. split; [exact (in_combine_swap _ _ _ _ _ Hf2 Hi)|]. intros e' He'.
    destruct (Hrow e p e' Hi He') as [L1 L2]. apply (proj1 (meval_sub_le n e' e x L2 L1 Hl Hpos)).
    destruct (bad_hyperplane (row_sub e' e)) eqn:Eb.
    + apply meval_le1; [apply open_closed; exact Hx|]. unfold bad_hyperplane in Eb. apply orb_true_iff in Eb as [Eb|Eb]; [apply andb_true_iff in Eb as [_ Eb]|]; rewrite forallb_forall in Eb; apply Forall_forall; intros k Hk; specialize (Eb k Hk); lia.
    + apply Hin. eapply (fan_cone_good F char0); [exact Ec| |exact Eb]. apply in_or_app. left. apply in_fan_rows. exists e, p. split; [exact Hi|]. exists e'. auto.
  - intros Hd h Hh. destruct (fan_cone_sub ps f c h Ec Hh) as [Hi _]. apply in_app_or in Hi as [Hi|Hi].
    + apply in_fan_rows in Hi as (e & p & Hi & e' & He' & ->). destruct (Hrow e p e' Hi He') as [L1 L2]. apply (proj2 (meval_sub_le n e' e x L2 L1 Hl Hpos)).
      destruct (in_combine_swap _ _ _ _ _ Hd Hi) as [_ K]. apply K, He'.
    + apply in_map_iff in Hi as (i & <- & Hi). apply in_seq in Hi. rewrite meval_unit by (assumption || lia). rewrite Forall_forall in Hx. destruct (Hx (nth i x 0%R)) as [_ K]; [apply nth_In; lia|]. lra.
Qed.
Lemma dominant_exists x : Forall (fun p => ptm p <> []) ps -> exists f, dominant x ps f.
Proof.
  clear Hw. induction ps as [|p l IH]; intros H; [exists []; constructor|]. apply Forall_cons_iff in H as [Hp H]. destruct (IH H) as (f & Hf).
  assert (K : exists e, In e (map fst (ptm p)) /\ forall e', In e' (map fst (ptm p)) -> (@meval R_Fld e' x <= @meval R_Fld e x)%R).
  { clear - Hp. destruct (ptm p) as [|t ts]; [congruence|]. clear Hp. generalize (map fst ts) as l, (fst t) as a. cbn [map]. intros l a. change (fst t) with (fst t).
    assert (G : forall l (a : list Z), exists e, In e (a :: l) /\ forall e', In e' (a :: l) -> (@meval R_Fld e' x <= @meval R_Fld e x)%R).
    { clear. induction l as [|b l IH]; intros a; [exists a; split; [left; reflexivity|intros e' [->|[]]; apply Rle_refl]|]. destruct (IH b) as (e & He & Hm). destruct (Rle_dec (@meval R_Fld e x) (@meval R_Fld a x)) as [Hle|Hgt].
      - exists a. split; [left; reflexivity|]. intros e' [->|He']; [apply Rle_refl|]. eapply Rle_trans; [apply Hm, He'|exact Hle].
      - exists e. split; [right; exact He|]. intros e' [->|He']; [apply Rlt_le, Rnot_le_lt, Hgt|apply Hm, He']. }
    apply G. }
  destruct K as (e & He & Hm). exists (e :: f). constructor; [split; assumption|exact Hf].
Qed.
Lemma dominant_unique x f f' : no_tie x ps -> dominant x ps f -> dominant x ps f' -> f = f'.
Proof.
  clear Hw. revert f f'. induction ps as [|p l IH]; intros f f' Ht H H'; inversion H as [|e p1 f1 l1 [He Hm] Hf]; inversion H' as [|e' p2 f2 l2 [He' Hm'] Hf']; subst; [reflexivity|].
  apply Forall_cons_iff in Ht as [Ht1 Ht]. f_equal; [|apply IH; assumption]. apply Ht1; auto. apply Rle_antisym; [apply Hm', He|apply Hm, He'].
Qed.
Lemma dominant_in x f : dominant x ps f -> In f (product_lists (map (fun p => map fst (ptm p)) ps)).
Proof. intros H. apply in_product_lists. clear Hw. revert f H. induction ps as [|p l IH]; intros f H; inversion H as [|e p1 f1 l1 [He Hm] Hf]; subst; constructor; auto. Qed.
(** the cone of the dominating monomials is not discarded *)
Lemma dominant_kept x f c : open_cube n x -> no_tie x ps -> dominant x ps f -> fan_cone n ps f = Some c -> keep_cone n c = true.
Proof.
  intros Hx Ht Hd Ec. pose proof (open_pos n x Hx) as Hpos. pose proof (dominant_in x f Hd) as Hf. pose proof (proj2 (cone_dominant x f c Hx Hf Ec) Hd) as Hin. destruct Hx as [Hl Hx].
  assert (Hone : forall h, In h c -> length h = n /\ (@meval R_Fld h x < 1)%R).
  { intros h Hh. destruct (fan_cone_sub ps f c h Ec Hh) as [Hi Hb]. apply in_app_or in Hi as [Hi|Hi].
    - apply in_fan_rows in Hi as (e & p & Hi & e' & He' & ->). pose proof (in_combine_l _ _ _ _ Hi) as Hp. destruct (in_combine_swap _ _ _ _ _ Hd Hi) as [He Hm].
      pose proof (term_length p e Hp He) as L1. pose proof (term_length p e' Hp He') as L2. split; [unfold row_sub; rewrite map_length, combine_length; lia|].
      destruct (Rle_lt_or_eq_dec _ _ (Hin _ Hh)) as [|E]; [assumption|exfalso]. apply (meval_sub_eq n) in E; auto.
      unfold no_tie in Ht. rewrite Forall_forall in Ht. pose proof (Ht p Hp e' e He' He E) as ->.
      unfold bad_hyperplane in Hb. apply orb_false_iff in Hb as [_ Hb]. assert (Eb : forallb (fun k => Z.eqb k 0) (row_sub e e) = true); [|congruence].
      apply forallb_forall. intros k Hk. apply (In_nth _ _ 0%Z) in Hk as (j & Hj & <-). change (nth j (row_sub e e) 0%Z) with (getZ j (row_sub e e)).
      rewrite getZ_row_sub; [apply Z.eqb_eq; lia|reflexivity|]. unfold row_sub in Hj. rewrite map_length, combine_length in Hj. lia.
    - apply in_map_iff in Hi as (i & <- & Hi). apply in_seq in Hi. split; [apply unit_row_length|]. rewrite meval_unit by (assumption || lia). rewrite Forall_forall in Hx. apply Hx, nth_In. lia. }
  unfold keep_cone. apply andb_true_iff. split; [apply andb_true_iff; split|].
  - apply Nat.leb_le. rewrite <- (seq_length n 0), <- (map_length (unit_row n) (seq 0 n)). apply NoDup_incl_length.
    + apply (NoDup_nth _ []). rewrite map_length, seq_length. intros i j Hi Hj E. rewrite !(nth_indep (map (unit_row n) (seq 0 n)) [] (unit_row n 0)) in E by (rewrite map_length, seq_length; assumption).
      rewrite !(map_nth (unit_row n)), !seq_nth in E by assumption. cbn [Nat.add] in E. pose proof (unit_row_get n i i Hi) as E1. rewrite E, (unit_row_get n j i Hj), Nat.eqb_refl in E1. destruct (Nat.eqb_spec j i); [congruence|discriminate].
    + intros r Hr. eapply (fan_cone_good F char0); [exact Ec|apply in_or_app; right; exact Hr|]. apply in_map_iff in Hr as (i & <- & Hi). apply in_seq in Hi. apply unit_good. lia.
  - apply negb_true_iff, not_true_is_false. intros H. apply existsb_exists in H as (h & Hh & H). destruct (Hone h Hh) as [L H1]. rewrite forallb_forall in H.
    assert (K : (1 <= @meval R_Fld h x)%R).
    { clear - H L Hl Hx. assert (Ez : length (map Z.opp h) = length h) by apply map_length.
      assert (Hopp : (@meval R_Fld (map Z.opp h) x <= 1)%R) by (apply meval_le1; [apply open_closed; exact Hx|apply Forall_map, Forall_forall; intros k Hk; specialize (H k Hk); lia]).
      assert (Hpos : Forall (fun v => 0 < v)%R x) by (eapply Forall_impl; [|exact Hx]; intros v Hv; cbn in Hv; lra).
      assert (E : (@meval R_Fld h x * @meval R_Fld (map Z.opp h) x = 1)%R).
      { apply meval_opp; auto; [lia|]. clear. induction h as [|k h IH]; [reflexivity|]. cbn. rewrite Z.eqb_refl. exact IH. }
      pose proof (meval_pos h x Hpos). pose proof (meval_pos (map Z.opp h) x Hpos). nra. }
    lra.
  - apply negb_true_iff, not_true_is_false. intros H. apply existsb_exists in H as (h & Hh & H). apply existsb_exists in H as (g & Hg & H).
    destruct (Hone h Hh) as [L1 H1]. destruct (Hone g Hg) as [L2 H2]. pose proof (meval_opp h g x ltac:(lia) ltac:(lia) Hpos H) as E. pose proof (meval_pos h x Hpos). pose proof (meval_pos g x Hpos). nra.
Qed.

Lemma NoDup_product_lists {A} (ls : list (list A)) : Forall (@NoDup A) ls -> NoDup (product_lists ls).
Proof.
  induction 1 as [|l ls Hl _ IH]; cbn [product_lists]; [constructor; [intros []|constructor]|]. induction Hl as [|a l Ha Hl IHl]; cbn [flat_map]; [constructor|].
  apply NoDup_app_intro; [apply FinFun.Injective_map_NoDup; [intros u v E; congruence|exact IH]|exact IHl|].
  intros f H1 H2. apply in_map_iff in H1 as (g & <- & _). apply in_flat_map in H2 as (b & Hb & H2). apply in_map_iff in H2 as (g' & E & _). congruence.
Qed.
Lemma exactly_one_cone x : ps <> [] -> Forall (fun p => ptm p <> []) ps -> Forall distinct_terms ps -> open_cube n x -> no_tie x ps ->
  exists l1 c l2, generate_fan ps = l1 ++ c :: l2 /\ in_cone x c /\ Forall (fun c' => ~ in_cone x c') (l1 ++ l2).
Proof.
  intros Hne Hnz Hd Hx Ht. destruct (dominant_exists x Hnz) as (f & Hf). pose proof (dominant_in x f Hf) as Hin.
  assert (En : match ps with [] => 0 | p :: _ => pnv p end = n) by (destruct ps as [|p l]; [congruence|]; apply Forall_cons_iff in Hw as [[Hp _] _]; exact Hp).
  destruct (in_split _ _ Hin) as (L1 & L2 & EL).
  assert (HND : NoDup (L1 ++ f :: L2)).
  { rewrite <- EL. apply NoDup_product_lists. apply Forall_map. exact Hd. }
  pose proof (NoDup_remove_2 _ _ _ HND) as Hnot.
  destruct (fan_cone_total F n ps f) as [c Ec].
  set (g := fun f => match fan_cone n ps f with Some c => [c] | None => [] end).
  assert (Eg : generate_fan ps = filter (keep_cone n) (flat_map g L1) ++ c :: filter (keep_cone n) (flat_map g L2)).
  { unfold generate_fan. rewrite En, EL. fold g. rewrite flat_map_app. cbn [flat_map]. rewrite !filter_app. unfold g at 2. rewrite Ec. cbn [filter app]. rewrite (dominant_kept x f c Hx Ht Hf Ec). reflexivity. }
  assert (Hno : forall L, (forall f', In f' L -> In f' (L1 ++ L2)) -> Forall (fun c' => ~ in_cone x c') (filter (keep_cone n) (flat_map g L))).
  { intros L HL. apply Forall_forall. intros c' Hc' Hic. apply filter_In in Hc' as [Hc' _]. apply in_flat_map in Hc' as (f' & Hf' & Hc'). unfold g in Hc'. destruct (fan_cone n ps f') as [c2|] eqn:E'; [|destruct Hc']. destruct Hc' as [->|[]].
    assert (Hin' : In f' (product_lists (map (fun p => map fst (ptm p)) ps))) by (rewrite EL; specialize (HL f' Hf'); apply in_app_or in HL as [?|?]; apply in_or_app; [left; assumption|right; right; assumption]).
    apply (cone_dominant x f' c' Hx Hin' E') in Hic. apply Hnot. rewrite (dominant_unique x f f' Ht Hf Hic). apply HL, Hf'. }
  exists (filter (keep_cone n) (flat_map g L1)), c, (filter (keep_cone n) (flat_map g L2)). split; [exact Eg|]. split; [apply (cone_dominant x f c Hx Hin Ec), Hf|].
  apply Forall_app. split; apply Hno; intros f' Hf'; apply in_or_app; auto.
Qed.
End Fan.

(** the points of a subsector lie in the region of the cone *)
Lemma ku_image n idx rays cone (y : list R) : NoDup idx -> Forall (fun k => k < n) idx -> length rays = length idx ->
  Forall (fun r => length r = length idx /\ forall h, In h cone -> (0 <= dotZ h r)%Z) rays -> Forall (fun h => length h = length idx) cone ->
  length y = n -> Forall (fun v => (0 < v <= 1)%R) y ->
  in_cone (map (fun i => nth i (@mono_map_at R_Fld idx (transposeZ (length idx) rays) y) 0%R) idx) cone.
Proof.
  intros Hn Hr HL Hrays Hcl Hy Hpos h Hh. set (C := transposeZ (length idx) rays). set (k := length idx) in *.
  assert (HC : is_matrix k k C) by (unfold C; rewrite <- HL at 2; apply transpose_matrix).
  set (z := map (fun j => nth j y 0%R) idx).
  assert (E : map (fun i => nth i (@mono_map_at R_Fld idx C y) 0%R) idx = @mono_map R_Fld C z).
  { unfold mono_map. rewrite map_idx. fold k. destruct HC as [HC1 _]. apply (list_eq_nth 0%R); [rewrite !map_length, seq_length; lia|]. rewrite map_length, seq_length. intros a Ha.
    rewrite (nth_map_seq (fun a => nth (nth a idx 0) (@mono_map_at R_Fld idx C y) 0%R)) by exact Ha. unfold mono_map_at. change (car R_Fld) with R. rewrite Hy.
    assert (Hra : nth a idx 0 < n) by (rewrite Forall_forall in Hr; apply Hr, nth_In, Ha).
    rewrite (nth_map_seq (fun i => match index_of i idx with Some a => @meval R_Fld (nth a C []) (map (fun j => nth j y 0%R) idx) | None => nth i y 0%R end)) by exact Hra.
    rewrite index_of_nth by assumption. fold z. rewrite (nth_indep (map (fun r => @meval R_Fld r z) C) 0%R (@meval R_Fld [] z)) by (rewrite map_length; lia). symmetry. exact (map_nth (fun r => @meval R_Fld r z) C [] a). }
  rewrite E. assert (Lh : length h = k) by (rewrite Forall_forall in Hcl; apply Hcl, Hh).
  assert (Hz : Forall (fun v => (0 < v <= 1)%R) z).
  { unfold z. apply Forall_map, Forall_forall. intros i Hi. rewrite Forall_forall in Hpos, Hr. apply Hpos, nth_In. rewrite Hy. apply Hr, Hi. }
  destruct HC as [HC1 HC2]. rewrite <- (meval_row_mul R_Fld k h C z HC2).
  - apply meval_le1; [exact Hz|]. unfold row_mul. apply Forall_map, Forall_forall. intros b Hb. apply in_seq in Hb. unfold C. rewrite colZ_transpose; [|eapply Forall_impl; [|exact Hrays]; intros r [Hrl _]; exact Hrl|lia].
    rewrite Forall_forall in Hrays. destruct (Hrays (nth b rays [])) as [_ K]; [apply nth_In; lia|]. apply K, Hh.
  - congruence.
  - unfold z. apply map_length.
  - eapply Forall_impl; [|exact Hz]. intros v Hv. cbn in *. lra.
Qed.
