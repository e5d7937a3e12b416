(** The regulator polynomials in the exponents: addition, scaling, the exponent of one variable. *)
From Coq Require Import FunctionalExtensionality.
From Verif Require Import SortProofs ExprSpec ExprSmooth ExprMixed ExprArith ExprOrd ExprSimp ExprDerive ExprMore CalmSpec CalmProofs ContSpec SubModel SubSpec.
Local Open Scope R_scope.

Lemma mono_agree k : forall (x y : point) o, (forall j, (j < length k)%nat -> getk j k <> 0%Z -> x (o + j)%nat = y (o + j)%nat) -> mono x o k = mono y o k /\ (row_ok x o k -> row_ok y o k).
Proof.
  induction k as [|z k IH]; intros x y o H; [split; auto|]. cbn [mono row_ok]. destruct (IH x y (Datatypes.S o)) as [I1 I2].
  { intros j Hj Hn. specialize (H (Datatypes.S j)). cbn [length] in H. replace (o + Datatypes.S j)%nat with (Datatypes.S o + j)%nat in H by lia. apply H; [lia|exact Hn]. }
  rewrite I1. destruct (Z.eq_dec z 0) as [->|Nz]; [split; [reflexivity|]; intros [_ R]; split; [left; lia|apply I2, R]|].
  assert (E : x o = y o) by (specialize (H 0%nat); rewrite Nat.add_0_r in H; apply H; [cbn; lia|exact Nz]). rewrite E. split; [reflexivity|]. intros [R1 R2]. split; [exact R1|apply I2, R2].
Qed.
Lemma getk_addk j k l : length k = length l -> getk j (addk k l) = (getk j k + getk j l)%Z.
Proof.
  unfold getk, addk. revert j l. induction k as [|a k IH]; intros j [|b l] H; try discriminate; [destruct j; reflexivity|]. destruct j as [|j]; [reflexivity|]. cbn [combine map nth]. apply IH. cbn in H. lia.
Qed.
Lemma getk_zeros j n : getk j (repeat 0%Z n) = 0%Z.
Proof. unfold getk. revert j. induction n as [|n IH]; intros [|j]; cbn; auto. Qed.
Lemma coef_cons k t p : coef k (t :: p) = (if roweqb (snd t) k then num_of (fst t) else 0) + coef k p. Proof. reflexivity. Qed.
Lemma coef_app k p q : coef k (p ++ q) = coef k p + coef k q. Proof. unfold coef. rewrite map_app. apply sumR_app. Qed.
Lemma coef_perm k p q : Permutation p q -> coef k p = coef k q. Proof. intros H. apply sumR_perm, Permutation_map, H. Qed.
Lemma num_of_num e : is_num e = true -> e = Num (num_of e). Proof. destruct e; try discriminate. reflexivity. Qed.
Section Tidy.
Variables (nv : nat) (ad : expr -> expr -> expr).
Hypothesis Had : forall r s, ad (Num r) (Num s) = Num (r + s).
Lemma ad_num a b : is_num a = true -> is_num b = true -> is_num (ad a b) = true.
Proof. intros A B. rewrite (num_of_num a A), (num_of_num b B), Had. reflexivity. Qed.
Lemma merge_coef k rest : forall prev, numeric (prev :: rest) -> coef k (merge_from ad prev rest) = coef k (prev :: rest).
Proof.
  induction rest as [|t r IH]; intros prev H; cbn [merge_from]; [reflexivity|]. apply Forall_cons_iff in H as [H1 H]. apply Forall_cons_iff in H as [H2 H]. destruct (is_const 0 (fst t)) eqn:E0.
  - rewrite IH by (constructor; assumption). rewrite !coef_cons. apply is_const_spec in E0. rewrite E0. cbn [num_of]. destruct (roweqb (snd t) k); lra.
  - destruct (roweqb (snd prev) (snd t)) eqn:Er.
    + rewrite IH by (constructor; [apply ad_num; assumption|exact H]). rewrite !coef_cons. cbn [fst snd]. apply roweqb_spec in Er. rewrite Er. rewrite (num_of_num _ H1), (num_of_num _ H2), Had. cbn [num_of]. destruct (roweqb (snd t) k); lra.
    + rewrite coef_cons, IH by (constructor; assumption). reflexivity.
Qed.
Lemma filter_coef k p : coef k (filter (fun t => negb (is_const 0 (fst t))) p) = coef k p.
Proof.
  induction p as [|t p IH]; [reflexivity|]. cbn [filter]. destruct (is_const 0 (fst t)) eqn:E; cbn [negb]; rewrite !coef_cons, ?IH; [|reflexivity]. apply is_const_spec in E. rewrite E. cbn [num_of]. destruct (roweqb (snd t) k); lra.
Qed.
Lemma tidy_coef k p : numeric p -> coef k (tidy nv ad p) = coef k p.
Proof.
  intros H. unfold tidy. rewrite <- (coef_perm k _ _ (sort_by_perm snd p)). assert (HS : numeric (sort_by snd p)) by (eapply Permutation_Forall; [apply Permutation_sym, sort_by_perm|exact H]). generalize (sort_by snd p) HS. clear H HS p. intros p H. unfold merged.
  assert (K : coef k (filter (fun t => negb (is_const 0 (fst t))) match p with [] => [] | t :: r => merge_from ad t r end) = coef k p) by (rewrite filter_coef; destruct p; [reflexivity|apply merge_coef, H]).
  destruct (filter _ _) as [|t l]; [|exact K]. rewrite <- K. rewrite coef_cons. cbn [fst num_of]. destruct (roweqb _ k); unfold coef; cbn; lra.
Qed.
Lemma merge_rows (P : list Z -> Prop) rest : forall prev, Forall (fun t => P (snd t)) (prev :: rest) -> Forall (fun t => P (snd t)) (merge_from ad prev rest).
Proof.
  induction rest as [|t r IH]; intros prev H; cbn [merge_from]; [exact H|]. apply Forall_cons_iff in H as [H1 H]. apply Forall_cons_iff in H as [H2 H]. destruct (is_const 0 (fst t)); [apply IH; constructor; assumption|]. destruct (roweqb (snd prev) (snd t)); [apply IH; constructor; assumption|]. constructor; [exact H1|]. apply IH. constructor; assumption.
Qed.
Lemma tidy_rows (P : list Z -> Prop) p : P (zeros nv) -> Forall (fun t => P (snd t)) p -> Forall (fun t => P (snd t)) (tidy nv ad p).
Proof.
  intros P0 H. unfold tidy. assert (HS : Forall (fun t => P (snd t)) (sort_by snd p)) by (eapply Permutation_Forall; [apply Permutation_sym, sort_by_perm|exact H]). generalize (sort_by snd p) HS. clear H HS p. intros p H. unfold merged.
  assert (K : Forall (fun t => P (snd t)) (filter (fun t => negb (is_const 0 (fst t))) match p with [] => [] | t :: r => merge_from ad t r end)) by (apply filter_sub; destruct p; [constructor|apply merge_rows, H]).
  destruct (filter _ _) as [|t l]; [constructor; [exact P0|constructor]|exact K].
Qed.
Lemma tidy_nodup p : Forall (fun t => is_num (fst t) = true) p -> NoDup (map snd (tidy nv ad p)) /\ tidy nv ad p <> [].
Proof.
  intros H. destruct (tidy_ok nv ad (fun e => is_num e = true)) with (p := p) as (_ & _ & _ & I4 & _ & I6); try exact H; try reflexivity.
  - intros a b A B. apply ad_num; assumption.
  - intros x a b A B. rewrite (num_of_num a A), (num_of_num b B), Had. reflexivity.
  - intros x a b A B _ _. rewrite (num_of_num a A), (num_of_num b B), Had. exact I.
  - split; assumption.
Qed.
End Tidy.

Section Reg.
Variables (nv : nat) (rho : point) (S : list nat).
Notation regpol := (regpol nv S).
Lemma reg_tok p : regpol p -> p <> [] /\ tok nv p.
Proof.
  intros (N & H1 & H2). split; [exact N|]. unfold tok, numeric in *. rewrite Forall_forall in *. intros t Ht. split; [apply (H2 t Ht)|left; apply (H1 t Ht)].
Qed.
Lemma reg_wf p : regpol p -> wf nv (Pol p). Proof. intros H. apply wf_pol, reg_tok, H. Qed.
Lemma reg_calm p : regpol p -> calm (agree rho S) (Pol p). Proof. intros (_ & H & _). exact H. Qed.
Lemma reg_eval p x y : regpol p -> (forall j, ~ In j S -> x j = y j) -> eval x (Pol p) = eval y (Pol p) /\ (dom x (Pol p) -> dom y (Pol p)).
Proof.
  intros (_ & H1 & H2) A. rewrite !eval_pol, !dom_pol. unfold tval, tdom.
  assert (K : forall t, In t p -> mono x 0 (snd t) = mono y 0 (snd t) /\ (row_ok x 0 (snd t) -> row_ok y 0 (snd t))).
  { intros t Ht. apply mono_agree. intros j _ Hj. cbn [Nat.add]. apply A. intros Hs. rewrite Forall_forall in H2. destruct (H2 t Ht) as [_ Z]. exact (Hj (Z j Hs)). }
  assert (N : forall t, In t p -> eval x (fst t) = eval y (fst t)) by (intros t Ht; unfold numeric in H1; rewrite Forall_forall in H1; rewrite (num_of_num _ (H1 t Ht)); reflexivity).
  split; [f_equal; apply map_ext_in; intros t Ht; rewrite (N t Ht), (proj1 (K t Ht)); reflexivity|]. rewrite !Forall_forall. intros D t Ht. destruct (D t Ht) as [_ D2]. split; [|apply K; assumption]. unfold numeric in H1; rewrite Forall_forall in H1. rewrite (num_of_num _ (H1 t Ht)). exact I.
Qed.
Lemma reg_upd p x j t : regpol p -> In j S -> eval (upd x j t) (Pol p) = eval x (Pol p).
Proof. intros H Hj. apply reg_eval; [exact H|]. intros i Hi. apply upd_other. intros ->. contradiction. Qed.
Lemma row_zeros : length (zeros nv) = nv /\ forall j, In j S -> getk j (zeros nv) = 0%Z.
Proof. split; [apply repeat_length|]. intros j _. apply getk_zeros. Qed.
Lemma reg_cst r : regpol [(Num r, zeros nv)].
Proof. split; [discriminate|]. split; [constructor; [reflexivity|constructor]|]. constructor; [exact row_zeros|constructor]. Qed.
Lemma reg_tidy ad p : (forall r s, ad (Num r) (Num s) = Num (r + s)) -> numeric p -> Forall (fun t => length (snd t) = nv /\ forall j, In j S -> getk j (snd t) = 0%Z) p ->
  regpol (tidy nv ad p) /\ NoDup (map snd (tidy nv ad p)) /\ forall k, coef k (tidy nv ad p) = coef k p.
Proof.
  intros Had H1 H2. destruct (tidy_nodup nv ad Had p H1) as [N1 N2]. split; [|split; [exact N1|intros k; apply (tidy_coef nv ad Had k p H1)]]. split; [exact N2|]. split.
  - apply tidy_numeric; [apply ad_num, Had|exact H1].
  - apply (tidy_rows nv ad (fun k => length k = nv /\ forall j, In j S -> getk j k = 0%Z) p row_zeros H2).
Qed.
Lemma addc_num n r s : addc nv n (Num r) (Num s) = Num (r + s). Proof. destruct n; reflexivity. Qed.
Lemma mulc_num n r s : mulc nv n (Num r) (Num s) = Num (r * s). Proof. destruct n; reflexivity. Qed.
Lemma add_reg p q : regpol p -> regpol q -> exists r, add nv (Pol p) (Pol q) = Pol r /\ regpol r /\ NoDup (map snd r) /\ (forall k, coef k r = coef k p + coef k q) /\
  (forall x, eval x (Pol r) = eval x (Pol p) + eval x (Pol q)) /\ forall x, dom x (Pol p) -> dom x (Pol q) -> dom x (Pol r).
Proof.
  intros Hp Hq. destruct (add_ok nv (Pol p) (Pol q) (or_intror (reg_wf p Hp)) (or_intror (reg_wf q Hq))) as (_ & V & D & _). unfold add in *. destruct (Nat.max (depth (Pol p)) (depth (Pol q))) as [|m] eqn:Em; [rewrite !depth_pol in Em; lia|]. cbn [addc] in *. eexists. split; [reflexivity|].
  destruct (reg_tidy (addc nv m) (p ++ q)) as (T1 & T2 & T3); [intros r s; apply addc_num| | |]; [apply Forall_app; split; [apply Hp|apply Hq]|apply Forall_app; split; [apply Hp|apply Hq]|].
  split; [exact T1|]. split; [exact T2|]. split; [intros k; rewrite T3; apply coef_app|]. split; assumption.
Qed.
Lemma add_reg_num p c : regpol p -> exists r, add nv (Pol p) (Num c) = Pol r /\ add nv (Num c) (Pol p) = Pol r /\ regpol r /\ NoDup (map snd r) /\ (forall k, coef k r = coef k p + if roweqb (zeros nv) k then c else 0) /\
  (forall x, eval x (Pol r) = eval x (Pol p) + c) /\ forall x, dom x (Pol p) -> dom x (Pol r).
Proof.
  intros Hp. destruct (add_ok nv (Pol p) (Num c) (or_intror (reg_wf p Hp)) (or_introl eq_refl)) as (_ & V & D & _). unfold add in *. rewrite depth_pol in *. cbn [depth] in *. cbn [Nat.max] in *. cbn [addc] in *. eexists. split; [reflexivity|]. split; [reflexivity|].
  destruct (reg_tidy (addc nv (tdepth p)) ((Num c, zeros nv) :: p)) as (T1 & T2 & T3); [intros r s; apply addc_num| | |]; [constructor; [reflexivity|apply Hp]|constructor; [exact row_zeros|apply Hp]|].
  split; [exact T1|]. split; [exact T2|]. split; [intros k; rewrite T3, coef_cons; cbn [fst snd num_of]; lra|]. split; [exact V|]. intros x Dx. apply D; [exact Dx|exact I].
Qed.
Lemma mul_reg_num p c : regpol p -> exists r, mul nv (Pol p) (Num c) = Pol r /\ regpol r /\ (forall k, coef k r = c * coef k p) /\ (forall x, eval x (Pol r) = c * eval x (Pol p)) /\ forall x, dom x (Pol p) -> dom x (Pol r).
Proof.
  intros Hp. unfold mul. rewrite depth_pol. cbn [depth Nat.max mulc]. unfold scale. destruct (Req_EM_T c 1) as [->|N1]; [exists p; split; [reflexivity|]; split; [exact Hp|]; split; [intros; lra|]; split; [intros; lra|auto]|]. destruct (Req_EM_T c 0) as [->|N0].
  { exists [(Num 0, zeros nv)]. split; [reflexivity|]. split; [apply reg_cst|]. split; [intros k; rewrite coef_cons; unfold coef; cbn; destruct (roweqb _ k); lra|]. split; [intros x; fold (cst nv 0); rewrite eval_cst; lra|]. intros x _. apply (dom_cst nv x 0). }
  eexists. split; [reflexivity|]. destruct Hp as (Np & H1 & H2).
  assert (E : map (fun t : expr * list Z => (mulc nv (tdepth p) (fst t) (Num c), snd t)) p = map (fun t => (Num (num_of (fst t) * c), snd t)) p).
  { apply map_ext_in. intros t Ht. unfold numeric in H1. rewrite Forall_forall in H1. rewrite (num_of_num _ (H1 t Ht)) at 1. rewrite mulc_num. reflexivity. }
  rewrite E. split; [|split; [|split]].
  - split; [destruct p; [congruence|discriminate]|]. split; [unfold numeric; rewrite Forall_map; apply Forall_forall; reflexivity|]. rewrite Forall_map. exact H2.
  - intros k. clear. induction p as [|t p IH]; [unfold coef; cbn; ring|]. cbn [map]. rewrite !coef_cons, IH. cbn [fst snd num_of]. destruct (roweqb (snd t) k); ring.
  - intros x. rewrite !eval_pol. clear - H1. induction H1 as [|t p Ht H1 IH]; [unfold tval; cbn; ring|]. cbn [map]. rewrite !tval_cons, IH. cbn [fst snd eval]. rewrite (num_of_num _ Ht) at 2. cbn [eval]. ring.
  - intros x. rewrite !dom_pol. unfold tdom. rewrite Forall_map. intros H. eapply Forall_impl; [|exact H]. cbv beta. intros t [_ R]. split; [exact I|exact R].
Qed.
Lemma mul_reg p q : regpol p -> regpol q -> exists r, mul nv (Pol p) (Pol q) = Pol r /\ regpol r /\ forall x, dom x (Pol p) -> dom x (Pol q) -> dom x (Pol r) /\ eval x (Pol r) = eval x (Pol p) * eval x (Pol q).
Proof.
  intros Hp Hq. destruct (mul_ok nv (Pol p) (Pol q) (or_intror (reg_wf p Hp)) (or_intror (reg_wf q Hq))) as (_ & V & _). unfold mul in *. destruct (Nat.max (depth (Pol p)) (depth (Pol q))) as [|m] eqn:Em; [rewrite !depth_pol in Em; lia|]. cbn [mulc] in *. eexists. split; [reflexivity|]. split; [|exact V].
  destruct Hp as (_ & P1 & P2). destruct Hq as (_ & Q1 & Q2). unfold numeric in *. rewrite Forall_forall in *.
  apply reg_tidy; [intros r s; apply addc_num| |]; apply Forall_forall; intros t Ht; apply in_flat_map in Ht as (u & Hu & Ht); apply in_map_iff in Ht as (w & <- & Hw); cbn [fst snd].
  - apply mulc_is_num; auto.
  - destruct (P2 u Hu) as [L1 Z1], (Q2 w Hw) as [L2 Z2]. split; [rewrite addk_len by congruence; exact L1|]. intros j Hj. rewrite getk_addk by congruence. rewrite Z1, Z2 by exact Hj. reflexivity.
Qed.
(** ** the exponent of one variable *)
Definition mons_ok (m : list (list Z * terms_t)) : Prop := Forall (fun f => length (fst f) = nv /\ regpol (snd f) /\ NoDup (map snd (snd f))) m.
Definition mdom (x : point) (m : list (list Z * terms_t)) : Prop := Forall (fun f => dom x (Pol (snd f))) m.
Lemma power_cons f m j x : power (f :: m) j x = IZR (getk j (fst f)) * eval x (Pol (snd f)) + power m j x. Proof. reflexivity. Qed.
Lemma pcoef_cons f m j k : power_coef (f :: m) j k = IZR (getk j (fst f)) * coef k (snd f) + power_coef m j k. Proof. reflexivity. Qed.
Lemma zero_row_zeros k : length k = nv -> zero_row k = roweqb k (zeros nv).
Proof.
  intros L. destruct (zero_row k) eqn:E.
  - apply zero_row_repeat in E. rewrite L in E. rewrite E. symmetry. apply roweqb_refl.
  - destruct (roweqb k (zeros nv)) eqn:E'; [|reflexivity]. apply roweqb_spec in E'. rewrite E' in E. unfold zero_row, zeros in E. clear - E. induction nv as [|n IH]; cbn in E; [discriminate|]. auto.
Qed.
Lemma constant_coef e : regpol e -> constant_term e = coef (zeros nv) e.
Proof.
  intros (_ & _ & H). unfold constant_term. induction H as [|t e [L _] H IH]; [reflexivity|]. cbn [filter]. rewrite coef_cons, <- (zero_row_zeros _ L). destruct (zero_row (snd t)); cbn [map fold_right]; rewrite IH; lra.
Qed.
Lemma constant_power m j : mons_ok m -> exponent_constant_term m j = power_at_0 nv m j.
Proof.
  unfold exponent_constant_term, power_at_0. assert (G : forall acc, mons_ok m -> fold_left (fun acc f => acc + constant_term (snd f) * IZR (getk j (fst f))) m acc = acc + power_coef m j (zeros nv)).
  { induction m as [|f m IH]; intros acc H; [unfold power_coef; cbn; lra|]. apply Forall_cons_iff in H as [(_ & H1 & _) H]. cbn [fold_left]. rewrite IH by exact H. rewrite pcoef_cons, (constant_coef _ H1). ring. }
  intros H. rewrite G by exact H. lra.
Qed.
Lemma full_reg m j : m <> [] -> mons_ok m -> exists f, full_exponent nv m j = Pol f /\ regpol f /\ (forall k, coef k f = power_coef m j k) /\ (forall x, eval x (Pol f) = power m j x) /\ forall x, mdom x m -> dom x (Pol f).
Proof.
  intros N H. unfold full_exponent.
  assert (G : forall m, mons_ok m -> forall p, regpol p -> exists f, fold_left (fun acc f => add nv acc (mul nv (Pol (snd f)) (Num (IZR (getk j (fst f)))))) m (Pol p) = Pol f /\ regpol f /\ (forall k, coef k f = coef k p + power_coef m j k) /\ (forall x, eval x (Pol f) = eval x (Pol p) + power m j x) /\ forall x, dom x (Pol p) -> mdom x m -> dom x (Pol f)).
  { clear. induction m as [|f m IH]; intros H p Hp; [exists p; split; [reflexivity|]; split; [exact Hp|]; split; [intros; unfold power_coef; cbn; lra|]; split; [intros; unfold power; cbn; lra|auto]|]. apply Forall_cons_iff in H as [(_ & H1 & _) H]. cbn [fold_left].
    destruct (mul_reg_num (snd f) (IZR (getk j (fst f))) H1) as (r & -> & R1 & R2 & R3 & R4). destruct (add_reg p r Hp R1) as (q & -> & Q1 & _ & Q2 & Q3 & Q4). destruct (IH H q Q1) as (g & -> & G1 & G2 & G3 & G4). exists g. split; [reflexivity|]. split; [exact G1|].
    split; [intros k; rewrite G2, Q2, R2, pcoef_cons; ring|]. split; [intros x; rewrite G3, Q3, R3, power_cons; ring|]. intros x D1 D2. apply Forall_cons_iff in D2 as [D2 D3]. apply G4; [apply Q4; [exact D1|apply R4, D2]|exact D3]. }
  destruct m as [|f m]; [congruence|]. apply Forall_cons_iff in H as [(_ & H1 & _) H]. cbn [fold_left].
  destruct (mul_reg_num (snd f) (IZR (getk j (fst f))) H1) as (r & -> & R1 & R2 & R3 & R4). destruct (add_reg_num r 0 R1) as (q & _ & -> & Q1 & _ & Q2 & Q3 & Q4). destruct (G m H q Q1) as (g & -> & G1 & G2 & G3 & G4). exists g. split; [reflexivity|]. split; [exact G1|].
  split; [intros k; rewrite G2, Q2, R2, pcoef_cons; destruct (roweqb _ k); ring|]. split; [intros x; rewrite G3, Q3, R3, power_cons; ring|]. intros x D. apply Forall_cons_iff in D as [D2 D3]. apply G4; [apply Q4, R4, D2|exact D3].
Qed.
Lemma coef_in p : numeric p -> NoDup (map snd p) -> forall t, In t p -> coef (snd t) p = num_of (fst t).
Proof.
  intros _. induction p as [|u p IH]; intros N t [].
  - subst u. rewrite coef_cons, roweqb_refl. inversion N as [|a l Na N' E]; subst. assert (coef (snd t) p = 0); [|lra]. clear - Na. induction p as [|u p IH]; [reflexivity|]. rewrite coef_cons, IH by (intros H; apply Na; right; exact H). destruct (roweqb (snd u) (snd t)) eqn:E; [|lra]. apply roweqb_spec in E. exfalso. apply Na. left. exact E.
  - rewrite coef_cons. inversion N as [|a l Na N' E]; subst. rewrite (IH N' t H). destruct (roweqb (snd u) (snd t)) eqn:E; [|lra]. apply roweqb_spec in E. exfalso. apply Na. rewrite E. apply in_map, H.
Qed.
Lemma all_coeffs_coef p : numeric p -> NoDup (map snd p) -> (all_coeffs 0 p = true <-> forall k, coef k p = 0).
Proof.
  intros H N. unfold all_coeffs. rewrite forallb_forall. split.
  - intros Z k. clear H N. induction p as [|t p IH]; [reflexivity|]. rewrite coef_cons, IH by (intros u Hu; apply Z; right; exact Hu). specialize (Z t (or_introl eq_refl)). apply is_const_spec in Z. rewrite Z. cbn [num_of]. destruct (roweqb (snd t) k); lra.
  - intros Z t Ht. apply is_const_spec. pose proof (coef_in p H N t Ht) as C. rewrite Z in C. unfold numeric in H. rewrite Forall_forall in H. rewrite (num_of_num _ (H t Ht)), <- C. reflexivity.
Qed.
Lemma unregulated_spec m j : m <> [] -> mons_ok m -> (unregulated nv m j = true <-> no_regulator nv m j).
Proof.
  intros N H. unfold unregulated, no_regulator. rewrite (constant_power m j H). destruct (Rlt_dec (power_at_0 nv m j) 0) as [L|L]; [|split; [discriminate|intros [L' _]; contradiction]].
  destruct (full_reg m j N H) as (f & -> & F1 & F2 & _). destruct (add_reg_num f (- power_at_0 nv m j) F1) as (r & -> & _ & R1 & R2 & R3 & _). cbn [coeffs_of]. rewrite (all_coeffs_coef r (proj1 (proj2 R1)) R2). split.
  - intros Z. split; [exact L|]. intros k Hk. specialize (Z k). rewrite R3, F2 in Z. destruct (roweqb (zeros nv) k) eqn:E; [apply roweqb_spec in E; congruence|]. lra.
  - intros [_ Z] k. rewrite R3, F2. destruct (roweqb (zeros nv) k) eqn:E; [apply roweqb_spec in E; subst k; unfold power_at_0; lra|]. rewrite Z; [lra|]. intros ->. rewrite roweqb_refl in E. discriminate.
Qed.
(** ** [set_to_one] *)
Section One.
Variable j : nat.
Hypothesis Hj : (j < nv)%nat.
Hypothesis Js : In j S.
Lemma set_to_one_eq m : mons_ok m -> set_to_one j m = map (fun f => (setk j 0 (fst f), snd f)) m.
Proof.
  intros H. unfold set_to_one. apply map_ext_in. intros f Hf. f_equal. unfold mons_ok in H. rewrite Forall_forall in H. destruct (H f Hf) as (_ & (_ & _ & Z) & _). rewrite Forall_forall in Z. rewrite <- (map_id (snd f)) at 2. apply map_ext_in. intros [c k] Ht. cbn [fst snd]. f_equal. destruct (Z _ Ht) as [_ Z']. cbn [snd] in Z'. rewrite <- (Z' j Js) at 1. apply setk_same.
Qed.
Lemma one_ok m : mons_ok m -> mons_ok (set_to_one j m) /\ (m <> [] -> set_to_one j m <> []) /\ (forall x, mdom x m -> mdom x (set_to_one j m)).
Proof.
  intros H. rewrite (set_to_one_eq m H). split; [|split].
  - unfold mons_ok. rewrite Forall_map. eapply Forall_impl; [|exact H]. cbv beta. intros f (L & A & B). cbn [fst snd]. split; [rewrite setk_len; exact L|]. auto.
  - destruct m; [congruence|discriminate].
  - intros x. unfold mdom. rewrite Forall_map. auto.
Qed.
Lemma one_power m i x : mons_ok m -> power (set_to_one j m) i x = if Nat.eqb i j then 0 else power m i x.
Proof.
  intros H. rewrite (set_to_one_eq m H). induction H as [|f m (L & _) H IH]; [unfold power; cbn; destruct (Nat.eqb i j); reflexivity|]. cbn [map]. rewrite !power_cons, IH. cbn [fst snd]. rewrite getk_setk by lia. destruct (Nat.eqb i j); lra.
Qed.
Lemma one_coef m i k : mons_ok m -> power_coef (set_to_one j m) i k = if Nat.eqb i j then 0 else power_coef m i k.
Proof.
  intros H. rewrite (set_to_one_eq m H). induction H as [|f m (L & _) H IH]; [unfold power_coef; cbn; destruct (Nat.eqb i j); reflexivity|]. cbn [map]. rewrite !pcoef_cons, IH. cbn [fst snd]. rewrite getk_setk by lia. destruct (Nat.eqb i j); lra.
Qed.
(** ** [increase_power] *)
Lemma unit_power : length (unit_row nv j 1) = nv /\ forall i, getk i (unit_row nv j 1) = if Nat.eqb i j then 1%Z else 0%Z.
Proof. unfold unit_row. split; [rewrite setk_len; apply repeat_length|]. intros i. rewrite getk_setk by (unfold zeros; rewrite repeat_length; exact Hj). unfold zeros. rewrite getk_zeros. reflexivity. Qed.
Lemma one_exponent e : regpol e -> NoDup (map snd e) -> all_rows_zero e && all_coeffs 1 e = true -> e = [(Num 1, zeros nv)].
Proof.
  intros H N E. apply andb_prop in E as [E1 E2]. destruct (nodup_zero_rows nv e N (tok_len nv e (proj2 (reg_tok e H))) E1 (proj1 H)) as (c & k & -> & Z). apply andb_prop in E2 as [E2 _]. apply is_const_spec in E2. cbn [fst] in E2. subst c. f_equal. f_equal. apply zero_row_repeat in Z. rewrite Z. destruct H as (_ & _ & H). apply Forall_cons_iff in H as [[L _] _]. cbn [snd] in L. rewrite L. reflexivity.
Qed.
Lemma increase_ok m : mons_ok m -> let m' := increase_power nv j m in
  mons_ok m' /\ m' <> [] /\ (forall x, mdom x m -> mdom x m') /\ (forall i x, power m' i x = power m i x + if Nat.eqb i j then 1 else 0) /\
  (forall i k, power_coef m' i k = power_coef m i k + if Nat.eqb i j then (if roweqb (zeros nv) k then 1 else 0) else 0).
Proof.
  intros H. cbv zeta. assert (U1 : forall x, eval x (Pol [(Num 1, zeros nv)]) = 1) by (intros x; apply (eval_cst nv x 1)). assert (UD : forall x, dom x (Pol [(Num 1, zeros nv)])) by (intros x; apply (dom_cst nv x 1)). assert (UC : forall k, coef k [(Num 1, zeros nv)] = if roweqb (zeros nv) k then 1 else 0) by (intros k; rewrite coef_cons; unfold coef; cbn; lra).
  assert (K : forall m', increase_first j m = Some m' -> mons_ok m' /\ m' <> [] /\ (forall x, mdom x m -> mdom x m') /\ (forall i x, power m' i x = power m i x + if Nat.eqb i j then 1 else 0) /\ (forall i k, power_coef m' i k = power_coef m i k + if Nat.eqb i j then (if roweqb (zeros nv) k then 1 else 0) else 0)).
  { induction H as [|f m (L & R & N) H IH]; intros m' E; cbn [increase_first] in E; [discriminate|]. destruct (all_rows_zero (snd f) && all_coeffs 1 (snd f)) eqn:Ez.
    - injection E as <-. pose proof (one_exponent _ R N Ez) as Ef. split; [constructor; [|exact H]; cbn [fst snd]; rewrite setk_len; auto|]. split; [discriminate|]. split; [intros x D; apply Forall_cons_iff in D as [D1 D2]; constructor; assumption|].
      split; [intros i x|intros i k]; rewrite ?power_cons, ?pcoef_cons; cbn [fst snd]; rewrite getk_setk by lia; rewrite Ef, ?U1, ?UC; destruct (Nat.eqb_spec i j) as [->|_]; rewrite ?plus_IZR; lra.
    - destruct (increase_first j m) as [m1|]; [|discriminate]. injection E as <-. destruct (IH m1 eq_refl) as (I1 & I2 & I3 & I4 & I5). split; [constructor; auto|]. split; [discriminate|]. split; [intros x D; apply Forall_cons_iff in D as [D1 D2]; constructor; [exact D1|apply I3, D2]|].
      split; [intros i x|intros i k]; rewrite ?power_cons, ?pcoef_cons, ?I4, ?I5; lra. }
  unfold increase_power. destruct (increase_first j m) as [m1|]; [apply K; reflexivity|]. destruct unit_power as [L G]. split; [constructor; [|exact H]; cbn [fst snd]; split; [exact L|]; split; [apply reg_cst|apply nodup1]|]. split; [discriminate|]. split; [intros x D; constructor; [apply UD|exact D]|].
  split; [intros i x|intros i k]; rewrite ?power_cons, ?pcoef_cons; cbn [fst snd]; rewrite G, ?U1, ?UC; destruct (Nat.eqb i j); lra.
Qed.
End One.
End Reg.
