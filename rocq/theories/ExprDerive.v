(** derive terminates and returns the partial derivative on the domain. *)
From Coq Require Import FunctionalExtensionality.
From Verif Require Import SortProofs ExprSpec ExprSmooth ExprMixed ExprArith ExprOrd ExprSimp.
Local Open Scope R_scope.

(** ** derivatives of powers *)
Lemma dlim_powerRZ (x : R) z : ((0 <= z)%Z \/ x <> 0) -> derivable_pt_lim (fun t => powerRZ t z) x (IZR z * powerRZ x (z - 1)).
Proof.
  intros H. destruct z as [|p|p].
  - replace (0 * powerRZ x (0 - 1)) with 0 by ring. apply (derivable_pt_lim_const 1).
  - replace (powerRZ x (Z.pos p - 1)) with (x ^ pred (Pos.to_nat p)) by (rewrite pow_powerRZ; f_equal; lia). replace (IZR (Z.pos p)) with (INR (Pos.to_nat p)) by (rewrite INR_IZR_INZ; f_equal; lia). exact (derivable_pt_lim_pow x (Pos.to_nat p)).
  - assert (Hx : x <> 0) by (destruct H as [H|H]; [lia|exact H]). assert (Hp : x ^ Pos.to_nat p <> 0) by (apply pow_nonzero, Hx).
    pose proof (derivable_pt_lim_comp (fun t => t ^ Pos.to_nat p) Rinv x _ _ (derivable_pt_lim_pow x (Pos.to_nat p)) (dlim_inv _ Hp)) as Q. unfold comp in Q. cbn [powerRZ].
    match type of Q with derivable_pt_lim _ _ ?l => replace (IZR (Z.neg p) * powerRZ x (Z.neg p - 1)) with l; [exact Q|] end.
    replace (Z.neg p - 1)%Z with (Z.neg (p + 1)) by lia. cbn [powerRZ]. rewrite Pos2Nat.inj_add. change (Pos.to_nat 1) with 1%nat. replace (IZR (Z.neg p)) with (- INR (Pos.to_nat p)) by (rewrite INR_IZR_INZ, <- opp_IZR; f_equal; lia).
    destruct (Pos.to_nat p) as [|m] eqn:E; [pose proof (Pos2Nat.is_pos p); lia|]. cbn [pred]. rewrite Nat.add_comm. cbn [pow Nat.add] in *. field. split; [apply pow_nonzero, Hx|exact Hx].
Qed.
Lemma mono_upd k : forall x o j t, (j < o)%nat -> mono (upd x j t) o k = mono x o k.
Proof. induction k as [|z k IH]; intros x o j t H; [reflexivity|]. cbn [mono]. rewrite upd_other, IH by lia. reflexivity. Qed.
Lemma mono_pd x : forall k o j, (j < length k)%nat -> row_ok x o k -> pd (o + j) (fun y => mono y o k) x (IZR (getk j k) * mono x o (setk j (getk j k - 1) k)) /\ (getk j k <> 0%Z -> row_ok x o (setk j (getk j k - 1) k)).
Proof.
  induction k as [|z k IH]; intros o j Hj HH; [cbn in Hj; lia|]. destruct HH as [H1 H2]. destruct j as [|j].
  - rewrite Nat.add_0_r. unfold getk. cbn [nth setk mono row_ok]. split.
    + replace (IZR z * (powerRZ (x o) (z - 1) * mono x (S o) k)) with ((IZR z * powerRZ (x o) (z - 1) * 1) * mono x (S o) k + powerRZ (x o) z * 0) by ring.
      apply (pd_mult o (fun y => powerRZ (y o) z) (fun y => mono y (S o) k)); [apply (pd_comp o (fun t => powerRZ t z) (fun y => y o)); [apply pd_coord|apply dlim_powerRZ, H1]|].
      unfold pd. apply (dlim_ext (fun _ => mono x (S o) k) _ _ _ 1 Rlt_0_1); [|apply (derivable_pt_lim_const (mono x (S o) k))]. intros t _. rewrite mono_upd by lia. reflexivity.
    + intros Hz. split; [|exact H2]. destruct H1 as [H1|H1]; [left; lia|right; exact H1].
  - cbn [length] in Hj. destruct (IH (S o) j ltac:(lia) H2) as [I1 I2]. replace (o + S j)%nat with (S o + j)%nat by lia. change (getk (S j) (z :: k)) with (getk j k). cbn [setk mono row_ok]. split.
    + match goal with |- pd _ _ _ (IZR ?a * (?b * ?c)) => replace (IZR a * (b * c)) with (0 * mono x (S o) k + b * (IZR a * c)) by ring end.
      apply (pd_mult (S o + j) (fun y => powerRZ (y o) z) (fun y => mono y (S o) k)); [|exact I1]. unfold pd. apply (dlim_ext (fun _ => powerRZ (x o) z) _ _ _ 1 Rlt_0_1); [|apply (derivable_pt_lim_const (powerRZ (x o) z))]. intros t _. rewrite upd_other by lia. reflexivity.
    + intros Hz. split; [exact H1|apply I2, Hz].
Qed.
Lemma pd_Rpower i F A x f a : 0 < F x -> pd i F x f -> pd i A x a -> pd i (fun y => Rpower (F y) (A y)) x (Rpower (F x) (A x) * (a * ln (F x) + A x * (/ F x * f))).
Proof.
  intros P HF HA. unfold Rpower. apply (pd_comp i exp (fun y => A y * ln (F y))); [|apply derivable_pt_lim_exp]. apply (pd_mult i A (fun y => ln (F y))); [exact HA|]. apply (pd_comp i ln F); [exact HF|apply derivable_pt_lim_ln, P].
Qed.
Lemma Rpower_minus_one a b : 0 < a -> Rpower a (b - 1) = Rpower a b * / a.
Proof. intros P. unfold Rminus. rewrite Rpower_plus, Rpower_Ropp, Rpower_1 by exact P. reflexivity. Qed.
Lemma Rpower_m1 a : 0 < a -> Rpower a (-1) = / a. Proof. intros P. replace (-1) with (- (1)) by lra. rewrite Rpower_Ropp, Rpower_1 by exact P. reflexivity. Qed.
Lemma pd_sum i x (l : list (point -> R)) : forall m, Forall2 (fun G g => pd i G x g) l m -> pd i (fun y => sumR (map (fun G => G y) l)) x (sumR m).
Proof. induction 1 as [|G g l m H F IH]; [apply (pd_const i 0)|]. cbn [map]. exact (pd_plus i G _ x g (sumR m) H IH). Qed.
Lemma pd_eq i F x l l' : pd i F x l -> l = l' -> pd i F x l'. Proof. intros H <-. exact H. Qed.
Lemma pd_fun i F G x l : pd i F x l -> (forall y, F y = G y) -> pd i G x l. Proof. intros H E. replace G with F; [exact H|]. apply functional_extensionality, E. Qed.

Lemma gpow_minus_one b e a : base_ok b e -> (forall z, e = Num (IZR z) -> a = IZR z) -> gpow b (a - 1) = gpow b a * / b.
Proof.
  intros [P|[P [z E]]] H; [rewrite !gpow_pos by exact P; apply Rpower_minus_one, P|]. rewrite (H z E). replace (IZR z - 1) with (IZR (z + -1)) by (rewrite plus_IZR; lra). rewrite !gpow_int, powerRZ_add by exact P. f_equal. change (powerRZ b (-1)) with (/ (b * 1)). rewrite Rmult_1_r. reflexivity.
Qed.
(** the same formula for the derivative with an integer exponent *)
Lemma pd_gpow_int i F z x f : F x <> 0 -> pd i F x f -> pd i (fun y => powerRZ (F y) z) x (powerRZ (F x) z * (IZR z * (/ F x * f))).
Proof.
  intros N H. replace (powerRZ (F x) z * (IZR z * (/ F x * f))) with (IZR z * powerRZ (F x) (z - 1) * f). 2:{ replace (z - 1)%Z with (z + -1)%Z by lia. rewrite powerRZ_add by exact N. change (powerRZ (F x) (-1)) with (/ (F x * 1)). field. exact N. }
  apply (pd_comp i (fun t => powerRZ t z) F); [exact H|]. apply dlim_powerRZ. right. exact N.
Qed.
Section Derive.
Variable nv : nat.
Variable sympy_zero : expr -> bool.
Hypothesis sympy_sound : forall e x, sympy_zero e = true -> dom x e -> eval x e = 0.
Variable i : nat.
Hypothesis Hi : (i < nv)%nat.
Notation wf := (wf nv).
Notation tok := (tok nv).
Notation good := (good nv).
Notation simplify := (simplify nv).
Notation derive := (derive nv sympy_zero i).
Definition derres (e e' : expr) : Prop := wf e' /\ forall x, dom x e -> dom x e' /\ pd i (fun y => eval y e) x (eval x e').
Definition der_good (e : expr) : Prop := exists e', ev (fun n => derive n e = Some e') /\ derres e e'.

(** ** Polynomial *)
Definition part1 (p : terms_t) : terms_t := map (fun t => (mul nv (fst t) (Num (IZR (getk i (snd t)))), setk i (getk i (snd t) - 1) (snd t))) (filter (fun t => negb (Z.eqb (getk i (snd t)) 0)) p).
Lemma part1_ok p : tok p -> tok (part1 p) /\ forall x, tdom x p -> tdom x (part1 p) /\
  tval x (part1 p) = sumR (map (fun t => eval x (fst t) * (IZR (getk i (snd t)) * mono x 0 (setk i (getk i (snd t) - 1) (snd t)))) p).
Proof.
  unfold part1. induction p as [|[c k] p IH]; intros T; [split; [constructor|]; intros x _; split; [constructor|reflexivity]|]. apply Forall_cons_iff in T as [[L G] T]. destruct (IH T) as [I1 I2]. cbn [filter fst snd] in *.
  destruct (mul_ok nv c (Num (IZR (getk i k))) G (good_num nv _)) as ([M1 _] & M2 & _).
  destruct (Z.eqb_spec (getk i k) 0) as [E|E]; cbn [negb].
  - split; [exact I1|]. intros x D. apply Forall_cons_iff in D as [[D1 D2] D]. destruct (I2 x D) as [J1 J2]. split; [exact J1|]. rewrite J2. cbn [map fst snd]. rewrite sumR_cons, E. cbn [Z.eqb]. ring.
  - cbn [map fst snd]. split; [constructor; [cbn [fst snd]; split; [rewrite setk_len; exact L|exact M1]|exact I1]|]. intros x D. apply Forall_cons_iff in D as [[D1 D2] D]. cbn [fst snd] in *. destruct (I2 x D) as [J1 J2]. destruct (M2 x D1 I) as [M3 M4]. destruct (mono_pd x k 0 i ltac:(lia) D2) as [_ R].
    split; [constructor; [exact (conj M3 (R E))|exact J1]|]. rewrite tval_cons, J2, sumR_cons. cbn [fst snd]. rewrite M4. cbn [eval]. ring.
Qed.
Lemma add_pol p q : exists r, add nv (Pol p) (Pol q) = Pol r. Proof. unfold add. rewrite !depth_pol. destruct (Nat.max (S (tdepth p)) (S (tdepth q))) eqn:E; [lia|]. cbn [addc]. eauto. Qed.
Lemma pd_terms x p (dc : list R) : tok p -> tdom x p -> Forall2 (fun t d => pd i (fun y => eval y (fst t)) x d) p dc ->
  pd i (fun y => tval y p) x (sumR (map (fun q => snd q * mono x 0 (snd (fst q))) (combine p dc)) + sumR (map (fun t => eval x (fst t) * (IZR (getk i (snd t)) * mono x 0 (setk i (getk i (snd t) - 1) (snd t)))) p)).
Proof.
  intros T D F. induction F as [|[c k] d p dc H F IH]; [apply (pd_eq i _ x 0); [apply (pd_const i 0)|cbn; ring]|]. apply Forall_cons_iff in T as [[L G] T], D as [[D1 D2] D]. cbn [fst snd] in *. specialize (IH T D). destruct (mono_pd x k 0 i ltac:(lia) D2) as [M _].
  pose proof (pd_plus i _ _ x _ _ (pd_mult i _ _ x _ _ H M) IH) as Q. eapply pd_eq; [eapply pd_fun; [exact Q|]|]; [intros y; rewrite tval_cons; reflexivity|]. cbn [combine map fst snd]. rewrite !sumR_cons. ring.
Qed.
Lemma pol_derive_ok p : p <> [] -> tok p -> Forall (fun t => wf (fst t) -> der_good (fst t)) p ->
  exists q, ev (fun n => pol_derive nv i (derive n) p = Some (Pol q)) /\ wf (Pol q) /\ forall x, tdom x p -> tdom x q /\ pd i (fun y => tval y p) x (tval x q).
Proof.
  intros N T H. fold (part1 p) in *. destruct (part1_ok p T) as [T1 V1]. unfold pol_derive. cbv zeta. fold (part1 p).
  destruct (existsb (fun t => negb (is_num (fst t))) p) eqn:Ex.
  - destruct (ev_all (fun n (t : expr * list Z) => if is_num (fst t) then Some (Num 0, snd t) else match derive n (fst t) with Some c => Some (c, snd t) | None => None end)
      (fun t u => snd u = snd t /\ good (fst u) /\ forall x, dom x (fst t) -> dom x (fst u) /\ pd i (fun y => eval y (fst t)) x (eval x (fst u))) p) as (s2 & E & F).
    { eapply Forall_impl; [|apply (Forall_and' _ _ _ T H)]. cbv beta. intros [c k] [[_ G] I']. cbn [fst snd] in *. destruct (is_num c) eqn:Nc.
      - exists (Num 0, k). split; [apply ev_now; reflexivity|]. split; [reflexivity|]. split; [left; reflexivity|]. intros x _. split; [exact I|]. destruct c; try discriminate. apply (pd_const i r).
      - destruct (I' (good_not_num nv c G Nc)) as (c' & E & W & D). exists (c', k). split; [eapply ev_imp; [|exact E]; cbv beta; intros n ->; reflexivity|]. split; [reflexivity|]. split; [right; exact W|exact D]. }
    assert (T2 : tok s2). { clear - T F. induction F as [|t u p s2 (F1 & F2 & _) F IH]; [constructor|]. apply Forall_cons_iff in T as [[T1 _] T]. constructor; [split; [congruence|exact F2]|apply IH, T]. }
    assert (N2 : s2 <> []) by (destruct F; [congruence|discriminate]). assert (W2 : wf (Pol s2)) by (apply wf_pol; split; assumption).
    assert (V2 : forall x, tdom x p -> tdom x s2 /\ pd i (fun y => tval y p) x (tval x s2 + tval x (part1 p))).
    { intros x D. destruct (V1 x D) as [_ E1].
      assert (K : tdom x s2 /\ Forall2 (fun t d => pd i (fun y => eval y (fst t)) x d) p (map (fun u => eval x (fst u)) s2) /\ tval x s2 = sumR (map (fun q => snd q * mono x 0 (snd (fst q))) (combine p (map (fun u => eval x (fst u)) s2)))).
      { clear - F D. induction F as [|t u p s2 (F1 & _ & F3) F IH]; [repeat split; constructor|]. apply Forall_cons_iff in D as [[D1 D2] D]. destruct (IH D) as (J1 & J2 & J3). destruct (F3 x D1) as [G1 G2].
        split; [constructor; [rewrite F1; split; assumption|exact J1]|]. cbn [map combine]. split; [constructor; assumption|]. rewrite tval_cons, J3, sumR_cons. cbn [fst snd]. rewrite F1. ring. }
      destruct K as (K1 & K2 & K3). split; [exact K1|]. rewrite E1, K3. apply pd_terms; assumption. }
    destruct (part1 p) as [|t1 r1] eqn:Ep.
    + exists s2. split; [eapply ev_imp; [|exact E]; cbv beta; intros n ->; reflexivity|]. split; [exact W2|]. intros x D. destruct (V2 x D) as [K1 K2]. split; [exact K1|]. eapply pd_eq; [exact K2|]. unfold tval at 2. cbn. ring.
    + assert (W1 : wf (Pol (t1 :: r1))) by (apply wf_pol; split; [discriminate|exact T1]). destruct (add_pol (t1 :: r1) s2) as [r Er]. destruct (add_ok nv (Pol (t1 :: r1)) (Pol s2) (or_intror W1) (or_intror W2)) as (_ & A2 & A3 & A4 & _). rewrite Er in *.
      exists r. split; [eapply ev_imp; [|exact E]; cbv beta; intros n ->; rewrite Er; reflexivity|]. split; [apply A4; left; reflexivity|]. intros x D. destruct (V1 x D) as [D1 _]. destruct (V2 x D) as [D2 K2]. split; [apply dom_pol, A3; apply dom_pol; assumption|]. eapply pd_eq; [exact K2|]. rewrite <- eval_pol, <- eval_pol, <- (eval_pol x r), A2. ring.
  - assert (V2 : forall x, tdom x p -> pd i (fun y => tval y p) x (tval x (part1 p))).
    { intros x D. destruct (V1 x D) as [_ E1]. eapply pd_eq; [apply (pd_terms x p (map (fun _ => 0) p) T D)|].
      - clear - Ex. induction p as [|[c k] p IH]; [constructor|]. cbn [existsb fst] in Ex. apply orb_false_elim in Ex as [E1 E2]. cbn [map]. constructor; [|apply IH, E2]. cbn [fst]. destruct c; try discriminate. apply (pd_const i r).
      - rewrite E1. match goal with |- sumR (map ?f ?l) + ?b = ?b => enough (Z0 : sumR (map f l) = 0) by (rewrite Z0; ring) end. clear. induction p as [|t p IH]; [reflexivity|]. cbn [map combine]. rewrite sumR_cons, IH. cbn [fst snd]. ring. }
    destruct (part1 p) as [|t1 r1] eqn:Ep.
    + exists [(Num 0, zeros nv)]. split; [apply ev_now; reflexivity|]. split; [apply (wf_cst nv 0)|]. intros x D. split; [apply dom_pol, (dom_cst nv x 0)|]. eapply pd_eq; [apply V2, D|]. rewrite <- (eval_pol x [(Num 0, zeros nv)]). fold (cst nv 0). rewrite eval_cst. reflexivity.
    + exists (t1 :: r1). split; [apply ev_now; reflexivity|]. split; [apply wf_pol; split; [discriminate|exact T1]|]. intros x D. split; [apply V1, D|apply V2, D].
Qed.

(** ** ProductRule *)
Definition up (n : list Z) : list Z := setk i (getk i n + 1) n.
Definition dsimp (n : nat) (e : expr) : option expr := match derive n e with Some d => simplify n d | None => None end.
Definition dsimp_good (e : expr) : Prop := exists e', ev (fun n => dsimp n e = Some e') /\ derres e e'.
Lemma der_dsimp e : der_good e -> dsimp_good e.
Proof.
  intros (d & E & W & D). destruct (simp_ok nv d W) as (e' & E' & W' & _ & S & _). exists e'. split; [eapply ev_imp; [|apply (ev_and _ _ E E')]; cbv beta; intros n [H1 H2]; unfold dsimp; rewrite H1; exact H2|]. split; [exact W'|].
  intros x Dx. destruct (D x Dx) as [D1 P1]. destruct (S x D1) as [D2 V2]. split; [exact D2|]. rewrite V2. exact P1.
Qed.
Definition colinv (col0 col : list (list Z * expr)) : Prop :=
  (exists extra, col = col0 ++ extra) /\ column_ok nv col /\ Forall (fun t => wf (snd t)) col /\ forall x, Forall (fun t => dom x (snd t)) col0 -> Forall (fun t => dom x (snd t)) col.
Lemma lookup_app n a b : lookup n (a ++ b) = match lookup n a with Some e => Some e | None => lookup n b end.
Proof. induction a as [|[m e] a IH]; [reflexivity|]. cbn [app lookup]. destruct (roweqb n m); [reflexivity|exact IH]. Qed.
Definition reach (n : list Z) (col0 : list (list Z * expr)) : Prop := lookup n col0 <> None \/ exists m, lookup m col0 <> None /\ n = up m.
Lemma setk_same j (k : list Z) : setk j (getk j k) k = k. Proof. revert j. induction k as [|z k IH]; intros [|j]; cbn [setk]; [reflexivity|reflexivity|reflexivity|]. f_equal. apply IH. Qed.
Lemma setk_setk j v w (k : list Z) : setk j v (setk j w k) = setk j v k. Proof. revert j. induction k as [|z k IH]; intros [|j]; cbn [setk]; try reflexivity. f_equal. apply IH. Qed.
Lemma up_down m : (i < length m)%nat -> setk i (getk i (up m) - 1) (up m) = m.
Proof. intros H. unfold up. rewrite getk_setk by exact H. rewrite Nat.eqb_refl, setk_setk. replace (getk i m + 1 - 1)%Z with (getk i m) by lia. apply setk_same. Qed.
Definition step1 (der : expr -> option expr) (n : list Z) (col : list (list Z * expr)) : option (expr * list (list Z * expr)) :=
  match lookup n col with
  | Some e => Some (e, col)
  | None => match lookup (setk i (getk i n - 1) n) col with
            | None => None
            | Some lower => match der lower with None => None | Some e => Some (e, col ++ [(n, e)]) end
            end
  end.
Definition keeps (col col' : list (list Z * expr)) : Prop := forall m e, lookup m col = Some e -> lookup m col' = Some e.
Lemma step1_ok col0 col n : column_ok nv col0 -> colinv col0 col -> Forall (fun t => dsimp_good (snd t)) col0 -> reach n col0 ->
  exists e col', ev (fun k => step1 (dsimp k) n col = Some (e, col')) /\ colinv col0 col' /\ keeps col col' /\ lookup n col' = Some e.
Proof.
  intros C0 (Hx & C & Wc & Dc) HD R. unfold step1. destruct (lookup n col) as [e|] eqn:E.
  { exists e, col. split; [apply ev_now; reflexivity|]. split; [split; [exact Hx|split; [exact C|split; assumption]]|]. split; [intros m e' Hm; exact Hm|exact E]. }
  destruct Hx as [extra Hx]. assert (R' : exists m, lookup m col0 <> None /\ n = up m).
  { destruct R as [R|R]; [|exact R]. exfalso. rewrite Hx, lookup_app in E. destruct (lookup n col0); [discriminate|congruence]. }
  destruct R' as (m & Hm & ->). pose proof (column_len nv col0 m C0 Hm) as Lm. rewrite up_down by lia. destruct (lookup m col0) as [lower|] eqn:El; [|congruence].
  assert (El' : lookup m col = Some lower) by (rewrite Hx, lookup_app, El; reflexivity). rewrite El'.
  assert (Hin : In (m, lower) col0) by (apply lookup_In, El). rewrite Forall_forall in HD. destruct (HD _ Hin) as (d & Ed & Wd & Dd). cbn [snd] in *.
  exists d, (col ++ [(up m, d)]). split; [eapply ev_imp; [|exact Ed]; cbv beta; intros k ->; reflexivity|].
  assert (K : keeps col (col ++ [(up m, d)])) by (intros m' e' H'; rewrite lookup_app, H'; reflexivity).
  split; [|split; [exact K|rewrite lookup_app, E; cbn [lookup]; rewrite roweqb_refl; reflexivity]].
  split; [exists (extra ++ [(up m, d)]); rewrite Hx, app_assoc; reflexivity|]. split; [|split; [apply Forall_app; split; [exact Wc|constructor; [exact Wd|constructor]]|]].
  - destruct C as (f & Hf & F). exists f. split; [apply K, Hf|]. apply Forall_app. split; [exact F|]. constructor; [|constructor]. cbn [fst snd]. rewrite Forall_forall in F. destruct (F _ (lookup_In _ _ _ El')) as [Mx Dx]. cbn [fst snd] in *.
    destruct (all_good f) as [Of Sf]. split; [|intros x Hfx; apply Dd, Dx, Hfx]. apply (mixed_step _ _ nv i m (fun x => eval x lower)); [exact Hi|exact Mx|]. intros x Hfx. apply Dd, Dx, Hfx.
  - intros x Hd. apply Forall_app. split; [apply Dc, Hd|]. constructor; [|constructor]. cbn [snd]. apply Dd. rewrite Forall_forall in Hd. apply (Hd _ Hin).
Qed.
Definition keeps_all (C C' : cache_t) : Prop := Forall2 keeps C C'.
Lemma keeps_proper C C' : keeps_all C C' -> forall ns, proper C ns -> proper C' ns /\ forall x, rval x C' ns = rval x C ns.
Proof.
  induction 1 as [|col col' C C' K H IH]; intros ns P; inversion P as [|n ? ns' ? Hn P' E1 E2]; subst; [split; [constructor|reflexivity]|]. destruct (IH ns' P') as [I1 I2]. destruct (lookup n col) as [e|] eqn:E; [|congruence]. split; [constructor; [rewrite (K n e E); discriminate|exact I1]|].
  intros x. unfold rval in *. cbn [combine map fst snd]. rewrite !prodR_cons, (K n e E), E, I2. reflexivity.
Qed.
Lemma keeps_refl C : keeps_all C C. Proof. induction C; constructor; [intros m e H; exact H|assumption]. Qed.
Lemma keeps_trans C C' C'' : keeps_all C C' -> keeps_all C' C'' -> keeps_all C C''.
Proof. intros H. revert C''. induction H as [|c c' C C' K H IH]; intros C'' H'; inversion H' as [|? c'' ? ? K' H'']; subst; constructor; [intros m e E; apply K', K, E|apply IH; assumption]. Qed.
Lemma vanishes_ok e x : vanishes sympy_zero e = true -> dom x e -> eval x e = 0.
Proof. intros H D. destruct e; try discriminate; cbn [vanishes] in H; apply andb_prop in H as [_ H]; apply sympy_sound; assumption. Qed.
Lemma rule_fill_step der n ns col C : rule_fill sympy_zero i der (n :: ns) (col :: C) =
  match step1 der n col, rule_fill sympy_zero i der ns C with Some (e, col), Some (v, cache') => Some (vanishes sympy_zero e || v, col :: cache') | _, _ => None end.
Proof. reflexivity. Qed.
Lemma rule_fill_ok C0 : cols_ok nv C0 -> Forall (Forall (fun t => dsimp_good (snd t))) C0 -> forall ns C, Forall2 colinv C0 C -> Forall2 reach ns C0 ->
  exists v C', ev (fun k => rule_fill sympy_zero i (dsimp k) ns C = Some (v, C')) /\ Forall2 colinv C0 C' /\ keeps_all C C' /\ proper C' ns /\ (v = true -> forall x, cdom x C0 -> rval x C' ns = 0).
Proof.
  intros K0 HD ns C HC HR. revert ns HR. induction HC as [|col0 col C0 C Hcol HC IH]; intros ns HR; inversion HR as [|n ? ns' ? Hn HR' E1 E2]; subst.
  { exists false, []. split; [apply ev_now; reflexivity|]. split; [constructor|]. split; [constructor|]. split; [constructor|discriminate]. }
  apply Forall_cons_iff in K0 as [[K1 _] K0], HD as [HD1 HD]. destruct (IH K0 HD ns' HR') as (v & C' & E & I1 & I2 & I3 & I4). destruct (step1_ok col0 col n K1 Hcol HD1 Hn) as (e & col' & Ee & J1 & J2 & J3).
  exists (vanishes sympy_zero e || v), (col' :: C'). split; [eapply ev_imp; [|apply (ev_and _ _ Ee E)]; cbv beta; intros k [H1 H2]; rewrite rule_fill_step, H1, H2; reflexivity|].
  split; [constructor; assumption|]. split; [constructor; assumption|]. split; [constructor; [rewrite J3; discriminate|exact I3]|]. intros Hv x D. apply Forall_cons_iff in D as [D1 D]. unfold rval in *. cbn [combine map fst snd]. rewrite prodR_cons, J3.
  apply orb_prop in Hv as [Hv|Hv]; [|rewrite (I4 Hv x D); ring]. rewrite (vanishes_ok e x Hv); [ring|]. destruct J1 as (_ & _ & _ & J4). specialize (J4 x D1). rewrite Forall_forall in J4. apply (J4 _ (lookup_In _ _ _ J3)).
Qed.
Lemma rule_fill_all_ok C0 : cols_ok nv C0 -> Forall (Forall (fun t => dsimp_good (snd t))) C0 -> forall terms C, Forall2 colinv C0 C -> Forall (fun t => Forall2 reach (snd t) C0) terms ->
  exists terms' C', ev (fun k => rule_fill_all sympy_zero i (dsimp k) terms C = Some (terms', C')) /\ Forall2 colinv C0 C' /\ keeps_all C C' /\ Forall (fun t => proper C' (snd t)) terms' /\ map snd terms' = map snd terms /\ Forall (fun t => proper C' (snd t)) terms /\ (forall x, cdom x C0 -> rsum x C' terms' = rsum x C' terms).
Proof.
  intros K0 HD terms. induction terms as [|[c ns] terms IH]; intros C HC HT. { exists [], C. split; [apply ev_now; reflexivity|]. split; [exact HC|]. split; [apply keeps_refl|]. split; [constructor|]. split; [reflexivity|]. split; [constructor|reflexivity]. }
  apply Forall_cons_iff in HT as [HT1 HT]. cbn [snd] in HT1. destruct (rule_fill_ok C0 K0 HD ns C HC HT1) as (v & C1 & E1 & A1 & A2 & A3 & A4). destruct (IH C1 A1 HT) as (terms' & C2 & E2 & B1 & B2 & B3 & B4 & B5 & B6).
  destruct (keeps_proper C1 C2 B2 ns A3) as [P1 P2]. exists ((if v then 0%Z else c, ns) :: terms'), C2. split; [eapply ev_imp; [|apply (ev_and _ _ E1 E2)]; cbv beta; intros k [H1 H2]; cbn [rule_fill_all]; rewrite H1, H2; reflexivity|].
  split; [exact B1|]. split; [apply (keeps_trans _ C1); assumption|]. split; [constructor; assumption|]. split; [cbn [map snd]; congruence|]. split; [constructor; assumption|]. intros x D. rewrite !rsum_cons, (B6 x D). cbn [fst snd]. f_equal. destruct v; [|reflexivity]. rewrite P2, (A4 eq_refl x D). ring.
Qed.
(** the product rule for one term *)
Lemma raise_len j ns : length (raise i j ns) = length ns. Proof. revert j. induction ns as [|n ns IH]; intros [|j]; cbn [raise length]; [reflexivity|reflexivity|reflexivity|]. rewrite IH. reflexivity. Qed.
Lemma rule_pd x C0 Cf : Forall2 colinv C0 Cf -> cdom x C0 -> forall ns, proper C0 ns -> Forall (fun j => proper Cf (raise i j ns)) (seq 0 (length C0)) ->
  pd i (fun y => rval y C0 ns) x (sumR (map (fun j => rval x Cf (raise i j ns)) (seq 0 (length C0)))).
Proof.
  intros HC. induction HC as [|col0 col C0 Cf Hcol HC IH]; intros D ns P HJ; inversion P as [|n ? ns' ? Hn P' E1 E2]; subst; [apply (pd_const i 1)|].
  apply Forall_cons_iff in D as [D1 D]. cbn [length seq] in HJ |- *. rewrite <- seq_shift in HJ |- *. apply Forall_cons_iff in HJ as [HJ0 HJ]. rewrite Forall_map in HJ. cbn [raise] in HJ0, HJ.
  assert (HJ' : Forall (fun j => proper Cf (raise i j ns')) (seq 0 (length C0))) by (eapply Forall_impl; [|exact HJ]; cbv beta; intros j Hj; inversion Hj; assumption). specialize (IH D ns' P' HJ').
  destruct (lookup n col0) as [e|] eqn:E; [|congruence]. destruct Hcol as ((extra & Hx) & (f & Hf & F) & _ & Dc). assert (E' : lookup n col = Some e) by (rewrite Hx, lookup_app, E; reflexivity).
  inversion HJ0 as [|? ? ? ? HU HP']; subst. change (setk i (getk i n + 1) n) with (up n) in *. destruct (lookup (up n) (col0 ++ extra)) as [e1|] eqn:E1; [|congruence]. clear HU.
  set (col := col0 ++ extra) in *. rewrite Forall_forall in F. destruct (F _ (lookup_In _ _ _ E')) as [M1 _]. destruct (F _ (lookup_In _ _ _ E1)) as [M2 _]. cbn [fst snd] in *. destruct (all_good f) as [Of Sf].
  assert (Df : dom x f). { specialize (Dc x D1). rewrite Forall_forall in Dc. apply (Dc _ (lookup_In _ _ _ Hf)). }
  pose proof (mixed_deriv _ _ Of Sf nv i n _ _ Hi M1 M2 x Df) as Pe. pose proof (pd_mult i _ _ x _ _ Pe IH) as Q.
  assert (K0 : rval x Cf ns' = rval x C0 ns'). { apply keeps_proper; [|exact P']. clear - HC. induction HC as [|a b C0 Cf H HC IH]; constructor; [|exact IH]. destruct H as ((extra & ->) & _). intros m e He. rewrite lookup_app, He. reflexivity. }
  eapply pd_eq; [eapply pd_fun; [exact Q|]|].
  - intros y. unfold rval. cbn [combine map fst snd]. rewrite prodR_cons, E. reflexivity.
  - cbn [map]. rewrite sumR_cons, map_map. f_equal.
    + cbn [raise]. fold (up n). unfold rval in *. cbn [combine map fst snd]. rewrite prodR_cons, E1, K0. reflexivity.
    + cbn [raise]. rewrite <- sumR_scal, map_map. f_equal. apply map_ext. intros j. unfold rval. cbn [combine map fst snd]. rewrite prodR_cons, E'. reflexivity.
Qed.
Lemma cols_inv C0 C : cols_ok nv C0 -> Forall2 colinv C0 C -> cols_ok nv C. Proof. intros _ H. induction H as [|a b C0 C (_ & H1 & H2 & _) H IH]; constructor; auto. Qed.
Lemma inv_refl C0 : cols_ok nv C0 -> Forall2 colinv C0 C0.
Proof. induction 1 as [|col C0 [H1 H2] H IH]; constructor; [|exact IH]. split; [exists []; rewrite app_nil_r; reflexivity|]. auto. Qed.
Lemma inv_dom x C0 C : Forall2 colinv C0 C -> cdom x C0 -> cdom x C. Proof. induction 1 as [|a b C0 C (_ & _ & _ & H) F IH]; intros D; [constructor|]. apply Forall_cons_iff in D as [D1 D]. constructor; auto. apply IH, D. Qed.
Lemma reach_raise C0 ns : cols_ok nv C0 -> proper C0 ns -> forall j, Forall2 reach (raise i j ns) C0.
Proof.
  intros _ P. induction P as [|n col ns C0 Hn P IH]; intros [|j]; cbn [raise]; [constructor|constructor| |].
  - constructor; [right; exists n; split; [exact Hn|reflexivity]|]. clear - P. induction P; constructor; [left; assumption|assumption].
  - constructor; [left; exact Hn|apply IH].
Qed.
Lemma rsum_flat x C terms js : rsum x C (flat_map (fun j => map (fun t => (fst t, raise i j (snd t))) terms) js) = sumR (map (fun t => IZR (fst t) * sumR (map (fun j => rval x C (raise i j (snd t))) js)) terms).
Proof.
  induction js as [|j js IH]; cbn [flat_map].
  - unfold rsum. cbn [map]. induction terms as [|t terms IH']; [reflexivity|]. cbn [map]. rewrite sumR_cons, <- IH'. cbn. ring.
  - assert (A : forall a b, rsum x C (a ++ b) = rsum x C a + rsum x C b) by (intros a b; unfold rsum; rewrite map_app; apply sumR_app). rewrite A, IH. clear. induction terms as [|t terms IH]; [cbn; ring|]. cbn [map] in IH |- *. rewrite rsum_cons, !sumR_cons, <- IH. cbn [fst snd]. ring.
Qed.
Lemma rule_derive_ok terms cache : wf (Rule terms cache) -> Forall (Forall (fun t => dsimp_good (snd t))) cache ->
  exists e', ev (fun k => rule_derive sympy_zero i (dsimp k) terms cache = Some e') /\ derres (Rule terms cache) e'.
Proof.
  intros W HD. apply wf_rule in W as (Nc & Nt & Pt & Cc). unfold rule_derive. set (T := flat_map (fun j => map (fun t => (fst t, raise i j (snd t))) terms) (seq 0 (length cache))).
  assert (RT : Forall (fun t => Forall2 reach (snd t) cache) T). { apply Forall_flat_map, Forall_forall. intros j _. apply Forall_map. eapply Forall_impl; [|exact Pt]. cbv beta. intros t Ht. cbn [snd]. apply reach_raise; assumption. }
  destruct (rule_fill_all_ok cache Cc HD T cache (inv_refl cache Cc) RT) as (T' & C' & E & I1 & I2 & I3 & I4 & I5 & I6).
  exists (Rule T' C'). split; [eapply ev_imp; [|exact E]; cbv beta; intros k ->; reflexivity|].
  assert (NT : T <> []). { unfold T. destruct cache as [|col cache]; [congruence|]. cbn [length seq flat_map]. destruct terms; [congruence|discriminate]. }
  split.
  - apply wf_rule. split; [destruct I1; [congruence|discriminate]|]. split; [intros ->; destruct T; [congruence|discriminate]|]. split; [exact I3|apply (cols_inv cache); assumption].
  - intros x D. rewrite !dom_rule in *. split; [apply (inv_dom x cache); assumption|]. rewrite eval_rule, (I6 x D). unfold T. rewrite rsum_flat.
    apply (pd_fun i (fun y => sumR (map (fun G => G y) (map (fun t y => IZR (fst t) * rval y cache (snd t)) terms)))); [|intros y; rewrite eval_rule, map_map; reflexivity].
    apply pd_sum. clear E I3 I4 I6 NT RT Nt. assert (HJ : Forall (fun j => Forall (fun t => proper C' (raise i j (snd t))) terms) (seq 0 (length cache))). { unfold T in I5. apply Forall_flat_map in I5. eapply Forall_impl; [|exact I5]. cbv beta. intros j Hj. rewrite Forall_map in Hj. exact Hj. }
    clear I5 T T'. induction terms as [|t terms IH]; [constructor|]. apply Forall_cons_iff in Pt as [Pt1 Pt]. cbn [map]. constructor; [|apply IH; [exact Pt|]; eapply Forall_impl; [|exact HJ]; cbv beta; intros j Hj; inversion Hj; assumption].
    eapply pd_eq; [apply (pd_mult i (fun _ => IZR (fst t)) (fun y => rval y cache (snd t)) x 0); [apply pd_const|apply (rule_pd x cache C' I1 D); [exact Pt1|eapply Forall_impl; [|exact HJ]; cbv beta; intros j Hj; inversion Hj; assumption]]|ring].
Qed.

(** ** the whole tree *)
Lemma derres_pol_zero p q : (forall x, tdom x p -> tdom x q /\ pd i (fun y => tval y p) x (tval x q)) -> all_coeffs 0 (coeffs_of (Pol q)) = true -> forall x, tdom x p -> pd i (fun y => tval y p) x 0.
Proof. intros H Z x D. eapply pd_eq; [apply H, D|]. apply all_coeffs0, Z. Qed.
Lemma prod2_ok a b : wf a -> wf b -> wf (Prod [a; b]) /\ (forall x, dom x a -> dom x b -> dom x (Prod [a; b])) /\ forall x, eval x (Prod [a; b]) = eval x a * eval x b.
Proof. intros A B. split; [split; [discriminate|cbn; auto]|]. split; [intros x; cbn; auto|]. intros x. cbn. ring. Qed.
Lemma prod3_ok a b c : wf a -> wf b -> wf c -> wf (Prod [a; b; c]) /\ (forall x, dom x a -> dom x b -> dom x c -> dom x (Prod [a; b; c])) /\ forall x, eval x (Prod [a; b; c]) = eval x a * (eval x b * eval x c).
Proof. intros A B C. split; [split; [discriminate|cbn; auto]|]. split; [intros x; cbn; auto|]. intros x. cbn. ring. Qed.
Theorem derive_ok e : wf e -> der_good e.
Proof.
  intros W. pose proof (ms_acc e) as A. revert W. induction A as [e _ IH]. intros W.
  assert (coeff : forall p, tok p -> fle (one (S (tdepth p))) (ms e) -> Forall (fun t => wf (fst t) -> der_good (fst t)) p).
  { intros p T L. assert (HD : (tdepth p <= tdepth p)%nat) by lia. apply tdepth_le in HD. eapply Forall_impl; [|exact HD]. cbv beta. intros t Ht Wt. apply IH; [|exact Wt]. apply (flt_fle_trans _ (one (S (tdepth p)))); [apply ms_below; lia|exact L]. }
  destruct e as [r|p|p a|p|l|l|terms cache|b a|a|a].
  - destruct W.
  - apply wf_pol in W as [N T]. destruct (pol_derive_ok p N T) as (q & E & Wq & V); [apply coeff; [exact T|left; intros k; symmetry; apply ms_pol]|].
    exists (Pol q). split; [eapply ev_S; [|exact E]; cbv beta; intros n Hn; exact Hn|]. split; [exact Wq|]. intros x D. rewrite dom_pol in *. destruct (V x D) as [V1 V2]. split; [exact V1|]. rewrite eval_pol. eapply pd_fun; [exact V2|]. intros y. symmetry. apply eval_pol.
  - pose proof W as W0. apply wf_epol in W as ([N T] & HB & G).
    assert (La : flt (ms a) (ms (EPol p a))) by (eapply flt_ext; [reflexivity|intros k; symmetry; apply ms_epol|]; apply (plus_gt_r (one (S (tdepth p))) (ms a)), one_pos).
    assert (Lp : fle (one (S (tdepth p))) (ms (EPol p a))) by (eapply fle_trans; [apply (plus_ge_l (one (S (tdepth p))) (ms a)), ms_ge0|left; intros k; symmetry; apply ms_epol]).
    destruct (pol_derive_ok p N T (coeff p T Lp)) as (q & Eq & Wq & Vq).
    assert (DA : exists da, ev (fun n => (if is_num a then Some None else match derive n a with Some a' => Some (Some a') | None => None end) = Some da) /\
       match da with None => is_num a = true | Some d => is_num a = false /\ derres a d end).
    { destruct (is_num a) eqn:Na; [exists None; split; [apply ev_now; reflexivity|reflexivity]|]. destruct (IH a La (good_not_num nv a G Na)) as (d & Ed & Rd). exists (Some d). split; [eapply ev_imp; [|exact Ed]; cbv beta; intros n ->; reflexivity|split; [reflexivity|exact Rd]]. }
    destruct DA as (da & Ea & Ra). destruct (minus_one_ok nv a G) as (G1 & M1 & M2 & M3).
    destruct (mul_ok nv a (Pol q) G (or_intror Wq)) as (_ & F1 & F2). specialize (F2 (or_intror eq_refl)).
    set (s1 := if all_coeffs 0 (coeffs_of (Pol q)) then None else if is_const 0 (minus_one nv a) then Some (mul nv a (Pol q)) else Some (Prod [EPol p (minus_one nv a); mul nv a (Pol q)])).
    assert (S1 : match s1 with None => forall x, tdom x p -> pd i (fun y => tval y p) x 0
                  | Some s => wf s /\ forall x, dom x (EPol p a) -> dom x s /\ exists dp, pd i (fun y => tval y p) x dp /\ eval x s = gpow (tval x p) (eval x a) * (eval x a * (/ tval x p * dp)) end).
    { unfold s1. destruct (all_coeffs 0 (coeffs_of (Pol q))) eqn:Z; [exact (derres_pol_zero p q Vq Z)|]. destruct (is_const 0 (minus_one nv a)) eqn:C.
      - split; [exact F2|]. intros x D. apply dom_epol in D as (D1 & D2 & D3). destruct (Vq x D1) as [V1 V2]. destruct (F1 x D3 (proj2 (dom_pol x q) V1)) as [X1 X2]. split; [exact X1|]. exists (tval x q). split; [exact V2|]. rewrite X2, eval_pol. apply is_const_spec in C. specialize (M1 x). rewrite C in M1. cbn [eval] in M1. replace (eval x a) with 1 by lra. rewrite gpow_1. field. apply (base_nz _ _ D2).
      - assert (We : wf (EPol p (minus_one nv a))). { apply wf_epol. split; [split; assumption|]. split; [|exact G1]. destruct HB as [HB|(x & Dx & Hx)]; [left; exact HB|right; exists x; split; [apply M2, Dx|]]. intros n C'. rewrite M1 in C'. apply (Hx (S n)). rewrite S_INR. lra. }
        destruct (prod2_ok _ _ We F2) as (P1 & P2 & P3). split; [exact P1|]. intros x D. apply dom_epol in D as (D1 & D2 & D3). destruct (Vq x D1) as [V1 V2]. destruct (F1 x D3 (proj2 (dom_pol x q) V1)) as [X1 X2].
        split; [apply P2; [apply dom_epol; split; [exact D1|]; split; [|apply M2, D3]; destruct D2 as [D2|[D2 [z ->]]]; [left; exact D2|right; split; [exact D2|exists (z - 1)%Z; cbn [minus_one]; rewrite minus_IZR; reflexivity]]|exact X1]|]. exists (tval x q). split; [exact V2|]. rewrite P3, X2, eval_epol, M1, eval_pol. rewrite (gpow_minus_one _ a) by (try exact D2; intros z ->; reflexivity). ring. }
    assert (PB : forall x dp d, dom x (EPol p a) -> pd i (fun y => tval y p) x dp -> pd i (fun y => eval y a) x d -> pd i (fun y => eval y (EPol p a)) x (gpow (tval x p) (eval x a) * (d * ln (tval x p) + eval x a * (/ tval x p * dp)))).
    { intros x dp d D H1 H2. apply dom_epol in D as (D1 & D2 & D3). destruct D2 as [D2|[D2 [z ->]]].
      - apply (pd_ext (fun y => dom y (EPol p a) /\ 0 < eval y (Pol p)) i (fun y => Rpower (tval y p) (eval y a))); [apply opens_pos; [apply (proj1 (all_good (EPol p a)))|]| | |].
        + intros y Dy. destruct (proj2 (all_good (Pol p)) 0%nat) as [Q _]. apply Q, dom_pol. apply dom_epol in Dy. apply Dy.
        + split; [apply dom_epol; split; [exact D1|split; [left; exact D2|exact D3]]|rewrite eval_pol; exact D2].
        + intros y [_ Hy]. rewrite eval_pol in Hy. rewrite eval_epol. symmetry. apply gpow_pos, Hy.
        + rewrite gpow_pos by exact D2. apply (pd_Rpower i (fun y => tval y p) (fun y => eval y a) x dp d D2 H1 H2).
      - rewrite (pd_unique i _ x _ _ H2 (pd_const i (IZR z) x)). change (eval x (Num (IZR z))) with (IZR z). rewrite Rmult_0_l, Rplus_0_l, gpow_int. eapply pd_fun; [apply (pd_gpow_int i (fun y => tval y p) z x dp D2 H1)|]. intros y. rewrite eval_epol. symmetry. apply gpow_int. }
    assert (WL : wf (LPol p)) by (apply wf_lpol; split; assumption).
    set (r := match da, s1 with None, None => cst nv 0 | None, Some s => s | Some d, None => Prod [EPol p a; d; LPol p] | Some d, Some s => Sum [Prod [EPol p a; d; LPol p]; s] end).
    exists r. split.
    { eapply ev_S; [|apply (ev_and _ _ Eq Ea)]. cbv beta. intros n [H1 H2]. cbn [ExprModel.derive der_step]. rewrite H1, H2. cbv zeta. fold s1. unfold r. destruct da; destruct s1; reflexivity. }
    assert (PN : is_num a = true -> forall x, pd i (fun y => eval y a) x 0) by (intros Hn x; destruct a; try discriminate; apply (pd_const i r0)).
    clear Eq Ea. unfold r. destruct da as [d|]; [destruct Ra as [Na0 [Wd Vd]]; destruct (prod3_ok _ _ _ W0 Wd WL) as (P1 & P2 & P3)|].
    + destruct s1 as [s|].
      * destruct S1 as [Ws Vs]. split; [split; [discriminate|]; cbn [allP fold_right]; auto|]. intros x D. destruct (Vs x D) as (Y1 & dp & Y2 & Y3). pose proof D as D0. apply dom_epol in D0 as (D1 & D2 & D3). assert (D2' : 0 < tval x p) by (apply (base_not_num _ _ D2), Na0). destruct (Vd x D3) as [Z1 Z2]. split; [pose proof (P2 x D Z1 (proj2 (dom_lpol x p) (conj D1 D2'))); cbn [dom allP fold_right] in *; tauto|].
        eapply pd_eq; [apply (PB x dp (eval x d) D Y2 Z2)|]. change (eval x (Sum [Prod [EPol p a; d; LPol p]; s])) with (eval x (Prod [EPol p a; d; LPol p]) + (eval x s + 0)). rewrite P3, Y3, eval_epol, eval_lpol. ring.
      * split; [exact P1|]. intros x D. pose proof D as D0. apply dom_epol in D0 as (D1 & D2 & D3). assert (D2' : 0 < tval x p) by (apply (base_not_num _ _ D2), Na0). destruct (Vd x D3) as [Z1 Z2]. split; [apply P2; [exact D|exact Z1|apply dom_lpol; auto]|]. eapply pd_eq; [apply (PB x 0 (eval x d) D (S1 x D1) Z2)|]. rewrite P3, eval_epol, eval_lpol. ring.
    + destruct s1 as [s|].
      * destruct S1 as [Ws Vs]. split; [exact Ws|]. intros x D. destruct (Vs x D) as (Y1 & dp & Y2 & Y3). split; [exact Y1|]. eapply pd_eq; [apply (PB x dp 0 D Y2 (PN Ra x))|]. rewrite Y3. ring.
      * split; [apply wf_cst|]. intros x D. split; [apply dom_cst|]. pose proof D as D0. apply dom_epol in D0 as (D1 & D2 & D3). eapply pd_eq; [apply (PB x 0 0 D (S1 x D1) (PN Ra x))|]. rewrite eval_cst. ring.
  - apply wf_lpol in W as [N T]. destruct (pol_derive_ok p N T) as (q & Eq & Wq & Vq); [apply coeff; [exact T|left; intros k; symmetry; apply ms_lpol]|].
    assert (PL : forall x dp, dom x (LPol p) -> pd i (fun y => tval y p) x dp -> pd i (fun y => eval y (LPol p)) x (/ tval x p * dp)).
    { intros x dp D H. apply dom_lpol in D as [D1 D2]. eapply pd_fun; [apply (pd_comp i ln (fun y => tval y p)); [exact H|apply derivable_pt_lim_ln, D2]|]. intros y. symmetry. apply eval_lpol. }
    destruct (all_coeffs 0 (coeffs_of (Pol q))) eqn:Z.
    + exists (cst nv 0). split; [eapply ev_S; [|exact Eq]; cbv beta; intros n Hn; cbn [ExprModel.derive der_step]; rewrite Hn, Z; reflexivity|]. split; [apply wf_cst|]. intros x D. split; [apply dom_cst|]. pose proof D as D0. apply dom_lpol in D0 as [D1 D2]. eapply pd_eq; [apply PL; [exact D|apply (derres_pol_zero p q Vq Z x D1)]|]. rewrite eval_cst. ring.
    + assert (We : wf (EPol p (Num (-1)))). { apply wf_epol. split; [split; assumption|]. split; [right; exists (fun _ => 0); split; [exact I|]; intros n C; cbn [eval] in C; pose proof (pos_INR (S n)); lra|left; reflexivity]. }
      destruct (prod2_ok _ _ We Wq) as (P1 & P2 & P3). exists (Prod [EPol p (Num (-1)); Pol q]). split; [eapply ev_S; [|exact Eq]; cbv beta; intros n Hn; cbn [ExprModel.derive der_step]; rewrite Hn, Z; reflexivity|]. split; [exact P1|]. intros x D. pose proof D as D0. apply dom_lpol in D0 as [D1 D2]. destruct (Vq x D1) as [V1 V2].
      split; [apply P2; [apply dom_epol; split; [exact D1|split; [left; exact D2|exact I]]|apply dom_pol, V1]|]. eapply pd_eq; [apply PL; [exact D|exact V2]|]. rewrite P3, eval_epol, eval_pol. cbn [eval]. rewrite gpow_pos, Rpower_m1 by exact D2. reflexivity.
  - destruct W as [N W]. rewrite allP_Forall in W. destruct (ev_all derive derres l) as (l' & E & F). { apply Forall_forall. intros e He. rewrite Forall_forall in W. apply (IH e (ms_sum_in e l He) (W e He)). }
    exists (Sum l'). split; [eapply ev_S; [|exact E]; cbv beta; intros n Hn; cbn [ExprModel.derive der_step]; rewrite Hn; reflexivity|]. split; [split; [destruct F; [congruence|discriminate]|]; apply allP_Forall; eapply Forall2_right; [|exact F]; intros u v [H _]; exact H|].
    intros x D. cbn [dom] in *. rewrite allP_Forall in *. clear E N W. induction F as [|u v l l' [Wv Hv] F IHF]; [split; [constructor|apply (pd_const i 0)]|]. apply Forall_cons_iff in D as [D1 D]. destruct IHF as [J1 J2]; [|intros p T L; apply coeff; [exact T|]; eapply fle_trans; [exact L|]; exact (fle_plus _ _ _ _ (fle_refl (one 0)) (plus_ge_r (ms u) (msl l) (ms_ge0 u)))|exact D|].
    { intros e He We. apply IH; [|exact We]. apply (flt_fle_trans _ _ _ He). exact (fle_plus _ _ _ _ (fle_refl (one 0)) (plus_ge_r (ms u) (msl l) (ms_ge0 u))). }
    destruct (Hv x D1) as [K1 K2]. split; [constructor; assumption|]. exact (pd_plus i _ _ x _ _ K2 J2).
  - destruct W as [N W]. rewrite allP_Forall in W. destruct (ev_all simplify (res nv) l) as (l' & E & F). { apply Forall_forall. intros e He. rewrite Forall_forall in W. apply (simp_ok nv e (W e He)). }
    destruct (list_res nv l l' F) as (R1 & R2 & R3 & R4 & R5). specialize (R4 N). set (terms := [(1%Z, map (fun _ : expr => zeros nv) l')]). set (cache := map (fun e => [(zeros nv, e)]) l').
    assert (Wr : wf (Rule terms cache)).
    { apply wf_rule. split; [unfold cache; destruct l'; [congruence|discriminate]|]. split; [discriminate|]. split.
      - constructor; [|constructor]. cbn [snd]. unfold cache. clear. unfold proper. induction l' as [|e l' IHl]; cbn [map]; constructor; [cbn [lookup]; rewrite roweqb_refl; discriminate|exact IHl].
      - unfold cache. apply Forall_map. eapply Forall_impl; [|exact R1]. cbv beta. intros e We. split; [|constructor; [exact We|constructor]]. exists e. split; [cbn [lookup]; rewrite roweqb_refl; reflexivity|]. constructor; [|constructor]. cbn [fst snd]. split; [|auto]. apply mixed_zero. }
    assert (HD : Forall (Forall (fun t => dsimp_good (snd t))) cache).
    { unfold cache. apply Forall_map. rewrite Forall_forall in R1 |- *. intros e He. constructor; [|constructor]. cbn [snd]. apply der_dsimp, IH; [|apply R1, He]. apply (flt_fle_trans _ (ms (Prod l'))); [apply ms_prod_in, He|]. exact (fle_plus _ _ _ _ (fle_refl (one 0)) R2). }
    destruct (rule_derive_ok terms cache Wr HD) as (e' & Ee & We & Ve). exists e'. split.
    { eapply ev_S; [|apply (ev_and _ _ E Ee)]. cbv beta. intros n [H1 H2]. cbn [ExprModel.derive der_step]. unfold rule_of. rewrite H1. exact H2. }
    split; [exact We|]. destruct (all_good (Prod l)) as [O _].
    assert (V : forall x, dom x (Prod l) -> dom x (Rule terms cache) /\ eval x (Rule terms cache) = eval x (Prod l)).
    { intros x D. cbn [dom] in D. rewrite allP_Forall in D. destruct (R3 x D) as (D1 & _ & V1). split; [apply dom_rule; unfold cache, cdom; apply Forall_map; eapply Forall_impl; [|exact D1]; intros e He; constructor; [exact He|constructor]|].
      rewrite eval_rule. unfold terms, rsum. cbn [map fst snd]. rewrite sumR_cons. change (sumR []) with 0. change (eval x (Prod l)) with (lprod x l). rewrite <- V1. unfold rval, cache, lprod. rewrite Rmult_1_l, Rplus_0_r. f_equal. clear. induction l' as [|e l' IHl]; [reflexivity|]. cbn [map combine fst snd lookup]. rewrite roweqb_refl. f_equal. exact IHl. }
    intros x D. destruct (V x D) as [V1 V2]. destruct (Ve x V1) as [Y1 Y2]. split; [exact Y1|]. apply (pd_ext (fun y => dom y (Prod l)) i (fun y => eval y (Rule terms cache))); [exact O|exact D|intros y Hy; apply V, Hy|exact Y2].
  - destruct (rule_derive_ok terms cache W) as (e' & Ee & We & Ve).
    { apply Forall_forall. intros col Hcol. apply Forall_forall. intros [n e] Hin. cbn [snd]. apply der_dsimp, IH; [apply (ms_rule_in terms cache col n e Hcol Hin)|]. apply wf_rule in W as (_ & _ & _ & Cc). unfold cols_ok in Cc. rewrite Forall_forall in Cc. destruct (Cc col Hcol) as [_ C]. rewrite Forall_forall in C. apply (C _ Hin). }
    exists e'. split; [eapply ev_S; [|exact Ee]; cbv beta; intros n Hn; exact Hn|]. split; assumption.
  - pose proof W as W0. destruct W as [Wb Wa].
    assert (Lb : flt (ms b) (ms (Pow b a))). { apply (fle_flt_trans _ (fun k => (ms b k + ms a k)%nat)); [apply (plus_ge_l (ms b) (ms a)), ms_ge0|]. exact (plus_gt_r (one 0) (fun k => (ms b k + ms a k)%nat) (one_pos 0)). }
    assert (La : flt (ms a) (ms (Pow b a))). { apply (fle_flt_trans _ (fun k => (ms b k + ms a k)%nat)); [apply (plus_ge_r (ms b) (ms a)), ms_ge0|]. exact (plus_gt_r (one 0) (fun k => (ms b k + ms a k)%nat) (one_pos 0)). }
    destruct (IH b Lb Wb) as (db & Eb & Wdb & Vb). destruct (IH a La Wa) as (da & Ea & Wda & Va). destruct (minus_one_ok nv a (or_intror Wa)) as (G1 & M1 & M2 & M3). specialize (M3 (wf_not_num nv a Wa)).
    destruct (mul_ok nv a db (or_intror Wa) (or_intror Wdb)) as (_ & F1 & F2). specialize (F2 (or_intror (wf_not_num nv db Wdb))).
    assert (C : is_const 0 (minus_one nv a) = false) by (pose proof (wf_not_num nv _ M3) as Hn; destruct (minus_one nv a); try reflexivity; discriminate).
    destruct (prod3_ok (Pow b a) da (Log b) W0 Wda Wb) as (P1 & P2 & P3). destruct (prod2_ok (Pow b (minus_one nv a)) (mul nv a db) (conj Wb M3) F2) as (Q1 & Q2 & Q3).
    exists (Sum [Prod [Pow b a; da; Log b]; Prod [Pow b (minus_one nv a); mul nv a db]]). split; [eapply ev_S; [|apply (ev_and _ _ Eb Ea)]; cbv beta; intros n [H1 H2]; cbn [ExprModel.derive der_step]; rewrite H1, H2; cbv zeta; rewrite C; reflexivity|].
    split; [split; [discriminate|]; cbn [allP fold_right]; auto|]. intros x D. pose proof D as (D1 & D2 & D3). destruct (Vb x D1) as [Y1 Y2]. destruct (Va x D3) as [Z1 Z2]. destruct (F1 x D3 Y1) as [X1 X2].
    split; [pose proof (P2 x D Z1 (conj D1 D2)); pose proof (Q2 x (conj D1 (conj D2 (M2 x D3))) X1); cbn [dom allP fold_right] in *; tauto|].
    eapply pd_eq; [apply (pd_Rpower i (fun y => eval y b) (fun y => eval y a) x _ _ D2 Y2 Z2)|]. match goal with |- _ = eval x (Sum [?u; ?v]) => change (eval x (Sum [u; v])) with (eval x u + (eval x v + 0)) end. rewrite P3, Q3, X2. cbn [eval]. rewrite M1, Rpower_minus_one by exact D2. ring.
  - assert (La : flt (ms a) (ms (Log a))) by exact (plus_gt_r (one 0) (ms a) (one_pos 0)). destruct (IH a La W) as (da & Ea & Wda & Va).
    destruct (prod2_ok (Pow a (cst nv (-1))) da (conj W (wf_cst nv (-1))) Wda) as (Q1 & Q2 & Q3). exists (Prod [Pow a (cst nv (-1)); da]). split; [eapply ev_S; [|exact Ea]; cbv beta; intros n Hn; cbn [ExprModel.derive der_step]; rewrite Hn; reflexivity|]. split; [exact Q1|].
    intros x [D1 D2]. destruct (Va x D1) as [Y1 Y2]. split; [apply Q2; [split; [exact D1|split; [exact D2|apply dom_cst]]|exact Y1]|]. eapply pd_eq; [apply (pd_comp i ln (fun y => eval y a)); [exact Y2|apply derivable_pt_lim_ln, D2]|]. rewrite Q3. f_equal.
    change (eval x (Pow a (cst nv (-1)))) with (Rpower (eval x a) (eval x (cst nv (-1)))). rewrite eval_cst, Rpower_m1 by exact D2. reflexivity.
  - assert (La : flt (ms a) (ms (Exp a))) by exact (plus_gt_r (one 0) (ms a) (one_pos 0)). destruct (IH a La W) as (da & Ea & Wda & Va).
    destruct (prod2_ok (Exp a) da W Wda) as (Q1 & Q2 & Q3). exists (Prod [Exp a; da]). split; [eapply ev_S; [|exact Ea]; cbv beta; intros n Hn; cbn [ExprModel.derive der_step]; rewrite Hn; reflexivity|]. split; [exact Q1|].
    intros x D. destruct (Va x D) as [Y1 Y2]. split; [apply Q2; assumption|]. eapply pd_eq; [apply (pd_comp i exp (fun y => eval y a)); [exact Y2|apply derivable_pt_lim_exp]|]. rewrite Q3. reflexivity.
Qed.
End Derive.
