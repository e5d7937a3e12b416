(** simplify terminates, keeps the value on the domain, and its results are well-formed. *)
From Coq Require Import Sorting.Sorted.
From Verif Require Import SortProofs ExprSpec ExprSmooth ExprArith ExprOrd.
Local Open Scope R_scope.

(** ** eventually, for large fuel *)
Definition ev (P : nat -> Prop) : Prop := exists n0, forall n, (n0 <= n)%nat -> P n.
Lemma ev_and (P Q : nat -> Prop) : ev P -> ev Q -> ev (fun n => P n /\ Q n).
Proof. intros [a A] [b B]. exists (Nat.max a b). intros n Hn. split; [apply A|apply B]; lia. Qed.
Lemma ev_imp (P Q : nat -> Prop) : (forall n, P n -> Q n) -> ev P -> ev Q. Proof. intros H [a A]. exists a. auto. Qed.
Lemma ev_now (P : nat -> Prop) : (forall n, P n) -> ev P. Proof. exists 0%nat. auto. Qed.
Lemma ev_S (P Q : nat -> Prop) : (forall n, P n -> Q (S n)) -> ev P -> ev Q. Proof. intros H [a A]. exists (S a). intros [|n] Hn; [lia|]. apply H, A. lia. Qed.
Lemma Forall2_len {A B} (P : A -> B -> Prop) l m : Forall2 P l m -> length l = length m. Proof. induction 1; cbn; congruence. Qed.
Lemma Forall2_imp {A B} (P Q : A -> B -> Prop) l m : (forall a b, P a b -> Q a b) -> Forall2 P l m -> Forall2 Q l m. Proof. intros H. induction 1; constructor; auto. Qed.
Lemma Forall2_right {A B} (P : A -> B -> Prop) (Q : B -> Prop) l m : (forall a b, P a b -> Q b) -> Forall2 P l m -> Forall Q m. Proof. intros H. induction 1; constructor; eauto. Qed.
Lemma option_all_cons {A} (a : option A) l x s : a = Some x -> option_all l = Some s -> option_all (a :: l) = Some (x :: s). Proof. intros -> H. cbn. rewrite H. reflexivity. Qed.
(** mapping a partial function over a list *)
Lemma ev_all {A B} (f : nat -> A -> option B) (P : A -> B -> Prop) l :
  Forall (fun a => exists b, ev (fun n => f n a = Some b) /\ P a b) l -> exists m, ev (fun n => option_all (map (f n) l) = Some m) /\ Forall2 P l m.
Proof.
  induction 1 as [|a l (b & E & Pb) H (m & Em & Pm)]; [exists []; split; [apply ev_now; reflexivity|constructor]|]. exists (b :: m). split; [|constructor; assumption].
  eapply ev_imp; [|apply (ev_and _ _ E Em)]. cbv beta. intros n [H1 H2]. cbn [map]. apply option_all_cons; assumption.
Qed.

Section Nv.
Variable nv : nat.
Notation wf := (wf nv).
Notation tok := (tok nv).
Notation good := (good nv).
Notation simplify := (simplify nv).
Definition same (e e' : expr) : Prop := forall x, dom x e -> dom x e' /\ eval x e' = eval x e.
Definition res (e e' : expr) : Prop := wf e' /\ fle (ms e') (ms e) /\ same e e' /\ (forall p, e' = Pol p -> NoDup (map snd p)).
Definition simp_good (e : expr) : Prop := exists e', ev (fun n => simplify n e = Some e') /\ res e e'.

(** ** polynomials *)
Lemma nodup_zero_rows (q : terms_t) : NoDup (map snd q) -> Forall (fun t => length (snd t) = nv) q -> all_rows_zero q = true -> q <> [] -> exists c k, q = [(c, k)] /\ zero_row k = true.
Proof.
  intros N L Z Hq. destruct q as [|[c k] [|[c' k'] q]]; [congruence|exists c, k; split; [reflexivity|]; cbn in Z; rewrite andb_true_r in Z; exact Z|exfalso].
  unfold all_rows_zero in Z. cbn [forallb snd] in Z. apply andb_prop in Z as [Z1 Z]. apply andb_prop in Z as [Z2 _]. apply zero_row_repeat in Z1, Z2. apply Forall_cons_iff in L as [L1 L]. apply Forall_cons_iff in L as [L2 _]. cbn [snd] in *.
  rewrite L1 in Z1. rewrite L2 in Z2. cbn [map snd] in N. inversion_clear N as [|? ? N1 _]. apply N1. left. congruence.
Qed.
Lemma unwrap_ok e : wf e -> good (unwrap e) /\ (depth (unwrap e) <= depth e)%nat /\ same e (unwrap e).
Proof.
  intros W. assert (T : good e /\ (depth e <= depth e)%nat /\ same e e) by (split; [right; exact W|split; [lia|intros x D; split; [exact D|reflexivity]]]).
  destruct e as [r|[|[c k] [|t p]]|p a|p|l|l|terms cache|b a|a|a]; try exact T. cbn [unwrap]. destruct (zero_row k) eqn:Z; [|exact T].
  apply wf_pol in W as [_ W]. apply Forall_cons_iff in W as [[L G] _]. cbn [fst snd] in *. split; [exact G|]. split; [rewrite depth_pol; cbn; lia|]. intros x D. apply dom_pol in D. apply Forall_cons_iff in D as [[D _] _]. split; [exact D|]. rewrite eval_pol. unfold tval. cbn [map fst snd sumR fold_right]. rewrite (zero_row_mono x k Z). ring.
Qed.
Lemma deep_ok p : tok p -> Forall (fun t => wf (fst t) -> simp_good (fst t)) p ->
  exists q, ev (fun n => deep (simplify n) p = Some q) /\ tok q /\ (tdepth q <= tdepth p)%nat /\ map snd q = map snd p /\ forall x, tdom x p -> tdom x q /\ tval x q = tval x p.
Proof.
  intros T H. unfold deep.
  destruct (ev_all (fun n (t : expr * list Z) => if is_num (fst t) then Some t else match simplify n (fst t) with Some c => Some (unwrap c, snd t) | None => None end)
     (fun t u => snd u = snd t /\ good (fst u) /\ (depth (fst u) <= depth (fst t))%nat /\ same (fst t) (fst u)) p) as (q & E & F).
  - eapply Forall_impl; [|apply (Forall_and' _ _ _ T H)]. cbv beta. intros [c k] [[_ G] I]. cbn [fst snd] in *. destruct (is_num c) eqn:N.
    { exists (c, k). split; [apply ev_now; reflexivity|]. split; [reflexivity|]. split; [exact G|]. split; [cbn; lia|]. intros x D. split; [exact D|reflexivity]. }
    destruct (I (good_not_num nv c G N)) as (c' & E & W & L & S & _). exists (unwrap c', k). split; [eapply ev_imp; [|exact E]; cbv beta; intros n ->; reflexivity|]. destruct (unwrap_ok c' W) as (U1 & U2 & U3). cbn [fst snd].
    split; [reflexivity|]. split; [exact U1|]. split; [pose proof (fle_depth nv c c' W L); lia|]. intros x D. destruct (S x D) as [D1 E1]. destruct (U3 x D1) as [D2 E2]. split; [exact D2|congruence].
  - exists q. split; [exact E|]. clear E H. induction F as [|t u p q (F1 & F2 & F3 & F4) F IH]; [repeat split; auto|]. apply Forall_cons_iff in T as [[T1 T2] T]. destruct (IH T) as (I1 & I2 & I3 & I4).
    split; [constructor; [split; [congruence|exact F2]|exact I1]|]. split; [unfold tdepth in *; cbn [map max_list fold_right]; fold (max_list (map (fun t => depth (fst t)) q)) (max_list (map (fun t => depth (fst t)) p)); lia|]. split; [cbn [map]; congruence|].
    intros x D. apply Forall_cons_iff in D as [[D1 D2] D]. destruct (I4 x D) as [J1 J2]. destruct (F4 x D1) as [J3 J4]. split; [constructor; [rewrite F1; auto|exact J1]|]. rewrite !tval_cons, J2, J4, F1. reflexivity.
Qed.
Lemma pol_simplify_ok p : tok p -> Forall (fun t => wf (fst t) -> simp_good (fst t)) p ->
  exists q, ev (fun n => pol_simplify nv (simplify n) p = Some q) /\ tok q /\ q <> [] /\ (tdepth q <= tdepth p)%nat /\ NoDup (map snd q) /\ forall x, tdom x p -> tdom x q /\ tval x q = tval x p.
Proof.
  intros T H. pose proof (sort_by_perm (@snd expr (list Z)) p) as P. assert (HP : forall (K : expr * list Z -> Prop), Forall K p -> Forall K (sort_by snd p)) by (intros K; apply Permutation_Forall, Permutation_sym, P).
  destruct (deep_ok (sort_by snd p) (HP _ T) (HP _ H)) as (q & E & Tq & Dq & Rq & Vq).
  assert (SS : StronglySorted lexle (map snd q)). { rewrite Rq. pose proof (sort_by_sorted (@snd expr (list Z)) p) as SS. clear - SS. induction SS as [|t l SS IH F]; cbn [map]; constructor; [exact IH|]. apply Forall_map, F. }
  destruct (add_merged nv q Tq SS) as (I1 & I2 & I3 & I4 & I5 & I6). exists (merged nv (add nv) q). split; [eapply ev_imp; [|exact E]; cbv beta; intros n Hn; unfold pol_simplify; rewrite Hn; reflexivity|].
  assert (DP : (tdepth (sort_by snd p) <= tdepth p)%nat) by (apply tdepth_le, HP, tdepth_le; lia).
  split; [exact I1|]. split; [exact I5|]. split; [lia|]. split; [exact I6|]. intros x D. destruct (Vq x (HP _ D)) as [V1 V2]. split; [apply I4, V1|]. rewrite I3, V2. apply tval_perm, P.
Qed.
Lemma all_coeffs_val r p x : all_coeffs r p = true -> tval x p = r * sumR (map (fun t => mono x 0 (snd t)) p).
Proof.
  induction p as [|t p IH]; [intros _; unfold tval; cbn; ring|]. unfold all_coeffs. cbn [forallb]. intros H. apply andb_prop in H as [H1 H2]. apply is_const_spec in H1. rewrite tval_cons, (IH H2), H1. cbn [map eval]. rewrite sumR_cons. ring.
Qed.
Lemma all_coeffs0 p x : all_coeffs 0 p = true -> tval x p = 0. Proof. intros H. rewrite (all_coeffs_val 0 p x H). ring. Qed.
Lemma single_val x c k : zero_row k = true -> tval x [(c, k)] = eval x c.
Proof. intros Z. unfold tval. cbn [map fst snd sumR fold_right]. rewrite (zero_row_mono x k Z). ring. Qed.
Lemma nodup1 {A} (a : A) : NoDup [a]. Proof. constructor; [intros []|constructor]. Qed.
Lemma nodup_cst r p : cst nv r = Pol p -> NoDup (map snd p). Proof. intros [= <-]. apply nodup1. Qed.
Lemma ms_cst r : forall k, ms (cst nv r) k = one 1 k. Proof. intros k. apply (ms_pol [(Num r, zeros nv)]). Qed.
Lemma cst_le r e : wf e -> fle (ms (cst nv r)) (ms e). Proof. intros W. apply (fle_trans _ (one 1)); [left; apply ms_cst|apply (one1_le nv e W)]. Qed.

(** ** ExponentiatedPolynomial *)
Lemma exponent_const_ok a : wf a -> (forall p, a = Pol p -> NoDup (map snd p)) -> good (exponent_const a) /\ fle (ms (exponent_const a)) (ms a) /\ same a (exponent_const a).
Proof.
  intros W N. assert (T : good a /\ fle (ms a) (ms a) /\ same a a) by (split; [right; exact W|split; [apply fle_refl|intros x D; split; [exact D|reflexivity]]]).
  destruct a as [r|[|[c k] p]|p a|p|l|l|terms cache|b a|a|a]; try exact T. cbn [exponent_const]. destruct (all_rows_zero ((c, k) :: p)) eqn:Z; [|exact T].
  apply wf_pol in W as [_ W]. destruct (nodup_zero_rows _ (N _ eq_refl) (tok_len nv _ W) Z ltac:(discriminate)) as (c' & k' & E & Z'). injection E as <- <- ->.
  apply Forall_cons_iff in W as [[L G] _]. cbn [fst snd] in *. split; [exact G|]. split.
  - right. apply (flt_ext (ms c) _ (one (S (tdepth [(c, k)]))) _); [reflexivity|intros j; symmetry; apply ms_pol|]. apply ms_below. unfold tdepth. cbn. lia.
  - intros x D. apply dom_pol, Forall_cons_iff in D as [[D _] _]. split; [exact D|]. rewrite eval_pol. symmetry. apply single_val, Z'.
Qed.
Definition powdom (p : terms_t) (a : expr) (r : expr) : Prop := forall x, tdom x p -> base_ok (tval x p) a -> dom x a -> dom x r /\ eval x r = gpow (tval x p) (eval x a).
Lemma Rpower_1_base a : gpow 1 a = 1. Proof. rewrite gpow_pos by lra. unfold Rpower. rewrite ln_1, Rmult_0_r. apply exp_0. Qed.
Lemma gpow_0 b : gpow b 0 = 1. Proof. rewrite (gpow_int b 0). reflexivity. Qed.
Lemma gpow_1 b : gpow b 1 = b. Proof. rewrite (gpow_int b 1). apply powerRZ_1. Qed.
Lemma exponentiated_ok p a : p <> [] -> tok p -> (NoDup (map snd p) \/ fractional a) -> good a ->
  Forall (fun t => wf (fst t) -> simp_good (fst t)) p -> (wf a -> simp_good a) ->
  exists r, ev (fun n => exponentiated nv (simplify n) p a = Some r) /\ wf r /\ fle (ms r) (fun k => (one (S (tdepth p)) k + ms a k)%nat) /\ powdom p a r /\ (forall q, r = Pol q -> NoDup (map snd q)).
Proof.
  intros Hn T HB G Hp Ha.
  assert (A : exists a', ev (fun n => (if is_num a then Some a else match simplify n a with Some a => Some (exponent_const a) | None => None end) = Some a') /\ good a' /\ fle (ms a') (ms a) /\ same a a' /\ (is_num a = true -> a' = a)).
  { destruct (is_num a) eqn:N. { exists a. split; [apply ev_now; reflexivity|]. split; [exact G|]. split; [apply fle_refl|]. split; [intros x D; split; [exact D|reflexivity]|reflexivity]. }
    destruct (Ha (good_not_num nv a G N)) as (a' & E & W & L & S & ND). exists (exponent_const a'). split; [eapply ev_imp; [|exact E]; cbv beta; intros n ->; reflexivity|]. destruct (exponent_const_ok a' W ND) as (C1 & C2 & C3).
    split; [exact C1|]. split; [apply (fle_trans _ (ms a')); assumption|]. split; [|discriminate]. intros x D. destruct (S x D) as [D1 E1]. destruct (C3 x D1) as [D2 E2]. split; [exact D2|congruence]. }
  destruct A as (a' & E & Ga' & La & Sa & Na).
  destruct (is_const 0 a') eqn:C0.
  { exists (cst nv 1). split; [eapply ev_imp; [|exact E]; cbv beta; intros n Hn'; unfold exponentiated; rewrite Hn', C0; reflexivity|]. split; [apply wf_cst|]. split; [|split; [|apply nodup_cst]].
    - apply (fle_trans _ (one (S (tdepth p)))); [|apply (plus_ge_l (one (S (tdepth p))) (ms a)), ms_ge0]. apply (fle_trans _ (one 1)); [left; apply ms_cst|]. apply one_le. lia.
    - intros x D P Da. split; [apply dom_cst|]. apply is_const_spec in C0. destruct (Sa x Da) as [_ E']. rewrite C0 in E'. cbn [eval] in E'. rewrite eval_cst, <- E'. symmetry. apply gpow_0. }
  destruct (is_const 1 a') eqn:C1.
  { exists (Pol p). split; [eapply ev_imp; [|exact E]; cbv beta; intros n Hn'; unfold exponentiated; rewrite Hn', C0, C1; reflexivity|]. split; [apply wf_pol; split; assumption|]. apply is_const_spec in C1. split; [|split].
    - apply (fle_trans _ (one (S (tdepth p)))); [left; intros k; apply ms_pol|apply (plus_ge_l (one (S (tdepth p))) (ms a)), ms_ge0].
    - intros x D P Da. split; [apply dom_pol, D|]. destruct (Sa x Da) as [_ E']. rewrite C1 in E'. cbn [eval] in E'. rewrite eval_pol, <- E'. symmetry. apply gpow_1.
    - intros q [= <-]. destruct HB as [HB|(x & Dx & Hx)]; [exact HB|]. exfalso. destruct (Sa x Dx) as [_ E']. rewrite C1 in E'. apply (Hx 0%nat). rewrite <- E'. reflexivity. }
  destruct (pol_simplify_ok p T Hp) as (q & Eq & Tq & Nq & Dq & NDq & Vq).
  assert (W : wf (EPol q a')) by (apply wf_epol; split; [split; assumption|split; [left; exact NDq|exact Ga']]).
  assert (LQ : fle (one (S (tdepth q))) (one (S (tdepth p)))) by (apply one_le; lia).
  set (r := match q with [(c, k)] => if is_const 1 c && zero_row k then Pol q else EPol q a' | _ => EPol q a' end).
  exists r. split.
  { eapply ev_imp; [|apply (ev_and _ _ E Eq)]. cbv beta. intros n [E1 E2]. unfold exponentiated. rewrite E1, C0, C1, E2. unfold r. destruct q as [|[c k] [|u q]]; [reflexivity| |reflexivity]. destruct (is_const 1 c && zero_row k); reflexivity. }
  assert (K : r = EPol q a' \/ r = Pol q /\ forall x, tval x q = 1).
  { unfold r. destruct q as [|[c k] [|u q]]; [left; reflexivity| |left; reflexivity]. destruct (is_const 1 c && zero_row k) eqn:C; [|left; reflexivity]. right. split; [reflexivity|]. intros x. apply andb_prop in C as [C2 Z]. rewrite single_val by exact Z. apply is_const_spec in C2. rewrite C2. reflexivity. }
  clearbody r. destruct K as [->|[-> V1]].
  - split; [exact W|]. split; [|split; [|intros q' Hq'; discriminate]].
    + eapply fle_trans; [|apply (fle_plus _ _ _ _ LQ La)]. left. intros k. apply ms_epol.
    + intros x D P Da. destruct (Vq x D) as [V1 V2]. destruct (Sa x Da) as [S1 S2]. split; [apply dom_epol; rewrite V2; split; [exact V1|]; split; [|exact S1]|rewrite eval_epol, V2, S2; reflexivity]. destruct P as [P|[P [z ->]]]; [left; exact P|right; split; [exact P|]]. exists z. apply Na. reflexivity.
  - split; [apply wf_pol; split; assumption|]. split; [|split; [|intros q' [= <-]; exact NDq]].
    + apply (fle_trans _ (one (S (tdepth p)))); [|apply (plus_ge_l (one (S (tdepth p))) (ms a)), ms_ge0]. apply (fle_trans _ (one (S (tdepth q)))); [left; intros k; apply ms_pol|exact LQ].
    + intros x D P Da. destruct (Vq x D) as [V2 V3]. split; [apply dom_pol, V2|]. rewrite eval_pol, V1. rewrite <- V3, V1. symmetry. apply Rpower_1_base.
Qed.

(** ** one pass over the summands *)
Definition ldom (x : point) (l : list expr) : Prop := Forall (dom x) l.
Definition lsum (x : point) (l : list expr) : R := sumR (map (eval x) l).
Definition lprod (x : point) (l : list expr) : R := prodR (map (eval x) l).
Lemma sum_item_ok e c s z : wf e -> sum_item e = (c, s, z) ->
  Forall wf s /\ (c = false -> s = [e]) /\ (c = true -> flt (msl s) (ms e)) /\ (forall x, dom x e -> ldom x s /\ lsum x s = eval x e) /\
  (forall u, z = Some u -> u = e /\ forall x, dom x e -> eval x e = 0) /\ (s = [] -> z <> None).
Proof.
  intros W H.
  assert (K : (c, s, z) = (false, [e], None) -> Forall wf s /\ (c = false -> s = [e]) /\ (c = true -> flt (msl s) (ms e)) /\ (forall x, dom x e -> ldom x s /\ lsum x s = eval x e) /\ (forall u, z = Some u -> u = e /\ forall x, dom x e -> eval x e = 0) /\ (s = [] -> z <> None)).
  { intros [= -> -> ->]. split; [constructor; [exact W|constructor]|]. split; [reflexivity|]. split; [discriminate|]. split; [intros x D; split; [constructor; [exact D|constructor]|unfold lsum; cbn; ring]|]. split; discriminate. }
  assert (Z : (c, s, z) = (true, [], Some e) -> (forall x, dom x e -> eval x e = 0) -> Forall wf s /\ (c = false -> s = [e]) /\ (c = true -> flt (msl s) (ms e)) /\ (forall x, dom x e -> ldom x s /\ lsum x s = eval x e) /\ (forall u, z = Some u -> u = e /\ forall x, dom x e -> eval x e = 0) /\ (s = [] -> z <> None)).
  { intros [= -> -> ->] V. split; [constructor|]. split; [discriminate|]. split; [intros _; apply (wf_pos nv e W)|]. split; [intros x D; split; [constructor|rewrite (V x D); reflexivity]|]. split; [intros u [= <-]; auto|discriminate]. }
  destruct e as [r|p|p a|p|l|l|terms cache|b a|a|a]; cbn [sum_item] in H; try (apply K; symmetry; exact H).
  - destruct (all_coeffs 0 p) eqn:E; [apply Z|apply K; symmetry; exact H]; [symmetry; exact H|]. intros x D. rewrite eval_pol. apply all_coeffs0, E.
  - destruct (all_coeffs 0 p) eqn:E; [apply Z|apply K; symmetry; exact H]; [symmetry; exact H|]. intros x D. apply dom_epol in D as (_ & P & _). rewrite (all_coeffs0 p x E) in P. apply base_nz in P. congruence.
  - destruct (all_coeffs 0 p) eqn:E; [apply Z|apply K; symmetry; exact H]; [symmetry; exact H|]. intros x D. apply dom_lpol in D as (_ & P). rewrite (all_coeffs0 p x E) in P. lra.
  - injection H as <- <- <-. destruct W as [N W]. rewrite allP_Forall in W. split; [exact W|]. split; [discriminate|]. split; [intros _; apply (plus_gt_r (one 0) (msl l)), one_pos|]. split; [intros x D; cbn [dom] in D; rewrite allP_Forall in D; split; [exact D|reflexivity]|]. split; [discriminate|congruence].
Qed.
Lemma sum_pass_ok l : Forall wf l -> forall c s z, sum_pass l = (c, s, z) ->
  Forall wf s /\ (c = false -> s = l) /\ (c = true -> flt (msl s) (msl l)) /\ fle (msl s) (msl l) /\ (forall x, ldom x l -> ldom x s /\ lsum x s = lsum x l) /\
  (forall u, z = Some u -> In u l /\ forall x, ldom x l -> eval x u = 0) /\ (s = [] -> l <> [] -> z <> None).
Proof.
  induction 1 as [|e l W H IH]; cbn [sum_pass]; intros c s z E.
  { injection E as <- <- <-. split; [constructor|]. split; [reflexivity|]. split; [discriminate|]. split; [apply fle_refl|]. split; [auto|]. split; [discriminate|congruence]. }
  destruct (sum_item e) as [[c1 s1] z1] eqn:E1. destruct (sum_pass l) as [[c2 s2] z2] eqn:E2. injection E as <- <- <-.
  destruct (sum_item_ok e c1 s1 z1 W E1) as (A1 & A2 & A3 & A4 & A5 & A6). destruct (IH c2 s2 z2 eq_refl) as (B1 & B2 & B3 & B4 & B5 & B6 & B7).
  assert (L1 : fle (msl s1) (ms e)) by (destruct c1; [right; apply A3; reflexivity|rewrite A2 by reflexivity; left; intros k; rewrite msl_cons; unfold msl; cbn; lia]).
  assert (X : forall k, msl (s1 ++ s2) k = (msl s1 k + msl s2 k)%nat) by (intros; apply msl_app).
  split; [apply Forall_app; split; assumption|]. split; [|split; [|split; [|split; [|split]]]].
  - intros C. apply orb_false_elim in C as [C1 C2]. rewrite A2, B2 by assumption. reflexivity.
  - intros C. apply orb_prop in C as [C|C]; (eapply (flt_ext (fun k => (msl s1 k + msl s2 k)%nat)); [intros k; symmetry; apply X|intros k; symmetry; apply msl_cons|]); [apply flt_plus_l; auto|apply flt_plus_r; auto].
  - eapply fle_trans; [left; exact X|]. eapply fle_trans; [apply fle_plus; [exact L1|exact B4]|]. left. intros k. symmetry. apply msl_cons.
  - intros x D. apply Forall_cons_iff in D as [D1 D2]. destruct (A4 x D1) as [P1 P2]. destruct (B5 x D2) as [Q1 Q2]. split; [apply Forall_app; split; assumption|]. unfold lsum in *. rewrite map_app, sumR_app. cbn [map]. rewrite sumR_cons, P2, Q2. reflexivity.
  - intros u Hu. destruct z2 as [v|]; [injection Hu as ->; destruct (B6 u eq_refl) as [I1 I2]; split; [right; exact I1|]; intros x D; apply Forall_cons_iff in D as [D1 D2]; auto|]. destruct (A5 u Hu) as [-> V]. split; [left; reflexivity|]. intros x D. apply Forall_cons_iff in D as [D1 D2]. auto.
  - intros Es _. apply app_eq_nil in Es as [Es1 Es2]. specialize (A6 Es1). destruct z2; [discriminate|exact A6].
Qed.
(** ** one pass over the factors *)
Definition one_val (e : expr) : Prop := forall x, eval x e = 1.
Lemma prod_item_ok e : wf e -> (forall p, e = Pol p -> NoDup (map snd p)) ->
  match prod_item nv e with
  | Splice l => l <> [] /\ Forall wf l /\ flt (msl l) (ms e) /\ forall x, dom x e -> ldom x l /\ lprod x l = eval x e
  | One o => o = e /\ one_val e
  | Zero z => wf z /\ fle (ms z) (ms e) /\ (forall x, dom x e -> dom x z /\ eval x z = 0 /\ eval x e = 0) /\ forall p, z = Pol p -> NoDup (map snd p)
  | Keep k => k = e
  end.
Proof.
  intros W N. destruct e as [r|p|p a|p|l|l|terms cache|b a|a|a]; cbn [prod_item]; try reflexivity.
  - apply wf_pol in W as [Np T]. destruct (all_rows_zero p && all_coeffs 1 p) eqn:E.
    { split; [reflexivity|]. apply andb_prop in E as [Z C]. intros x. destruct (nodup_zero_rows p (N p eq_refl) (tok_len nv p T) Z Np) as (c & k & -> & Zk). rewrite eval_pol, single_val by exact Zk. unfold all_coeffs in C. cbn [forallb fst] in C. rewrite andb_true_r in C. apply is_const_spec in C. rewrite C. reflexivity. }
    destruct (all_coeffs 0 p) eqn:E0; [|reflexivity]. destruct (add_tidy nv p T) as (I1 & I2 & I3 & I4 & I5 & I6). split; [apply wf_pol; split; assumption|]. split; [|split].
    + eapply fle_trans; [left; intros k; apply ms_pol|]. eapply fle_trans; [apply (one_le _ (S (tdepth p))); lia|]. left. intros k. symmetry. apply ms_pol.
    + intros x D. rewrite dom_pol in *. rewrite !eval_pol, I3, (all_coeffs0 p x E0). auto.
    + intros q [= <-]. exact I6.
  - destruct W as [Nl W]. rewrite allP_Forall in W. split; [exact Nl|]. split; [exact W|]. split; [apply (plus_gt_r (one 0) (msl l)), one_pos|]. intros x D. cbn [dom] in D. rewrite allP_Forall in D. split; [exact D|reflexivity].
Qed.
Lemma prod_pass_ok l : Forall (fun e => wf e /\ forall p, e = Pol p -> NoDup (map snd p)) l ->
  match prod_pass nv l with
  | inr z => wf z /\ fle (ms z) (msl l) /\ (forall x, ldom x l -> dom x z /\ eval x z = 0 /\ lprod x l = 0) /\ forall p, z = Pol p -> NoDup (map snd p)
  | inl (c, s, o) => Forall wf s /\ (c = false -> s = l) /\ (c = true -> flt (msl s) (msl l)) /\ fle (msl s) (msl l) /\ (forall x, ldom x l -> ldom x s /\ lprod x s = lprod x l) /\
      (forall u, o = Some u -> In u l /\ one_val u) /\ (s = [] -> l <> [] -> o <> None)
  end.
Proof.
  induction 1 as [|e l [W N] H IH]; cbn [prod_pass].
  { split; [constructor|]. split; [reflexivity|]. split; [discriminate|]. split; [apply fle_refl|]. split; [auto|]. split; [discriminate|congruence]. }
  pose proof (prod_item_ok e W N) as A.
  assert (Zr : forall z, wf z /\ fle (ms z) (msl l) /\ (forall x, ldom x l -> dom x z /\ eval x z = 0 /\ lprod x l = 0) /\ (forall p, z = Pol p -> NoDup (map snd p)) ->
     wf z /\ fle (ms z) (msl (e :: l)) /\ (forall x, ldom x (e :: l) -> dom x z /\ eval x z = 0 /\ lprod x (e :: l) = 0) /\ (forall p, z = Pol p -> NoDup (map snd p))).
  { intros z (Z1 & Z2 & Z3 & Z4). split; [exact Z1|]. split; [apply (fle_trans _ (msl l)); [exact Z2|apply (plus_ge_r (ms e) (msl l)), ms_ge0]|]. split; [|exact Z4]. intros x D. apply Forall_cons_iff in D as [D1 D2]. destruct (Z3 x D2) as (V1 & V2 & V3). unfold lprod in *. cbn [map]. rewrite prodR_cons, V3. split; [exact V1|]. split; [exact V2|ring]. }
  destruct (prod_item nv e) as [s1|o1|z1|k1] eqn:E1.
  - destruct (prod_pass nv l) as [[[c2 s2] o2]|z2]; [|apply Zr, IH]. destruct IH as (B1 & B2 & B3 & B4 & B5 & B6 & B7). destruct A as (A0 & A1 & A2 & A3).
    assert (X : flt (msl (s1 ++ s2)) (msl (e :: l))) by (eapply (flt_ext (fun k => (msl s1 k + msl s2 k)%nat)); [intros k; symmetry; apply msl_app|intros k; symmetry; apply msl_cons|]; apply flt_plus_l; assumption).
    split; [apply Forall_app; split; assumption|]. split; [discriminate|]. split; [intros _; exact X|]. split; [right; exact X|]. split; [|split].
    + intros x D. apply Forall_cons_iff in D as [D1 D2]. destruct (A3 x D1) as [P1 P2]. destruct (B5 x D2) as [Q1 Q2]. split; [apply Forall_app; split; assumption|]. unfold lprod in *. rewrite map_app, prodR_app. cbn [map]. rewrite prodR_cons, P2, Q2. reflexivity.
    + intros u Hu. destruct (B6 u Hu). split; [right; assumption|assumption].
    + intros Es _. apply app_eq_nil in Es as [Es1 _]. congruence.
  - destruct (prod_pass nv l) as [[[c2 s2] o2]|z2]; [|apply Zr, IH]. destruct IH as (B1 & B2 & B3 & B4 & B5 & B6 & B7). destruct A as (-> & A1).
    assert (X : flt (msl s2) (msl (e :: l))). { apply (fle_flt_trans _ (msl l)); [exact B4|]. apply (plus_gt_r (ms e) (msl l)), (wf_pos nv e W). }
    split; [exact B1|]. split; [discriminate|]. split; [intros _; exact X|]. split; [right; exact X|]. split; [|split].
    + intros x D. apply Forall_cons_iff in D as [D1 D2]. destruct (B5 x D2) as [Q1 Q2]. split; [exact Q1|]. unfold lprod in *. cbn [map]. rewrite prodR_cons, Q2, A1. ring.
    + intros u Hu. destruct o2 as [v|]; [injection Hu as ->; destruct (B6 u eq_refl); split; [right; assumption|assumption]|]. injection Hu as <-. split; [left; reflexivity|exact A1].
    + intros _ _. destruct o2; discriminate.
  - destruct A as (A1 & A2 & A3 & A4).
    assert (K : wf z1 /\ fle (ms z1) (msl (e :: l)) /\ (forall x, ldom x (e :: l) -> dom x z1 /\ eval x z1 = 0 /\ lprod x (e :: l) = 0) /\ forall p, z1 = Pol p -> NoDup (map snd p)).
    { split; [exact A1|]. split; [apply (fle_trans _ (ms e)); [exact A2|apply (plus_ge_l (ms e) (msl l)), msl_ge0]|]. split; [|exact A4]. intros x D. apply Forall_cons_iff in D as [D1 D2]. destruct (A3 x D1) as (V1 & V2 & V3). unfold lprod. cbn [map]. rewrite prodR_cons, V3. split; [exact V1|]. split; [exact V2|ring]. }
    destruct (prod_pass nv l) as [[[c2 s2] o2]|z2]; exact K.
  - subst k1. destruct (prod_pass nv l) as [[[c2 s2] o2]|z2]; [|apply Zr, IH]. destruct IH as (B1 & B2 & B3 & B4 & B5 & B6 & B7).
    split; [constructor; assumption|]. split; [intros C; rewrite (B2 C); reflexivity|]. split; [intros C; exact (flt_plus_r _ _ _ _ (fle_refl (ms e)) (B3 C))|]. split; [exact (fle_plus _ _ _ _ (fle_refl (ms e)) B4)|]. split; [|split; [|discriminate]].
    + intros x D. apply Forall_cons_iff in D as [D1 D2]. destruct (B5 x D2) as [Q1 Q2]. split; [constructor; assumption|]. unfold lprod in *. cbn [map]. rewrite !prodR_cons, Q2. reflexivity.
    + intros u Hu. destruct (B6 u Hu). split; [right; assumption|assumption].
Qed.

(** ** ProductRule *)
Definition rval (x : point) (cache : cache_t) (ns : list (list Z)) : R := prodR (map (fun q => match lookup (fst q) (snd q) with Some e => eval x e | None => 0 end) (combine ns cache)).
Definition rsum (x : point) (cache : cache_t) (terms : list (Z * list (list Z))) : R := sumR (map (fun t => IZR (fst t) * rval x cache (snd t)) terms).
Lemma combine_map_r {A B C} (f : B -> C) (l : list A) : forall m, combine l (map f m) = map (fun q => (fst q, f (snd q))) (combine l m).
Proof. induction l as [|a l IH]; intros [|b m]; cbn; [reflexivity|reflexivity|reflexivity|]. rewrite IH. reflexivity. Qed.
Lemma eval_rule x terms cache : eval x (Rule terms cache) = rsum x cache terms.
Proof.
  cbn [eval]. cbv zeta. unfold rsum. f_equal. apply map_ext. intros [c ns]. cbn [fst snd]. f_equal. unfold rval. rewrite combine_map_r, map_map. f_equal. apply map_ext. intros [n col]. cbn [fst snd]. apply lookupR_map.
Qed.
Definition proper (cache : cache_t) (ns : list (list Z)) : Prop := Forall2 (fun n col => lookup n col <> None) ns cache.
Definition cols_ok (cache : cache_t) : Prop := Forall (fun col => column_ok nv col /\ Forall (fun t => wf (snd t)) col) cache.
Lemma wf_rule terms cache : wf (Rule terms cache) <-> cache <> [] /\ terms <> [] /\ Forall (fun t => proper cache (snd t)) terms /\ cols_ok cache.
Proof.
  cbn [ExprSpec.wf]. rewrite allP_Forall. unfold cols_ok. split; intros (H1 & H2 & H3 & H4); (split; [exact H1|]; split; [exact H2|]; split; [exact H3|]); (eapply Forall_impl; [|exact H4]); intros col [C1 C2]; (split; [exact C1|]).
  - rewrite allP_Forall in C2. eapply Forall_impl; [|exact C2]. intros [n c]; auto.
  - apply allP_Forall. eapply Forall_impl; [|exact C2]. intros [n c]; auto.
Qed.
Definition cdom (x : point) (cache : cache_t) : Prop := Forall (Forall (fun t => dom x (snd t))) cache.
Lemma dom_rule x terms cache : dom x (Rule terms cache) <-> cdom x cache.
Proof.
  cbn [dom]. rewrite allP_Forall. unfold cdom. split; intros H; (eapply Forall_impl; [|exact H]); intros col; rewrite allP_Forall; intros H'; (eapply Forall_impl; [|exact H']); intros [n c]; auto.
Qed.
Lemma lookup_In n col e : lookup n col = Some e -> In (n, e) col. Proof. intros H. destruct (lookup_in n col e H) as (m & Hin & ->). exact Hin. Qed.
Lemma column_len col n : column_ok nv col -> lookup n col <> None -> length n = nv.
Proof.
  intros (f & _ & F) H. destruct (lookup n col) as [e|] eqn:E; [|congruence]. apply lookup_In in E. rewrite Forall_forall in F. destruct (F _ E) as [[L _] _]. exact L.
Qed.
Lemma proper_len cache ns : cols_ok cache -> proper cache ns -> length ns = length cache /\ Forall (fun n => length n = nv) ns.
Proof. intros C P. split; [apply (Forall2_len _ _ _ P)|]. induction P as [|n col ns cache H P IH]; constructor; apply Forall_cons_iff in C as [[C1 _] C]; [apply (column_len col n C1 H)|apply IH, C]. Qed.
Lemma app_inj_len {A} (a b c d : list A) : length a = length b -> a ++ c = b ++ d -> a = b /\ c = d.
Proof. revert b. induction a as [|x a IH]; intros [|y b] H E; try discriminate; [auto|]. injection E as -> E. injection H as H. destruct (IH b H E) as [-> ->]. auto. Qed.
Lemma concat_inj (ns : list (list Z)) : forall ms, length ns = length ms -> Forall (fun n => length n = nv) ns -> Forall (fun n => length n = nv) ms -> concat ns = concat ms -> ns = ms.
Proof.
  induction ns as [|n ns IH]; intros [|m ms] L F G E; try discriminate; [reflexivity|]. injection L as L. apply Forall_cons_iff in F as [F1 F], G as [G1 G]. cbn [concat] in E. destruct (app_inj_len _ _ _ _ (eq_trans F1 (eq_sym G1)) E) as [-> E']. f_equal. apply IH; assumption.
Qed.
Lemma term_zero_val x cache : forall ns, term_zero ns cache = true -> rval x cache ns = 0.
Proof.
  induction cache as [|col cache IH]; intros [|n ns]; try discriminate. unfold term_zero, rval. cbn [combine existsb map fst snd]. rewrite prodR_cons. intros H. apply orb_prop in H as [H|H].
  - unfold entry_zero in H. destruct (lookup n col) as [[r|p|p a|p|l|l|terms ca|b a|a|a]|]; try discriminate. rewrite eval_pol, (all_coeffs0 p x H). ring.
  - specialize (IH ns H). unfold rval in IH. rewrite IH. ring.
Qed.
Lemma rsum_cons x cache t terms : rsum x cache (t :: terms) = IZR (fst t) * rval x cache (snd t) + rsum x cache terms. Proof. reflexivity. Qed.
Lemma rule_merge_ok cache rest : cols_ok cache -> forall prev, Forall (fun t => proper cache (snd t)) (prev :: rest) ->
  Forall (fun t => proper cache (snd t)) (rule_merge cache prev rest) /\ forall x, rsum x cache (rule_merge cache prev rest) = rsum x cache (prev :: rest).
Proof.
  intros C. induction rest as [|[c ns] rest IH]; intros prev H; cbn [rule_merge]; [auto|]. apply Forall_cons_iff in H as [H1 H]. pose proof H as H'. apply Forall_cons_iff in H as [H2 H]. cbn [snd] in H2.
  assert (K : forall c', Forall (fun t => proper cache (snd t)) ((c', ns) :: rest)) by (intros c'; constructor; [exact H2|exact H]).
  assert (V : forall x c', IZR (if term_zero ns cache then 0%Z else c') * rval x cache ns = IZR c' * rval x cache ns) by (intros x c'; destruct (term_zero ns cache) eqn:E; [rewrite (term_zero_val x cache ns E); ring|reflexivity]).
  destruct (Z.eqb_spec c 0) as [->|_]. { destruct (IH (0%Z, ns) (K 0%Z)) as [I1 I2]. split; [constructor; assumption|]. intros x. rewrite !rsum_cons, I2. reflexivity. }
  destruct (roweqb (concat (snd prev)) (concat ns)) eqn:E.
  - apply roweqb_spec in E. destruct (proper_len cache _ C H1) as [L1 F1]. destruct (proper_len cache _ C H2) as [L2 F2]. apply concat_inj in E; [|congruence|assumption|assumption].
    destruct (IH _ (K (if term_zero ns cache then 0%Z else (c + fst prev)%Z))) as [I1 I2]. split; [constructor; [exact H1|exact I1]|]. intros x. rewrite !rsum_cons, I2, rsum_cons. cbn [fst snd]. rewrite V, plus_IZR, E. ring.
  - destruct (IH _ (K (if term_zero ns cache then 0%Z else c))) as [I1 I2]. split; [constructor; [exact H1|exact I1]|]. intros x. rewrite !rsum_cons, I2, rsum_cons. cbn [fst snd]. rewrite V. ring.
Qed.
Lemma rsum_perm x cache t t' : Permutation t t' -> rsum x cache t = rsum x cache t'. Proof. intros H. apply sumR_perm, Permutation_map, H. Qed.
Lemma rule_simplify_ok terms cache : wf (Rule terms cache) -> res (Rule terms cache) (rule_simplify nv terms cache).
Proof.
  intros W. pose proof W as W0. apply wf_rule in W as (Nc & Nt & Pt & Cc). unfold rule_simplify. pose proof (sort_by_perm (fun t : Z * list (list Z) => concat (snd t)) terms) as P. set (m := match sort_by _ terms with [] => [] | _ => _ end).
  assert (M : Forall (fun t => proper cache (snd t)) m /\ forall x, rsum x cache m = rsum x cache terms).
  { assert (PS : Forall (fun t => proper cache (snd t)) (sort_by (fun t => concat (snd t)) terms)) by (eapply Permutation_Forall; [apply Permutation_sym, P|exact Pt]). assert (VS : forall x, rsum x cache (sort_by (fun t => concat (snd t)) terms) = rsum x cache terms) by (intros x; apply rsum_perm, P).
    unfold m. destruct (sort_by (fun t => concat (snd t)) terms) as [|[c ns] r]; [split; assumption|]. apply Forall_cons_iff in PS as [P1 PS]. cbn [snd] in P1. destruct (rule_merge_ok cache r Cc (if term_zero ns cache then 0%Z else c, ns)) as [I1 I2]; [constructor; assumption|]. split; [exact I1|].
    intros x. rewrite I2, <- VS, !rsum_cons. cbn [fst snd]. f_equal. destruct (term_zero ns cache) eqn:E; [rewrite (term_zero_val x cache ns E); ring|reflexivity]. }
  destruct M as [M1 M2]. clearbody m.
  assert (F1 : Forall (fun t => proper cache (snd t)) (filter (fun t => negb (Z.eqb (fst t) 0)) m)) by apply filter_sub, M1.
  assert (F2 : forall x, rsum x cache (filter (fun t => negb (Z.eqb (fst t) 0)) m) = rsum x cache terms).
  { intros x. rewrite <- M2. clear. induction m as [|t m IH]; [reflexivity|]. cbn [filter]. destruct (Z.eqb_spec (fst t) 0) as [E|E]; cbn [negb]; rewrite ?rsum_cons, IH; [rewrite E; ring|reflexivity]. }
  destruct (filter (fun t => negb (Z.eqb (fst t) 0)) m) as [|t r] eqn:E.
  - split; [apply wf_cst|]. split; [apply cst_le, W0|]. split; [|apply nodup_cst]. intros x D. split; [apply dom_cst|]. rewrite eval_cst, eval_rule, <- F2. reflexivity.
  - split; [apply wf_rule; split; [exact Nc|]; split; [discriminate|]; split; assumption|]. split; [apply fle_refl|]. split; [|discriminate]. intros x D. split; [apply dom_rule; apply dom_rule in D; exact D|]. rewrite !eval_rule. apply F2.
Qed.

(** ** the whole tree *)
Lemma res_refl e : wf e -> (forall p, e = Pol p -> NoDup (map snd p)) -> res e e.
Proof. intros W N. split; [exact W|]. split; [apply fle_refl|]. split; [|exact N]. intros x D. split; [exact D|reflexivity]. Qed.
Lemma list_res l l' : Forall2 res l l' -> Forall wf l' /\ fle (msl l') (msl l) /\ (forall x, ldom x l -> ldom x l' /\ lsum x l' = lsum x l /\ lprod x l' = lprod x l) /\ (l <> [] -> l' <> []) /\ Forall (fun e => wf e /\ forall p, e = Pol p -> NoDup (map snd p)) l'.
Proof.
  intros F. split; [eapply Forall2_right; [|exact F]; intros a b (W & _); exact W|]. split; [apply msl_le; eapply Forall2_imp; [|exact F]; intros a b (_ & L & _); exact L|]. split; [|split; [destruct F; [auto|discriminate]|eapply Forall2_right; [|exact F]; intros a b (W & _ & _ & N); auto]].
  intros x. induction F as [|a b l l' (W & L & S & N) F IH]; intros D; [auto|]. apply Forall_cons_iff in D as [D1 D2]. destruct (IH D2) as (I1 & I2 & I3). destruct (S x D1) as [S1 S2]. unfold lsum, lprod in *. cbn [map]. rewrite !sumR_cons, !prodR_cons, I2, I3, S2. split; [constructor; assumption|split; reflexivity].
Qed.
Lemma pol_case p : wf (Pol p) -> Forall (fun t => wf (fst t) -> simp_good (fst t)) p -> simp_good (Pol p).
Proof.
  intros W H. apply wf_pol in W as [N T]. destruct (pol_simplify_ok p T H) as (q & E & Tq & Nq & Dq & NDq & Vq). exists (Pol q). split; [eapply ev_S; [|exact E]; cbv beta; intros n Hn; cbn [ExprModel.simplify simp_step]; rewrite Hn; reflexivity|].
  split; [apply wf_pol; split; assumption|]. split; [|split; [|intros q' [= <-]; exact NDq]].
  - eapply fle_trans; [left; intros k; apply ms_pol|]. eapply fle_trans; [apply (one_le _ (S (tdepth p))); lia|]. left. intros k. symmetry. apply ms_pol.
  - intros x D. rewrite dom_pol in *. rewrite !eval_pol. apply Vq, D.
Qed.
Theorem simp_ok e : wf e -> simp_good e.
Proof.
  intros W. pose proof (ms_acc e) as A. revert W. induction A as [e _ IH]. intros W.
  assert (coeff : forall p, tok p -> flt (one (S (tdepth p))) (ms e) \/ fle (one (S (tdepth p))) (ms e) -> Forall (fun t => wf (fst t) -> simp_good (fst t)) p).
  { intros p T L. assert (L' : fle (one (S (tdepth p))) (ms e)) by (destruct L as [L|L]; [right; exact L|exact L]). assert (HD : (tdepth p <= tdepth p)%nat) by lia. apply tdepth_le in HD. eapply Forall_impl; [|exact HD]. cbv beta. intros t Ht Wt. apply IH; [|exact Wt].
    apply (flt_fle_trans _ (one (S (tdepth p)))); [apply ms_below; lia|exact L']. }
  destruct e as [r|p|p a|p|l|l|terms cache|b a|a|a].
  - destruct W.
  - apply pol_case; [exact W|]. apply wf_pol in W as [_ T]. apply coeff; [exact T|]. right. left. intros k. symmetry. apply ms_pol.
  - apply wf_epol in W as ([N T] & HB & G).
    assert (La : flt (ms a) (ms (EPol p a))) by (eapply flt_ext; [reflexivity|intros k; symmetry; apply ms_epol|]; apply (plus_gt_r (one (S (tdepth p))) (ms a)), one_pos).
    assert (Lp : fle (one (S (tdepth p))) (ms (EPol p a))) by (eapply fle_trans; [apply (plus_ge_l (one (S (tdepth p))) (ms a)), ms_ge0|left; intros k; symmetry; apply ms_epol]).
    destruct (exponentiated_ok p a N T HB G (coeff p T (or_intror Lp)) (fun Wa => IH a La Wa)) as (r & E & Wr & Lr & Vr & Nr).
    exists r. split; [eapply ev_S; [|exact E]; cbv beta; intros n Hn; exact Hn|]. split; [exact Wr|]. split; [eapply fle_trans; [exact Lr|left; intros k; symmetry; apply ms_epol]|]. split; [|exact Nr]. intros x D. apply dom_epol in D as (D1 & D2 & D3). rewrite eval_epol. apply Vr; assumption.
  - apply wf_lpol in W as [N T]. assert (Lp : fle (one (S (tdepth p))) (ms (LPol p))) by (left; intros k; symmetry; apply ms_lpol).
    destruct (pol_simplify_ok p T (coeff p T (or_intror Lp))) as (q & E & Tq & Nq & Dq & NDq & Vq).
    set (r := match q with [(c, k)] => if is_const 1 c && zero_row k then cst nv 0 else LPol q | _ => LPol q end). exists r. split.
    { eapply ev_S; [|exact E]. cbv beta. intros n Hn. cbn [ExprModel.simplify simp_step]. rewrite Hn. unfold r. destruct q as [|[c k] [|u q]]; [reflexivity| |reflexivity]. destruct (is_const 1 c && zero_row k); reflexivity. }
    assert (K : r = LPol q \/ r = cst nv 0 /\ forall x, tval x q = 1).
    { unfold r. destruct q as [|[c k] [|u q]]; [left; reflexivity| |left; reflexivity]. destruct (is_const 1 c && zero_row k) eqn:C; [|left; reflexivity]. right. split; [reflexivity|]. intros x. apply andb_prop in C as [C2 Z]. rewrite single_val by exact Z. apply is_const_spec in C2. rewrite C2. reflexivity. }
    clearbody r. destruct K as [->|[-> V1]].
    + split; [apply wf_lpol; split; assumption|]. split; [|split; [|discriminate]].
      * eapply fle_trans; [left; intros k; apply ms_lpol|]. eapply fle_trans; [apply (one_le _ (S (tdepth p))); lia|exact Lp].
      * intros x D. apply dom_lpol in D as [D1 D2]. destruct (Vq x D1) as [V1 V2]. rewrite !eval_lpol, V2. split; [apply dom_lpol; rewrite V2; auto|reflexivity].
    + split; [apply wf_cst|]. split; [apply cst_le, wf_lpol; split; assumption|]. split; [|apply nodup_cst]. intros x D. apply dom_lpol in D as [D1 D2]. destruct (Vq x D1) as [_ V2]. split; [apply dom_cst|]. rewrite eval_cst, eval_lpol, <- V2, V1. symmetry. apply ln_1.
  - destruct W as [N W]. rewrite allP_Forall in W.
    destruct (ev_all simplify res l) as (l' & E & F). { apply Forall_forall. intros e He. rewrite Forall_forall in W. apply (IH e (ms_sum_in e l He) (W e He)). }
    destruct (list_res l l' F) as (R1 & R2 & R3 & R4 & R5). destruct (sum_pass l') as [[c s] z] eqn:Es. destruct (sum_pass_ok l' R1 c s z Es) as (S1 & S2 & S3 & S4 & S5 & S6 & S7). specialize (R4 N).
    assert (LS : fle (ms (Sum l')) (ms (Sum l))) by exact (fle_plus _ _ _ _ (fle_refl (one 0)) R2).
    assert (VS : forall x, dom x (Sum l) -> ldom x s /\ lsum x s = eval x (Sum l)). { intros x D. cbn [dom] in D. rewrite allP_Forall in D. destruct (R3 x D) as (D1 & V1 & _). destruct (S5 x D1) as [D2 V2]. split; [exact D2|]. rewrite V2, V1. reflexivity. }
    assert (Rec : c = true -> s <> [] -> exists r, ev (fun n => simplify n (Sum s) = Some r) /\ res (Sum l) r).
    { intros Hc Hs. destruct (IH (Sum s)) as (r & Er & Wr & Lr & Vr & Nr); [|split; [exact Hs|apply allP_Forall, S1]|].
      - apply (flt_fle_trans _ (ms (Sum l'))); [|exact LS]. exact (flt_plus_r _ _ _ _ (fle_refl (one 0)) (S3 Hc)).
      - exists r. split; [exact Er|]. split; [exact Wr|]. split; [|split; [|exact Nr]].
        + apply (fle_trans _ (ms (Sum s))); [exact Lr|]. apply (fle_trans _ (ms (Sum l'))); [|exact LS]. exact (fle_plus _ _ _ _ (fle_refl (one 0)) S4).
        + intros x D. destruct (VS x D) as [D1 V1]. destruct (Vr x) as [D2 V2]; [cbn [dom]; apply allP_Forall, D1|]. split; [exact D2|]. rewrite V2. exact V1. }
    destruct c.
    + destruct s as [|s0 s].
      * destruct z as [z|]; [|exfalso; apply (S7 eq_refl R4); reflexivity]. destruct (S6 z eq_refl) as [Hin Vz]. exists z. split; [eapply ev_S; [|exact E]; cbv beta; intros n Hn; cbn [ExprModel.simplify simp_step]; rewrite Hn, Es; reflexivity|].
        rewrite Forall_forall in R5. destruct (R5 z Hin) as [Wz Nz]. split; [exact Wz|]. split; [|split; [|exact Nz]].
        -- apply (fle_trans _ (ms (Sum l'))); [right; apply ms_sum_in, Hin|exact LS].
        -- intros x D. pose proof D as D0. cbn [dom] in D. rewrite allP_Forall in D. destruct (R3 x D) as (D1 & _). split; [unfold ldom in D1; rewrite Forall_forall in D1; apply D1, Hin|]. rewrite (Vz x D1). destruct (VS x D0) as [_ V]. rewrite <- V. reflexivity.
      * destruct (Rec eq_refl ltac:(discriminate)) as (r & Er & Rr). exists r. split; [|exact Rr]. eapply ev_S; [|apply (ev_and _ _ E Er)]. cbv beta. intros n [Hn Hr]. cbn [ExprModel.simplify simp_step]. rewrite Hn, Es. exact Hr.
    + rewrite (S2 eq_refl) in *. destruct l' as [|s0 [|s1 l']]; [congruence| |].
      * exists s0. split; [eapply ev_S; [|exact E]; cbv beta; intros n Hn; cbn [ExprModel.simplify simp_step]; rewrite Hn, Es; reflexivity|]. apply Forall_cons_iff in R5 as [[Wz Nz] _]. split; [exact Wz|]. split; [|split; [|exact Nz]].
        -- apply (fle_trans _ (ms (Sum [s0]))); [right; apply ms_sum_in; left; reflexivity|exact LS].
        -- intros x D. destruct (VS x D) as [D1 V]. apply Forall_cons_iff in D1 as [D1 _]. split; [exact D1|]. rewrite <- V. unfold lsum. cbn [map]. rewrite sumR_cons. cbn. ring.
      * exists (Sum (s0 :: s1 :: l')). split; [eapply ev_S; [|exact E]; cbv beta; intros n Hn; cbn [ExprModel.simplify simp_step]; rewrite Hn, Es; reflexivity|]. split; [split; [discriminate|apply allP_Forall, R1]|]. split; [exact LS|]. split; [|discriminate].
        intros x D. destruct (VS x D) as [D1 V]. split; [cbn [dom]; apply allP_Forall, D1|exact V].
  - destruct W as [N W]. rewrite allP_Forall in W.
    destruct (ev_all simplify res l) as (l' & E & F). { apply Forall_forall. intros e He. rewrite Forall_forall in W. apply (IH e (ms_prod_in e l He) (W e He)). }
    destruct (list_res l l' F) as (R1 & R2 & R3 & R4 & R5). pose proof (prod_pass_ok l' R5) as PP. specialize (R4 N).
    assert (LS : fle (ms (Prod l')) (ms (Prod l))) by exact (fle_plus _ _ _ _ (fle_refl (one 0)) R2).
    assert (VL : forall x, dom x (Prod l) -> ldom x l' /\ lprod x l' = eval x (Prod l)). { intros x D. cbn [dom] in D. rewrite allP_Forall in D. destruct (R3 x D) as (D1 & _ & V1). split; [exact D1|exact V1]. }
    destruct (prod_pass nv l') as [[[c s] z]|z] eqn:Es.
    2:{ destruct PP as (Z1 & Z2 & Z3 & Z4). exists z. split; [eapply ev_S; [|exact E]; cbv beta; intros n Hn; cbn [ExprModel.simplify simp_step]; rewrite Hn, Es; reflexivity|]. split; [exact Z1|]. split; [|split; [|exact Z4]].
      - apply (fle_trans _ (msl l')); [exact Z2|]. apply (fle_trans _ (ms (Prod l'))); [apply (plus_ge_r (one 0) (msl l')); right; apply one_pos|exact LS].
      - intros x D. destruct (VL x D) as [D1 V1]. destruct (Z3 x D1) as (Y1 & Y2 & Y3). split; [exact Y1|]. congruence. }
    destruct PP as (S1 & S2 & S3 & S4 & S5 & S6 & S7).
    assert (VS : forall x, dom x (Prod l) -> ldom x s /\ lprod x s = eval x (Prod l)). { intros x D. destruct (VL x D) as [D1 V1]. destruct (S5 x D1) as [D2 V2]. split; [exact D2|]. congruence. }
    assert (Rec : c = true -> s <> [] -> exists r, ev (fun n => simplify n (Prod s) = Some r) /\ res (Prod l) r).
    { intros Hc Hs. destruct (IH (Prod s)) as (r & Er & Wr & Lr & Vr & Nr); [|split; [exact Hs|apply allP_Forall, S1]|].
      - apply (flt_fle_trans _ (ms (Prod l'))); [|exact LS]. exact (flt_plus_r _ _ _ _ (fle_refl (one 0)) (S3 Hc)).
      - exists r. split; [exact Er|]. split; [exact Wr|]. split; [|split; [|exact Nr]].
        + apply (fle_trans _ (ms (Prod s))); [exact Lr|]. apply (fle_trans _ (ms (Prod l'))); [|exact LS]. exact (fle_plus _ _ _ _ (fle_refl (one 0)) S4).
        + intros x D. destruct (VS x D) as [D1 V1]. destruct (Vr x) as [D2 V2]; [cbn [dom]; apply allP_Forall, D1|]. split; [exact D2|]. rewrite V2. exact V1. }
    destruct c.
    + destruct s as [|s0 s].
      * destruct z as [z|]; [|exfalso; apply (S7 eq_refl R4); reflexivity]. destruct (S6 z eq_refl) as [Hin Vz]. exists z. split; [eapply ev_S; [|exact E]; cbv beta; intros n Hn; cbn [ExprModel.simplify simp_step]; rewrite Hn, Es; reflexivity|].
        rewrite Forall_forall in R5. destruct (R5 z Hin) as [Wz Nz]. split; [exact Wz|]. split; [|split; [|exact Nz]].
        -- apply (fle_trans _ (ms (Prod l'))); [right; apply ms_prod_in, Hin|exact LS].
        -- intros x D. destruct (VL x D) as [D1 _]. split; [unfold ldom in D1; rewrite Forall_forall in D1; apply D1, Hin|]. rewrite (Vz x). destruct (VS x D) as [_ V]. rewrite <- V. reflexivity.
      * destruct (Rec eq_refl ltac:(discriminate)) as (r & Er & Rr). exists r. split; [|exact Rr]. eapply ev_S; [|apply (ev_and _ _ E Er)]. cbv beta. intros n [Hn Hr]. cbn [ExprModel.simplify simp_step]. rewrite Hn, Es. exact Hr.
    + rewrite (S2 eq_refl) in *. destruct l' as [|s0 [|s1 l']]; [congruence| |].
      * exists s0. split; [eapply ev_S; [|exact E]; cbv beta; intros n Hn; cbn [ExprModel.simplify simp_step]; rewrite Hn, Es; reflexivity|]. apply Forall_cons_iff in R5 as [[Wz Nz] _]. split; [exact Wz|]. split; [|split; [|exact Nz]].
        -- apply (fle_trans _ (ms (Prod [s0]))); [right; apply ms_prod_in; left; reflexivity|exact LS].
        -- intros x D. destruct (VS x D) as [D1 V]. apply Forall_cons_iff in D1 as [D1 _]. split; [exact D1|]. rewrite <- V. unfold lprod. cbn [map]. rewrite prodR_cons. cbn. ring.
      * exists (Prod (s0 :: s1 :: l')). split; [eapply ev_S; [|exact E]; cbv beta; intros n Hn; cbn [ExprModel.simplify simp_step]; rewrite Hn, Es; reflexivity|]. split; [split; [discriminate|apply allP_Forall, R1]|]. split; [exact LS|]. split; [|discriminate].
        intros x D. destruct (VS x D) as [D1 V]. split; [cbn [dom]; apply allP_Forall, D1|exact V].
  - exists (rule_simplify nv terms cache). split; [apply (ev_S (fun _ => True)); [intros n _; reflexivity|apply ev_now; exact (fun _ => I)]|]. apply rule_simplify_ok, W.
  - destruct W as [Wb Wa].
    assert (Lb : flt (ms b) (ms (Pow b a))). { apply (fle_flt_trans _ (fun k => (ms b k + ms a k)%nat)); [apply (plus_ge_l (ms b) (ms a)), ms_ge0|]. exact (plus_gt_r (one 0) (fun k => (ms b k + ms a k)%nat) (one_pos 0)). }
    assert (La : flt (ms a) (ms (Pow b a))). { apply (fle_flt_trans _ (fun k => (ms b k + ms a k)%nat)); [apply (plus_ge_r (ms b) (ms a)), ms_ge0|]. exact (plus_gt_r (one 0) (fun k => (ms b k + ms a k)%nat) (one_pos 0)). }
    destruct (IH b Lb Wb) as (b' & Eb & Wb' & Lb' & Vb & Nb). destruct (IH a La Wa) as (a' & Ea & Wa' & La' & Va & Na).
    assert (LP : forall k, ms (Pow b a) k = (one 0 k + (ms b k + ms a k))%nat) by reflexivity.
    assert (L2 : fle (fun k => (ms b' k + ms a k)%nat) (ms (Pow b a))). { apply (fle_trans _ (fun k => (ms b k + ms a k)%nat)); [apply fle_plus; [exact Lb'|apply fle_refl]|]. apply (plus_ge_r (one 0) (fun k => (ms b k + ms a k)%nat)). right. apply one_pos. }
    destruct (match b' with Pol _ => true | _ => false end) eqn:Kb.
    + destruct b' as [ |p| | | | | | | | ]; try discriminate. apply wf_pol in Wb' as [N T].
      assert (Lp : fle (one (S (tdepth p))) (ms (Pow b a))). { eapply fle_trans; [|exact L2]. eapply fle_trans; [|apply (plus_ge_l (ms (Pol p)) (ms a)), ms_ge0]. left. intros k. symmetry. apply ms_pol. }
      destruct (exponentiated_ok p a N T (or_introl (Nb p eq_refl)) (or_intror Wa) (coeff p T (or_intror Lp)) (fun Wa => IH a La Wa)) as (r & E & Wr & Lr & Vr & Nr).
      exists r. split; [eapply ev_S; [|apply (ev_and _ _ Eb E)]; cbv beta; intros n [H1 H2]; cbn [ExprModel.simplify simp_step]; rewrite H1; exact H2|]. split; [exact Wr|]. split; [|split; [|exact Nr]].
      * eapply fle_trans; [exact Lr|]. eapply fle_trans; [|exact L2]. left. intros k. rewrite ms_pol. reflexivity.
      * intros x (D1 & D2 & D3). destruct (Vb x D1) as [Y1 Y2]. rewrite eval_pol in Y2. cbn [eval]. rewrite <- Y2. rewrite <- gpow_pos by (rewrite Y2; exact D2). apply Vr; [apply dom_pol, Y1|rewrite Y2; left; exact D2|exact D3].
    + set (r := match a' with Pol q => if all_coeffs 0 q then cst nv 1 else match q with [(c, k)] => if is_const 1 c && zero_row k then b' else Pow b' (Pol q) | _ => Pow b' (Pol q) end | _ => Pow b' a' end).
      exists r. split.
      { eapply ev_S; [|apply (ev_and _ _ Eb Ea)]. cbv beta. intros n [H1 H2]. cbn [ExprModel.simplify simp_step]. rewrite H1, H2. unfold r. destruct b'; try discriminate; destruct a' as [ |q| | | | | | | | ]; try reflexivity; (destruct (all_coeffs 0 q); [reflexivity|]; destruct q as [|[c k] [|u q]]; try reflexivity; destruct (is_const 1 c && zero_row k); reflexivity). }
      assert (K : r = Pow b' a' \/ (r = cst nv 1 /\ forall x, eval x a' = 0) \/ (r = b' /\ forall x, eval x a' = 1)).
      { unfold r. destruct a' as [ |q| | | | | | | | ]; try (left; reflexivity). destruct (all_coeffs 0 q) eqn:C0; [right; left; split; [reflexivity|]; intros x; rewrite eval_pol; apply all_coeffs0, C0|].
        destruct q as [|[c k] [|u q]]; try (left; reflexivity). destruct (is_const 1 c && zero_row k) eqn:C; [|left; reflexivity]. right. right. split; [reflexivity|]. intros x. apply andb_prop in C as [C2 Z]. rewrite eval_pol, single_val by exact Z. apply is_const_spec in C2. rewrite C2. reflexivity. }
      clearbody r. destruct K as [->|[[-> V0]|[-> V1]]].
      * split; [split; assumption|]. split; [exact (fle_plus _ _ _ _ (fle_refl (one 0)) (fle_plus _ _ _ _ Lb' La'))|]. split; [|discriminate]. intros x (D1 & D2 & D3). destruct (Vb x D1) as [B1 B2]. destruct (Va x D3) as [A1 A2]. cbn [dom eval]. rewrite B2, A2. auto.
      * split; [apply wf_cst|]. split; [apply cst_le; split; assumption|]. split; [|apply nodup_cst]. intros x (D1 & D2 & D3). destruct (Va x D3) as [A1 A2]. split; [apply dom_cst|]. cbn [eval]. rewrite eval_cst, <- A2, V0. symmetry. apply Rpower_O, D2.
      * split; [exact Wb'|]. split; [apply (fle_trans _ (ms b)); [exact Lb'|right; exact Lb]|]. split; [|exact Nb]. intros x (D1 & D2 & D3). destruct (Vb x D1) as [B1 B2]. destruct (Va x D3) as [A1 A2]. split; [exact B1|]. cbn [eval]. rewrite <- A2, V1, B2. symmetry. apply Rpower_1, D2.
  - assert (La : flt (ms a) (ms (Log a))) by exact (plus_gt_r (one 0) (ms a) (one_pos 0)). destruct (IH a La W) as (a' & Ea & Wa' & La' & Va & Na).
    set (r := match a' with Pol [(c, k)] => if is_const 1 c && zero_row k then cst nv 0 else Log a' | _ => Log a' end). exists r. split.
    { eapply ev_S; [|exact Ea]. cbv beta. intros n H1. cbn [ExprModel.simplify simp_step]. rewrite H1. unfold r. destruct a' as [ |[|[c k] [|u q]]| | | | | | | | ]; try reflexivity. destruct (is_const 1 c && zero_row k); reflexivity. }
    assert (K : r = Log a' \/ r = cst nv 0 /\ forall x, eval x a' = 1).
    { unfold r. destruct a' as [ |[|[c k] [|u q]]| | | | | | | | ]; try (left; reflexivity). destruct (is_const 1 c && zero_row k) eqn:C; [|left; reflexivity]. right. split; [reflexivity|]. intros x. apply andb_prop in C as [C2 Z]. rewrite eval_pol, single_val by exact Z. apply is_const_spec in C2. rewrite C2. reflexivity. }
    clearbody r. destruct K as [->|[-> V1]].
    + split; [exact Wa'|]. split; [exact (fle_plus _ _ _ _ (fle_refl (one 0)) La')|]. split; [|discriminate]. intros x [D1 D2]. destruct (Va x D1) as [A1 A2]. cbn [dom eval]. rewrite A2. auto.
    + split; [apply wf_cst|]. split; [apply cst_le, W|]. split; [|apply nodup_cst]. intros x [D1 D2]. destruct (Va x D1) as [A1 A2]. split; [apply dom_cst|]. cbn [eval]. rewrite eval_cst, <- A2, V1. symmetry. apply ln_1.
  - assert (La : flt (ms a) (ms (Exp a))) by exact (plus_gt_r (one 0) (ms a) (one_pos 0)). destruct (IH a La W) as (a' & Ea & Wa' & La' & Va & Na).
    set (r := match a' with Pol [(c, k)] => if is_const 0 c && zero_row k then cst nv 1 else Exp a' | _ => Exp a' end). exists r. split.
    { eapply ev_S; [|exact Ea]. cbv beta. intros n H1. cbn [ExprModel.simplify simp_step]. rewrite H1. unfold r. destruct a' as [ |[|[c k] [|u q]]| | | | | | | | ]; try reflexivity. destruct (is_const 0 c && zero_row k); reflexivity. }
    assert (K : r = Exp a' \/ r = cst nv 1 /\ forall x, eval x a' = 0).
    { unfold r. destruct a' as [ |[|[c k] [|u q]]| | | | | | | | ]; try (left; reflexivity). destruct (is_const 0 c && zero_row k) eqn:C; [|left; reflexivity]. right. split; [reflexivity|]. intros x. apply andb_prop in C as [C2 Z]. rewrite eval_pol, single_val by exact Z. apply is_const_spec in C2. rewrite C2. reflexivity. }
    clearbody r. destruct K as [->|[-> V1]].
    + split; [exact Wa'|]. split; [exact (fle_plus _ _ _ _ (fle_refl (one 0)) La')|]. split; [|discriminate]. intros x D. destruct (Va x D) as [A1 A2]. cbn [dom eval]. rewrite A2. auto.
    + split; [apply wf_cst|]. split; [apply cst_le, W|]. split; [|apply nodup_cst]. intros x D. destruct (Va x D) as [A1 A2]. split; [apply dom_cst|]. cbn [eval]. rewrite eval_cst, <- A2, V1. symmetry. apply exp_0.
Qed.
End Nv.
(** ** more fuel does not change the result *)
Definition ext_of (f g : expr -> option expr) : Prop := forall e r, f e = Some r -> g e = Some r.
Lemma option_all_ext {A B} (f g : A -> option B) l : (forall a r, f a = Some r -> g a = Some r) -> forall m, option_all (map f l) = Some m -> option_all (map g l) = Some m.
Proof.
  intros H. induction l as [|a l IH]; intros m; [auto|]. cbn [map option_all]. destruct (f a) as [b|] eqn:E; [|discriminate]. rewrite (H a b E). destruct (option_all (map f l)) as [s|]; [|discriminate]. rewrite (IH s eq_refl). auto.
Qed.
Section Mono.
Variable nv : nat.
Variables f g : expr -> option expr.
Hypothesis H : ext_of f g.
Lemma pol_simplify_ext p q : pol_simplify nv f p = Some q -> pol_simplify nv g p = Some q.
Proof.
  unfold pol_simplify, deep. match goal with |- context [option_all (map ?F _)] => destruct (option_all (map F (sort_by snd p))) as [s|] eqn:E end; [|discriminate]. intros Hq.
  erewrite option_all_ext; [exact Hq| |exact E]. intros [c k] r. cbn [fst snd]. destruct (is_num c); [auto|]. destruct (f c) as [c'|] eqn:Ec; [|discriminate]. rewrite (H c c' Ec). auto.
Qed.
Lemma exponentiated_ext p a r : exponentiated nv f p a = Some r -> exponentiated nv g p a = Some r.
Proof.
  unfold exponentiated. intros E. assert (K : exists a', (if is_num a then Some a else match f a with Some a0 => Some (exponent_const a0) | None => None end) = Some a' /\ (if is_num a then Some a else match g a with Some a0 => Some (exponent_const a0) | None => None end) = Some a').
  { destruct (is_num a); [exists a; auto|]. destruct (f a) as [a'|] eqn:Ea; [|discriminate]. rewrite (H a a' Ea). eauto. }
  destruct K as (a' & K1 & K2). rewrite K1 in E. rewrite K2. destruct (is_const 0 a'); [exact E|]. destruct (is_const 1 a'); [exact E|]. destruct (pol_simplify nv f p) as [q|] eqn:Eq; [|discriminate]. rewrite (pol_simplify_ext p q Eq). exact E.
Qed.
Lemma simp_step_ext : ext_of (simp_step nv f) (simp_step nv g).
Proof.
  intros e r. destruct e as [x|p|p a|p|l|l|terms cache|b a|a|a]; cbn [simp_step].
  - auto.
  - destruct (pol_simplify nv f p) as [q|] eqn:E; [|discriminate]. rewrite (pol_simplify_ext p q E). auto.
  - apply exponentiated_ext.
  - destruct (pol_simplify nv f p) as [q|] eqn:E; [|discriminate]. rewrite (pol_simplify_ext p q E). auto.
  - destruct (option_all (map f l)) as [m|] eqn:E; [|discriminate]. rewrite (option_all_ext f g l H m E). destruct (sum_pass m) as [[[|] s] z]; [|auto]. destruct s as [|s0 s]; [destruct z; [auto|apply H]|apply H].
  - destruct (option_all (map f l)) as [m|] eqn:E; [|discriminate]. rewrite (option_all_ext f g l H m E). destruct (prod_pass nv m) as [[[[|] s] z]|z]; [|auto|auto]. destruct s as [|s0 s]; [destruct z; [auto|apply H]|apply H].
  - auto.
  - destruct (f b) as [b'|] eqn:E; [|discriminate]. rewrite (H b b' E). destruct b' as [ |p| | | | | | | | ]; try (destruct (f a) as [a'|] eqn:Ea; [|discriminate]; rewrite (H a a' Ea); auto; fail). apply exponentiated_ext.
  - destruct (f a) as [a'|] eqn:E; [|discriminate]. rewrite (H a a' E). auto.
  - destruct (f a) as [a'|] eqn:E; [|discriminate]. rewrite (H a a' E). auto.
Qed.
End Mono.
Lemma simplify_S nv n : ext_of (simplify nv n) (simplify nv (S n)).
Proof. induction n as [|n IH]; [intros e r; discriminate|]. exact (simp_step_ext nv _ _ IH). Qed.
Lemma simplify_mono nv n m e r : (n <= m)%nat -> simplify nv n e = Some r -> simplify nv m e = Some r.
Proof. intros L E. induction L as [|m L IH]; [exact E|]. apply simplify_S, IH. Qed.
