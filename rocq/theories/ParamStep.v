(** The loop of [numerator]: invariant, one derivative, removal of a parameter. *)
From Coq Require Import Reals Lra Lia List ZArith.
From Verif Require Import PolyProofs RealField PolyReal ParamModel ParamSpec ParamProofs ParamReal.
Import ListNotations.
Local Open Scope nat_scope.

Notation rstate := (nstate R_Fld).
Definition Uv (s : rstate) (x : list R) : R := peval (sU s) (x ++ [0%R; 0%R] : list R).
Definition Fv (s : rstate) (x : list R) : R := peval (sF s) (x ++ [0%R; 0%R] : list R).
Definition H (s : rstate) (x : list R) : R :=
  (Rpower (Uv s x) (sn s) * Rpower (Fv s x) (- sm s) * peval (sNu s) (x ++ [Uv s x; Fv s x] : list R))%R.
Definition indep (n : nat) (p : rpoly) : Prop := forall (x : list R) (a b a' b' : R), length x = n ->
  peval p (x ++ [a; b] : list R) = peval p (x ++ [a'; b'] : list R).
Record inv (n : nat) (s : rstate) : Prop := mkInv {
  i_U : proper (n + 2) (sU s); i_F : proper (n + 2) (sF s); i_Us : proper (n + 2) (sUs s); i_Fs : proper (n + 2) (sFs s);
  i_Nu : proper (n + 2) (sNu s); i_iU : indep n (sU s); i_iF : indep n (sF s);
  i_sU : forall (x : list R) (a b : R), length x = n -> peval (sUs s) (x ++ [a; b] : list R) = a;
  i_sF : forall (x : list R) (a b : R), length x = n -> peval (sFs s) (x ++ [a; b] : list R) = b }.
Definition dom (n : nat) (s : rstate) (x : list R) : Prop := length x = n /\ (0 < Uv s x)%R /\ (0 < Fv s x)%R.

Lemma upd_nth_id (i : nat) (x : list R) : upd i (nth i x 0%R) x = x.
Proof. revert i; induction x as [|c y IH]; intros [|i]; cbn; congruence. Qed.
Lemma indep_derive n i p (x : list R) (a b : R) : indep n p -> proper (n + 2) p -> length x = n -> i < n ->
  derivable_pt_lim (fun t => peval p (upd i t x ++ [0%R; 0%R] : list R)) (nth i x 0%R) (peval (pderive p i) (x ++ [a; b] : list R)).
Proof.
  intros I P L Hi.
  assert (Q := poly_curve n i x L Hi (fun _ => a) (fun _ => b) 0%R 0%R (derivable_pt_lim_const a _) (derivable_pt_lim_const b _) p P).
  eapply deriv_ext; [|eapply deriv_val; [exact Q|]].
  - intros t. cbv beta. apply I. rewrite upd_length. exact L.
  - cbv beta. cbn. ring.
Qed.
Lemma Rpower_pred (u n : R) : (0 < u)%R -> (Rpower u (n - 1) * u = Rpower u n)%R.
Proof. intros Hu. rewrite <- (Rpower_1 u Hu) at 2. rewrite <- Rpower_plus. f_equal. lra. Qed.
Lemma Rpower_comp_deriv (g : R -> R) (t g' n : R) : (0 < g t)%R -> derivable_pt_lim g t g' ->
  derivable_pt_lim (fun r => Rpower (g r) n) t (n * Rpower (g t) (n - 1) * g')%R.
Proof. intros Hp Hg. apply (derivable_pt_lim_comp g (fun v => Rpower v n) t g' _ Hg). apply derivable_pt_lim_power. exact Hp. Qed.

Lemma one_derivative_inv n i s : inv n s -> inv n (one_derivative i s).
Proof.
  intros []. unfold one_derivative. constructor; cbn [sU sF sUs sFs sNu]; try assumption.
  destruct (any_coeff _).
  all: repeat match goal with
       | |- proper _ (pplus _ _) => apply proper_plus
       | |- proper _ (ptimes _ _) => apply proper_times
       | |- proper _ (pderive _ _) => apply proper_derive
       | |- proper _ (pmul_num _ _) => apply proper_mul_num
       end; assumption.
Qed.

Lemma one_derivative_correct n i s (x : list R) : inv n s -> i < n -> dom n s x ->
  derivable_pt_lim (fun t => H s (upd i t x)) (nth i x 0%R) (H (one_derivative i s) x).
Proof.
  intros I Hi (L & HU & HF). pose proof I as [PU PF PUs PFs PN IU IF SU SF].
  set (u := Uv s x) in *. set (f := Fv s x) in *. set (X := (x ++ [u; f] : list R)).
  set (xi := nth i x 0%R).
  set (dU := peval (pderive (sU s) i) X). set (dF := peval (pderive (sF s) i) X).
  assert (DU : derivable_pt_lim (fun t => Uv s (upd i t x)) xi dU) by (apply (indep_derive n); assumption).
  assert (DF : derivable_pt_lim (fun t => Fv s (upd i t x)) xi dF) by (apply (indep_derive n); assumption).
  assert (EU : Uv s (upd i xi x) = u) by (unfold xi; rewrite upd_nth_id; reflexivity).
  assert (EF : Fv s (upd i xi x) = f) by (unfold xi; rewrite upd_nth_id; reflexivity).
  assert (DN := poly_curve n i x L Hi (fun t => Uv s (upd i t x)) (fun t => Fv s (upd i t x)) dU dF DU DF (sNu s) PN).
  fold xi in DN. cbv beta in DN. rewrite EU, EF in DN. fold X in DN.
  assert (D1 := Rpower_comp_deriv (fun t => Uv s (upd i t x)) xi dU (sn s) ltac:(cbv beta; rewrite EU; exact HU) DU).
  assert (D2 := Rpower_comp_deriv (fun t => Fv s (upd i t x)) xi dF (- sm s)%R ltac:(cbv beta; rewrite EF; exact HF) DF).
  cbv beta in D1, D2. rewrite EU in D1. rewrite EF in D2.
  assert (D := derivable_pt_lim_mult _ _ xi _ _ (derivable_pt_lim_mult _ _ xi _ _ D1 D2) DN).
  eapply deriv_ext; [|eapply deriv_val; [exact D|]]; [reflexivity|].
  unfold mult_fct. cbv beta. rewrite EU, EF. assert (Ex : upd i xi x = x) by apply upd_nth_id. rewrite Ex. fold X.
  set (N := peval (sNu s) X) in *. set (N1 := peval (pderive (sNu s) i) X) in *.
  set (N2 := peval (pderive (sNu s) n) X) in *. set (N3 := peval (pderive (sNu s) (n + 1)) X) in *.
  assert (LX : length X = n + 2) by (unfold X; rewrite app_length; cbn; lia).
  pose proof (proj1 PN) as EN.
  assert (PdU : proper (n + 2) (pderive (sU s) i)) by (apply proper_derive; assumption).
  assert (PdF : proper (n + 2) (pderive (sF s) i)) by (apply proper_derive; assumption).
  assert (PT : forall p q : rpoly, proper (n + 2) p -> proper (n + 2) q -> proper (n + 2) (ptimes p q)) by (intros p q A B; apply (proper_times R_Fld _ _ _ A B)).
  assert (ET : forall p q : rpoly, proper (n + 2) p -> proper (n + 2) q -> peval (ptimes p q) X = (peval p X * peval q X)%R)
    by (intros p q A B; apply (proj2 (proper_times R_Fld _ _ _ A B) X LX)).
  assert (PP : forall p q : rpoly, proper (n + 2) p -> proper (n + 2) q -> proper (n + 2) (pplus p q)) by (intros p q A B; apply (proper_plus R_Fld _ _ _ A B)).
  assert (EP : forall p q : rpoly, proper (n + 2) p -> proper (n + 2) q -> peval (pplus p q) X = (peval p X + peval q X)%R)
    by (intros p q A B; apply (proj2 (proper_plus R_Fld _ _ _ A B) X)).
  assert (PM : forall (p : rpoly) (c : R), proper (n + 2) p -> proper (n + 2) (@pmul_num R_Fld p c)) by (intros p c A; apply (@proper_mul_num R_Fld); assumption).
  assert (EM : forall (p : rpoly) (c : R), peval (@pmul_num R_Fld p c) X = (peval p X * c)%R) by (intros p c; apply (@pmul_num_eval R_Fld)).
  assert (PD : forall (p : rpoly) j, proper (n + 2) p -> proper (n + 2) (pderive p j)) by (intros p j A; apply (@proper_derive R_Fld); assumption).
  assert (ES : peval (sUs s) X = u) by (apply SU; exact L). assert (ES' : peval (sFs s) X = f) by (apply SF; exact L).
  change (H (one_derivative i s) x) with (Rpower u (sn (one_derivative i s)) * Rpower f (- sm (one_derivative i s)) * peval (sNu (one_derivative i s)) X)%R.
  unfold one_derivative. cbn [sn sm sNu]. rewrite EN.
  replace (n + 2 - 1) with (n + 1) by lia. replace (n + 2 - 2) with n by lia.
  change (@fsub R_Fld) with Rminus. change (@fadd R_Fld) with Rplus. change (@fopp R_Fld) with Ropp. change (@f1 R_Fld) with 1%R.
  assert (RF : Rpower f (- (sm s + 1)) = Rpower f (- sm s - 1)) by (f_equal; lra).
  rewrite RF. rewrite <- (Rpower_pred f (- sm s) HF).
  destruct (any_coeff (pderive (sU s) i)) eqn:Ec.
  - repeat (rewrite EP || rewrite ET || rewrite EM); auto 12. 
    rewrite ES, ES'. fold dU dF N N1 N2 N3. rewrite <- (Rpower_pred u (sn s) HU). ring.
  - assert (Z : dU = 0%R) by (apply (@peval_zero_coeffs R_Fld); exact Ec).
    repeat (rewrite EP || rewrite ET || rewrite EM); auto 12.
    rewrite ES'. fold dU dF N N1 N2 N3. rewrite Z. ring.
Qed.

Lemma insert_app (i : nat) (y : list R) (a b : R) : i <= length y ->
  firstn i (y ++ [a; b]) ++ 0%R :: skipn i (y ++ [a; b]) = insert_at i 0%R y ++ [a; b].
Proof.
  intros Hl. unfold insert_at. rewrite firstn_app, skipn_app. replace (i - length y) with 0 by lia. cbn [firstn skipn].
  rewrite app_nil_r, <- app_assoc. reflexivity.
Qed.
Lemma insert_length i v (y : list R) : length (insert_at i v y) = S (length y).
Proof. unfold insert_at. rewrite app_length. cbn. rewrite firstn_length, skipn_length. lia. Qed.
Lemma drop_eval n i (p : rpoly) (y : list R) (a b : R) : proper (S n + 2) p -> i < S n -> length y = n ->
  peval (drop0 i p) (y ++ [a; b] : list R) = peval p (insert_at i 0%R y ++ [a; b] : list R).
Proof.
  intros P Hi L. rewrite <- (insert_app i y a b) by lia. apply (proj2 (proper_drop R_Fld (n + 2) p i P ltac:(lia))).
  rewrite app_length. cbn. lia.
Qed.
Lemma drop_proper n i (p : rpoly) : proper (S n + 2) p -> i < S n -> proper (n + 2) (drop0 i p).
Proof. intros P Hi. apply (proper_drop R_Fld (n + 2) p i P). lia. Qed.
Lemma drop_parameter_inv n i s : inv (S n) s -> i < S n -> inv n (drop_parameter i s).
Proof.
  intros [PU PF PUs PFs PN IU IF SU SF] Hi. unfold drop_parameter. constructor; cbn [sU sF sUs sFs sNu]; try (apply drop_proper; assumption).
  - intros x a b a' b' L. rewrite !(drop_eval n i (sU s)) by assumption. apply IU. rewrite insert_length. lia.
  - intros x a b a' b' L. rewrite !(drop_eval n i (sF s)) by assumption. apply IF. rewrite insert_length. lia.
  - intros x a b L. rewrite (drop_eval n i) by assumption. apply SU. rewrite insert_length. lia.
  - intros x a b L. rewrite (drop_eval n i) by assumption. apply SF. rewrite insert_length. lia.
Qed.
Lemma drop_parameter_eval n i s (y : list R) : inv (S n) s -> i < S n -> length y = n ->
  Uv (drop_parameter i s) y = Uv s (insert_at i 0%R y) /\ Fv (drop_parameter i s) y = Fv s (insert_at i 0%R y) /\
  H (drop_parameter i s) y = H s (insert_at i 0%R y).
Proof.
  intros [PU PF PUs PFs PN IU IF SU SF] Hi L.
  assert (E1 : Uv (drop_parameter i s) y = Uv s (insert_at i 0%R y)) by (unfold Uv, drop_parameter; cbn [sU]; apply (drop_eval n); assumption).
  assert (E2 : Fv (drop_parameter i s) y = Fv s (insert_at i 0%R y)) by (unfold Fv, drop_parameter; cbn [sF]; apply (drop_eval n); assumption).
  split; [exact E1|]. split; [exact E2|]. unfold H. rewrite E1, E2. unfold drop_parameter. cbn [sn sm sNu]. rewrite (drop_eval n) by assumption. reflexivity.
Qed.

(** congruence of the specification *)
Lemma nth_partial_ext k i n : forall (D D' : list R -> Prop) f f' g, (forall x, D' x -> D x) -> (forall x, D x -> length x = n) ->
  (forall x, length x = n -> f x = f' x) -> nth_partial k i D f g -> nth_partial k i D' f' g.
Proof.
  induction k as [|k IH]; cbn [nth_partial]; intros D D' f f' g S L E Q.
  - intros x Hx. rewrite <- E by auto. auto.
  - destruct Q as (h & P & Q). exists h. split.
    + intros x Hx. eapply deriv_ext; [|apply P; auto]. intros t. cbv beta. apply E. rewrite upd_length. auto.
    + eapply IH; eauto.
Qed.
Lemma parametric_ext steps : forall n (D D' : list R -> Prop) f f' g, (forall x, D' x -> D x) -> (forall x, D x -> length x = n) ->
  (forall x, length x = n -> f x = f' x) -> parametric steps D f g -> parametric steps D' f' g.
Proof.
  induction steps as [|[i [k d]] r IH]; cbn [parametric]; intros n D D' f f' g S L E Q.
  - intros x Hx. rewrite <- E by auto. auto.
  - destruct Q as (h & P & Q). exists h. split; [eapply nth_partial_ext; eauto|]. destruct d.
    + eapply (IH (n - 1)); [| | |exact Q]; cbv beta; auto. intros x Hx. apply L in Hx. rewrite insert_length in Hx. lia.
    + eapply (IH n); eauto.
Qed.

Lemma many_correct k : forall n i s, inv n s -> i < n ->
  inv n (many_derivatives k i s) /\ nth_partial k i (dom n s) (H s) (H (many_derivatives k i s)).
Proof.
  induction k as [|k IH]; intros n i s I Hi; cbn [many_derivatives nth_partial].
  - split; [exact I|reflexivity].
  - destruct (IH n i (one_derivative i s) (one_derivative_inv n i s I) Hi) as [I' Q]. split; [exact I'|].
    exists (H (one_derivative i s)). split; [intros x Hx; apply (one_derivative_correct n); assumption|exact Q].
Qed.
Lemma many_fields k i : forall s : rstate, sU (many_derivatives k i s) = sU s /\ sF (many_derivatives k i s) = sF s /\ @eq R (sm (many_derivatives k i s)) (sm s + INR k)%R.
Proof.
  induction k as [|k IH]; intros s; cbn [many_derivatives]; [repeat split; symmetry; apply Rplus_0_r|]. destruct (IH (one_derivative i s)) as (-> & -> & ->).
  split; [reflexivity|]. split; [reflexivity|]. rewrite S_INR. cbn [one_derivative sm]. change (@fadd R_Fld) with Rplus. change (@f1 R_Fld) with 1%R. generalize (sm s : R). intros r. change (r + 1 + INR k = r + (INR k + 1))%R. ring.
Qed.
Lemma combine_snoc {A B} (l : list A) (m : list B) a b : length l = length m -> combine (l ++ [a]) (m ++ [b]) = combine l m ++ [(a, b)].
Proof. revert m. induction l as [|c l IH]; intros [|e m] E; cbn in *; try discriminate; [reflexivity|]. f_equal. apply IH. lia. Qed.
Lemma rev_combine_snoc {A} (l : list A) a : rev (combine (seq 0 (length (l ++ [a]))) (l ++ [a])) = (length l, a) :: rev (combine (seq 0 (length l)) l).
Proof.
  rewrite app_length. cbn [length]. rewrite seq_app. cbn [seq]. rewrite combine_snoc by (rewrite seq_length; reflexivity).
  rewrite rev_app_distr. reflexivity.
Qed.
Definition remaining (n : nat) (kd : list (nat * bool)) : nat := n - length (filter snd kd).
Definition remaining_poly (n : nat) (s : rstate) (U Fp : rpoly) : Prop :=
  proper n U /\ proper n Fp /\ (forall y : list R, length y = n -> Uv s y = peval U y) /\ (forall y : list R, length y = n -> Fv s y = peval Fp y).
Theorem loop_correct (kd : list (nat * bool)) : forall n s U Fp, length kd <= n -> inv n s -> remaining_poly n s U Fp ->
  let s' := num_loop kd s in let n' := n - length (filter snd kd) in
  inv n' s' /\ parametric (rev (combine (seq 0 (length kd)) kd)) (dom n s) (H s) (H s') /\
  remaining_poly n' s' (drop_loop (map snd kd) U) (drop_loop (map snd kd) Fp) /\
  @eq R (sm s') (sm s + INR (list_sum (map fst kd)))%R.
Proof.
  induction kd as [|[k d] kd IH] using rev_ind; intros n s U Fp Hl I RP; cbv zeta.
  - cbn. rewrite Nat.sub_0_r. split; [exact I|]. split; [reflexivity|]. split; [exact RP|]. symmetry; apply Rplus_0_r.
  - rewrite app_length in Hl. cbn in Hl. unfold num_loop, drop_loop. rewrite map_app. cbn [map snd].
    rewrite rev_combine_snoc. rewrite (rev_combine_snoc (map snd kd) d). cbn [fold_left]. rewrite !map_length.
    set (i := length kd). assert (Hi : i < n) by (unfold i; lia).
    destruct (many_correct k n i s I Hi) as [I1 Q1]. destruct (many_fields k i s) as (FU & FF & Fm).
    change (num_step s (i, (k, d))) with (if d then drop_parameter i (many_derivatives k i s) else many_derivatives k i s). cbn [fst snd].
    set (s1 := many_derivatives k i s) in *.
    assert (D1 : forall x, dom n s x -> dom n s1 x) by (intros x (a & b & c); unfold dom, Uv, Fv; rewrite FU, FF; auto).
    assert (RP1 : remaining_poly n s1 U Fp) by (destruct RP as (a & b & c & e); unfold remaining_poly, Uv, Fv; rewrite FU, FF; auto).
    destruct n as [|n']; [lia|].
    destruct d.
    + assert (I2 : inv n' (drop_parameter i s1)) by (apply drop_parameter_inv; assumption).
      assert (RP2 : remaining_poly n' (drop_parameter i s1) (drop0 i U) (drop0 i Fp)).
      { destruct RP1 as (a & b & c & e).
        destruct (proper_drop R_Fld n' U i a Hi) as [a1 a2]. destruct (proper_drop R_Fld n' Fp i b Hi) as [b1 b2].
        split; [exact a1|]. split; [exact b1|]. split; intros y Ly; destruct (drop_parameter_eval n' i s1 y I1 Hi Ly) as (E1 & E2 & _).
        - rewrite E1, (c (insert_at i 0%R y)) by (rewrite insert_length; lia). symmetry. apply a2. exact Ly.
        - rewrite E2, (e (insert_at i 0%R y)) by (rewrite insert_length; lia). symmetry. apply b2. exact Ly. }
      destruct (IH n' (drop_parameter i s1) (drop0 i U) (drop0 i Fp) ltac:(lia) I2 RP2) as (J1 & J2 & J3 & J4).
      rewrite filter_app, app_length. cbn [filter snd length]. replace (S n' - (length (filter snd kd) + 1)) with (n' - length (filter snd kd)) by lia.
      unfold num_loop, drop_loop in *. rewrite !map_length in J3.
      split; [exact J1|]. split; [|split; [exact J3|]].
      * cbn [parametric]. exists (H s1). split; [exact Q1|].
        eapply (parametric_ext _ n'); [| | |exact J2].
        -- intros y Hy. apply D1 in Hy. destruct Hy as (a & b & c). rewrite insert_length in a. assert (Ly : length y = n') by lia.
           destruct (drop_parameter_eval n' i s1 y I1 Hi Ly) as (E1 & E2 & _). unfold dom. rewrite E1, E2. auto.
        -- intros y (a & _). exact a.
        -- intros y Ly. apply (drop_parameter_eval n' i s1 y I1 Hi Ly).
      * fold i in J4. rewrite J4. unfold drop_parameter. cbn [sm]. rewrite Fm. rewrite map_app, list_sum_app, plus_INR. cbn [map fst list_sum fold_right]. rewrite Nat.add_0_r. generalize (sm s : R) (INR (list_sum (map fst kd))) (INR k). intros r1 r2 r3. change (r1 + r3 + r2 = r1 + (r2 + r3))%R. ring.
    + destruct (IH (S n') s1 U Fp ltac:(lia) I1 RP1) as (J1 & J2 & J3 & J4).
      rewrite filter_app, app_length. cbn [filter snd length]. rewrite Nat.add_0_r.
      unfold num_loop, drop_loop in *. rewrite !map_length in J3.
      split; [exact J1|]. split; [|split; [exact J3|]].
      * cbn [parametric]. exists (H s1). split; [exact Q1|].
        eapply (parametric_ext _ (S n')); [exact D1| |reflexivity|exact J2]. intros y (a & _). exact a.
      * fold i in J4. rewrite J4, Fm. rewrite map_app, list_sum_app, plus_INR. cbn [map fst list_sum fold_right]. rewrite Nat.add_0_r. generalize (sm s : R) (INR (list_sum (map fst kd))) (INR k). intros r1 r2 r3. change (r1 + r3 + r2 = r1 + (r2 + r3))%R. ring.
Qed.

(** the initial state *)
Lemma extend_eval (p : rpoly) n (x : list R) (a b : R) : proper n p -> length x = n -> peval (extend p) (x ++ [a; b] : list R) = peval p x.
Proof.
  intros P L. apply proper_rows in P. destruct P as [_ P]. unfold extend, peval. cbn [ptm]. rewrite map_map. f_equal. apply map_ext_in.
  intros t Ht. rewrite Forall_forall in P. destruct (P t Ht) as [Lt _]. cbn [fst snd]. rewrite (meval_app R_Fld) by (rewrite Lt; symmetry; exact L). cbn. ring.
Qed.
Lemma extend_proper (p : rpoly) n : proper n p -> proper (n + 2) (extend p).
Proof.
  intros P. apply proper_rows in P. destruct P as [E P]. apply proper_rows. unfold extend. cbn [pnv ptm]. split; [lia|].
  rewrite Forall_map. cbn [fst]. eapply Forall_impl; [|exact P]. cbv beta. intros t [L A]. split; [rewrite app_length, L; reflexivity|].
  apply Forall_app. split; [exact A|]. repeat constructor; lia.
Qed.
Lemma symbol_proper n i : proper n (@psymbol R_Fld n i).
Proof.
  apply proper_rows. split; [reflexivity|]. cbn [psymbol ptm]. constructor; [|constructor]. cbn [fst]. destruct (rok_zrow n) as [L A].
  split; [rewrite upd_length; exact L|]. apply Forall_upd; [lia|exact A].
Qed.
Lemma symbol_eval n (x : list R) (a b : R) : length x = n ->
  peval (@psymbol R_Fld (n + 2) n) (x ++ [a; b] : list R) = a /\ peval (@psymbol R_Fld (n + 2) (n + 1)) (x ++ [a; b] : list R) = b.
Proof.
  intros L. assert (E : zrow (n + 2) = zrow n ++ [0; 0]%Z) by (unfold zrow; rewrite repeat_app; reflexivity).
  pose proof (zrow_length n) as Lz. unfold peval, psymbol. cbn [ptm map fst snd sumF]. rewrite E.
  assert (G1 : forall z : list Z, length z = n -> upd n 1%Z (z ++ [0; 0]%Z) = z ++ [1; 0]%Z)
    by (intros z <-; rewrite <- (Nat.add_0_r (length z)), upd_app_r; reflexivity).
  assert (G2 : forall z : list Z, length z = n -> upd (n + 1) 1%Z (z ++ [0; 0]%Z) = z ++ [0; 1]%Z)
    by (intros z <-; rewrite upd_app_r; reflexivity).
  split.
  - replace (upd n 1%Z (zrow n ++ [0; 0]%Z)) with (zrow n ++ [1; 0]%Z) by (symmetry; apply G1; exact Lz).
    rewrite (meval_app R_Fld) by (rewrite Lz; symmetry; exact L). rewrite (@meval_zrow R_Fld). cbn. change (Pos.to_nat 1) with 1%nat. cbn. ring.
  - replace (upd (n + 1) 1%Z (zrow n ++ [0; 0]%Z)) with (zrow n ++ [0; 1]%Z) by (symmetry; apply G2; exact Lz).
    rewrite (meval_app R_Fld) by (rewrite Lz; symmetry; exact L). rewrite (@meval_zrow R_Fld). cbn. change (Pos.to_nat 1) with 1%nat. cbn. ring.
Qed.
Lemma init_inv P (U Fp Nu : rpoly) (n m : R) : proper P U -> proper P Fp -> proper (P + 2) Nu ->
  inv P (@num_init R_Fld U Fp Nu n m) /\ remaining_poly P (@num_init R_Fld U Fp Nu n m) U Fp.
Proof.
  intros HU HF HN. pose proof (proj1 HU) as EU. unfold num_init. rewrite EU. split.
  - constructor; cbn [sU sF sUs sFs sNu]; try (apply extend_proper; assumption); try apply symbol_proper; try assumption.
    + intros x a b a' b' L. rewrite !(extend_eval U P) by assumption. reflexivity.
    + intros x a b a' b' L. rewrite !(extend_eval Fp P) by assumption. reflexivity.
    + intros x a b L. apply (symbol_eval P x a b L).
    + intros x a b L. apply (symbol_eval P x a b L).
  - split; [exact HU|]. split; [exact HF|]. split; intros y L; unfold Uv, Fv; cbn [sU sF]; apply (extend_eval _ P); assumption.
Qed.
