(** C71: functions with a maximal degree; C09: existence of derivatives, examples and deviations. *)
From Coq Require Import Lia FunctionalExtensionality Permutation.
From Verif Require Import SortProofs FunSpec FunChain ExprArith ExprMixed ExprSimp ExprDerive ExprMore ExprOrd PropExpr FunProofs PropFun.
Local Open Scope R_scope.

(** ** derivatives of monomials *)
Fixpoint fall (z : Z) (r : nat) : R := match r with O => 1 | S r' => fall z r' * IZR (z - Z.of_nat r') end.
Lemma fall_zero z r : (0 <= z < Z.of_nat r)%Z -> fall z r = 0.
Proof. induction r as [|r IH]; intros H; [lia|]. cbn [fall]. destruct (Z.eq_dec z (Z.of_nat r)) as [->|N]; [rewrite Z.sub_diag; ring|]. rewrite IH by lia. ring. Qed.
Lemma setk_setk i v w (k : list Z) : setk i v (setk i w k) = setk i v k.
Proof. revert i. induction k as [|y k IH]; intros [|i]; cbn; f_equal; auto. Qed.
Lemma setk_same i (k : list Z) : setk i (getk i k) k = k.
Proof. revert i. induction k as [|y k IH]; intros [|i]; cbn; f_equal. apply IH. Qed.
Lemma row_ok_set x j v k : forall o, row_ok x o k -> (0 <= v)%Z -> row_ok x o (setk j v k).
Proof. revert j. induction k as [|y k IH]; intros [|j] o H V; cbn in *; try tauto. destruct H as [A B]. split; [exact A|]. apply IH; assumption. Qed.
Section Poly.
Variables (nv j : nat) (p : list (expr * list Z)) (d : nat).
Hypothesis Hj : (j < nv)%nat.
Hypothesis Hp : Forall (fun t => is_num (fst t) = true /\ length (snd t) = nv /\ (0 <= getk j (snd t) <= Z.of_nat d)%Z) p.
Notation U := (fun x => dom x (Pol p)).
Definition dterm (r : nat) (x : point) (t : expr * list Z) : R := eval x (fst t) * (fall (getk j (snd t)) r * mono x 0 (setk j (getk j (snd t) - Z.of_nat r) (snd t))).
Definition dpoly (r : nat) (x : point) : R := sumR (map (dterm r x) p).
Lemma dterm_pd r x t : is_num (fst t) = true -> length (snd t) = nv -> (0 <= getk j (snd t))%Z -> row_ok x 0 (snd t) -> pd j (fun y => dterm r y t) x (dterm (S r) x t).
Proof.
  intros N L P RO. destruct t as [c k]. cbn [fst snd] in *. destruct c; try discriminate. unfold dterm. cbn [fst snd eval fall].
  destruct (Z_lt_le_dec (getk j k) (Z.of_nat r)) as [Z|Z].
  - rewrite (fall_zero (getk j k) r) by lia. replace (r0 * (0 * IZR (getk j k - Z.of_nat r) * mono x 0 (setk j (getk j k - Z.of_nat (S r)) k))) with 0 by ring.
    apply (dlim_ext (fun _ => 0) _ _ _ 1 Rlt_0_1); [intros; ring|apply derivable_pt_lim_const].
  - set (k' := setk j (getk j k - Z.of_nat r) k). assert (L' : (j < length k')%nat) by (unfold k'; rewrite setk_len; lia).
    assert (G : getk j k' = (getk j k - Z.of_nat r)%Z) by (unfold k'; rewrite getk_setk, Nat.eqb_refl by lia; reflexivity).
    assert (RO' : row_ok x 0 k') by (apply row_ok_set; [exact RO|lia]).
    destruct (mono_pd x k' 0 j L' RO') as [M _]. rewrite G in M. unfold k' in M at 2. rewrite setk_setk in M. replace (getk j k - Z.of_nat r - 1)%Z with (getk j k - Z.of_nat (S r))%Z in M by lia.
    pose proof (pd_mult j (fun _ => r0 * fall (getk j k) r) (fun y => mono y 0 k') x 0 _ (pd_const j (r0 * fall (getk j k) r) x) M) as Q. cbv beta in Q.
    unfold pd in *. apply (dlim_ext (fun t => r0 * fall (getk j k) r * mono (upd x j t) 0 k') _ _ _ 1 Rlt_0_1); [intros t _; apply Rmult_assoc|].
    match goal with |- derivable_pt_lim _ _ ?v => replace v with (0 * mono x 0 k' + r0 * fall (getk j k) r * (IZR (getk j k - Z.of_nat r) * mono x 0 (setk j (getk j k - Z.of_nat (S r)) k))) by ring end. exact Q.
Qed.
Lemma dom_pol_rows x : dom x (Pol p) -> Forall (fun t => row_ok x 0 (snd t)) p.
Proof. cbn [dom]. rewrite allP_Forall. apply Forall_impl. intros [c k] [_ H]. exact H. Qed.
Lemma dpoly_pd r x : U x -> pd j (dpoly r) x (dpoly (S r) x).
Proof.
  intros HU. pose proof (dom_pol_rows x HU) as HR. unfold dpoly. clear HU. revert HR. induction Hp as [|t q (A & B & C) HQ IH]; intros HR; [exact (pd_const j 0 x)|]. apply Forall_cons_iff in HR as [HR1 HR2]. cbn [map]. change (sumR (?a :: ?b)) with (a + sumR b).
  apply (pd_plus j (fun y => dterm r y t) (fun y => sumR (map (dterm r y) q))); [apply dterm_pd; tauto|apply IH; assumption].
Qed.
Lemma dpoly_0 x : dpoly 0 x = eval x (Pol p).
Proof.
  unfold dpoly. cbn [eval]. apply f_equal. apply map_ext. intros [c k]. unfold dterm. cbn [fst snd fall]. change (Z.of_nat 0) with 0%Z. rewrite Z.sub_0_r, setk_same. ring.
Qed.
Lemma dpoly_end x : dpoly (S d) x = 0.
Proof.
  unfold dpoly. induction Hp as [|t q (_ & _ & C) HQ IH]; [reflexivity|]. cbn [map]. change (sumR (?a :: ?b)) with (a + sumR b). rewrite IH by assumption. unfold dterm. rewrite fall_zero by lia. ring.
Qed.
Lemma along_repeat (W : point -> Prop) (F : point -> R) r : (forall x, W x -> U x) -> (forall x, W x -> F x = eval x (Pol p)) -> along W F (repeat j r) (dpoly r).
Proof.
  intros HW HF. induction r as [|r IH]; cbn [repeat along]; [intros x Hx; rewrite dpoly_0; symmetry; apply HF, Hx|]. exists (dpoly r). split; [exact IH|]. intros x Hx. apply dpoly_pd, HW, Hx.
Qed.
End Poly.
Lemma along_split U F q p G : along U F (q ++ p) G -> exists H, along U F p H /\ along U H q G.
Proof.
  revert G. induction q as [|i q IH]; intros G H; [exists G; split; [exact H|intros x _; reflexivity]|]. destruct H as (K & K1 & K2). destruct (IH K K1) as (H & H1 & H2). exists H. split; [exact H1|]. exists K. auto.
Qed.
Lemma along_zero U H q : opens U -> (forall x, U x -> H x = 0) -> forall G, along U H q G -> forall x, U x -> G x = 0.
Proof.
  intros O Z. induction q as [|i q IH]; intros G A x Hx; [rewrite A by exact Hx; apply Z, Hx|]. destruct A as (K & K1 & K2). apply (pd_unique i K x); [apply K2, Hx|]. apply (pd_ext U i (fun _ => 0)); [exact O|exact Hx| |apply pd_const]. intros y Hy. symmetry. apply (IH K K1 y Hy).
Qed.
Lemma count_split (j : nat) p k : (k <= count_occ Nat.eq_dec p j)%nat -> exists q, Permutation p (q ++ repeat j k).
Proof.
  revert k. induction p as [|i p IH]; intros k H; cbn [count_occ] in H.
  - assert (k = 0)%nat by lia. subst k. exists []. constructor.
  - destruct (Nat.eq_dec i j) as [->|N].
    + destruct k as [|k]; [exists (j :: p); cbn; rewrite app_nil_r; apply Permutation_refl|]. destruct (IH k ltac:(lia)) as (q & P). exists q. cbn [repeat]. rewrite P. apply Permutation_middle.
    + destruct (IH k H) as (q & P). exists (i :: q). cbn. constructor. exact P.
Qed.
Lemma fmax_ge r : forall a, (a <= fold_left Z.max r a)%Z.
Proof. induction r as [|b r IH]; intros a; cbn [fold_left]; [apply Z.le_refl|]. specialize (IH (Z.max a b)). lia. Qed.
Lemma fmax_in r : forall a z, In z r -> (z <= fold_left Z.max r a)%Z.
Proof. induction r as [|b r IH]; intros a z I; [destruct I|]. cbn [fold_left]. destruct I as [->|I]; [pose proof (fmax_ge r (Z.max a z)); lia|apply IH, I]. Qed.
Lemma zmax_ge l z : In z l -> (z <= zmax l)%Z.
Proof. unfold zmax. destruct l as [|a r]; [intros []|]. intros [->|I]; [apply fmax_ge|apply fmax_in, I]. Qed.
Lemma maxdegrees_spec indices nv rows j d : nth j (get_maxdegrees indices nv rows) None = Some d -> (j < nv)%nat /\ forall k, In k rows -> (0 <= getk j k <= d)%Z.
Proof.
  intros H. destruct (Nat.lt_ge_cases j nv) as [L|L]; [|rewrite nth_overflow in H by (unfold get_maxdegrees; rewrite map_length, seq_length; exact L); discriminate]. split; [exact L|].
  unfold get_maxdegrees in H. set (f := fun j => _) in H. rewrite (nth_indep _ None (f nv)) in H by (rewrite map_length, seq_length; exact L). rewrite map_nth, seq_nth in H by exact L. unfold f in H. cbn [Nat.add] in H.
  destruct (existsb (Nat.eqb j) indices && negb (existsb (fun z => Z.ltb z 0) (column j rows))) eqn:E; [|discriminate]. injection H as <-. apply andb_prop in E as [_ E]. apply negb_true_iff in E. intros k K.
  assert (C : In (getk j k) (column j rows)) by (apply in_map_iff; exists k; auto). split; [|apply zmax_ge, C].
  destruct (Z_lt_le_dec (getk j k) 0) as [N|N]; [|exact N]. rewrite <- not_true_iff_false in E. exfalso. apply E, existsb_exists. exists (getk j k). split; [exact C|apply Z.ltb_lt, N].
Qed.
(** C71: derivatives that [MaxDegreeFunction.get_maxdegrees] declares to be zero are zero *)
Theorem C71_maxdegrees : forall nv indices p W m G j d, Forall (fun t => is_num (fst t) = true /\ length (snd t) = nv) p ->
  opens W -> (forall x, W x -> dom x (Pol p)) ->
  nth j (get_maxdegrees indices nv (map snd p)) None = Some d -> (d < nth j m 0)%Z ->
  mixed nv W (fun x => eval x (Pol p)) m G -> forall x, W x -> G x = 0.
Proof.
  intros nv indices p W m G j d Hp OW HW HM Hd (Lm & q & Hq & Cq & A) x Hx. destruct (maxdegrees_spec _ _ _ _ _ HM) as [Hj HB].
  destruct p as [|t0 p0]. { apply (along_zero W (fun x => eval x (Pol [])) q OW) with (G := G); [reflexivity|exact A|exact Hx]. }
  assert (Hd0 : (0 <= d)%Z) by (specialize (HB (snd t0) ltac:(cbn; auto)); lia). set (p := t0 :: p0) in *. clearbody p. clear t0 p0.
  assert (Hp' : Forall (fun t => is_num (fst t) = true /\ length (snd t) = nv /\ (0 <= getk j (snd t) <= Z.of_nat (Z.to_nat d))%Z) p).
  { rewrite Forall_forall in Hp |- *. intros t T. destruct (Hp t T) as [X Y]. split; [exact X|]. split; [exact Y|]. rewrite Z2Nat.id by exact Hd0. apply HB, in_map, T. }
  destruct (count_split j q (S (Z.to_nat d))) as (r & P). { specialize (Cq j). unfold getk in Cq. lia. }
  assert (SM : smooth W (fun x => eval x (Pol p))) by (apply (smooth_sub (fun x => dom x (Pol p))); [exact HW|apply all_good]).
  pose proof (along_perm W _ OW SM q _ P G A) as A'. destruct (along_split W _ r _ G A') as (H & A1 & A2).
  apply (along_zero W H r OW) with (G := G); [|exact A2|exact Hx]. intros y Hy.
  assert (AR : along W (fun x => eval x (Pol p)) (repeat j (S (Z.to_nat d))) (dpoly j p (S (Z.to_nat d)))) by (eapply along_repeat; try eassumption; reflexivity).
  rewrite (along_fun W (fun x => eval x (Pol p)) OW _ H _ A1 AR y Hy). eapply dpoly_end; eassumption.
Qed.
Print Assumptions C71_maxdegrees.
Lemma family_mixed nv W g : derivative_family nv nv W g -> forall k m, (sumz m <= Z.of_nat k)%Z -> length m = nv -> nonneg m -> mixed nv W (g (zeros nv)) m (g m).
Proof.
  intros Fam. induction k as [|k IH]; intros m Hs Lm Nm; destruct (sum_zero m Nm) as [P Z].
  - assert (m = zeros nv) by (rewrite <- Lm; apply Z; lia). subst m. apply mixed_zero.
  - destruct (Z.eq_dec (sumz m) 0) as [E|N]; [assert (m = zeros nv) by (rewrite <- Lm; apply Z; lia); subst m; apply mixed_zero|].
    assert (EX : exists j m0, bump j m0 = Some m /\ nonneg m0).
    { clear -Nm N. induction m as [|z m IHm]; [exfalso; apply N; reflexivity|]. inversion Nm; subst. destruct (Z.eq_dec z 0) as [->|Hz].
      - destruct (IHm H2) as (j & m0 & B & N0); [unfold sumz in *; cbn in N; exact N|]. exists (S j), (0%Z :: m0). cbn [bump]. rewrite B. split; [reflexivity|constructor; [lia|exact N0]].
      - exists 0%nat, ((z - 1)%Z :: m). cbn [bump]. split; [repeat f_equal; lia|constructor; [lia|assumption]]. }
    destruct EX as (j & m0 & B & N0). destruct (bump_spec _ _ _ B) as (L1 & L2 & E2 & S2). pose proof (IH m0 ltac:(lia) ltac:(lia) N0) as M0. rewrite E2 at 1. apply (mixed_step W (g (zeros nv)) nv j m0 (g m0) (g m)); [lia|exact M0|]. apply (proj2 (Fam m0 ltac:(lia))); [lia|exact B].
Qed.
(** ... in the form needed by [C09_chain_rule]: a MaxDegreeFunction that stands for this polynomial of all variables *)
Theorem C71_polynomial_function : forall nv indices p W g, Forall (fun t => is_num (fst t) = true /\ length (snd t) = nv) p ->
  opens W -> (forall x, W x -> dom x (Pol p)) -> derivative_family nv nv W g -> (forall x, W x -> g (zeros nv) x = eval x (Pol p)) ->
  vanishing_beyond nv W (get_maxdegrees indices nv (map snd p)) g.
Proof.
  intros nv indices p W g Hp OW HW Fam G0 j d m Lm Nm HM Hd y Hy.
  pose proof (family_mixed nv W g Fam (Z.to_nat (sumz m)) m ltac:(pose proof (proj1 (sum_zero m Nm)); lia) Lm Nm) as MX.
  apply (C71_maxdegrees nv indices p W m (g m) j d Hp OW HW HM Hd); [|exact Hy].
  destruct MX as (_ & q & Hq & Cq & A). split; [exact Lm|]. exists q. split; [exact Hq|]. split; [exact Cq|]. clear -A G0. revert A. generalize (g m). induction q as [|i q IH]; intros G A; cbn [along] in *; [intros x Hx; rewrite A, G0 by exact Hx; reflexivity|].
  destruct A as (H & A1 & A2). exists H. split; [apply IH, A1|exact A2].
Qed.
Print Assumptions C71_polynomial_function.

(** C09: derivatives exist: [derive] does not fail *)
Theorem C09_derive_succeeds : forall nv zero_test args maxdegrees h o i f, sound zero_test -> (length args <= nv)%nat -> (i < nv)%nat ->
  reachable nv zero_test args maxdegrees h -> nth_error (h_objs h) o = Some f -> Forall (wf nv) (f_args f) ->
  exists s h', exists n0, forall n, (n0 <= n)%nat -> f_derive nv zero_test n o i h = Some (s, h').
Proof.
  intros nv z args mx h o i f S Hna Hi R O Wa. destruct (reachable_inv nv z args mx h R) as [I _]. destruct (i_obj _ _ _ I o f O) as [(Lm & _ & _) La].
  unfold f_derive. rewrite O. destruct (cached i (f_cache f)) as [s|]; [exists s, h, 0%nat; reflexivity|].
  assert (K : forall r j h, Forall (wf nv) r -> (j + length r <= nv)%nat -> exists s h', exists n0, forall n, (n0 <= n)%nat -> derive_args nv z n i f j r h = Some (s, h')).
  { clear h R O I. induction r as [|a r IH]; intros j h Wr Hj; [exists [], h, 0%nat; reflexivity|]. inversion Wr; subst. cbn [length] in Hj. cbn [derive_args].
    destruct (exhausted f j); [apply IH; [assumption|lia]|]. destruct (C06_derive (length (f_multi f)) z i a S Hi H1) as (d & (n1 & Ed) & _).
    destruct (zero_poly d) eqn:V.
    - destruct (IH (Datatypes.S j) h H2 ltac:(lia)) as (s & h' & n2 & E2). exists s, h', (Nat.max n1 n2). intros n Hn. rewrite (Ed n ltac:(lia)), V. apply E2. lia.
    - destruct (bump_some j (f_multi f) ltac:(lia)) as (m & B).
      destruct (IH (Datatypes.S j) (mkHeap (h_objs h ++ [mkFunc (f_args f) m (lower j (f_max f)) []]) (dset m (j, f_multi f) (h_tracks h))) H2 ltac:(lia)) as (s & h' & n2 & E2).
      exists ((d, length (h_objs h)) :: s), h', (Nat.max n1 n2). intros n Hn. rewrite (Ed n ltac:(lia)), V, B, (E2 n ltac:(lia)). reflexivity. }
  destruct (K (f_args f) 0%nat h Wa ltac:(lia)) as (s & h' & n0 & E). do 2 eexists. exists n0. intros n Hn. rewrite (E n Hn). reflexivity.
Qed.
Print Assumptions C09_derive_succeeds.

(** ** examples *)
Definition fx : expr := Pol [(Num 1, [1; 0]%Z)].
Definition fy : expr := Pol [(Num 1, [0; 1]%Z)].
Definition fg : list Z -> point -> R := fun _ y => exp (y 0%nat + y 1%nat).
Lemma req10 {A} (r : R) (a b : A) : r <> 0 -> (if Req_EM_T r 0 then a else b) = b.
Proof. intros H. destruct (Req_EM_T r 0); [contradiction|reflexivity]. Qed.
Lemma req00 {A} (a b : A) : (if Req_EM_T 0 0 then a else b) = a.
Proof. destruct (Req_EM_T 0 0); [reflexivity|contradiction]. Qed.
(** f(x,y) derived by x, and the result by y: the dictionary of the documentation *)
Example C09_ex : exists h, reachable 2 (fun _ => false) [fx; fy] [] h /\
  h_tracks h = [([1; 0]%Z, (0%nat, [0; 0]%Z)); ([1; 1]%Z, (1%nat, [1; 0]%Z))] /\ sound (fun _ => false) /\ Forall (wf 2) [fx; fy] /\ wf 2 ex1 /\
  opens (fun _ => True) /\ derivative_family 2 2 (fun _ => True) fg /\ vanishing_beyond 2 (fun _ => True) [] fg.
Proof.
  set (zt := fun _ : expr => false).
  assert (N1 : 1 * IZR 1 <> 0) by lra.
  set (one := Pol [(Num (1 * IZR 1), [0; 0]%Z)]).
  set (h1 := mkHeap [mkFunc [fx; fy] [0; 0]%Z [] [(0%nat, [(one, 1%nat)])]; mkFunc [fx; fy] [1; 0]%Z [] []] [([1; 0]%Z, (0%nat, [0; 0]%Z))]).
  set (h2 := mkHeap [mkFunc [fx; fy] [0; 0]%Z [] [(0%nat, [(one, 1%nat)])]; mkFunc [fx; fy] [1; 0]%Z [] [(1%nat, [(one, 2%nat)])]; mkFunc [fx; fy] [1; 1]%Z [] []] [([1; 0]%Z, (0%nat, [0; 0]%Z)); ([1; 1]%Z, (1%nat, [1; 0]%Z))]).
  assert (DX0 : derive 2 zt 0 1 fx = Some one) by reflexivity. assert (DY0 : derive 2 zt 0 1 fy = Some (cst 2 0)) by reflexivity.
  assert (DX1 : derive 2 zt 1 1 fx = Some (cst 2 0)) by reflexivity. assert (DY1 : derive 2 zt 1 1 fy = Some one) by reflexivity.
  assert (Z1 : zero_poly one = false). { unfold zero_poly, one, all_coeffs. cbn [forallb fst is_const]. rewrite req10 by exact N1. reflexivity. }
  assert (Z0 : zero_poly (cst 2 0) = true). { unfold zero_poly, cst, all_coeffs. cbn [forallb fst is_const]. rewrite req00. reflexivity. }
  assert (E1 : f_derive 2 zt 1 0 0 (fresh 2 [fx; fy] []) = Some ([(one, 1%nat)], h1)).
  { unfold f_derive. cbn [fresh h_objs h_tracks nth_error f_cache cached f_args derive_args exhausted f_max nth]. unfold exhausted. cbn [f_max nth]. rewrite DX0, Z1. cbn [f_multi]. cbn [zeros repeat bump]. rewrite DY0, Z0. reflexivity. }
  assert (E2 : f_derive 2 zt 1 1 1 h1 = Some ([(one, 2%nat)], h2)).
  { unfold f_derive. cbn [h1 h_objs h_tracks nth_error f_cache cached f_args derive_args f_max nth]. unfold exhausted. cbn [f_max nth]. rewrite DX1, Z0. rewrite DY1, Z1. cbn [f_multi bump]. reflexivity. }
  exists h2. split; [|split; [reflexivity|]].
  { apply (r_derive 2 zt [fx; fy] [] 1 1 1 [(one, 2%nat)] h1 h2); [|lia|exact E2]. apply (r_derive 2 zt [fx; fy] [] 1 0 0 [(one, 1%nat)] (fresh 2 [fx; fy] []) h1); [apply r_init|lia|exact E1]. }
  split; [exact sound_no|]. split.
  { repeat constructor; cbn; try discriminate; auto. }
  split; [apply ex_wf|]. split; [exact opens_true|]. split.
  - intros m _. unfold fg. split.
    + apply (cont_comp (fun _ => True) exp (fun y => y 0%nat + y 1%nat)); [intros x _; apply derivable_continuous_pt, derivable_pt_exp|]. apply cont_plus; apply cont_coord.
    + intros j m' Hj _ y _. assert (PD : pd j (fun y => y 0%nat + y 1%nat) y 1).
      { destruct j as [|[|j]]; [| |lia].
        - replace 1 with (1 + 0) by ring. apply pd_plus; [apply pd_coord|apply pd_coord_other; lia].
        - replace 1 with (0 + 1) by ring. apply pd_plus; [apply pd_coord_other; lia|apply pd_coord]. }
      pose proof (pd_comp j exp _ y 1 _ PD (derivable_pt_lim_exp (y 0%nat + y 1%nat))) as Q. rewrite Rmult_1_r in Q. exact Q.
  - intros j d m _ _ H. destruct j; discriminate.
Qed.
Example C71_ex : get_maxdegrees [0; 1]%nat 3 [[1; 0; 5]; [2; -1; 3]]%Z = [Some 2%Z; None; None] /\
  let p := [(Num 3, [1; 0]%Z); (Num 1, [2; 0]%Z)] in Forall (fun t => is_num (fst t) = true /\ length (snd t) = 2%nat) p /\ opens (fun _ => True) /\ (forall x, dom x (Pol p)) /\ nth 0 (get_maxdegrees [0; 1]%nat 2 (map snd p)) None = Some 2%Z.
Proof.
  split; [reflexivity|]. intros p. split; [repeat constructor|]. split; [exact opens_true|]. split; [|reflexivity]. intros x. cbn. repeat split; left; lia.
Qed.

(** With more arguments than variables [derive] raises an IndexError, since the multi-index has one entry per variable:
    f(x, x^2) cannot be derived. *)
Definition gx1 : expr := Pol [(Num 1, [1]%Z)].
Definition gx2 : expr := Pol [(Num 1, [2]%Z)].
Theorem C09_more_arguments_refuted : Forall (wf 1) [gx1; gx2] /\ forall zero_test n, f_derive 1 zero_test n 0 0 (fresh 1 [gx1; gx2] []) = None.
Proof.
  split; [repeat constructor; cbn; try discriminate; auto|]. intros zt [|n]; [reflexivity|].
  unfold f_derive. cbn [fresh h_objs h_tracks nth_error f_cache cached f_args derive_args]. unfold exhausted. cbn [f_max nth].
  assert (D1 : derive 1 zt 0 (S n) gx1 = Some (Pol [(Num (1 * IZR 1), [0]%Z)])) by reflexivity. assert (D2 : derive 1 zt 0 (S n) gx2 = Some (Pol [(Num (1 * IZR 2), [1]%Z)])) by reflexivity.
  rewrite D1, D2. unfold zero_poly, all_coeffs. cbn [forallb fst is_const f_multi]. rewrite !req10 by lra. reflexivity.
Qed.
Print Assumptions C09_more_arguments_refuted.

(** With coefficients that depend on the variables the degrees are wrong: e^x as the coefficient of 1 *)
Theorem C71_nested_refuted : let p := [(Exp gx1, [0]%Z)] in
  wf 1 (Pol p) /\ nth 0 (get_maxdegrees [0]%nat 1 (map snd p)) None = Some 0%Z /\
  mixed 1 (fun _ => True) (fun x => eval x (Pol p)) [1]%Z (fun x => exp (x 0%nat)) /\ forall x : point, exp (x 0%nat) <> 0.
Proof.
  intros p. split; [cbn; unfold terms_ok; cbn; repeat (split; try discriminate; auto); right; repeat (split; try discriminate; auto)|]. split; [reflexivity|]. split; [|intros x; pose proof (exp_pos (x 0%nat)); lra].
  assert (EV : forall x, eval x (Pol p) = exp (x 0%nat)).
  { intros x. cbn [eval p gx1 map mono powerRZ]. unfold sumR. cbn [fold_right]. rewrite pow_1. match goal with |- exp ?a * _ + _ = _ => replace a with (x 0%nat) by ring end. ring. }
  split; [reflexivity|]. exists [0%nat]. split; [constructor; [lia|constructor]|]. split; [intros [|[|k]]; reflexivity|]. exists (fun x => exp (x 0%nat)). split; [intros x _; symmetry; apply EV|]. intros x _.
  pose proof (pd_comp 0 exp (fun y => y 0%nat) x 1 _ (pd_coord 0 x) (derivable_pt_lim_exp (x 0%nat))) as Q. rewrite Rmult_1_r in Q. exact Q.
Qed.
Print Assumptions C71_nested_refuted.
