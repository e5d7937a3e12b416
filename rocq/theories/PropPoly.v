(** Properties C01-C05: polynomials with numeric coefficients. *)
From Coq Require Import QArith Qcanon Reals Lra.
From Verif Require Import RealField PolyReal PolyProofs.
Local Open Scope fld_scope.

(* concrete rational polynomials used in the non-vacuity examples *)
Definition qz (z : Z) : Qc_Fld := Q2Qc (inject_Z z).
(** 2 x y^-1 - 3 y  and  3 y + x *)
Definition ex_p : poly Qc_Fld := mkPoly 2 [([1; -1]%Z, qz 2); ([0; 1]%Z, qz (-3))].
Definition ex_q : poly Qc_Fld := mkPoly 2 [([0; 1]%Z, qz 3); ([1; 0]%Z, qz 1)].
Definition ex_x : list Qc_Fld := [qz 5; qz 7].

(** C01 *)
Theorem C01_add_sub : forall (F : Fld) (sub : bool) (p q : poly F),
  (pnv p <> pnv q -> psub_or_add sub p q = None) /\
  (pnv p = pnv q -> exists r, psub_or_add sub p q = Some r /\ pnv r = pnv p /\
     forall x, peval r x = if sub then peval p x - peval q x else peval p x + peval q x).
Proof.
  intros F sub p q. split; intros H.
  - unfold psub_or_add. apply Nat.eqb_neq in H. rewrite H. reflexivity.
  - unfold psub_or_add. apply Nat.eqb_eq in H. rewrite H. eexists. split; [reflexivity|].
    split; [rewrite psimplify_nv; reflexivity|]. intros x. eapply padd_eval. unfold psub_or_add. rewrite H. reflexivity.
Qed.
Print Assumptions C01_add_sub.
Example C01_add_sub_ex : exists r, psub_or_add true ex_p ex_q = Some r /\ peval r ex_x = peval ex_p ex_x - peval ex_q ex_x.
Proof. eexists. split; [reflexivity|]. vm_compute. reflexivity. Qed.

Theorem C01_add_sub_number : forall (F : Fld) (sub : bool) (p : poly F) (c : F) x,
  peval (psub_or_add_num sub p c) x = if sub then peval p x - c else peval p x + c.
Proof. exact padd_num_eval. Qed.
Print Assumptions C01_add_sub_number.

Theorem C01_mul : forall (F : Fld) (p q : poly F),
  (pnv p <> pnv q -> pmul p q = None) /\
  (pnv p = pnv q -> exists r, pmul p q = Some r /\ pnv r = pnv p /\
     forall x, pdef p x -> pdef q x -> pdef r x /\ peval r x = peval p x * peval q x).
Proof.
  intros F p q. split; intros H.
  - unfold pmul. apply Nat.eqb_neq in H. rewrite H. reflexivity.
  - destruct (pmul_total F p q H) as [r E]. exists r. split; [exact E|]. split; [eapply pmul_nv; exact E|].
    intros x Hp Hq. split; [eapply pmul_def|eapply pmul_eval]; eauto.
Qed.
Print Assumptions C01_mul.
Example C01_mul_ex : pdef ex_p ex_x /\ pdef ex_q ex_x /\
  exists r, pmul ex_p ex_q = Some r /\ length (ptm r) = 4%nat /\ peval r ex_x = peval ex_p ex_x * peval ex_q ex_x.
Proof.
  assert (N5 : qz 5 <> 0) by (intros H; vm_compute in H; discriminate).
  assert (N7 : qz 7 <> 0) by (intros H; vm_compute in H; discriminate).
  assert (Hok : forall e : list Z, length e = 2%nat -> Forall2 (@pow_ok Qc_Fld) ex_x e).
  { intros [|a [|b [|? ?]]] H; try discriminate. unfold ex_x. repeat constructor; assumption. }
  split; [|split].
  - split; [reflexivity|]. constructor; [apply Hok; reflexivity|constructor; [apply Hok; reflexivity|constructor]].
  - split; [reflexivity|]. constructor; [apply Hok; reflexivity|constructor; [apply Hok; reflexivity|constructor]].
  - eexists. split; [reflexivity|]. split; vm_compute; reflexivity.
Qed.

Theorem C01_neg : forall (F : Fld) (p : poly F) x, peval (pneg p) x = - peval p x.
Proof. exact pneg_eval. Qed.
Print Assumptions C01_neg.

Theorem C01_mul_number : forall (F : Fld) (p : poly F) (c : F) x, peval (pmul_num p c) x = peval p x * c.
Proof. exact pmul_num_eval. Qed.
Print Assumptions C01_mul_number.

Theorem C01_pow : forall (F : Fld) (p : poly F) x n, pdef p x ->
  exists r, ppow p n = Some r /\ peval r x = npow (peval p x) (N.to_nat n).
Proof. exact ppow_eval. Qed.
Print Assumptions C01_pow.
Example C01_pow_ex : exists r, ppow ex_p 5 = Some r /\ length (ptm r) = 6%nat /\ peval r ex_x = npow (peval ex_p ex_x) 5.
Proof. eexists. split; [reflexivity|]. split; vm_compute; reflexivity. Qed.

(** C02 *)
Theorem C02_simplify_value : forall (F : Fld) (p : poly F),
  pnv (psimplify p) = pnv p /\ (forall x, peval (psimplify p) x = peval p x) /\
  (forall e, coeff_at (psimplify p) e = coeff_at p e) /\ (pwf p -> pwf (psimplify p)).
Proof.
  intros F p. split; [apply psimplify_nv|]. split; [apply psimplify_eval|]. split; [apply psimplify_coeff|apply psimplify_wf].
Qed.
Print Assumptions C02_simplify_value.

Theorem C02_simplify_normal_form : forall (F : Fld) (p : poly F), pnormal (psimplify p).
Proof. exact psimplify_normal. Qed.
Print Assumptions C02_simplify_normal_form.

Theorem C02_simplify_canonical : forall (F : Fld) (p q : poly F),
  pnv p = pnv q -> (forall e, coeff_at p e = coeff_at q e) -> psimplify p = psimplify q.
Proof. exact psimplify_canonical. Qed.
Print Assumptions C02_simplify_canonical.

Theorem C02_simplify_idempotent : forall (F : Fld) (p : poly F), psimplify (psimplify p) = psimplify p.
Proof. exact psimplify_idem. Qed.
Print Assumptions C02_simplify_idempotent.

(* two different representations of 2x + 0 + y - y, simplified to the same single term *)
Example C02_ex :
  let p := mkPoly (F:=Qc_Fld) 2 [([0;1]%Z, qz 1); ([1;0]%Z, qz 2); ([0;0]%Z, qz 0); ([0;1]%Z, qz (-1))] in
  let q := mkPoly (F:=Qc_Fld) 2 [([1;0]%Z, qz 3); ([1;0]%Z, qz (-1))] in
  map fst (ptm (psimplify p)) = [[1;0]%Z] /\ map fst (ptm (psimplify q)) = [[1;0]%Z]
  /\ map (fun t => feqb (snd t) (qz 2)) (ptm (psimplify p)) = [true].
Proof. vm_compute. repeat split. Qed.

(** C03 *)
Theorem C03_derive : forall (p : PolyModel.poly R_Fld) i (x : list R),
  pwf p -> pdef p x -> (i < pnv p)%nat ->
  derivable_pt_lim (fun t => peval p (set_coord (F:=R_Fld) i t x)) (nth i x 0%R) (peval (pderive p i) x).
Proof. exact pderive_correct. Qed.
Print Assumptions C03_derive.

Theorem C03_derive_independent : forall (F : Fld) (p : poly F) i,
  Forall (fun t => getZ i (fst t) = 0%Z) (ptm p) -> pderive p i = pconst (pnv p) 0.
Proof.
  intros F p i H. unfold pderive. 
  assert (E : filter (fun t : term F => negb (Z.eqb (getZ i (fst t)) 0)) (ptm p) = []).
  { induction H as [|t ts Ht _ IH]; [reflexivity|]. cbn [filter]. rewrite Ht. exact IH. }
  rewrite E. reflexivity.
Qed.
Print Assumptions C03_derive_independent.
(* x^-2 y + 4 x at (2,3) meets the hypotheses of C03_derive *)
Example C03_ex : let p := mkPoly (F:=R_Fld) 2 [([-2;1]%Z, 1%R); ([1;0]%Z, 4%R)] in
  pwf p /\ pdef p [2%R; 3%R] /\ (0 < pnv p)%nat.
Proof.
  assert (N2 : 2%R <> 0%R) by lra. assert (N3 : 3%R <> 0%R) by lra.
  cbv zeta. repeat split; cbn; repeat constructor; assumption.
Qed.

(** C04 (numeric coefficients; nested coefficients are treated in PropExpr.v) *)
Theorem C04_replace : forall (F : Fld) (p : poly F) i v x,
  pwf p -> length x = pnv p -> (i < pnv p)%nat -> replace_ok p i v ->
  peval (preplace p i v false) x = peval p (set_coord i v x)
  /\ peval (preplace p i v true) (delete_nth i x) = peval p (set_coord i v x)
  /\ pnv (preplace p i v true) = (pnv p - 1)%nat /\ pwf (preplace p i v true)
  /\ (forall w, peval (preplace p i v false) (set_coord i w x) = peval (preplace p i v false) x).
Proof.
  intros F p i v x Hw HL Hi Hok.
  split; [apply preplace_eval; assumption|]. split; [apply preplace_remove_eval; assumption|].
  split; [reflexivity|]. split; [apply preplace_remove_wf; assumption|].
  intros w. apply preplace_indep; assumption.
Qed.
Print Assumptions C04_replace.
Example C04_ex : pwf ex_p /\ length ex_x = pnv ex_p /\ (0 < pnv ex_p)%nat /\ replace_ok ex_p 0 (qz 0) /\
  peval (preplace ex_p 0 (qz 0) true) [qz 7] = qz (-21).
Proof.
  split; [repeat constructor|]. split; [reflexivity|]. split; [repeat constructor|]. split; [|vm_compute; reflexivity].
  constructor; [right; vm_compute; discriminate|]. constructor; [right; vm_compute; discriminate|]. constructor.
Qed.

(** C05 *)
Theorem C05_refactorize_value : forall (F : Fld) (m p : poly F) params x,
  pwf m -> pwf p -> pnv m = pnv p -> length x = pnv p -> ptm p <> [] ->
  Forall (fun i => (i < pnv p)%nat) params -> Forall (fun v => v <> 0) x ->
  let r := refactorize (m, p) params in peval (fst r) x * peval (snd r) x = peval m x * peval p x.
Proof.
  intros F m p params x Hm Hp Hn HL Hne Hpar Hx. destruct params as [|i params].
  - apply refactorize_all_eval; assumption.
  - apply (refactorize_params_spec F (i :: params)); try assumption.
    eapply Forall_impl; [|exact Hpar]. intros j Hj. split; [exact Hj|].
    rewrite Forall_forall in Hx. apply Hx, nth_In. cbv beta in Hj. lia.
Qed.
Print Assumptions C05_refactorize_value.

Theorem C05_refactorize_minimal : forall (F : Fld) (m p : poly F) params,
  pwf p -> ptm p <> [] -> Forall (fun i => (i < pnv p)%nat) params ->
  forall j, (params = [] /\ (j < pnv p)%nat \/ In j params) -> col_min j (snd (refactorize (m, p) params)) = 0%Z.
Proof.
  intros F m p params Hp Hne Hpar j Hj. destruct params as [|i params].
  - destruct Hj as [[_ Hj]|[]]. apply refactorize_all_col_min; assumption.
  - destruct Hj as [[Hj _]|Hj]; [discriminate|].
    unfold refactorize. rewrite refactorize_params_col_min by assumption.
    replace (existsb (Nat.eqb j) (i :: params)) with true; [reflexivity|].
    symmetry. apply existsb_exists. exists j. split; [exact Hj|apply Nat.eqb_refl].
Qed.
Print Assumptions C05_refactorize_minimal.

(** [col_min] is the smallest exponent of the variable *)
Theorem C05_col_min_is_minimum : forall (F : Fld) (p : poly F) i, ptm p <> [] ->
  (exists t, In t (ptm p) /\ getZ i (fst t) = col_min i p) /\
  Forall (fun t => (col_min i p <= getZ i (fst t))%Z) (ptm p).
Proof. exact col_min_spec. Qed.
Print Assumptions C05_col_min_is_minimum.

Theorem C05_refactorize_other_parameters : forall (F : Fld) (m p : poly F) params j,
  pwf p -> pwf m -> pnv m = pnv p -> params <> [] -> Forall (fun i => (i < pnv p)%nat) params -> ~ In j params ->
  map (fun t => (getZ j (fst t), snd t)) (ptm (snd (refactorize (m, p) params))) = map (fun t => (getZ j (fst t), snd t)) (ptm p)
  /\ map (fun t => (getZ j (fst t), snd t)) (ptm (fst (refactorize (m, p) params))) = map (fun t => (getZ j (fst t), snd t)) (ptm m).
Proof.
  intros F m p params j Hp Hm Hn Hne Hpar Hj. destruct params as [|i params]; [congruence|].
  apply (refactorize_params_other F (i :: params)); assumption.
Qed.
Print Assumptions C05_refactorize_other_parameters.

Theorem C05_refactorize_idempotent : forall (F : Fld) (m p : poly F) params,
  pwf m -> pwf p -> pnv m = pnv p -> ptm p <> [] -> Forall (fun i => (i < pnv p)%nat) params ->
  refactorize (refactorize (m, p) params) params = refactorize (m, p) params.
Proof. exact refactorize_idem. Qed.
Print Assumptions C05_refactorize_idempotent.

(* x^2 y + x^3 -> x^2 * (y + x) *)
Example C05_ex : let p := mkPoly (F:=Qc_Fld) 2 [([2;1]%Z, qz 1); ([3;0]%Z, qz 1)] in
  map fst (ptm (fst (poly_refactorize p []))) = [[2;0]%Z] /\
  map fst (ptm (snd (poly_refactorize p []))) = [[0;1]%Z; [1;0]%Z].
Proof. vm_compute. split; reflexivity. Qed.
