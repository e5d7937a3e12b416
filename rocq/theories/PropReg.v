(** C35, C69: derivative of a product of powers, expansion in the smallness parameter, terms of one region. *)
From Coq Require Import Reals Lra Lia List ZArith QArith Qround Qreals.
From Coq Require Lqa.
From Verif Require Import PolyProofs RealField PolyReal ParamModel ParamSpec ParamProofs RegModel RegSpec RegCurve RegProofs RegDerive RegExpand RegTaylor RegRegion RegFinal.
Import ListNotations.
Local Open Scope nat_scope.

(** C35: the product with lowered exponents and the new numerator is the partial derivative; the bases are unchanged, all
    exponents drop by one, and the result is again an admissible input *)
Theorem C35_derive_prod : forall nv index names (pl : list repoly) (N : PolyModel.poly R_Fld),
  product_ok nv names (pl, N) -> index < nv -> ~ In index names ->
  let d := @derive_prod R_Fld pl N index names in
  is_partial index (positive_at nv pl) (product_value names (pl, N)) (product_value names d) /\
  map fst (fst d) = map fst pl /\ map snd (fst d) = map (fun Pa : repoly => (snd Pa - 1)%R) pl /\ product_ok nv names d.
Proof.
  intros nv index names pl N OK Hi Hn d. split; [|split; [|split]].
  - intros x HP. apply (derive_prod_correct nv); assumption.
  - unfold d, derive_prod. cbn [fst]. rewrite map_map. reflexivity.
  - unfold d, derive_prod. cbn [fst]. rewrite map_map. reflexivity.
  - apply derive_prod_ok; assumption.
Qed.
Print Assumptions C35_derive_prod.

(** variables x, U (name), t: U = x + t with power 1/2, numerator t + U *)
Definition ex_U : PolyModel.poly R_Fld := @mkPoly R_Fld 3 [([1;0;0]%Z, 1%R); ([0;0;1]%Z, 1%R)].
Definition ex_Num : PolyModel.poly R_Fld := @mkPoly R_Fld 3 [([0;0;1]%Z, 1%R); ([0;1;0]%Z, 1%R)].
Lemma ex_ok a : product_ok 3 [1] ([(ex_U, a)], ex_Num).
Proof.
  split; [reflexivity|]. split; [repeat constructor; intros []|]. split; [repeat constructor|]. split.
  - split; [reflexivity|]. split; repeat constructor; cbn; lia.
  - constructor; [|constructor]. split; [split; [reflexivity|]; split; repeat constructor; cbn; lia|]. unfold free_of. repeat constructor.
Qed.
Lemma ex_U_value x n t : @peval R_Fld ex_U [x; n; t]%R = (x + t)%R.
Proof. unfold peval, ex_U. cbn. change (Pos.to_nat 1) with 1%nat. cbn. rring. Qed.
Theorem C35_ex : product_ok 3 [1] ([(ex_U, (/ 2)%R)], ex_Num) /\ positive_at 3 [(ex_U, (/ 2)%R)] [1; 0; 1]%R /\
  product_value [1] ([(ex_U, (/ 2)%R)], ex_Num) [1; 0; 1]%R = (Rpower 2 (/ 2) * 3)%R.
Proof.
  split; [apply ex_ok|]. split; [split; [reflexivity|]; constructor; [cbn [fst]; rewrite ex_U_value; lra|constructor]|].
  unfold product_value, powers_value, fill. cbn [map fst snd fold_right length seq combine find Nat.eqb nth]. rewrite ex_U_value. replace (1 + 1)%R with 2%R by lra. rewrite Rmult_1_r. apply f_equal2; [reflexivity|].
  unfold peval, ex_Num. cbn. change (Pos.to_nat 1) with 1%nat. cbn. rring.
Qed.

(** C69: the terms are the Taylor coefficients in the smallness parameter (the last variable of the product), there is one
    per order 0, 1, .., floor(order), and they approximate the product up to the first order left out *)
Theorem C69_expand_region : forall n index names (pl : list repoly) (N : PolyModel.poly R_Fld) order,
  product_ok (S n) names (pl, N) -> index < S n -> ~ In index names ->
  (forall j k Pa, nth_error names j = Some k -> nth_error pl j = Some Pa -> snd Pa <> 0%R \/ free_of [k] N) ->
  let terms := @expand_region R_Fld pl N index order names in
  let names' := map (fun k => if Nat.ltb index k then k - 1 else k) names in
  length terms = Z.to_nat (Qfloor order + 1) /\
  (forall i t, nth_error terms i = Some t -> exists g,
     nth_partial i index (positive_at (S n) pl) (product_value names (pl, N)) g /\
     forall y, length y = n -> product_value names' t y = (/ INR (fact i) * g (insert_at index 0 y))%R) /\
  (forall y, length y = n -> positive_at (S n) pl (insert_at index 0%R y) -> exists M del, (0 < del)%R /\ forall t, (Rabs t <= del)%R ->
     (Rabs (product_value names (pl, N) (insert_at index t y) -
            fold_right Rplus 0 (map (fun it : nat * (list repoly * PolyModel.poly R_Fld) => t ^ fst it * product_value names' (snd it) y) (combine (seq 0 (length terms)) terms)))
      <= M * Rabs t ^ length terms)%R).
Proof.
  intros n index names pl N order OK Hi Hn Hz terms names'.
  assert (Hz' : forall m Pa, In (m, Pa) (combine names pl) -> snd Pa <> 0%R \/ free_of [m] N).
  { intros m Pa I. apply In_nth_error in I. destruct I as [j Ej]. 
    assert (Q : forall (a : list nat) (b : list repoly) j m Pa, nth_error (combine a b) j = Some (m, Pa) -> nth_error a j = Some m /\ nth_error b j = Some Pa).
    { induction a as [|x a IH]; intros [|z b] [|j'] m' Pa' E; cbn in E; try discriminate; [injection E as <- <-; split; reflexivity|exact (IH _ _ _ _ E)]. }
    destruct (Q _ _ _ _ _ Ej) as [A B]. exact (Hz j m Pa A B). }
  assert (NTH : forall i t, nth_error terms i = Some t -> forall y, length y = n -> product_value names' t y = (/ INR (fact i) * product_value names (deriv_iter index names i (pl, N)) (insert_at index 0 y))%R).
  { intros i t E y Ly. exact (expand_nth n index names (pl, N) order i t Hi Hn OK Hz' E y Ly). }
  split; [apply expand_length|]. split.
  - intros i t E. exists (product_value names (deriv_iter index names i (pl, N))). split; [exact (iter_partial n index names Hi Hn i (pl, N) OK)|]. exact (NTH i t E).
  - intros y Ly HP. destruct (remainder_bound n index names (pl, N) y Hi Hn OK Ly HP (length terms)) as (M & del & Hd & HB). exists M, del. split; [exact Hd|]. intros t Ht. destruct (HB t Ht) as [_ B].
    match goal with |- (Rabs (_ - ?S) <= _)%R => replace S with (tpoly (length terms) (fun i => product_value names (deriv_iter index names i (pl, N)) (insert_at index 0%R y)) t) end; [exact B|].
    unfold tpoly.
    assert (Q : forall l k, (forall i t', nth_error l i = Some t' -> product_value names' t' y = (/ INR (fact (k + i)) * product_value names (deriv_iter index names (k + i) (pl, N)) (insert_at index 0 y))%R) ->
      Rsum (map (fun i => (product_value names (deriv_iter index names i (pl, N)) (insert_at index 0 y) * (/ INR (fact i) * t ^ i))%R) (seq k (length l))) =
      fold_right Rplus 0%R (map (fun it : nat * (list repoly * PolyModel.poly R_Fld) => (t ^ fst it * product_value names' (snd it) y)%R) (combine (seq k (length l)) l))).
    { induction l as [|t' l IH]; intros k H; [reflexivity|]. cbn [length seq combine map fst snd fold_right]. rewrite Rsum_cons. rewrite (IH (S k)); [|intros i t2 E; rewrite (H (S i) t2 E); replace (k + S i) with (S k + i) by lia; reflexivity].
      f_equal. rewrite (H O t' eq_refl), Nat.add_0_r. ring. }
    apply (Q terms 0). intros i t' E. exact (NTH i t' E y Ly).
Qed.
Print Assumptions C69_expand_region.

Theorem C69_ex : forall a, a <> 0%R -> let names := [1] in
  product_ok 3 names ([(ex_U, a)], ex_Num) /\ (forall j k Pa, nth_error names j = Some k -> nth_error [(ex_U, a)] j = Some Pa -> snd Pa <> 0%R \/ free_of [k] ex_Num) /\
  positive_at 3 [(ex_U, a)] (insert_at 2 0%R [1; 1]%R) /\ length (@expand_region R_Fld [(ex_U, a)] ex_Num 2 (5 # 2) names) = 3.
Proof.
  intros a Ha names. split; [apply ex_ok|]. split.
  - intros [|[|j]] k Pa E1 E2; cbn in E1, E2; try discriminate. injection E2 as <-. left. exact Ha.
  - split; [split; [reflexivity|]; constructor; [cbn [fst insert_at firstn skipn app]; rewrite ex_U_value; lra|constructor]|]. rewrite expand_length. reflexivity.
Qed.

(** Deviation: with exponent 0 the term of order zero replaces the base by 1 although the numerator refers to it by name *)
Theorem C69_zero_exponent_refuted : exists (pl : list repoly) N y t, product_ok 3 [1] (pl, N) /\
  nth_error (@expand_region R_Fld pl N 2 0 [1]) 0 = Some t /\ length y = 2 /\ positive_at 3 pl (insert_at 2 0%R y) /\
  product_value [1] t y <> product_value [1] (pl, N) (insert_at 2 0%R y).
Proof.
  exists [(ex_U, 0%R)], ex_Num, [2; 1]%R. eexists. split; [apply ex_ok|]. split; [reflexivity|]. split; [reflexivity|]. split; [split; [reflexivity|]; constructor; [cbn [fst insert_at firstn skipn app]; rewrite ex_U_value; lra|constructor]|].
  assert (EZ : @ep_simplify R_Fld (@preplace R_Fld ex_U 2 0%R true, 0%R) = (@pconst R_Fld 2 1%R, 1%R)).
  { unfold ep_simplify. cbn [snd]. replace (@feqb R_Fld 0%R (@f0 R_Fld)) with true by (symmetry; apply (@feqb_spec R_Fld); reflexivity). reflexivity. }
  change (product_value [1] ([@ep_simplify R_Fld (@preplace R_Fld ex_U 2 0%R true, 0%R)], @psimplify R_Fld (@preplace R_Fld ex_Num 2 0%R true)) [2; 1]%R <> product_value [1] ([(ex_U, 0%R)], ex_Num) (insert_at 2 0%R [2; 1]%R)). rewrite EZ.
  assert (E1 : forall a b : R, @peval R_Fld (@pconst R_Fld 2 1%R) [a; b] = 1%R) by (intros a b; unfold peval; cbn; rring).
  assert (E2 : forall a b : R, @peval R_Fld (@psimplify R_Fld (@preplace R_Fld ex_Num 2 0%R true)) [a; b] = b).
  { intros a b. rewrite psimplify_eval. assert (F0 : @feqb R_Fld 0%R (@f0 R_Fld) = true) by (apply (@feqb_spec R_Fld); reflexivity). unfold peval, preplace, preplace_coeff, ex_Num. cbn [ptm map fst snd]. rewrite F0. cbn. change (Pos.to_nat 1) with 1%nat. cbn. rring. }
  assert (E3 : forall a b c : R, @peval R_Fld ex_Num [a; b; c] = (c + b)%R).
  { intros a b c. unfold peval, ex_Num. cbn. change (Pos.to_nat 1) with 1%nat. cbn. rring. }
  unfold product_value, powers_value, fill. cbn [map fst snd fold_right length insert_at firstn skipn app seq combine find Nat.eqb nth].
  rewrite E1, E2, E3, ex_U_value, Rpower_1, Rpower_O by lra. lra.
Qed.

(** C69: one region.  Variables: [length vu] integration variables and regulators, one name per polynomial, the smallness
    parameter; region vector [vu ++ 0 .. 0 ++ [vn]].  [ms], [mN]: lowest powers of the smallness parameter in the
    polynomials and in the numerator.  The i-th prefactor has exponent (lowest + i)/vn; no term beyond the requested order is
    generated; the sum of the terms reproduces the integrand with the measure, in the rescaled integration variables, up to
    a power of the smallness parameter that lies beyond the requested order (for vanishing regulators) *)
Theorem C69_region : forall vu vn (pl : list (PolyModel.poly R_Fld * power)) (N : PolyModel.poly R_Fld) ms mN (value : power -> R) (order : Q) u,
  let n0 := length vu in let m := length pl in let names := seq n0 m in
  let region := vu ++ repeat 0%Z m ++ [vn] in
  let measure := fold_right Z.add 0%Z vu in
  let lowest := (fold_right Rplus 0 (map (fun ma : Z * power => IZR (fst ma) * value (snd ma)) (combine ms (map snd pl))) + IZR mN + IZR measure)%R in
  let lowest0 := (fold_right Qplus 0 (map (fun ma : Z * power => inject_Z (fst ma) * at0 (snd ma)) (combine ms (map snd pl))) + inject_Z mN + inject_Z measure)%Q in
  (0 < vn)%Z ->
  Forall2 (fun Pa mj => is_min_weight region (fst Pa) mj) pl ms -> is_min_weight (vu ++ ms ++ [vn]) N mN ->
  Forall (fun Pa => proper (S (n0 + m)) (fst Pa) /\ free_of names (fst Pa)) pl -> proper (S (n0 + m)) N ->
  (forall j Pa, nth_error pl j = Some Pa -> value (snd Pa) <> 0%R \/ free_of [n0 + j] N) ->
  length u = n0 -> Forall (fun a => a <> 0%R) u -> Forall2 (fun Pa mj => (0 < leading n0 region mj (fst Pa) u)%R) pl ms ->
  let terms := @region_terms R_Fld value n0 region order pl N in
  let integrand s := product_value names (map (fun Pa : PolyModel.poly R_Fld * power => (fst Pa, value (snd Pa))) pl, N) (region_vars (rescaled vu vn u s) m s) in
  (forall i e t, nth_error terms i = Some (e, t) -> e = ((lowest + INR i) / IZR vn)%R) /\
  (forall i, i < length terms -> (lowest0 + inject_Z (Z.of_nat i) <= order * inject_Z vn)%Q) /\
  exists T, (order * inject_Z vn < lowest0 + inject_Z (Z.of_nat T))%Q /\
  exists M del, (0 < del)%R /\ forall s, (0 < s <= del)%R ->
    (Rabs (integrand s * Rpower s (IZR measure / IZR vn) -
           fold_right Rplus 0 (map (fun et => Rpower s (fst et) * product_value names (snd et) (u ++ repeat 1%R m)) terms))
     <= M * Rpower s ((lowest + INR T) / IZR vn))%R.
Proof.
  intros vu vn pl N ms mN value order u n0 m names region measure lowest lowest0 Hvn Hms HmN HPl HN Hz Lu NZ LEAD terms integrand. split; [|split].
  - intros i e t E. destruct (nth_terms vu vn pl N ms mN Hms HmN HPl HN value order i e t E) as [A _]. exact A.
  - intros i Hi. exact (terms_needed vu vn pl N ms mN Hms HmN HPl HN value order i Hi).
  - exists (first_missing vu vn pl ms mN order). split; [exact (missing_beyond vu vn pl ms mN order)|].
    exact (region_remainder vu vn pl N ms mN Hvn Hms HmN HPl HN value order Hz u Lu NZ LEAD).
Qed.
Print Assumptions C69_region.

(** x + s, power -1 - eps, hard region (0; 1) up to order 1: two terms *)
Theorem C69_region_ex : let P := ex_U in let pl := [(P, mkPower (-1) [(-1)%Q])] in let N := @pconst R_Fld 3 1%R in let region := [0; 0; 1]%Z in
  Forall2 (fun Pa mj => is_min_weight region (fst Pa) mj) pl [0%Z] /\ is_min_weight [0; 0; 1]%Z N 0 /\
  Forall (fun Pa => proper 3 (fst Pa) /\ free_of [1] (fst Pa)) pl /\ proper 3 N /\ (forall j Pa, nth_error pl j = Some Pa -> power_value [/ 10]%R (snd Pa) <> 0%R) /\
  Forall2 (fun Pa mj => (0 < leading 1 region mj (fst Pa) [2]%R)%R) pl [0%Z] /\ length (@region_terms R_Fld (power_value [/ 10]%R) 1 region 1 pl N) = 2.
Proof.
  intros P pl N region.
  assert (A1 : Forall2 (fun Pa mj => is_min_weight region (fst Pa) mj) pl [0%Z]).
  { constructor; [|constructor]. split; [exists ([1;0;0]%Z, 1%R); split; [left; reflexivity|reflexivity]|]. repeat constructor; cbn; lia. }
  assert (A2 : is_min_weight [0; 0; 1]%Z N 0).
  { split; [exists ([0;0;0]%Z, 1%R); split; [left; reflexivity|reflexivity]|]. repeat constructor; cbn; lia. }
  assert (A3 : Forall (fun Pa : PolyModel.poly R_Fld * power => proper 3 (fst Pa) /\ free_of [1] (fst Pa)) pl).
  { constructor; [|constructor]. split; [split; [reflexivity|]; split; repeat constructor; cbn; lia|]. unfold free_of. repeat constructor. }
  assert (A4 : proper 3 N) by (split; [reflexivity|]; split; repeat constructor; cbn; lia).
  split; [exact A1|]. split; [exact A2|]. split; [exact A3|]. split; [exact A4|]. split.
  - intros [|[|j]] Pa E; cbn in E; try discriminate. injection E as <-. unfold power_value. cbn [snd at0 regs map combine fold_right fst]. unfold Q2R. cbn. lra.
  - split; [apply Forall2_cons; [|apply Forall2_nil]; unfold leading, pl, P, ex_U; cbn; change (Pos.to_nat 1) with 1%nat; cbn; lra|].
    refine (eq_trans (terms_length [0%Z] 1 pl N [0%Z] 0 A1 A2 A3 A4 (power_value [/ 10]%R) 1) _).
    destruct (order_eq [0%Z] 1 pl N [0%Z] 0 A1 A2 A3 A4 1) as [E|(_ & _ & C)]; [rewrite E; reflexivity|vm_compute in C; discriminate].
Qed.
